(** When quantization fails, and with which error; any arithmetic. *)
From Verif Require Import Base BaseFacts Arith Order Pal World Attr Hist MedianCut Nearest Kmeans Blur ImageM Quant Remap
  AttrFacts SpecHist SpecImage ImageFacts HistFacts MedianFacts SearchFacts QuantFacts RemapFacts Api ApiFacts SpecProgress ProgressFacts ReuseFacts.
Open Scope nat_scope.

Section ErrorFacts.
Context {A : Arith}.
Variable u : unspec.
Hypothesis U : unspec_ok u.

(** * Which additions leave the table empty *)
Lemma bump_not_nil m k n c : hm_bump m k n c <> [].
Proof. destruct m as [|[k' [n' c']] m]; cbn; [discriminate|]. destruct (rgba_eqb _ _); discriminate. Qed.
Lemma insert_not_nil m k v : hm_insert m k v <> [].
Proof. destruct m as [|[k' v'] m]; cbn; [discriminate|]. destruct (rgba_eqb _ _); discriminate. Qed.
Lemma inserts_nil {T} (f : T -> rgba) (g : T -> Z * rgba) l : forall m,
  fold_left (fun m e => hm_insert m (f e) (g e)) l m = [] <-> m = [] /\ l = [].
Proof.
  induction l as [|e l IH]; intros m; cbn [fold_left]; [tauto|]. rewrite IH. split; [intros [H _]; destruct (insert_not_nil _ _ _ H)|intros [_ H]; discriminate].
Qed.
Lemma init_nil h b : hg_map (init_posterize_bits u h b) = [] <-> hg_map h = [].
Proof.
  unfold init_posterize_bits. destruct (_ <=? _)%Z; [tauto|]. cbn [hg_map with_map with_bits]. rewrite inserts_nil.
  pose proof (uo_map u U (hg_map h)) as P. split.
  - intros [_ H]. rewrite H in P. apply Permutation_sym, Permutation_nil in P || apply Permutation_nil in P. exact P.
  - intros H. split; auto. rewrite H in P. apply Permutation_nil in P || apply Permutation_sym, Permutation_nil in P. rewrite H. exact P.
Qed.
Lemma settle_nil h b : hg_map (settle u h b) = [] <-> hg_map h = [].
Proof.
  unfold settle. cbv zeta. destruct (_ && _)%bool; rewrite ?init_nil; tauto.
Qed.
Definition weightless (l : additions) : Prop := Forall (fun e => snd e = 0%Z) l.
Lemma add_all_nil l : forall h, hg_map (add_all h l) = [] <-> hg_map h = [] /\ weightless l.
Proof.
  unfold weightless. induction l as [|[c n] l IH]; intros h; cbn [add_all fold_left]; [split; [auto|tauto]|].
  unfold add_all in IH. rewrite IH. cbn [fst snd]. rewrite Forall_cons_iff. cbn [snd]. unfold add_color. destruct (Z.eqb_spec n 0).
  - tauto.
  - cbn [hg_map with_map]. split; [intros [H _]; destruct (bump_not_nil _ _ _ _ H)|tauto].
Qed.
Lemma fixed_nil (h : hist) l : hg_fixed (add_image_fixed h l) = [] <-> hg_fixed h = [] /\ l = [].
Proof.
  unfold add_image_fixed. cbn [hg_fixed with_fixed].
  assert (G : forall (e : list (nat * rgba)) s, fold_left (fun s ic => hs_insert s (snd ic, wrap8 (Z.of_nat (fst ic)))) e s = [] <-> s = [] /\ e = []).
  { induction e as [|x e IH]; intros s; cbn [fold_left]; [tauto|]. rewrite IH.
    assert (N : forall y, hs_insert s y <> []).
    { intros y. unfold hs_insert. destruct (existsb _ _) eqn:E; [destruct s; discriminate|]. destruct s; discriminate. }
    split; [intros [H _]; destruct (N _ H)|intros [_ H]; discriminate]. }
  rewrite G. split; intros [H1 H2]; split; auto; destruct l; auto; cbn in *; discriminate.
Qed.

(** The additions of an image weigh nothing. *)
Lemma image_weightless (wd : nat) pxs imp : 0 < length (concat pxs) -> (forall m, imp = Some m -> length m = length (concat pxs)) ->
  (weightless (image_additions wd pxs imp) <-> exists m, imp = Some m /\ Forall (fun v => v = 0%Z) m).
Proof.
  intros N L. unfold weightless, image_additions. split.
  - destruct imp as [m|]; intros F.
    + exists m. split; auto. specialize (L m eq_refl). clear N. revert m L F. induction (concat pxs) as [|c l IH]; intros [|v m] E F; try discriminate; auto.
      cbn in F. apply Forall_cons_iff in F as [F1 F2]. constructor; auto.
    + destruct (concat pxs) as [|c l]; [cbn in N; lia|]. cbn in F. apply Forall_cons_iff in F as [F1 _]. discriminate.
  - intros (m & -> & F). apply Forall_forall. intros [c v] Hin. apply in_combine_r in Hin. rewrite Forall_forall in F. exact (F v Hin).
Qed.

(** * Where a run stops *)
Variable cb : callback.
Variable a : attrs.
Hypothesis Ha : attrs_ok a.
(** The last call of those made since [b] asked to stop. *)
Definition stopped (b t : list f32) : Prop := exists p l, t = p :: l ++ b /\ cb (l ++ b) p = true.
Lemma stopped_broke b t : stopped b t -> broke cb b t.
Proof. intros (p & l & E & H). exists [], p, l. auto. Qed.
Lemma stopped_app b l t : stopped (l ++ b) t -> stopped b t.
Proof. intros (p & l1 & E & H). exists p, (l1 ++ l). rewrite <- app_assoc. auto. Qed.
Lemma colors_bound : 1 <= a_max_colors a <= 256.
Proof. destruct Ha. lia. Qed.
Lemma result_new_stop h fz g w : hint_ok h -> fst (result_new u cb a h fz g w) = Err Aborted ->
  stopped (w_trace w) (w_trace (snd (result_new u cb a h fz g w))).
Proof.
  intros Hh. destruct (result_new u cb a h fz g w) as [r w9] eqn:E9. revert E9. unfold result_new. unfold sbind at 1, progress at 1. destruct (cb (w_trace w) _) eqn:C1.
  { intros E9 _. inversion E9; subst. exists (fofZ (a_st1 a)), []. cbn. auto. }
  destruct (target_mse a _) as [[mm tm] pf].
  set (w0 := World (fofZ (a_st1 a) :: w_trace w) (w_tick w)).
  pose proof (find_best_palette_ok u U cb a tm pf mm h w0 colors_bound Hh) as R. unfold runs in R.
  destruct (find_best_tells u cb a Ha tm pf mm h w0) as (l & El & _).
  unfold sbind at 1.
  destruct (find_best_palette u cb a tm pf mm h w0) as [[[p err]|e|] w1]; [|contradiction..]. cbn [snd] in El.
  cbv zeta. unfold sbind, progress. match goal with |- context [if cb ?t ?q then _ else _] => destruct (cb t q) eqn:C end.
  - intros E9 _. inversion E9; subst. cbn [snd w_trace serr]. eexists _, (l ++ [fofZ (a_st1 a)]). rewrite <- app_assoc. cbn [app]. change (fofZ (a_st1 a) :: w_trace w) with (w_trace w0).
    rewrite <- El. split; [reflexivity|exact C].
  - destruct (match err with Some e => match mm with Some m => m <d e | None => false end | None => false end); [intros E9; inversion E9; discriminate|].
    unfold slift. match goal with |- context [sort_palette a ?x] => destruct (sort_palette_ok a x) as (p2 & E2 & _); rewrite E2 end. intros E9; inversion E9; discriminate.
Qed.
Lemma quantize_internal_stop fz h w : hist_wf h -> fst (quantize_internal u cb a fz (h, w)) = Err Aborted ->
  stopped (w_trace w) (w_trace (snd (snd (quantize_internal u cb a fz (h, w))))).
Proof.
  intros W. unfold quantize_internal.
  destruct (match hg_map h, hg_fixed h with [], [] => true | _, _ => false end) eqn:Em; [discriminate|].
  assert (NE : hg_map h <> [] \/ hg_fixed h <> []).
  { destruct (hg_map h); [|left; congruence]. destruct (hg_fixed h); [discriminate|right; congruence]. }
  unfold progress. destruct (cb (w_trace w) f0) eqn:C1; [intros _; exists f0, []; cbn; auto|]. cbn [w_trace].
  destruct (cb (f0 :: w_trace w) _) eqn:C2; [intros _; eexists _, [f0]; cbn; split; [reflexivity|exact C2]|].
  pose proof (QuantFacts.finalize_ok u U h (unwrap_or (hg_gamma h) (dlit 45455 100000)) W NE) as (HO & _). cbv zeta.
  destruct (finalize_builder u h _) as [hi h']. cbn [fst] in HO.
  match goal with |- context [result_new u cb a hi fz ?g ?w0] => pose proof (result_new_stop hi fz g w0 HO) as G; destruct (result_new u cb a hi fz g w0) as [r w3] end.
  cbn [fst snd w_trace] in *. intros E. apply (stopped_app (w_trace w) [fofZ (a_st1 a) *f flit 89 100; f0]). exact (G E).
Qed.

(** * Quantizing a histogram *)
Definition quantized_hist (h : hist) (w : world) (r : res qresult) (w' : world) : Prop :=
  match r with
  | Ok _ => ~ (hg_map h = [] /\ hg_fixed h = [])
  | Err e => (e = Aborted /\ broke cb (w_trace w) (w_trace w')) \/ (e = QualityTooLow /\ a_max_mse a <> None) \/
             (e = Unsupported /\ hg_map h = [] /\ hg_fixed h = [] /\ w' = w)
  | Panic => False
  end.
Lemma internal_errors fz h w r h' w' : hist_wf h -> quantize_internal u cb a fz (h, w) = (r, (h', w')) -> quantized_hist h w r w'.
Proof.
  intros W E. pose proof (quantize_internal_ok u U cb a fz h w colors_bound W) as R. unfold runs in R.
  pose proof (quantize_internal_stop fz h w W) as S. rewrite E in R, S. cbn [fst snd] in S. unfold quantized_hist.
  destruct r as [q|e|]; [| |exact R].
  - intros [N1 N2]. unfold quantize_internal in E. rewrite N1, N2 in E. discriminate.
  - destruct R as (_ & _ & [(-> & N1 & N2)|[[-> _]|R]]).
    + right; right. unfold quantize_internal in E. rewrite N1, N2 in E. assert (w' = w) by congruence. auto.
    + left. split; auto. apply stopped_broke, S. reflexivity.
    + auto.
Qed.
(** The table after a history of calls: empty when nothing of any weight was added. *)
Lemma hstep_nil {C : CastLaws A} h c : hcall_ok c -> (hg_map (hstep u h c) = [] <-> hg_map h = [] /\ weightless (hmade u h c)).
Proof.
  intros K. assert (T : weightless []) by constructor. destruct c as [es g|a0 cb0 i pxs w|c g]; cbn [hstep hmade].
  - unfold add_colors. destruct (_ || _)%bool; [tauto|]. destruct (negb _); [tauto|].
    set (h0 := match hg_gamma h with None => _ | Some _ => _ end).
    assert (M0 : hg_map h0 = hg_map h) by (unfold h0; destruct (hg_gamma h); auto; destruct (d0 <d g); auto).
    rewrite <- M0. exact (add_all_nil es h0).
  - destruct (add_image_spec u cb0 a0 h i w pxs K) as (i' & _ & _ & I' & _ & _ & _ & _ & _ & E'). cbv zeta in E'. rewrite E'. clear E'.
    destruct (add_image_fixed_other (with_gamma h (image_gamma i)) (i_fixed i)) as (M1 & _). cbn [hg_map with_gamma] in M1.
    destruct (cb0 _ _); [rewrite M1; tauto|]. destruct (all_rgba_rows (i_px i)); try (rewrite M1; tauto).
    rewrite settle_nil, add_all_nil, M1. tauto.
  - unfold hist_add_fixed_color. destruct (Nat.leb _ _); [tauto|]. destruct (hg_gamma h); [|destruct (d0 <d g)]; cbn; tauto.
Qed.
Lemma hrun_nil {C : CastLaws A} cs : forall h, Forall hcall_ok cs -> (hg_map (fst (hrun u h cs)) = [] <-> hg_map h = [] /\ weightless (snd (hrun u h cs))).
Proof.
  assert (T : weightless []) by constructor.
  induction cs as [|c cs IH]; intros h K; cbn [hrun]; [cbn; tauto|]. apply Forall_cons_iff in K as [K1 K2].
  specialize (IH (hstep u h c) K2). rewrite (hstep_nil h c K1) in IH. destruct (hrun u (hstep u h c) cs) as [h' l]. cbn [fst snd] in *.
  rewrite IH. unfold weightless. rewrite Forall_app. tauto.
Qed.

(** * Quantizing an image *)
(** Nothing in the image counts: no fixed colours, and an importance map that is zero everywhere. *)
Definition nothing (i : image) (imp : option (list Z)) : Prop := i_fixed i = [] /\ exists m, imp = Some m /\ Forall (fun v => v = 0%Z) m.
Lemma quantize_errors_all {C : CastLaws A} i pxs w r i' w' : unremapped i pxs -> quantize u cb a (i, w) = (r, (i', w')) ->
  match r with
  | Ok _ => ~ nothing i (i_imp i')
  | Err e => (e = Aborted /\ broke cb (w_trace w) (w_trace w')) \/ (e = QualityTooLow /\ a_max_mse a <> None) \/
             (e = Unsupported /\ nothing i (i_imp i'))
  | Panic => False
  end.
Proof.
  intros R E. pose proof (proj1 (proj2 objects_ok) _ _ (unremapped_r _ _ R)) as I. unfold quantize in E.
  pose proof (add_image_ok u cb a (hist_new a) i w pxs U I (hist_new_wf a)) as WF.
  destruct (add_image_spec u cb a (hist_new a) i w pxs I) as (i1 & W1 & H1 & I1 & _ & _ & _ & _ & _ & Q). cbv zeta in Q. rewrite Q in E, WF.
  set (w1 := World (fofZ (a_st1 a) *f flit 40 100 :: w_trace w) (w_tick w)) in *.
  destruct (cb (w_trace w) _) eqn:CB.
  { inversion E; subst. left. split; auto. apply stopped_broke. exists (fofZ (a_st1 a) *f flit 40 100), []. auto. }
  rewrite (all_rgba_rows_live _ _ (im_px _ _ I) (not_released C _ _ R)) in E, WF. destruct WF as (WF & _).
  set (h1 := settle _ _ _) in *.
  destruct (quantize_internal u cb a false (h1, w1)) as [r2 [h2 w2]] eqn:QI. inversion E; subst r2 i1 w2. clear E.
  pose proof (internal_errors false h1 w1 r h2 w' WF QI) as G.
  assert (NN : hg_map h1 = [] /\ hg_fixed h1 = [] <-> nothing i (i_imp i')).
  { unfold h1, nothing. rewrite settle_nil, add_all_nil, settle_fixed, add_all_fixed, fixed_nil.
    destruct (add_image_fixed_other (with_gamma (hist_new a) (image_gamma i)) (i_fixed i)) as (M1 & _). rewrite M1. cbn [hg_map with_gamma hist_new hg_fixed].
    assert (LC : length (concat pxs) = i_w i * i_h i).
    { rewrite (concat_rows_length (i_w i)); [rewrite (sh_len _ _ (im_px _ _ I)); reflexivity|].
      eapply Forall_impl; [|apply (sh_rows _ _ (im_px _ _ I))]. cbn. tauto. }
    rewrite image_weightless; [tauto| |]; rewrite ?LC.
    - pose proof (sh_w _ _ (im_px _ _ I)). pose proof (sh_h _ _ (im_px _ _ I)). unfold i_w, i_h. nia.
    - intros m Hm. destruct (im_imp _ _ I1 m Hm) as [L _]. rewrite L, W1, H1. reflexivity. }
  unfold quantized_hist in G. destruct r as [q|e|]; auto; [tauto|].
  destruct G as [[-> B]|[G|(-> & G1 & G2 & _)]]; auto.
  - left. split; auto. destruct B as (l1 & p & l2 & B1 & B2). exists l1, p, (l2 ++ [fofZ (a_st1 a) *f flit 40 100]). rewrite <- app_assoc. auto.
  - right; right. split; auto. apply NN. auto.
Qed.
End ErrorFacts.
