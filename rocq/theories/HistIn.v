(** Colours with a property stay alone in a histogram, and what the histogram
    given to the search holds.  Any arithmetic. *)
From Verif Require Import Base BaseFacts Arith Order Pal World Attr Hist MedianCut Nearest Kmeans Blur ImageM Quant
  AttrFacts SpecHist ImageFacts HistFacts MedianFacts SearchFacts QuantFacts.
Open Scope Z_scope.

Section In.
Context {A : Arith} {C : CastLaws A}.
Variable u : unspec.
Variable U : unspec_ok u.
Variable Q : rgba -> Prop.

(** All counts are positive and all colours have [Q]. *)
Definition entry_in (e : rgba * (Z * rgba)) : Prop := 0 < fst (snd e) /\ Q (snd (snd e)).
Definition hist_in (h : hist) : Prop :=
  NoDup (map fst (hg_map h)) /\ Forall entry_in (hg_map h) /\ Forall (fun f => Q (fst f)) (hg_fixed h).

Lemma hist_in_new a : hist_in (hist_new a).
Proof. repeat split; constructor. Qed.
Lemma hm_bump_in m k b c : 0 < b -> Q c -> Forall entry_in m -> Forall entry_in (hm_bump m k b c).
Proof.
  intros B H F. induction F as [|[k' [n c']] m Fe F IH]; cbn [hm_bump]; [repeat constructor; auto|].
  destruct (rgba_eqb k k'); constructor; auto. destruct Fe as [F1 F2]. split; cbn [fst snd] in *; auto.
  unfold sat_add32, U32_MAX. lia.
Qed.
Lemma add_color_in h c b : 0 <= b -> Q c -> hist_in h -> hist_in (add_color h c b).
Proof.
  intros B H (N & F & X). unfold add_color. destruct (Z.eqb_spec b 0); [repeat split; auto|].
  split; [|split]; cbn [hg_map hg_fixed with_map]; auto.
  - apply hm_bump_keys; auto.
  - apply hm_bump_in; auto. lia.
Qed.
Lemma add_all_in es : forall h, Forall (fun e => 0 <= snd e /\ Q (fst e)) es -> hist_in h -> hist_in (add_all h es).
Proof.
  induction es as [|e es IH]; intros h F H; cbn [add_all fold_left]; auto. apply Forall_cons_iff in F as [[F1 F2] F].
  apply IH; auto. apply add_color_in; auto.
Qed.
Lemma hm_insert_in m k v : 0 < fst v -> Q (snd v) -> Forall entry_in m -> Forall entry_in (hm_insert m k v).
Proof.
  intros B H F. induction F as [|[k' v'] m Fe F IH]; cbn [hm_insert]; [repeat constructor; auto|].
  destruct (rgba_eqb k k'); constructor; auto. split; auto.
Qed.
Lemma init_bits_in h b : hist_in h -> hist_in (init_posterize_bits u h b).
Proof.
  intros (N & F & X). unfold init_posterize_bits. destruct (b <=? hg_bits h); [repeat split; auto|].
  split; [|split]; cbn [hg_map hg_fixed with_map with_bits]; auto.
  - apply (fold_insert_NoDup (mask_rgba b)). constructor.
  - assert (F' : Forall entry_in (u_map u (hg_map h))) by (eapply Permutation_Forall; [apply (uo_map u U)|auto]).
    revert F'. generalize (u_map u (hg_map h)). intros l F'.
    assert (G : forall m, Forall entry_in m -> Forall entry_in (fold_left (fun m e => hm_insert m (mask_rgba b (fst e)) (snd e)) l m)).
    { clear - F'. induction F' as [|e l [E1 E2] F' IH]; intros m Hm; cbn [fold_left]; auto. apply IH, hm_insert_in; auto. }
    apply G. constructor.
Qed.
Lemma settle_in h b : hist_in h -> hist_in (settle u h b).
Proof. intros H. unfold settle. cbv zeta. destruct (_ && _)%bool; repeat apply init_bits_in; auto. Qed.
Lemma hs_insert_in s x : Q (fst x) -> Forall (fun f => Q (fst f)) s -> Forall (fun f : rgba * Z => Q (fst f)) (hs_insert s x).
Proof. intros H F. unfold hs_insert. destruct (existsb _ _); auto. apply Forall_app; auto. Qed.
Lemma add_image_fixed_in h l : Forall Q l -> hist_in h -> hist_in (add_image_fixed h l).
Proof.
  intros L (N & F & X). split; [|split]; auto. unfold add_image_fixed. cbn [hg_fixed with_fixed].
  assert (L' : Forall (fun ic => Q (snd ic)) (enumerate l)).
  { apply Forall_forall. intros [i c] Hi. apply In_enumerate in Hi. apply nth_error_In in Hi. rewrite Forall_forall in L. apply L. exact Hi. }
  revert X L'. generalize (hg_fixed h). generalize (enumerate l). clear. intros l. induction l as [|x l IH]; intros s X L; cbn [fold_left]; auto.
  apply Forall_cons_iff in L as [L1 L2]. apply IH; auto. apply hs_insert_in; auto.
Qed.
Lemma add_image_in cb a h i pxs w r h' i' w' : image_ok i pxs -> (forall row c, In row pxs -> In c row -> Q c) -> Forall Q (i_fixed i) ->
  hist_in h -> add_image u cb a (h, i, w) = (r, (h', i', w')) -> hist_in h'.
Proof.
  intros I P F H E. destruct (add_image_spec u cb a h i w pxs I) as (i1 & _ & _ & I1 & _ & _ & _ & _ & _ & E1). cbv zeta in E1. rewrite E1 in E. clear E1.
  set (h1 := add_image_fixed (with_gamma h (image_gamma i)) (i_fixed i)) in *.
  assert (H1 : hist_in h1) by (apply add_image_fixed_in; auto).
  destruct (cb _ _); [inversion E; subst; auto|]. destruct (all_rgba_rows (i_px i)); inversion E; subst; auto.
  apply settle_in, add_all_in; auto. apply Forall_forall. intros [c n] Hin. cbn [fst snd].
  assert (OK : addition_ok (c, n)).
  { assert (FO : Forall addition_ok (image_additions (i_w i) pxs (i_imp i'))).
    { apply image_additions_ok; [eapply Forall_impl; [|apply (sh_rows _ _ (im_px _ _ I))]; cbn; tauto|intros m Hm; apply (im_imp _ _ I1 m Hm)]. }
    rewrite Forall_forall in FO. apply FO. exact Hin. }
  split; [destruct OK as [_ OK]; cbn [snd] in OK; lia|]. unfold image_additions in Hin. apply in_combine_l in Hin. apply in_concat in Hin as (row & Hr & Hc). eauto.
Qed.

(** Histograms built by calls whose colours all have [Q]. *)
Definition call_in (c : hcall) : Prop :=
  match c with
  | HColors es _ => Forall (fun e => Q (fst e)) es
  | HImage _ _ i pxs _ => (forall row c, In row pxs -> In c row -> Q c) /\ Forall Q (i_fixed i)
  | HFixed c _ => Q c
  end.
Lemma hstep_in h c : hcall_ok c -> call_in c -> hist_in h -> hist_in (hstep u h c).
Proof.
  intros K I H. destruct c as [es g|a cb i pxs w|c g]; cbn [hstep call_in hcall_ok] in *.
  - unfold add_colors. destruct (_ || _)%bool; auto. destruct (negb _); auto.
    change (hist_in (add_all (match hg_gamma h with None => if d0 <d g then with_gamma h (Some g) else h | Some _ => h end)%flt es)).
    apply add_all_in.
    + rewrite Forall_forall in *. intros e He. split; [|apply I; auto]. apply K in He as [_ He]. lia.
    + destruct (hg_gamma h); auto. destruct (d0 <d g)%flt; auto.
  - destruct (add_image u cb a (h, i, w)) as [r [[h' i'] w']] eqn:E. eapply add_image_in; eauto; apply I.
  - unfold hist_add_fixed_color. destruct (Nat.leb _ _); auto.
    assert (G : forall h0, hist_in h0 -> hist_in (with_fixed h0 (hs_insert (hg_fixed h0) (c, wrap8 (Z.of_nat (length (hg_fixed h0))))))).
    { intros h0 (N & F & X). split; [|split]; auto. cbn [hg_fixed with_fixed]. apply hs_insert_in; auto. }
    destruct (hg_gamma h); [|destruct (d0 <d g)%flt]; apply G; auto.
Qed.
Lemma hrun_in cs : forall h, Forall hcall_ok cs -> Forall call_in cs -> hist_in h -> hist_in (fst (hrun u h cs)).
Proof.
  induction cs as [|c cs IH]; intros h K I H; cbn [hrun]; auto. apply Forall_cons_iff in K as [K1 K2]. apply Forall_cons_iff in I as [I1 I2].
  specialize (IH (hstep u h c) K2 I2 (hstep_in h c K1 I1 H)). destruct (hrun u (hstep u h c) cs). exact IH.
Qed.

(** * After the fixed colours went into the table *)
Definition fkey (c : rgba) : rgba := if negb (ca c =? 0) then c else Rgba 0 0 0 0.
Definition entry0_in (e : rgba * (Z * rgba)) : Prop := 0 <= fst (snd e) /\ Q (snd (snd e)).
Lemma insert_fixed_in h : hist_in h ->
  NoDup (map fst (hg_map (insert_fixed u h))) /\ Forall entry0_in (hg_map (insert_fixed u h)) /\
  (forall e, In e (hg_map (insert_fixed u h)) -> fst (snd e) = 0 -> In (fst e) (map (fun f => fkey (fst f)) (hg_fixed h))).
Proof.
  intros (N & F & X). unfold insert_fixed. cbn [hg_map with_map].
  assert (X' : Forall (fun f => Q (fst f) /\ In (fst f) (map fst (hg_fixed h))) (u_set u (hg_fixed h))).
  { apply Forall_forall. intros f Hf. apply (Permutation_in f (Permutation_sym (uo_set u U (hg_fixed h)))) in Hf.
    rewrite Forall_forall in X. split; auto. apply in_map. auto. }
  assert (F0 : Forall entry0_in (hg_map h)) by (eapply Forall_impl; [|exact F]; intros e [E1 E2]; split; auto; lia).
  assert (Z0 : forall e, In e (hg_map h) -> fst (snd e) = 0 -> In (fst e) (map (fun f => fkey (fst f)) (hg_fixed h))).
  { intros e He E. rewrite Forall_forall in F. apply F in He as [He _]. lia. }
  revert X'. generalize (u_set u (hg_fixed h)). intros l X'. revert N F0 Z0. generalize (hg_map h). clear F.
  induction X' as [|f l [Fq Fi] X' IH]; intros m N F0 Z0; cbn [fold_left]; auto. cbv zeta. fold (fkey (fst f)). apply IH.
  - apply hm_insert_NoDup; auto.
  - clear - F0 Fq. induction F0 as [|[k' v'] m Fe F IHm]; cbn [hm_insert].
    + repeat constructor; auto. cbn. lia.
    + destruct (rgba_eqb _ k'); constructor; auto. split; cbn [fst snd]; auto. lia.
  - intros [k v] He E. assert (G : In (k, v) m \/ k = fkey (fst f)).
    { clear - He. induction m as [|[k' v'] m IHm]; cbn [hm_insert] in He.
      - destruct He as [He|[]]. inversion He; auto.
      - destruct (rgba_eqb (fkey (fst f)) k') eqn:Ek.
        + apply rgba_eqb_eq in Ek. destruct He as [He|He]; [inversion He; subst; auto|left; right; auto].
        + destruct He as [He|He]; [inversion He; subst; left; left; auto|]. apply IHm in He as [He|He]; [left; right; auto|auto]. }
    destruct G as [G|G]; [apply (Z0 _ G E)|]. cbn [fst]. rewrite G.
    apply in_map_iff in Fi as (f0 & Ef & Hf0). rewrite <- Ef. apply (in_map (fun f => fkey (fst f)) _ f0). auto.
Qed.
(** Either something was counted, or there are at most as many entries as fixed colours. *)
Lemma counted_or_fixed h : hist_in h ->
  (exists e, In e (hg_map (insert_fixed u h)) /\ 0 < fst (snd e)) \/ (length (hg_map (insert_fixed u h)) <= length (hg_fixed h))%nat.
Proof.
  intros H. destruct (insert_fixed_in h H) as (N & F & Z0).
  destruct (existsb (fun e => 0 <? fst (snd e)) (hg_map (insert_fixed u h))) eqn:E.
  - left. apply existsb_exists in E as (e & He & L). apply Z.ltb_lt in L. eauto.
  - right. rewrite <- (map_length fst). rewrite <- (map_length (fun f => fkey (fst f)) (hg_fixed h)). apply NoDup_incl_length; auto.
    intros k Hk. apply in_map_iff in Hk as (e & <- & He). apply Z0; auto.
    rewrite Forall_forall in F. destruct (F e He) as [P _].
    assert (Q' : (0 <? fst (snd e)) = false).
    { destruct (0 <? fst (snd e)) eqn:L; auto. assert (existsb (fun e => 0 <? fst (snd e)) (hg_map (insert_fixed u h)) = true) by (apply existsb_exists; eauto). congruence. }
    apply Z.ltb_ge in Q'. lia.
Qed.
End In.
