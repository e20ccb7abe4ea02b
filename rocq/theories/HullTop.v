(** The palette of an image or histogram lies, in exact arithmetic, in every
    convex set that contains the input's colours. *)
From Verif Require Import Base BaseFacts Arith Order Pal World Attr Hist Nearest MedianCut Kmeans Blur ImageM Quant Remap Api
  AttrFacts SpecHist ImageFacts HistFacts MedianFacts NearFacts SearchFacts QuantFacts ApiFacts FewFacts HistIn SearchInv RealArith MedianReal KmeansReal HullReal RoundReal.
From Coq Require Import Reals Lra.
Open Scope R_scope.

Lemma add_all_gamma {A : Arith} es : forall h, hg_gamma (add_all h es) = hg_gamma h.
Proof. induction es as [|e es IH]; intros h; cbn [add_all fold_left]; auto. etransitivity; [apply IH|]. apply add_color_other. Qed.
Lemma settle_gamma {A : Arith} u h b : hg_gamma (settle u h b) = hg_gamma h.
Proof. unfold settle. cbv zeta. destruct (_ && _)%bool; rewrite !(proj1 (init_bits_other u _ _)); auto. Qed.
Lemma hstep_wf {A : Arith} {C : CastLaws A} u h c : unspec_ok u -> hcall_ok c -> hist_wf h -> hist_wf (hstep u h c).
Proof.
  intros U K W. destruct c as [es g|a cb i pxs w|c g]; cbn [hstep hcall_ok] in *.
  - unfold add_colors. destruct (_ || _)%bool; auto. destruct (negb _); auto.
    change (hist_wf (add_all (match hg_gamma h with None => if d0 <d g then with_gamma h (Some g) else h | Some _ => h end)%flt es)).
    apply add_all_wf; auto. destruct (hg_gamma h); auto. destruct (d0 <d g)%flt; auto.
  - pose proof (add_image_ok u cb a h i w pxs U K W) as P. destruct (add_image u cb a (h, i, w)) as [r [[h' i'] w']]. tauto.
  - unfold hist_add_fixed_color. destruct (Nat.leb _ _); auto. split.
    + destruct (hg_gamma h); [apply W|]. destruct (_ <d _)%flt; apply W.
    + cbn [hg_fixed with_fixed]. apply hs_insert_wf; auto. destruct (hg_gamma h); [apply W|]. destruct (_ <d _)%flt; apply W.
Qed.
Lemma hrun_wf {A : Arith} {C : CastLaws A} u cs : unspec_ok u -> forall h, Forall hcall_ok cs -> hist_wf h -> hist_wf (fst (hrun u h cs)).
Proof.
  intros U. induction cs as [|c cs IH]; intros h K W; cbn [hrun]; auto. apply Forall_cons_iff in K as [K1 K2].
  specialize (IH (hstep u h c) K2 (hstep_wf u h c U K1 W)). destruct (hrun u (hstep u h c) cs). exact IH.
Qed.

Section R.
Variable big : R.
Hypothesis Hbig : 0 <= big.
Let A : Arith := real big.
Existing Instance A.
Let CL : CastLaws A := real_cast big.
Existing Instance CL.
Variable P : px -> Prop.
Hypothesis C : convex big P.
Variable u : unspec.
Variable U : unspec_ok u.
Variable cb : callback.
Variable a : attrs.
Hypothesis Ha : (1 <= a_max_colors a <= 256)%nat.
Variable Q : rgba -> Prop.

Definition maxw_of (vals : list (Z * rgba)) : R := 1 / 10 * (sumR (map (fun v => IZR (fst v)) vals) / 256).
Lemma weight_pos maxw n : (0 <= n)%Z -> 0 < maxw -> 0 < item_weight (maxw : @f32 A) n.
Proof.
  intros N M. change (0 < if Rltb 0 (IZR n) then Rmin (IZR n * (1 / 256)) maxw else maxw * 10).
  destruct (Rltb 0 (IZR n)) eqn:E; rbool; [|lra]. apply Rmin_glb_lt; lra.
Qed.
Lemma maxw_pos vals : Forall (fun v => (0 <= fst v)%Z) vals -> (exists v, In v vals /\ (0 < fst v)%Z) -> 0 < maxw_of vals.
Proof.
  intros F (v & I & V). unfold maxw_of.
  assert (S : 0 < sumR (map (fun v => IZR (fst v)) vals)).
  { apply in_split in I as (l1 & l2 & ->). rewrite map_app. rewrite sumR_app. cbn [map sumR].
    apply Forall_app in F as [F1 F2]. apply Forall_cons_iff in F2 as [_ F2].
    assert (0 <= sumR (map (fun v => IZR (fst v)) l1)) by (apply sumR_pos, Forall_map; eapply Forall_impl; [|exact F1]; intros x; apply IZR_le).
    assert (0 <= sumR (map (fun v => IZR (fst v)) l2)) by (apply sumR_pos, Forall_map; eapply Forall_impl; [|exact F2]; intros x; apply IZR_le).
    apply IZR_lt in V. lra. }
  lra.
Qed.
Lemma finalize_weights h g it : In it (hi_items (fst (finalize_builder u h g))) ->
  exists v, In v (map snd (u_map u (hg_map (insert_fixed u h)))) /\
    it = mk_item (gamma_lut g) (maxw_of (map snd (u_map u (hg_map (insert_fixed u h))))) v.
Proof.
  unfold finalize_builder. cbv zeta. cbn [fst hi_items]. set (vals := map snd (u_map u (hg_map (insert_fixed u h)))).
  assert (E : (flit 1 10 *f d2f (dsum (map (fun v => f2d (fofZ (fst v))) vals) /d dofZ 256))%flt = maxw_of vals).
  { unfold maxw_of. rewrite <- (dsum_sumR big). reflexivity. }
  rewrite E. intros H. apply in_map_iff in H as (v & <- & H). exists v. split; auto.
  apply in_concat in H as (l & Hl & Hv). apply in_map_iff in Hl as (k & <- & _). apply filter_In in Hv. apply Hv.
Qed.
Lemma finalize_in h g : hist_wf h -> hist_in Q h -> (hg_map h <> [] \/ hg_fixed h <> []) ->
  (forall c, Q c -> P (from_rgba (gamma_lut g) c)) ->
  HI1 big P (fst (finalize_builder u h g)) \/ HI2 big P (fst (finalize_builder u h g)).
Proof.
  intros W H NE HQ. destruct (finalize_ok u U h g W NE) as (HO & _ & LF & LI).
  assert (FX : Forall P (hi_fixed (fst (finalize_builder u h g)))).
  { eapply Permutation_Forall; [symmetry; apply (finalize_fixed u h g U)|]. apply Forall_map. destruct H as (_ & _ & H).
    eapply Forall_impl; [|exact H]. intros f Hf. apply HQ. exact Hf. }
  destruct (insert_fixed_in u U Q h H) as (_ & IN & _).
  destruct (counted_or_fixed u U Q h H) as [(e & He & Hp)|L].
  - left. split; [exact HO|]. split; [|exact FX]. apply (good_all big P). apply Forall_forall. intros it Hit.
    apply finalize_weights in Hit as (v & Hv & ->).
    assert (PM : Permutation (map snd (hg_map (insert_fixed u h))) (map snd (u_map u (hg_map (insert_fixed u h))))) by (apply Permutation_map, (uo_map u U)).
    assert (VA : Forall (fun v : Z * rgba => (0 <= fst v)%Z /\ Q (snd v)) (map snd (u_map u (hg_map (insert_fixed u h))))).
    { eapply Permutation_Forall; [exact PM|]. apply Forall_map. exact IN. }
    assert (MW : 0 < maxw_of (map snd (u_map u (hg_map (insert_fixed u h))))).
    { apply maxw_pos; [eapply Forall_impl; [|exact VA]; tauto|]. exists (snd e). split; [|exact Hp]. apply (Permutation_in _ PM). apply in_map. auto. }
    rewrite Forall_forall in VA. destruct (VA v Hv) as [V1 V2].
    split; [apply HQ; exact V2|]. split; apply weight_pos; auto.
  - right. split; [exact HO|]. split; [exact FX|].
    change (length (hi_items (fst (finalize_builder u h g))) <= length (hi_fixed (fst (finalize_builder u h g))))%nat. lia.
Qed.
Lemma internal_in freeze h w q s' : hist_wf h -> hist_in Q h ->
  (forall c, Q c -> P (from_rgba (gamma_lut (used_gamma h)) c)) ->
  quantize_internal u cb a freeze (h, w) = (Ok q, s') ->
  Forall P (colors_of (q_pal q)) /\ q_gamma q = used_gamma h /\ q_int q = [] /\ q_rem q = None /\ q_post q = a_post_out a.
Proof.
  intros W H HQ E.
  assert (NE : hg_map h <> [] \/ hg_fixed h <> []).
  { unfold quantize_internal in E. destruct (hg_map h); [|left; congruence]. destruct (hg_fixed h); [discriminate|right; congruence]. }
  pose proof (finalize_in h (used_gamma h) W H NE HQ) as HI.
  unfold quantize_internal in E. destruct (match hg_map h, hg_fixed h with [], [] => true | _, _ => false end); [discriminate|].
  change (unwrap_or (hg_gamma h) (dlit 45455 100000)) with (used_gamma h) in *. cbv zeta in E.
  assert (G : forall w2, (let '(hi, h') := finalize_builder u h (used_gamma h) in
        let '(r, w3) := result_new u cb a hi freeze (used_gamma h) w2 in (r, (h', w3))) = (Ok q, s') ->
     Forall P (colors_of (q_pal q)) /\ q_gamma q = used_gamma h /\ q_int q = [] /\ q_rem q = None /\ q_post q = a_post_out a).
  { intros w2 E'. destruct (finalize_builder u h (used_gamma h)) as [hi h']. cbn [fst] in *.
    destruct (result_new u cb a hi freeze (used_gamma h) w2) as [r w3] eqn:RN. inversion E'; subst r.
    destruct (result_in big Hbig P C u U cb a Ha hi freeze (used_gamma h) w2 q w3 HI RN) as (R1 & R).
    split; auto. apply Forall_map. exact R1. }
  destruct (progress cb f0 w) as [[[]|e|] w1]; try discriminate;
  (destruct (progress cb _ w1) as [[[]|e2|] w2]; try discriminate; apply (G w2 E)).
Qed.
Lemma quantize_in i pxs w q i' w' : image_ok i pxs -> (forall row c, In row pxs -> In c row -> Q c) -> Forall Q (i_fixed i) ->
  (forall c, Q c -> P (from_rgba (gamma_lut (unwrap_or (image_gamma i) default_gamma)) c)) ->
  quantize u cb a (i, w) = (Ok q, (i', w')) ->
  Forall P (colors_of (q_pal q)) /\ q_gamma q = unwrap_or (image_gamma i) default_gamma /\ q_int q = [] /\ q_rem q = None /\ q_post q = a_post_out a.
Proof.
  intros I HP HF HQ E. unfold quantize in E. destruct (add_image u cb a (hist_new a, i, w)) as [r [[h i1] w1]] eqn:AI.
  destruct r as [[]|e|]; try discriminate.
  pose proof (add_image_in u U Q cb a (hist_new a) i pxs w _ h i1 w1 I HP HF (hist_in_new Q a) AI) as HI.
  pose proof (add_image_ok u cb a (hist_new a) i w pxs U I (hist_new_wf a)) as W. rewrite AI in W. destruct W as (W & _).
  destruct (quantize_internal u cb a false (h, w1)) as [r [h2 w2]] eqn:QI. inversion E; subst r.
  assert (UG : used_gamma h = unwrap_or (image_gamma i) default_gamma).
  { destruct (add_image_spec u cb a (hist_new a) i w pxs I) as (i2 & _ & _ & _ & _ & _ & _ & _ & _ & E1). cbv zeta in E1. rewrite E1 in AI. clear E1.
    destruct (cb _ _); [discriminate|]. destruct (all_rgba_rows (i_px i)); try discriminate. inversion AI; subst h. unfold used_gamma. f_equal.
    rewrite settle_gamma. rewrite add_all_gamma. reflexivity. }
  rewrite <- UG in *. eapply internal_in; eauto.
Qed.
End R.

(** * Opaque and grey *)
(** The colours a call gives to the histogram. *)
Definition call_colors {A : Arith} (c : hcall) : list rgba :=
  match c with
  | HColors es _ => map fst es
  | HImage _ _ i pxs _ => concat pxs ++ i_fixed i
  | HFixed c _ => [c]
  end.
Section Use.
Variable big : R.
Hypothesis Hbig : 0 <= big.
Let A : Arith := real big.
Existing Instance A.

Definition opaque_px (p : px) : Prop := pa p = (625 / 1000 : R).
Lemma opaque_convex : convex big opaque_px.
Proof.
  intros t x y T X Y. unfold opaque_px in *. cbn [pa mix]. change (@eq R (pa x) (625 / 1000)) in X. change (@eq R (pa y) (625 / 1000)) in Y.
  change (@eq R (t * pa x + (1 - t) * pa y) (625 / 1000)). rewrite X, Y. lra.
Qed.
Lemma opaque_from g c : ca c = 255%Z -> opaque_px (from_rgba (gamma_lut g) c).
Proof. intros H. unfold opaque_px, from_rgba. cbv zeta. cbn [pa]. rewrite H. change (@eq R (255 / 255 * (625 / 1000)) (625 / 1000)). lra. Qed.
Lemma opaque_to p g : opaque_px p -> ca (to_rgb p g) = 255%Z.
Proof.
  intros H. change (@eq R (pa p) (625 / 1000)) in H. unfold to_rgb.
  assert (E : (pa p <f MIN_OPAQUE_A)%flt = false). { change (Rltb (pa p) (1 / 256 * (625 / 1000)) = false). apply Rltb_ge. rewrite H. lra. }
  rewrite E. cbv zeta. cbn [ca]. change (to_uint 255 (256 / (625 / 1000) * pa p) = 255%Z).
  assert (E2 : 256 / (625 / 1000) * pa p = 256). { change (@eq R (256 / (625 / 1000) * pa p) 256). rewrite H. field. }
  rewrite E2. unfold to_uint. rewrite (Int_part_is 256) by lra. reflexivity.
Qed.
Definition grey_px (p : px) : Prop := pr p = (1 / 2 * pg p : R) /\ pb p = (45 / 100 * pg p : R).
Lemma grey_convex : convex big grey_px.
Proof.
  intros t x y T [X1 X2] [Y1 Y2]. unfold grey_px. cbn [pr pg pb mix].
  change (@eq R (pr x) (1 / 2 * pg x)) in X1. change (@eq R (pb x) (45 / 100 * pg x)) in X2.
  change (@eq R (pr y) (1 / 2 * pg y)) in Y1. change (@eq R (pb y) (45 / 100 * pg y)) in Y2.
  split.
  - change (@eq R (t * pr x + (1 - t) * pr y) (1 / 2 * (t * pg x + (1 - t) * pg y))). rewrite X1, Y1.
    generalize (pg x : R), (pg y : R). intros v w. lra.
  - change (@eq R (t * pb x + (1 - t) * pb y) (45 / 100 * (t * pg x + (1 - t) * pg y))). rewrite X2, Y2.
    generalize (pg x : R), (pg y : R). intros v w. lra.
Qed.
Lemma grey_from g c : ca c = 0%Z \/ (cr c = cg c /\ cb c = cg c) -> grey_px (from_rgba (gamma_lut g) c).
Proof.
  intros H. unfold grey_px, from_rgba. cbv zeta. cbn [pr pg pb].
  assert (G : forall x y z w : R, w = 0 \/ (x = y /\ z = y) -> x * (5 / 10) * w = 1 / 2 * (y * 1 * w) /\ z * (45 / 100) * w = 45 / 100 * (y * 1 * w)).
  { intros x y z w [->|[-> ->]]; lra. }
  apply (G (gamma_lut g (cr c)) (gamma_lut g (cg c)) (gamma_lut g (cb c)) (IZR (ca c) / 255)).
  destruct H as [H|[H1 H2]]; [left; rewrite H; lra|right; rewrite H1, H2; auto].
Qed.
Lemma grey_to p g : grey_px p -> cr (to_rgb p g) = cg (to_rgb p g) /\ cb (to_rgb p g) = cg (to_rgb p g).
Proof.
  intros [H1 H2]. unfold to_rgb. destruct (pa p <f MIN_OPAQUE_A)%flt; [auto|]. cbv zeta. cbn [cr cg cb].
  change (@eq R (pr p) (1 / 2 * pg p)) in H1. change (@eq R (pb p) (45 / 100 * pg p)) in H2.
  split; f_equal; f_equal; f_equal; f_equal.
  - change (@eq R (625 / 1000 / (5 / 10) * pr p) (625 / 1000 / 1 * pg p)). rewrite H1. generalize (pg p : R). intros; field.
  - change (@eq R (625 / 1000 / (45 / 100) * pb p) (625 / 1000 / 1 * pg p)). rewrite H2. generalize (pg p : R). intros; field.
Qed.
Lemma palette_of (S : px -> Prop) (D : rgba -> Prop) q : q_int q = [] -> q_rem q = None -> Forall S (colors_of (q_pal q)) ->
  (forall p pop, S p -> D (snd (int_entry (q_gamma q) (q_post q) (p, pop)))) -> Forall D (fst (palette q)).
Proof.
  intros I R F H. unfold palette. rewrite I, R. unfold init_int_palette. cbn [fst]. apply Forall_map. unfold colors_of in F. rewrite Forall_map in F.
  eapply Forall_impl; [|exact F]. intros [p pop] X. apply H. exact X.
Qed.

Let CL : CastLaws A := real_cast big.
Existing Instance CL.
Definition of_image (i : image) (pxs : list (list rgba)) (k : rgba) : Prop := In k (concat pxs) \/ In k (i_fixed i).
Definition of_calls (cs : list hcall) (k : rgba) : Prop := Exists (fun call => In k (call_colors call)) cs.

Lemma image_any (P : px -> Prop) u cb a i pxs w q i' w' : unspec_ok u -> usable a -> image_r i pxs ->
  quantize u cb a (i, w) = (Ok q, (i', w')) -> convex big P ->
  (forall k, of_image i pxs k -> P (from_rgba (gamma_lut (q_gamma q)) k)) ->
  Forall P (colors_of (q_pal q)) /\ q_int q = [] /\ q_rem q = None /\ (0 <= q_post q <= 4)%Z.
Proof.
  intros U Ua I E C HP. pose proof (usable_ok a Ua) as [O1 O2 _ _].
  assert (M : (1 <= a_max_colors a <= 256)%nat) by lia.
  pose proof (proj1 (proj2 objects_ok) i pxs I) as IO.
  assert (QG : q_gamma q = unwrap_or (image_gamma i) default_gamma).
  { apply (quantize_in big Hbig (fun _ => True) (fun _ _ _ _ _ _ => Logic.I) u U cb a M (fun _ => True) i pxs w q i' w' IO); auto.
    apply Forall_forall; auto. }
  rewrite QG in HP.
  destruct (quantize_in big Hbig P C u U cb a M (of_image i pxs) i pxs w q i' w' IO) as (R1 & _ & R2 & R3 & R4); auto.
  - intros row c Hr Hc. left. apply in_concat. eauto.
  - apply Forall_forall. intros c Hc. right. auto.
  - exact (conj R1 (conj R2 (conj R3 (eq_ind_r (fun z => (0 <= z <= 4)%Z) O2 R4)))).
Qed.
Lemma hist_any (P : px -> Prop) u cb a0 a cs w q s' : unspec_ok u -> usable a -> Forall hcall_ok cs ->
  hist_quantize u cb a (fst (hrun u (hist_new a0) cs), w) = (Ok q, s') -> convex big P ->
  (forall k, of_calls cs k -> P (from_rgba (gamma_lut (q_gamma q)) k)) ->
  Forall P (colors_of (q_pal q)) /\ q_int q = [] /\ q_rem q = None /\ (0 <= q_post q <= 4)%Z.
Proof.
  intros U Ua K E C HP. pose proof (usable_ok a Ua) as [O1 O2 _ _].
  assert (M : (1 <= a_max_colors a <= 256)%nat) by lia.
  assert (HI : forall h0, hist_in (of_calls cs) h0 -> hist_in (of_calls cs) (fst (hrun u h0 cs))).
  { intros h0. apply (hrun_in u U (of_calls cs)); auto. apply Forall_forall. intros c Hc.
    assert (X : forall k, In k (call_colors c) -> of_calls cs k) by (intros k Hk; apply Exists_exists; eauto).
    destruct c as [es g|a1 cb1 i pxs w1|c g]; cbn [call_in call_colors] in *.
    - apply Forall_forall. intros e He. apply X, in_map. auto.
    - split; [intros row k Hr Hk; apply X, in_or_app; left; apply in_concat; eauto|apply Forall_forall; intros k Hk; apply X, in_or_app; auto].
    - apply X. left. auto. }
  specialize (HI _ (hist_in_new (of_calls cs) a0)).
  assert (W : hist_wf (fst (hrun u (hist_new a0) cs))) by (apply hrun_wf; auto; apply hist_new_wf).
  destruct (internal_in big Hbig (fun _ => True) (fun _ _ _ _ _ _ => Logic.I) u U cb a M (of_calls cs) true _ w q s' W HI (fun _ _ => Logic.I) E) as (_ & QG & _).
  pose proof (eq_ind _ (fun g => forall k, of_calls cs k -> P (from_rgba (gamma_lut g) k)) HP _ QG) as HP'.
  destruct (internal_in big Hbig P C u U cb a M (of_calls cs) true _ w q s' W HI HP' E) as (R1 & _ & R2 & R3 & R4).
  exact (conj R1 (conj R2 (conj R3 (eq_ind_r (fun z => (0 <= z <= 4)%Z) O2 R4)))).
Qed.
Lemma hull_image u cb a i pxs w q i' w' : unspec_ok u -> usable a -> image_r i pxs ->
  quantize u cb a (i, w) = (Ok q, (i', w')) ->
  Forall (fun c => forall P, convex big P -> (forall x, (exists k, x = from_rgba (gamma_lut (q_gamma q)) k /\ of_image i pxs k) -> P x) -> P c) (colors_of (q_pal q)).
Proof.
  intros U Ua I E. apply Forall_forall. intros c Hc P C HP.
  destruct (image_any P u cb a i pxs w q i' w' U Ua I E C) as (F & _); [intros k Hk; apply HP; eauto|]. rewrite Forall_forall in F. auto.
Qed.
Lemma hull_hist u cb a0 a cs w q s' : unspec_ok u -> usable a -> Forall hcall_ok cs ->
  hist_quantize u cb a (fst (hrun u (hist_new a0) cs), w) = (Ok q, s') ->
  Forall (fun c => forall P, convex big P -> (forall x, (exists k, x = from_rgba (gamma_lut (q_gamma q)) k /\ of_calls cs k) -> P x) -> P c) (colors_of (q_pal q)).
Proof.
  intros U Ua K E. apply Forall_forall. intros c Hc P C HP.
  destruct (hist_any P u cb a0 a cs w q s' U Ua K E C) as (F & _); [intros k Hk; apply HP; eauto|]. rewrite Forall_forall in F. auto.
Qed.
Lemma post_255 b : (0 <= b <= 4)%Z -> posterize_channel 255 b = 255%Z.
Proof. intros H. assert (b = 0 \/ b = 1 \/ b = 2 \/ b = 3 \/ b = 4)%Z as [->|[->|[->|[->| ->]]]] by lia; reflexivity. Qed.
Lemma opaque_entry q : q_int q = [] -> q_rem q = None -> (0 <= q_post q <= 4)%Z -> Forall opaque_px (colors_of (q_pal q)) ->
  Forall (fun c => ca c = 255%Z) (fst (palette q)).
Proof.
  intros Hi Hr Hp F. apply (palette_of opaque_px _ q Hi Hr F). intros p pop X. unfold int_entry. cbn [fst snd].
  assert (E : ca (rgba_map (fun v => posterize_channel v (q_post q)) (to_rgb p (q_gamma q))) = 255%Z).
  { unfold rgba_map. cbn [ca]. rewrite (opaque_to p (q_gamma q) X). apply post_255. auto. }
  rewrite E. cbn [Z.eqb andb]. exact E.
Qed.
Lemma opaque_image u cb a i pxs w q i' w' : unspec_ok u -> usable a -> image_r i pxs ->
  (forall c, In c (concat pxs) \/ In c (i_fixed i) -> ca c = 255%Z) ->
  quantize u cb a (i, w) = (Ok q, (i', w')) -> Forall (fun c => ca c = 255%Z) (fst (palette q)).
Proof.
  intros U Ua I H E. destruct (image_any opaque_px u cb a i pxs w q i' w' U Ua I E opaque_convex) as (F & Hi & Hr & Hp).
  - intros k Hk. apply opaque_from, H, Hk.
  - apply opaque_entry; auto.
Qed.
Lemma opaque_hist u cb a0 a cs w q s' : unspec_ok u -> usable a -> Forall hcall_ok cs ->
  (forall call c, In call cs -> In c (call_colors call) -> ca c = 255%Z) ->
  hist_quantize u cb a (fst (hrun u (hist_new a0) cs), w) = (Ok q, s') -> Forall (fun c => ca c = 255%Z) (fst (palette q)).
Proof.
  intros U Ua K H E. destruct (hist_any opaque_px u cb a0 a cs w q s' U Ua K E opaque_convex) as (F & Hi & Hr & Hp).
  - intros k Hk. apply Exists_exists in Hk as (c & Hc & Hk). eapply opaque_from, H; eauto.
  - apply opaque_entry; auto.
Qed.
Definition looks_grey (c : rgba) : Prop := ca c <> 0%Z -> cr c = cg c /\ Verif.Base.cb c = cg c.
Lemma grey_entry q : q_int q = [] -> q_rem q = None -> Forall grey_px (colors_of (q_pal q)) -> Forall looks_grey (fst (palette q)).
Proof.
  intros Hi Hr F. apply (palette_of grey_px _ q Hi Hr F). intros p pop X. unfold int_entry. cbn [fst snd].
  destruct (grey_to p (q_gamma q) X) as [G1 G2]. intros NZ.
  destruct (_ && _)%bool eqn:Z0.
  - apply andb_true_iff in Z0 as [Z0 _]. apply Z.eqb_eq in Z0. cbn [ca] in NZ. contradiction.
  - unfold rgba_map. cbn [cr cg Verif.Base.cb]. rewrite G1, G2. auto.
Qed.
Lemma grey_image u cb a i pxs w q i' w' : unspec_ok u -> usable a -> image_r i pxs ->
  (forall c, In c (concat pxs) \/ In c (i_fixed i) -> looks_grey c) ->
  quantize u cb a (i, w) = (Ok q, (i', w')) -> Forall looks_grey (fst (palette q)).
Proof.
  intros U Ua I H E. destruct (image_any grey_px u cb a i pxs w q i' w' U Ua I E grey_convex) as (F & Hi & Hr & Hp).
  - intros k Hk. apply grey_from. destruct (Z.eq_dec (ca k) 0); auto. right. apply H; auto.
  - apply grey_entry; auto.
Qed.
Lemma grey_hist u cb a0 a cs w q s' : unspec_ok u -> usable a -> Forall hcall_ok cs ->
  (forall call c, In call cs -> In c (call_colors call) -> looks_grey c) ->
  hist_quantize u cb a (fst (hrun u (hist_new a0) cs), w) = (Ok q, s') -> Forall looks_grey (fst (palette q)).
Proof.
  intros U Ua K H E. destruct (hist_any grey_px u cb a0 a cs w q s' U Ua K E grey_convex) as (F & Hi & Hr & Hp).
  - intros k Hk. apply Exists_exists in Hk as (c & Hc & Hk). apply grey_from. destruct (Z.eq_dec (ca k) 0); auto. right. eapply H; eauto.
  - apply grey_entry; auto.
Qed.
End Use.
