(** Nothing counts only if the user said so: generated importance is never zero. *)
From Verif Require Import Base BaseFacts Arith Order Pal World Attr Hist MedianCut Nearest Kmeans Blur ImageM Quant Remap
  SpecAttr AttrFacts SpecHist SpecImage ImageFacts HistFacts QuantFacts Api ApiFacts SpecProgress ReuseFacts ErrorFacts Ieee SpecPow PowRef ContrastLow ContrastIeee.
Open Scope nat_scope.

Lemma no_minimum {A : Arith} cs : (forall mn tg, ~ In (CallQuality mn tg) cs) -> a_max_mse (run_calls cs) = None.
Proof.
  unfold run_calls. intros H. assert (G : a_max_mse attrs_new = None) by reflexivity. revert H G. generalize attrs_new.
  induction cs as [|c cs IH]; intros a H G; cbn [fold_left]; auto. apply IH.
  - intros mn tg Hin. apply (H mn tg). right. exact Hin.
  - unfold step_call. destruct c as [n|v|b|mn tg]; cbn [apply_call].
    + unfold set_max_colors. destruct (negb _); auto.
    + unfold set_speed. destruct (negb _); auto.
    + unfold set_min_posterization. destruct (negb _); auto.
    + destruct (H mn tg). left. reflexivity.
Qed.

Lemma quantize_image_map {A : Arith} {C : CastLaws A} (u : unspec) cb a i pxs w r i' w' :
  image_ok i pxs -> quantize u cb a (i, w) = (r, (i', w')) ->
  exists r1 h1 w1, add_image u cb a (hist_new a, i, w) = (r1, (h1, i', w1)).
Proof.
  intros I E. unfold quantize in E. destruct (add_image u cb a (hist_new a, i, w)) as [[[]|e|] [[h1 i1] w1]].
  - destruct (quantize_internal u cb a false (h1, w1)) as [r2 [h2 w2]]. inversion E; subst. eauto.
  - inversion E; subst. eauto.
  - inversion E; subst. eauto.
Qed.
Lemma user_map {A : Arith} {C : CastLaws A} (u : unspec) cb a i pxs w r i' w' :
  (forall r1 h1 w1, i_imp i = None -> add_image u cb a (hist_new a, i, w) = (r1, (h1, i', w1)) ->
     forall m, i_imp i' = Some m -> Forall (fun v => 80 <= v <= 255)%Z m) ->
  image_ok i pxs -> quantize u cb a (i, w) = (r, (i', w')) -> nothing i (i_imp i') ->
  nothing i (i_imp i).
Proof.
  intros L I E (F & m & M & Z). destruct (quantize_image_map u cb a i pxs w r i' w' I E) as (r1 & h1 & w1 & E1).
  destruct (add_image_spec u cb a (hist_new a) i w pxs I) as (i1 & W1 & H1 & I1 & _ & _ & _ & S & _ & Q). cbv zeta in Q. rewrite Q in E1.
  assert (i' = i1) as -> by (destruct (cb _ _); [|destruct (all_rgba_rows _)]; inversion E1; auto).
  split; auto. destruct (i_imp i) as [m0|] eqn:EI.
  - exists m. split; auto. rewrite (S m0 eq_refl) in M. congruence.
  - exfalso. rewrite <- Q in E1. pose proof (L r1 h1 w1 eq_refl E1 m M) as B. destruct (im_imp _ _ I1 m M) as [Lm _].
    pose proof (sh_w _ _ (im_px _ _ I1)) as X. pose proof (sh_h _ _ (im_px _ _ I1)) as Y. change (d_w (i_px i1)) with (i_w i1) in X. change (d_h (i_px i1)) with (i_h i1) in Y.
    destruct m as [|v m]; [cbn in Lm; nia|]. apply Forall_cons_iff in B as [B _]. apply Forall_cons_iff in Z as [Z _]. lia.
Qed.
