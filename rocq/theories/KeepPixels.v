(** When every importance is positive, every pixel of the image is counted. *)
From Verif Require Import Base BaseFacts Arith Order Pal World Attr Hist Nearest Kmeans Blur ImageM Quant Remap SpecImage SpecHist BlurFacts ImageFacts AttrFacts HistFacts Api ApiFacts.
Open Scope nat_scope.
Section KeepPixels.
Context {A : Arith} {C : CastLaws A}.

Lemma in_combine_pos {T} (l : list T) (m : list Z) x : In x l -> length m = length l -> exists n, In (x, n) (combine l m) /\ In n m.
Proof.
  revert m. induction l as [|y l IH]; intros [|n m] H L; cbn in *; try contradiction; try discriminate.
  destruct H as [->|H]; eauto. destruct (IH m H) as (k & K1 & K2); [lia|]. eauto.
Qed.
Lemma in_repeat_pos {T} (l : list T) x (v : Z) : In x l -> In (x, v) (combine l (repeat v (length l))).
Proof. induction l; cbn; [tauto|]. intros [->|H]; auto. Qed.
Lemma zsum_ge (l : list Z) v : Forall (fun x => 0 <= x)%Z l -> In v l -> (v <= zsum l)%Z.
Proof.
  intros F. induction F as [|x l Hx F IH]; cbn; [tauto|]. intros [->|H].
  - assert (0 <= zsum l)%Z; [|lia]. clear -F. induction F; cbn; lia.
  - specialize (IH H). lia.
Qed.
Lemma expected_has b (l : additions) c v : Forall addition_ok l -> In (c, v) l -> (0 < v <= U32_MAX)%Z ->
  exists n c', expected b l (posterized b c) = Some (n, c') /\ (v <= n)%Z.
Proof.
  intros F H V. unfold expected.
  assert (IN : In (c, v) (falling_on b l (posterized b c))).
  { apply filter_In. split; auto. cbn [fst snd]. rewrite (proj2 (rgba_eqb_eq _ _) eq_refl).
    destruct (Z.eqb_spec v 0); [lia|reflexivity]. }
  assert (P : Forall (fun x => 0 <= x)%Z (map snd (falling_on b l (posterized b c)))).
  { apply Forall_map, Forall_forall. intros x Hx. apply filter_In in Hx as [Hx _]. rewrite Forall_forall in F. apply (F x Hx). }
  pose proof (zsum_ge _ v P (in_map snd _ _ IN)) as Z.
  destruct (falling_on b l (posterized b c)) as [|e t]; [destruct IN|]. do 2 eexists. split; [reflexivity|]. lia.
Qed.

Lemma pixels_kept u cb a i pxs w h' i' w' : usable a -> image_ok i pxs ->
  add_image u cb a (hist_new a, i, w) = (Ok tt, (h', i', w')) -> hg_bits h' = posterize_bits a ->
  (forall m, i_imp i' = Some m -> Forall (fun v => 80 <= v <= 255)%Z m) ->
  forall r c, In r pxs -> In c r ->
  exists n c', hm_get (hg_map h') (posterized (posterize_bits a) c) = Some (n, c') /\ (80 <= n)%Z.
Proof.
  intros U I E B L r c Hr Hc.
  pose proof (usable_bits a U) as UB.
  pose proof (histogram_counts u a [HImage a cb i pxs w] ltac:(lia)) as HC.
  specialize (HC (Forall_cons (HImage a cb i pxs w) I (Forall_nil _))). cbn [hrun hstep hmade] in HC. rewrite E in HC. rewrite app_nil_r in HC.
  destruct (HC B) as [_ G]. rewrite G. clear HC G.
  assert (IC : In c (concat pxs)) by (apply in_concat; eauto).
  destruct (add_image_spec u cb a (hist_new a) i w pxs I) as (i2 & W1 & W2 & I2 & _ & _ & _ & _ & _ & EA). cbv zeta in EA.
  assert (i2 = i'). { rewrite EA in E. destruct (cb _ _); [congruence|]. destruct (all_rgba_rows _); congruence. } subst i2. clear EA.
  assert (F : Forall addition_ok (image_additions (i_w i) pxs (i_imp i'))).
  { apply image_additions_ok.
    - eapply Forall_impl; [|apply (sh_rows _ _ (im_px _ _ I))]. cbn. tauto.
    - intros m Hm. apply (im_imp _ _ I2 m Hm). }
  assert (X : exists v, In (c, v) (image_additions (i_w i) pxs (i_imp i')) /\ (80 <= v <= 255)%Z).
  { unfold image_additions. destruct (i_imp i') as [m|] eqn:M.
    - assert (LM : length m = length (concat pxs)).
      { destruct (im_imp _ _ I2 m M) as [LM _]. rewrite LM. pose proof (im_px _ _ I) as S.
        rewrite (concat_rows_length (i_w i)).
        - rewrite W1, W2. f_equal. symmetry. apply (sh_len _ _ S).
        - eapply Forall_impl; [|apply (sh_rows _ _ S)]. cbn. tauto. }
      destruct (in_combine_pos (concat pxs) m c IC LM) as (v & V1 & V2). exists v. split; auto.
      pose proof (L m eq_refl) as LL. rewrite Forall_forall in LL. apply (LL v V2).
    - exists 255%Z. split; [apply in_repeat_pos; auto|lia]. }
  destruct X as (v & V1 & V2). destruct (expected_has (posterize_bits a) _ c v F V1) as (n & c' & X1 & X2); [unfold U32_MAX; lia|].
  exists n, c'. split; auto. lia.
Qed.
End KeepPixels.
