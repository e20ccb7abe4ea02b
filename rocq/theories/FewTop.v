(** An image of few colours comes back unchanged, in any arithmetic that meets
    the conditions listed in the section. *)
From Verif Require Import Base BaseFacts Arith Order Pal World Attr Hist MedianCut Nearest Kmeans Blur ImageM Quant Remap
  SpecHist SpecImage BlurFacts ImageFacts HistFacts MedianFacts SearchFacts NearFacts TreeFacts QuantFacts RemapFacts AttrFacts Api ApiFacts ResultFacts ReuseFacts
  PalFacts DitherZero LosslessReal FewFacts ContrastLow FewImage LosslessTop FewRemap.
Open Scope nat_scope.

Section FewTop.
Context {A : Arith} {CL : CastLaws A}.
Variables (good : px -> Prop) (near : px -> px -> Prop) (avg_of : Z -> coloravg -> px -> Prop) (cap : Z) (L : avg_laws good near avg_of cap).
Variables (K : f32 -> Prop) (Z0 : zero_laws K good) (LOW : low_px good).
Variables (i : image) (pxs : list (list rgba)) (I : image_ok i pxs).
Notation pix c := (from_rgba (gamma_lut (d_gamma (i_px i))) c).
Hypothesis GP : (d0 <d d_gamma (i_px i)) = true.
Hypothesis GOOD : forall c, rgba_ok c -> good (pix c).
Hypothesis VIS : forall c c', rgba_ok c -> rgba_ok c' -> visible c = visible c' -> pix c = pix c'.
Hypothesis SEP : forall c f, rgba_ok c -> rgba_ok f -> visible c <> visible f ->
  fcmp (diff (pix f) (pix f)) (diff (pix c) (pix f)) <> Gt /\ fcmp (diff (pix c) (pix f)) (diff (pix f) (pix f)) = Gt.
Hypothesis BACK : forall c p, rgba_ok c -> near (pix c) p -> to_rgb p (d_gamma (i_px i)) = visible c.
Hypothesis HIT : forall (p : palf) n, (forall k, In k (colors_of p) -> exists c, rgba_ok c /\ k = pix c) -> nearest_new p = Ok n ->
  forall c, In c (colors_of p) -> finds n c /\ forall g, snd (search n c g) = f0.
Hypothesis DIV : (d0 /d dofZ (wrap32 (Z.of_nat (i_w i) * Z.of_nat (i_h i)))) = d0.
Hypothesis CAP : (Z.of_nat (i_w i) * Z.of_nat (i_h i) <= cap)%Z.

Lemma px_ok r c : In r (i_fixed i :: pxs) -> In c r -> rgba_ok c.
Proof.
  intros [<-|Hr] Hc; [destruct (im_fixed _ _ I) as [_ FR]; rewrite Forall_forall in FR; auto|]. pose proof (sh_rows _ _ (im_px _ _ I)) as SR. rewrite Forall_forall in SR. destruct (SR r Hr) as [_ SR']. rewrite Forall_forall in SR'. auto.
Qed.

Lemma shown_near c p w : rgba_ok c -> near (pix c) p -> same_look c (snd (int_entry (d_gamma (i_px i)) 0 (p, w : f32))).
Proof.
  intros R N. unfold int_entry. cbn [fst snd]. rewrite map0, (BACK c p R N). unfold same_look, visible.
  destruct (ca c =? 0)%Z eqn:E; [|rewrite E; reflexivity]. cbn [ca]. destruct (_ && _)%bool; reflexivity.
Qed.
Lemma kept_near c p w : rgba_ok c -> near (pix c) p -> fst (fst (int_entry (d_gamma (i_px i)) 0 (p, w : f32))) = pix c.
Proof.
  intros R N. unfold int_entry. cbn [fst snd]. rewrite map0, (BACK c p R N). apply VIS; auto; [apply visible_ok; auto|apply visible2].
Qed.

Lemma few_kept u cb a w q i' w' ks : unspec_ok u -> usable a -> NoDup (map visible (i_fixed i)) -> image_colors (i_fixed i :: pxs) ks ->
  posterize_bits a = 0%Z -> (a_target_mse a =d d0) = true -> length ks <= a_max_colors a -> (forall m, i_imp i = Some m -> Forall (fun z => z <> 0%Z) m) ->
  quantize u cb a (i, w) = (Ok q, (i', w')) -> 0 < length (q_pal q) <= 256 ->
  q_err q = Some d0 /\
  (forall s, In s (fst (palette q)) -> exists r c, In r (i_fixed i :: pxs) /\ In c r /\ same_look c s) /\
  (forall r c, In r (i_fixed i :: pxs) -> In c r -> exists s, In s (fst (palette q)) /\ same_look c s) /\
  forall q1 u2 rcb buf w1 q2 i2 out w2, i_bg i = None -> (q1 = q \/ exists v, set_dithering_level q v = Ok q1) -> levels K q1 -> unspec_ok u2 ->
    remap_into u2 rcb q1 i' buf w1 = (Ok tt, (q2, i2, out, w2)) ->
    option_map snd (q_rem q2) = Some (Some d0) /\
    forall y x r c, nth_error pxs y = Some r -> nth_error r x = Some c ->
    exists k s, nth_error out (y * i_w i + x) = Some k /\ nth_error (fst (palette q2)) k = Some s /\ same_look c s.
Proof.
  intros U Ha FN KF PB TM LK IMP E LP.
  assert (HH : i_h i' = i_h i /\ forall m, i_imp i' = Some m -> Forall (fun z => z <> 0%Z) m).
  { pose proof E as E0. unfold quantize in E0. destruct (add_image u cb a (hist_new a, i, w)) as [r [[h2 i2] w2]] eqn:EA.
    assert (i2 = i') by (destruct r; try discriminate; destruct (quantize_internal _ _ _ _ _) as [? [? ?]]; congruence). subst i2.
    destruct (add_image_spec u cb a (hist_new a) i w pxs I) as (i2 & _ & HI & _ & _ & _ & _ & KI & _ & EA2). cbv zeta in EA2. rewrite EA in EA2.
    assert (i2 = i').
    { destruct (cb _ _); [congruence|]. destruct (all_rgba_rows _); try congruence. }
    subst i2. split; [exact HI|]. intros m M. destruct (i_imp i) as [m0|] eqn:EM.
    - pose proof (KI _ eq_refl) as Q. rewrite Q in M. apply IMP. congruence.
    - pose proof (add_image_low good LOW u cb a _ i w pxs _ _ _ _ I (fun r c Hr Hc => GOOD c (px_ok r c (or_intror Hr) Hc)) EM EA m M) as LO.
      eapply Forall_impl; [|exact LO]. unfold BlurFacts.in_range. intros z Hz. lia. }
  destruct HH as [HI' IMP'].
  assert (KS : image_colors pxs ks) by (intros r c Hr Hc; apply (KF r c); [right|]; auto).
  assert (FK : Forall (fun f => In (visible f) ks) (i_fixed i)) by (apply Forall_forall; intros f Hf; apply (KF (i_fixed i) f); [left|]; auto).
  destruct (quantize_few u cb a i pxs w q i' w' ks U Ha I FN FK VIS SEP PB TM GP KS LK IMP' E) as (Q1 & Q2 & Q3 & Q4 & Q5 & I' & WI & BG & G & _ & Q6' & Q8').
  assert (Q6 : forall k, In k (colors_of (q_pal q)) -> exists r c, In r (i_fixed i :: pxs) /\ In c r /\ k = pix c).
  { intros k Hk. destruct (Q6' k Hk) as (c & [Hc|Hc] & E'); [apply in_concat in Hc as (r & Hr & Hc)|exists (i_fixed i)]; eauto 6 using in_eq, in_cons. }
  assert (Q8 : forall r c, In r (i_fixed i :: pxs) -> In c r -> In (pix c) (colors_of (q_pal q))).
  { intros r c [<-|Hr] Hc; apply Q8'; [right; auto|left; apply in_concat; eauto]. }
  assert (GQ : Forall good (colors_of (q_pal q))).
  { apply Forall_forall. intros k Hk. destruct (Q6 k Hk) as (r & c & Hr & Hc & ->). apply GOOD. apply (px_ok r c); auto. }
  assert (PALQ : fst (palette q) = snd (init_int_palette (q_pal q) (d_gamma (i_px i)) 0)).
  { unfold palette. rewrite Q4, Q5, Q2, Q3. reflexivity. }
  assert (SH : forall k c (p : palf) pc, rgba_ok c -> nth_error (colors_of p) k = Some pc -> near (pix c) pc ->
     exists s, nth_error (snd (init_int_palette p (d_gamma (i_px i)) 0)) k = Some s /\ same_look c s).
  { intros k c p pc R Hk Nk. unfold colors_of in Hk. rewrite nth_error_map in Hk. destruct (nth_error p k) as [[pc' wt]|] eqn:Ek; [|discriminate].
    cbn in Hk. assert (pc' = pc) by congruence. subst pc'. exists (snd (int_entry (d_gamma (i_px i)) 0 (pc, wt))).
    split; [|apply shown_near; auto]. unfold init_int_palette. cbn [snd]. apply (map_nth_error (fun e => snd (int_entry (d_gamma (i_px i)) 0 e))). exact Ek. }
  split; [exact Q1|]. split; [|split].
  - intros s Hs. rewrite PALQ in Hs. apply In_nth_error in Hs as (k & Hk).
    assert (Lk : k < length (colors_of (q_pal q))).
    { unfold colors_of. rewrite map_length. assert (HH : k < length (snd (init_int_palette (q_pal q) (d_gamma (i_px i)) 0))) by (apply nth_error_Some; congruence).
      cbn [init_int_palette snd] in HH. rewrite map_length in HH. exact HH. }
    destruct (nth_error (colors_of (q_pal q)) k) as [pc|] eqn:Ep; [|apply nth_error_None in Ep; lia].
    destruct (Q6 pc (nth_error_In _ _ Ep)) as (r & c & Hr & Hc & ->). exists r, c. split; auto. split; auto.
    destruct (SH k c (q_pal q) _ (px_ok r c Hr Hc) Ep) as (s' & E' & SL); [apply (av_refl _ _ _ _ L); eauto using px_ok|]. replace s with s'; auto. congruence.
  - intros r c Hr Hc. pose proof (Q8 r c Hr Hc) as IN. apply In_nth_error in IN as (k & Hk).
    destruct (SH k c (q_pal q) _ (px_ok r c Hr Hc) Hk) as (s & E' & SL); [apply (av_refl _ _ _ _ L); eauto using px_ok|]. exists s. split; auto. rewrite PALQ. eapply nth_error_In; eauto.
  - intros q1 u2 rcb buf w1 q2 i2 out w2 B HQ LV U2 ER.
    assert (Same : q_pal q1 = q_pal q /\ q_gamma q1 = q_gamma q /\ q_post q1 = q_post q /\ q_err q1 = q_err q).
    { destruct HQ as [->|(v & EV)]; auto. unfold set_dithering_level in EV. destruct (negb _); inversion EV; auto. }
    destruct Same as (S1 & S2 & S3 & S4).
    assert (ST : forall p : palf, Forall2 near (colors_of (q_pal q1)) (colors_of p) ->
       colors_of (fst (init_int_palette p (q_gamma q1) (q_post q1))) = colors_of (q_pal q1)).
    { intros p F. rewrite S1 in *. rewrite S2, S3, Q2, Q3. unfold init_int_palette. cbn [fst]. unfold colors_of in *. rewrite !map_map.
      clear Q6'. assert (Q6' : forall k, In k (map fst (q_pal q)) -> exists r c, In r (i_fixed i :: pxs) /\ In c r /\ k = pix c) by exact Q6.
      clear - F Q6' BACK VIS I. remember (map fst (q_pal q)) as l eqn:El. clear El. remember (map fst p) as l2 eqn:E2. revert p E2.
      induction F as [|x y l l2 H F IH]; intros p E2; destruct p as [|[pc wt] p]; try discriminate; cbn [map]; [reflexivity|].
      cbn [map fst] in E2. inversion E2; subst. f_equal.
      - destruct (Q6' x (or_introl eq_refl)) as (r & c & Hr & Hc & ->). apply kept_near; auto. eapply px_ok; eauto.
      - apply IH; auto. intros k Hk. apply Q6'. right. auto. }
    destruct (exact_remap good near avg_of cap L u2 U2 K Z0 CL q1) with (i := i') (pxs := pxs) (12 := ER) as (p & P1 & P2 & P3); auto.
    + rewrite S1. exact LP.
    + rewrite S1. exact GQ.
    + intros p n EC N. apply HIT; auto. intros k Hk. rewrite EC, S1 in Hk. destruct (Q6 k Hk) as (r & c & Hr & Hc & ->). eauto using px_ok.
    + rewrite BG. exact B.
    + intros r c Hr Hc. rewrite S1, G. apply (Q8 r c); [right|]; auto.
    + rewrite WI, HI'. exact DIV.
    + rewrite WI, HI'. exact CAP.
    + rewrite S4. exact Q1.
    + split; [rewrite P2; reflexivity|]. intros y x r c Y X. destruct (P3 y x r c Y X) as (k & K1 & K2). rewrite G, S1 in K2. rewrite WI in K1. rewrite S1 in P1.
      destruct (Forall2_nth2 near _ _ k _ P1 K2) as (pc & Pk & Np).
      assert (RC : rgba_ok c) by (apply (px_ok r c); [right|]; eapply nth_error_In; eauto).
      destruct (SH k c p pc RC Pk Np) as (s & E' & SL).
      exists k, s. split; auto. split; auto. unfold palette. rewrite P2. cbn [fst]. rewrite S2, S3, Q2, Q3. exact E'.
Qed.
End FewTop.
