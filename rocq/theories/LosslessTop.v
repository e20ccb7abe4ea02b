(** Exact arithmetic: an image of few colours comes back unchanged. *)
From Verif Require Import Base BaseFacts Arith Order Pal World Attr Hist MedianCut Nearest Kmeans Blur ImageM Quant Remap
  SpecHist SpecImage BlurFacts ImageFacts HistFacts MedianFacts SearchFacts NearFacts TreeFacts QuantFacts RemapFacts AttrFacts Api ApiFacts ResultFacts ReuseFacts
  PalFacts FixedPlace RealArith NearReal SearchReal DitherZero LosslessReal FewFacts ContrastLow FewImage RoundReal.
From Coq Require Import Reals Lra.
Open Scope nat_scope.

(** [s] is the colour [c], or both are invisible. *)
Definition same_look (c s : rgba) : Prop := if (ca c =? 0)%Z then ca s = 0%Z else s = c.

Section LosslessTop.
Variable big : R.
Hypothesis Hb : (1 <= big)%R.
Let A : Arith := real big.
Local Existing Instance A.

Lemma real_low_px : low_px (fun _ : px => True).
Proof.
  intros p c n pl nl _ _ _ _ _. unfold contrast_px. cbv zeta. cbn [fst].
  match goal with |- context [ffma (?z *f ?z) _ _] => set (x := z) end.
  change (80 <= to_uint 255 (x * x * 176 + 80))%Z. unfold to_uint.
  assert (X : (0 <= x * x)%R) by (apply Rle_0_sqr).
  destruct (base_Int_part (x * x * 176 + 80)) as [_ H]. assert (K : (IZR 79 < IZR (Int_part (x * x * 176 + 80)))%R) by lra.
  apply lt_IZR in K. lia.
Qed.

Lemma default_gamma_pos : (d0 <d dlit 45455 100000) = true.
Proof. apply Rltb_lt. cbn. lra. Qed.

Lemma back_visible g c : (0 < g)%R -> rgba_ok c -> to_rgb (from_rgba (gamma_lut (g : f64)) c) g = visible c.
Proof. intros G R. exact (round_trip big g c G R). Qed.
Lemma from_visible g c c' : visible c = visible c' -> from_rgba (gamma_lut (g : f64)) c = from_rgba (gamma_lut (g : f64)) c'.
Proof.
  intros V. unfold visible in V. destruct (Z.eqb_spec (ca c) 0) as [H|H], (Z.eqb_spec (ca c') 0) as [H'|H'].
  - etransitivity; [exact (from_clear big g c H)|symmetry; exact (from_clear big g c' H')].
  - subst c'. contradiction H'. reflexivity.
  - subst c. contradiction H. reflexivity.
  - subst. reflexivity.
Qed.
Lemma visible_ok c : rgba_ok c -> rgba_ok (visible c).
Proof. intros R. unfold visible. destruct (ca c =? 0)%Z; auto. unfold rgba_ok, byte. cbn. lia. Qed.
Lemma visible2 c : visible (visible c) = visible c.
Proof. unfold visible. destruct (ca c =? 0)%Z eqn:E; cbn; auto. rewrite E. auto. Qed.

Lemma map0 c : rgba_map (fun v : Z => posterize_channel v 0) c = c.
Proof. destruct c; reflexivity. Qed.
Lemma stable_of q : q_post q = 0%Z -> (0 < q_gamma q)%R ->
  (forall k, In k (colors_of (q_pal q)) -> exists c, rgba_ok c /\ k = from_rgba (gamma_lut (q_gamma q)) c) -> stable big q.
Proof.
  intros P G K0 p E. change (colors_of (fst (init_int_palette p (q_gamma q) (q_post q))) = colors_of (q_pal q)). transitivity (colors_of p); [|exact E].
  assert (K : forall k, In k (colors_of p) -> exists c, rgba_ok c /\ k = from_rgba (gamma_lut (q_gamma q)) c).
  { intros k Hk. apply K0. exact (eq_ind _ (fun l => In k l) Hk _ E). }
  clear E K0. rewrite P. cbn [init_int_palette fst]. unfold colors_of in *. rewrite map_map. apply map_ext_in.
  intros e He. unfold int_entry. cbn [fst snd]. rewrite map0. destruct (K (fst e)) as (c & Rc & ->); [apply in_map; auto|].
  rewrite back_visible by auto. apply from_visible. apply visible2.
Qed.
Lemma shown_entry (p : palf) (g : R) k c : (0 < g)%R -> rgba_ok c -> nth_error (colors_of p) k = Some (from_rgba (gamma_lut (g : f64)) c) ->
  exists s, nth_error (snd (init_int_palette p g 0)) k = Some s /\ same_look c s.
Proof.
  intros G R E. unfold colors_of in E. rewrite nth_error_map in E. destruct (nth_error p k) as [[pc w]|] eqn:Ek; [|discriminate].
  cbn in E. assert (pc = from_rgba (gamma_lut (g : f64)) c) by congruence. subst pc. clear E. cbn [init_int_palette snd]. rewrite nth_error_map, Ek.
  eexists. split; [reflexivity|]. unfold int_entry. cbn [fst snd]. rewrite map0, back_visible by auto. unfold same_look, visible.
  destruct (ca c =? 0)%Z eqn:Z0.
  - cbn [ca]. destruct (_ && _)%bool; reflexivity.
  - rewrite Z0. reflexivity.
Qed.

Lemma sep_real g c f : (0 < g)%R -> rgba_ok c -> rgba_ok f -> visible c <> visible f ->
  let pix := from_rgba (gamma_lut (g : f64)) in
  fcmp (diff (pix f) (pix f)) (diff (pix c) (pix f)) <> Gt /\ fcmp (diff (pix c) (pix f)) (diff (pix f) (pix f)) = Gt.
Proof.
  intros G R R' V pix. assert (Z : diff (pix f) (pix f) = 0%R) by exact (diff_self big (pix f)).
  assert (P : (0 < diff (pix c) (pix f))%R).
  { destruct (Rle_lt_or_eq_dec _ _ (diff_pos big (pix c) (pix f))) as [H|H]; [exact H|]. exfalso. apply V.
    rewrite <- (back_visible g c G R), <- (back_visible g f G R'). fold pix. symmetry in H. apply (diff_zero big) in H.
    change (pix c = pix f) in H. rewrite H. reflexivity. }
  rewrite Z. apply fcmp_of; [apply Rltb_lt; exact P|].
  match goal with |- ?b = false => destruct b eqn:X; auto end. apply Rltb_lt in X. exfalso. apply (Rlt_irrefl 0). exact (Rlt_trans _ _ _ P X).
Qed.

Lemma lossless u cb a i pxs w q i' w' ks : unspec_ok u -> usable a -> image_r i pxs ->
  NoDup (map visible (i_fixed i)) -> image_colors (i_fixed i :: pxs) ks ->
  posterize_bits a = 0%Z -> a_target_mse a = 0%R -> length ks <= a_max_colors a ->
  (forall m, i_imp i = Some m -> Forall (fun z => z <> 0%Z) m) ->
  quantize u cb a (i, w) = (Ok q, (i', w')) ->
  q_err q = Some 0%R /\
  (forall s, In s (fst (palette q)) -> exists r c, In r (i_fixed i :: pxs) /\ In c r /\ same_look c s) /\
  (forall r c, In r (i_fixed i :: pxs) -> In c r -> exists s, In s (fst (palette q)) /\ same_look c s) /\
  forall q1 u2 rcb buf w1 q2 i2 out w2, i_bg i = None -> (q1 = q \/ exists v, set_dithering_level q v = Ok q1) -> unspec_ok u2 ->
    remap_into u2 rcb q1 i' buf w1 = (Ok tt, (q2, i2, out, w2)) ->
    option_map snd (q_rem q2) = Some (Some 0%R) /\
    forall y x r c, nth_error pxs y = Some r -> nth_error r x = Some c ->
    exists k s, nth_error out (y * i_w i + x) = Some k /\ nth_error (fst (palette q2)) k = Some s /\ same_look c s.
Proof.
  intros U Ha I FN KF PB TM LK IMP E. pose proof (reach_image _ _ I) as IO. pose proof (image_gamma_kept _ _ I default_gamma_pos) as GP.
  assert (TM' : (a_target_mse a =d d0) = true) by (apply Reqb_eq; exact TM).
  assert (IMP' : forall m, i_imp i' = Some m -> Forall (fun z => z <> 0%Z) m).
  { intros m M. destruct (i_imp i) as [m0|] eqn:EM.
    - destruct (add_image_spec u cb a (hist_new a) i w pxs IO) as (i2 & _ & _ & _ & _ & _ & _ & KI & _ & EA). cbv zeta in EA.
      pose proof (KI _ EM) as ->. unfold quantize in E. rewrite EA in E. destruct (cb _ _); [discriminate|]. destruct (all_rgba_rows _); try discriminate.
      destruct (quantize_internal _ _ _ _ _) as [? [? ?]]. inversion E; subst. apply IMP. congruence.
    - unfold quantize in E. destruct (add_image u cb a (hist_new a, i, w)) as [r [[h2 i2] w2]] eqn:EA.
      assert (i2 = i') by (destruct r; try discriminate; destruct (quantize_internal _ _ _ _ _) as [? [? ?]]; congruence). subst i2.
      pose proof (add_image_low (fun _ => True) real_low_px u cb a _ i w pxs _ _ _ _ IO (fun _ _ _ _ => Logic.I) EM EA m M) as LOW.
      eapply Forall_impl; [|exact LOW]. unfold BlurFacts.in_range. intros z Hz. lia. }
  assert (GR : (0 < d_gamma (i_px i))%R) by (apply Rltb_lt in GP; exact GP).
  assert (K : image_colors pxs ks) by (intros r c Hr Hc; apply (KF r c); [right|]; auto).
  assert (FK : Forall (fun f => In (visible f) ks) (i_fixed i)) by (apply Forall_forall; intros f Hf; apply (KF (i_fixed i) f); [left|]; auto).
  destruct (quantize_few u cb a i pxs w q i' w' ks U Ha IO FN FK (fun c c' _ _ V => from_visible _ c c' V) (fun c f R R' V => sep_real _ c f GR R R' V)
    PB TM' GP K LK IMP' E) as (Q1 & Q2 & Q3 & Q4 & Q5 & I' & WI & BG & G & _ & Q6' & Q8').
  clear GP. rename GR into GP.
  assert (OKS : forall r c, In r (i_fixed i :: pxs) -> In c r -> rgba_ok c).
  { intros r c [<-|Hr] Hc; [destruct (im_fixed _ _ IO) as [_ FR]; rewrite Forall_forall in FR; auto|].
    pose proof (sh_rows _ _ (im_px _ _ IO)) as SR. rewrite Forall_forall in SR. destruct (SR r Hr) as [_ SR']. rewrite Forall_forall in SR'. auto. }
  assert (Q6 : forall k, In k (colors_of (q_pal q)) -> exists r c, In r (i_fixed i :: pxs) /\ In c r /\ k = from_rgba (gamma_lut (d_gamma (i_px i))) c).
  { intros k Hk. destruct (Q6' k Hk) as (c & [Hc|Hc] & E'); [apply in_concat in Hc as (r & Hr & Hc)|exists (i_fixed i)]; eauto 6 using in_eq, in_cons. }
  assert (Q8 : forall r c, In r (i_fixed i :: pxs) -> In c r -> In (from_rgba (gamma_lut (d_gamma (i_px i))) c) (colors_of (q_pal q))).
  { intros r c [<-|Hr] Hc; apply Q8'; [right; auto|left; apply in_concat; eauto]. }
  assert (PALQ : fst (palette q) = snd (init_int_palette (q_pal q) (d_gamma (i_px i)) 0)).
  { unfold palette. rewrite Q4, Q5, Q2, Q3. reflexivity. }
  split; [exact Q1|]. split; [|split].
  - intros s Hs. rewrite PALQ in Hs. apply In_nth_error in Hs as (k & Hk).
    assert (Lk : k < length (colors_of (q_pal q))).
    { unfold colors_of. rewrite map_length. assert (HH : k < length (snd (init_int_palette (q_pal q) (d_gamma (i_px i)) 0))) by (apply nth_error_Some; congruence).
      cbn [init_int_palette snd] in HH. rewrite map_length in HH. exact HH. }
    destruct (nth_error (colors_of (q_pal q)) k) as [pc|] eqn:Ep; [|apply nth_error_None in Ep; lia].
    destruct (Q6 pc (nth_error_In _ _ Ep)) as (r & c & Hr & Hc & ->). exists r, c. split; auto. split; auto.
    destruct (shown_entry _ _ _ _ GP (OKS r c Hr Hc) Ep) as (s' & E' & L). replace s with s'; auto. congruence.
  - intros r c Hr Hc. pose proof (Q8 r c Hr Hc) as IN. apply In_nth_error in IN as (k & Hk).
    destruct (shown_entry _ _ _ _ GP (OKS r c Hr Hc) Hk) as (s & E' & L). exists s. split; auto. rewrite PALQ. eapply nth_error_In; eauto.
  - intros q1 u2 rcb buf w1 q2 i2 out w2 B HQ U2 ER.
    assert (Same : q_pal q1 = q_pal q /\ q_gamma q1 = q_gamma q /\ q_post q1 = q_post q /\ q_err q1 = q_err q).
    { destruct HQ as [->|(v & EV)]; auto. unfold set_dithering_level in EV. destruct (negb _); inversion EV; auto. }
    destruct Same as (S1 & S2 & S3 & S4).
    assert (LP : 0 < length (q_pal q) <= 256) by exact (reach_pal _ _ (rr_image u cb a i pxs w q _ U Ha I E)).
    assert (LP1 : 0 < length (q_pal q1) <= 256) by (rewrite S1; exact LP).
    assert (ST1 : stable big q1).
    { apply stable_of; [congruence| |].
      - rewrite S2, Q2. exact GP.
      - intros k Hk. rewrite S1 in Hk. destruct (Q6 k Hk) as (r & c & Hr & Hc & ->). exists c. split; [eauto|]. rewrite S2, Q2. reflexivity. }
    assert (CV : forall r c, In r pxs -> In c r -> In (from_rgba (gamma_lut (d_gamma (i_px i'))) c) (colors_of (q_pal q1))).
    { intros r c Hr Hc. rewrite S1, G. apply (Q8 r c); [right|]; auto. }
    destruct (exact_remap big Hb u2 U2 rcb q1 i' pxs buf w1 q2 i2 out w2 I' (eq_trans BG B) LP1 (eq_trans S4 Q1) ST1 CV ER) as (p & P1 & P2 & P3).
    change (q_rem q2 = Some (snd (init_int_palette (p : palf) (q_gamma q1) (q_post q1)), Some 0%R)) in P2.
    assert (P3' : forall y x r c, nth_error pxs y = Some r -> nth_error r x = Some c -> exists k, nth_error out (y * i_w i' + x) = Some k /\
      nth_error (colors_of (p : palf)) k = Some (from_rgba (gamma_lut (d_gamma (i_px i'))) c)) by exact P3. clear P3. rename P3' into P3.
    split; [rewrite P2; reflexivity|]. intros y x r c Y X. destruct (P3 y x r c Y X) as (k & K1 & K2). rewrite G in K2. rewrite WI in K1.
      destruct (shown_entry p (d_gamma (i_px i)) k c GP) as (s & E' & L); auto.
      { apply (OKS r c); [right|]; eapply nth_error_In; eauto. }
      exists k, s. split; auto. split; auto. unfold palette. rewrite P2. cbn [fst]. rewrite S2, S3, Q2, Q3. exact E'.
Qed.
End LosslessTop.
