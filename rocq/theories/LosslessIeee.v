(** Floating point: an image of few colours comes back unchanged. *)
From Coq Require Import Reals Lra.
From Verif Require Import Base BaseFacts Arith Ieee IeeeFacts Order Pal World Attr Hist MedianCut Nearest Kmeans Blur ImageM Quant Remap
  SpecHist SpecImage SpecPow BlurFacts ImageFacts HistFacts SearchFacts NearFacts TreeFacts QuantFacts RemapFacts AttrFacts Api ApiFacts ResultFacts ReuseFacts
  PalFacts FixedPlace DitherZero LosslessReal FewFacts ContrastLow FewImage LosslessTop FewRemap FewTop BgTop
  LnFacts ColorFacts SmallFloat MedianIeee AvgIeee MetricIeee NearIeee ContrastIeee BgIeee SimdFacts FiniteRemap ApartIeee ThinReal ThinIeee AvgSame BackIeee.
From Flocq Require Import IEEE754.BinarySingleNaN Core.Core.
Open Scope R_scope.

Section I.
Variables (pow32 : b32 -> b32 -> b32) (pow64 : b64 -> b64 -> b64) (Acc : pow32_accurate pow32) (PU : pow32_unit pow32).
Notation Ar := (ieee pow32 pow64).
Local Existing Instance ieee.
Notation pix g c := (@from_rgba Ar (@gamma_lut Ar g) c).

Definition good (c : @px Ar) : Prop := cvalues pow32 pow64 c /\ ContrastIeee.unit_px pow32 pow64 c.
Lemma pix_good g c : gamma_fits g -> rgba_ok c -> good (pix g c).
Proof. intros G R. split; [apply (pixel_values pow32 pow64 Acc PU); auto|]. apply (pixel_unit pow32 pow64 PU); auto. apply fits_pos; auto. Qed.

Lemma ieee_avg_laws : @avg_laws Ar good (near_px pow32 pow64) (avg_of pow32 pow64) big_n.
Proof.
  constructor.
  - intros c [V _]. apply avg_new; auto.
  - intros N N' a c. apply avg_more.
  - intros N a c v [V _]. apply avg_one; auto.
  - intros N1 N2 a b c. apply avg_both.
  - intros N a c pop HN [V _] H. eapply avg_final; eauto.
  - intros c [V _]. apply near_px_refl; auto.
  - vm_compute. reflexivity.
  - vm_compute. reflexivity.
Qed.
Lemma good_zero : @zero_laws Ar plus good.
Proof. destruct (ieee_zero_laws pow32 pow64) as [H1 H2 H3 H4 H5 H6]. constructor; auto. intros c [_ V]. auto. Qed.
Lemma good_low : @low_px Ar good.
Proof. intros p c n pl nl [_ H1] [_ H2] [_ H3] [_ H4] [_ H5]. apply (ieee_low_px pow32 pow64); auto. Qed.

Lemma pix_visible g c c' : gamma_fits g -> rgba_ok c -> rgba_ok c' -> visible c = visible c' -> pix g c = pix g c'.
Proof.
  intros G R R' V. unfold visible in V. destruct (Z.eqb_spec (ca c) 0) as [H|H], (Z.eqb_spec (ca c') 0) as [H'|H'].
  - etransitivity; [exact (from_clear pow32 pow64 Acc g c G R H)|symmetry; exact (from_clear pow32 pow64 Acc g c' G R' H')].
  - subst c'. contradiction H'. reflexivity.
  - subst c. contradiction H. reflexivity.
  - subst. reflexivity.
Qed.

(** * Searching a palette of such colours for one of them *)
Lemma dist_zero (c : @px Ar) : rdist pow32 pow64 c c = 0.
Proof. unfold rdist, NearReal.dist. etransitivity; [apply f_equal; exact (NearReal.diff_self 1 _)|exact sqrt_0]. Qed.
Lemma pix_wide g c : gamma_fits g -> rgba_ok c -> wide pow32 pow64 (pix g c).
Proof.
  intros GF R. split; [apply (pixel_box pow32 pow64 PU); auto; apply fits_pos; auto|].
  destruct R as (_ & _ & _ & H). unfold byte in H. pose proof (alpha_val pow32 pow64 (ca c) ltac:(lia)) as V. apply Rabs_le_inv in V.
  change (B2R (Bmult mode_NE (alpha (ca c)) WA) <= 6251 / 10000). assert (IZR (ca c) <= 255) by (apply IZR_le; lia). unfold u24 in V. lra.
Qed.
Lemma pix_thin g c : gamma_fits g -> rgba_ok c -> (ca c < 16)%Z -> thin pow32 pow64 (pix g c).
Proof.
  intros GF R T. pose proof (proj1 (pix_wide g c GF R)) as B. split; [exact B|].
  destruct R as (H1 & H2 & H3 & H). unfold byte in *. pose proof (alpha_val pow32 pow64 (ca c) ltac:(lia)) as V. apply Rabs_le_inv in V.
  assert (T15 : IZR (ca c) <= 15) by (apply IZR_le; lia).
  split. { change (B2R (Bmult mode_NE (alpha (ca c)) WA) <= 4 / 100). unfold u24 in V. lra. }
  destruct (div_byte (ca c) ltac:(lia)) as [_ Q]. apply Rabs_le_inv in Q. unfold u24 in Q.
  destruct (half_w pow32 pow64) as (W1 & W2 & W3 & W4).
  assert (UN : forall x : b32, is_finite x = true /\ 0 <= B2R x <= 1 -> nonneg 0 x).
  { intros x [F X]. split; [split; auto|lra]. rewrite Rabs_pos_eq by lra. cbn. lra. }
  assert (L : forall v, (0 <= v <= 255)%Z -> nonneg 0 (@gamma_lut Ar g v)).
  { intros v VV. apply UN. destruct (byte_unit v VV) as [B1 B2]. destruct (IG_ok pow32 pow64) as (I1 & I2 & _). apply (PU _ _ B1 B2). apply pos_leb, conv_pos, div_pos; auto. apply fits_pos; auto. }
  assert (SA : nonneg 0 (Bdiv mode_NE (BofZ 24 128 (ca c)) (BofZ 24 128 255))) by (apply UN, byte_unit; lia).
  assert (M : forall k (x : b32), (-1 <= k <= 0)%Z -> nonneg k x -> B2R (Bmult mode_NE x (alpha (ca c))) <= bpow radix2 k * (589 / 10000) + / 1000).
  { intros k x K0 [X XP]. destruct (small_mul k 0 x (alpha (ca c)) ltac:(lia) X (proj1 SA)) as [_ ->].
    pose proof (rnd32_err (B2R x * B2R (alpha (ca c)))) as RE. assert (AP : 0 <= B2R (alpha (ca c))) by apply (proj2 SA).
    assert (XB : B2R x <= bpow radix2 k) by (destruct X as [_ X]; rewrite Rabs_pos_eq in X by auto; exact X).
    rewrite (Rabs_pos_eq (B2R x * _)) in RE by (apply Rmult_le_pos; auto). apply Rabs_le_inv in RE. pose proof tiny_small as TS.
    assert (MB : B2R x * B2R (alpha (ca c)) <= bpow radix2 k * (58824 / 1000000)) by (apply Rmult_le_compat; lra).
    unfold u24 in *. lra. }
  split; [|split].
  - eapply Rle_trans; [exact (M (-1)%Z _ ltac:(lia) (nonneg_mul 0 (-1) _ _ ltac:(lia) (L (cr c) ltac:(lia)) W1))|]. change (bpow radix2 (-1)) with (/ 2). lra.
  - eapply Rle_trans; [exact (M 0%Z _ ltac:(lia) (nonneg_mul 0 0 _ _ ltac:(lia) (L (Base.cg c) ltac:(lia)) W4))|]. change (bpow radix2 0) with 1. lra.
  - eapply Rle_trans; [exact (M (-1)%Z _ ltac:(lia) (nonneg_mul 0 (-1) _ _ ltac:(lia) (L (Base.cb c) ltac:(lia)) W2))|]. change (bpow radix2 (-1)) with (/ 2). lra.
Qed.
Lemma some_inj {T} (x y : T) : Some x = Some y -> x = y. Proof. intros H. injection H; auto. Qed.
Lemma differ_dec g c c' : gamma_fits g -> rgba_ok c -> rgba_ok c' -> pix g c' = pix g c \/ differ c c'.
Proof.
  intros GF R R'. destruct (Z.eq_dec (ca c) 0) as [A0|A0].
  - destruct (Z.eq_dec (ca c') 0) as [A1|A1]; [left|right; left; auto].
    etransitivity; [exact (from_clear pow32 pow64 Acc g c' GF R' A1)|symmetry; exact (from_clear pow32 pow64 Acc g c GF R A0)].
  - assert (DEC : c = c' \/ c <> c').
    { destruct c as [x1 x2 x3 x4], c' as [y1 y2 y3 y4]. destruct (Z.eq_dec x1 y1), (Z.eq_dec x2 y2), (Z.eq_dec x3 y3), (Z.eq_dec x4 y4); try (right; congruence). left. congruence. }
    destruct DEC as [<-|NE]; [left; auto|right; right; auto].
Qed.
Lemma hit_equal g c (v : @visitor Ar) q : gamma_usual g -> rgba_ok c -> (exists c', rgba_ok c' /\ q = pix g c') ->
  set_ pow32 pow64 v -> dval pow32 pow64 v <= 0 -> @dist_to Ar (pix g c) q (v_dsq v) -> q = pix g c.
Proof.
  intros G R (c' & R' & ->) [S1 S2] D DT. pose proof (usual_fits g G) as GF. destruct (differ_dec g c c' GF R R') as [E|E]; auto. exfalso.
  destruct (apart_any pow32 pow64 Acc g c c' G R R' E) as [AP _].
  unfold dval in D. rewrite S2 in D. pose proof (root_near _ S1) as RN. change (@fsqrt Ar (v_dsq v)) with (Bsqrt mode_NE (v_dsq v : b32)) in D.
  pose proof tiny_small as TS. assert (SQ : sqrt (B2R (v_dsq v : b32)) <= / 100000000000000) by (unfold u24 in RN; lra).
  pose proof (proj1 (pix_wide g c GF R)) as BC. pose proof (proj1 (pix_wide g c' GF R')) as BC'.
  destruct DT as [DT|DT]; rewrite DT in SQ.
  - destruct (sdist_close pow32 pow64 (pix g c) (pix g c') BC BC') as (_ & _ & X & _). apply Rabs_le_inv in X. unfold gmin, u24 in *. lra.
  - destruct (sdist_close pow32 pow64 (pix g c') (pix g c) BC' BC) as (_ & _ & X & _). apply Rabs_le_inv in X.
    rewrite (rdist_sym pow32 pow64) in X. unfold gmin, u24 in *. lra.
Qed.
Lemma search_exact g (p : @palf Ar) n c hint : gamma_usual g -> rgba_ok c ->
  (forall k, In k (colors_of p) -> exists c, rgba_ok c /\ k = pix g c) -> @nearest_new Ar p = Ok n -> In (pix g c) (colors_of p) ->
  nth_error (colors_of p) (fst (@search Ar n (pix g c) hint)) = Some (pix g c) /\ @dist_to Ar (pix g c) (pix g c) (snd (@search Ar n (pix g c) hint)).
Proof.
  intros G R H N IN. pose proof (usual_fits g G) as GF.
  assert (WX : Forall (wide pow32 pow64) (colors_of p)).
  { apply Forall_forall. intros k Hk. destruct (H k Hk) as (c' & R' & ->). apply pix_wide; auto. }
  assert (BX : Forall (box_px pow32 pow64) (colors_of p)) by (eapply Forall_impl; [|exact WX]; intros k K; apply K).
  pose proof (proj1 (pix_wide g c GF R)) as BC.
  destruct (search_near pow32 pow64 p n (pix g c) hint BX BC N) as (pc & E & D & M).
  assert (EQ : pc = pix g c); [|rewrite EQ in E, D; auto].
  apply In_nth_error in IN as (j & J). specialize (M j _ J). rewrite dist_zero, Rplus_0_l in M.
  destruct (@nearest_new_split Ar (ieee_ord pow32 pow64) p n (clear_box pow32 pow64 p BX) N) as [S I].
  destruct (nearest_new_tree p n N) as (_ & P & T). destruct (nearest_new_inv p n N) as (LP & _).
  assert (U : ContrastIeee.unit_px pow32 pow64 (pix g c)) by (apply (pixel_unit pow32 pow64 PU); auto; apply fits_pos; auto).
  assert (Z0 : B2R (@fsqrt Ar (@diff Ar (pix g c) (pix g c)) : b32) <= 0).
  { rewrite (diff_same pow32 pow64 _ U). apply Req_le. reflexivity. }
  assert (FT : Forall (fun ic => box_px pow32 pow64 (snd ic) /\
     Rabs (B2R (@fsqrt Ar (@diff Ar (snd ic) (pix g c)) : b32) - B2R (@fsqrt Ar (@diff Ar (snd ic) (pix g c)) : b32)) <= 0) (tree_pairs (n_root n))).
  { eapply Forall_impl; [|exact (tree_box pow32 pow64 p _ BX T)]. intros ic Hic. split; [exact Hic|]. rewrite Rminus_diag_eq, Rabs_R0 by reflexivity. apply Rle_refl. }
  pose proof (fun v V X => search_gets pow32 pow64 (pix g c) j (pix g c) 0 BC Z0 (n_root n) v FT S V (proj2 (I (j, pix g c)) J) X) as GET.
  revert E D. unfold search. rewrite P. destruct (nth_error (colors_of p) hint) as [pg|] eqn:EG.
  - cbv zeta. destruct (sdist_close pow32 pow64 (pix g c) pg BC) as (G1 & G2 & G3 & G4).
    { rewrite Forall_forall in BX. apply BX. eapply nth_error_In; eauto. }
    destruct (@flt Ar (@diff Ar (pix g c) pg) (nth hint (n_other n) (@f0 Ar))) eqn:L; cbn [fst snd]; intros E D.
    + rewrite EG in E. injection E as <-. destruct (H pg (nth_error_In _ _ EG)) as (c' & R' & ->).
      destruct (differ_dec g c c' GF R R') as [E|E]; [exact E|]. exfalso.
      destruct (apart_any pow32 pow64 Acc g c c' G R R' E) as [AP AE].
      assert (TH : ca c = ca c' /\ (ca c < 16)%Z).
      { destruct (Z.eq_dec (ca c) (ca c')) as [A0|A0]; [|exfalso; specialize (AE (or_introl A0)); lra]. split; auto.
        destruct (Z_lt_le_dec (ca c) 16); auto. exfalso. specialize (AE (or_intror l)). lra. }
      destruct TH as [EA TH].
      assert (NE : hint <> j).
      { intros <-. assert (J' : pix g c' = pix g c) by (apply some_inj; exact (eq_trans (eq_sym EG) J)). rewrite J', dist_zero in AP. unfold gmin in AP. lra. }
      pose proof (other_thin pow32 pow64 p n hint (pix g c') _ WX N EG G1 L j (pix g c) J NE (pix_thin g c' GF R' ltac:(lia)) (pix_thin g c GF R TH)) as OT.
      assert (PA : pa (pix g c) = pa (pix g c')) by (unfold from_rgba; cbn [pa]; rewrite EA; reflexivity).
      pose proof (sdist_same pow32 pow64 (pix g c) (pix g c') BC (proj1 (pix_wide g c' GF R')) PA) as SS.
      pose proof tiny_root as TR. set (dd := rdist pow32 pow64 (pix g c) (pix g c')) in *. set (sq := sqrt (B2R _)) in *. clearbody dd sq. unfold gmin, u24 in *. lra.
    + assert (V : set_ pow32 pow64 (@Visitor Ar (@fsqrt Ar (@diff Ar (pix g c) pg)) (@diff Ar (pix g c) pg) hint None)) by (split; [exact G1|reflexivity]).
      destruct (GET _ (or_introl V) eq_refl) as [S1 S2]. refine (hit_equal g c _ pc G R (H pc (nth_error_In _ _ E)) S1 S2 D).
  - cbv zeta. cbn [fst snd]. intros E D.
    assert (V : vis_ok pow32 pow64 (@Visitor Ar (@finf Ar) (@finf Ar) 0 None)) by (right; right; split; reflexivity).
    destruct (GET _ V eq_refl) as [S1 S2]. refine (hit_equal g c _ pc G R (H pc (nth_error_In _ _ E)) S1 S2 D).
Qed.
(** Searching a palette made of such colours finds an equal one. *)
Lemma found g (p : @palf Ar) n c0 : gamma_usual g ->
  (forall k, In k (colors_of p) -> exists c, rgba_ok c /\ k = pix g c) -> @nearest_new Ar p = Ok n ->
  In c0 (colors_of p) -> @finds Ar n c0 /\ forall hint, snd (@search Ar n c0 hint) = @f0 Ar.
Proof.
  intros G H N IN. pose proof (usual_fits g G) as GF. destruct (H c0 IN) as (c & R & ->).
  assert (U : ContrastIeee.unit_px pow32 pow64 (pix g c)) by (apply (pixel_unit pow32 pow64 PU); auto; apply fits_pos; auto).
  split.
  - intros hint. destruct (@nearest_new_inv Ar p n N) as (_ & _ & NP).
    refine (eq_trans (f_equal (fun l => nth_error l _) NP) _). apply (search_exact g p n c hint); auto.
  - intros hint. destruct (search_exact g p n c hint G R H N IN) as [_ D].
    destruct D as [D|D]; (etransitivity; [exact D|]); exact (diff_same pow32 pow64 _ U).
Qed.

(** The distance tells a colour from all others. *)
Lemma sep_ieee g c f : gamma_usual g -> rgba_ok c -> rgba_ok f -> visible c <> visible f ->
  @fcmp Ar (@diff Ar (pix g f) (pix g f)) (@diff Ar (pix g c) (pix g f)) <> Gt /\ @fcmp Ar (@diff Ar (pix g c) (pix g f)) (@diff Ar (pix g f) (pix g f)) = Gt.
Proof.
  intros G R R' V. pose proof (usual_fits g G) as GF.
  assert (D : differ c f).
  { unfold differ. unfold visible in V. destruct (Z.eqb_spec (ca c) 0) as [A0|A0], (Z.eqb_spec (ca f) 0) as [A1|A1]; [exfalso; apply V; reflexivity|left; split; assumption|right; split; [assumption|intros ->; contradiction]|right; split; [assumption|intros ->; apply V; reflexivity]]. }
  destruct (apart_any pow32 pow64 Acc g c f G R R' D) as [AP _].
  assert (U : ContrastIeee.unit_px pow32 pow64 (pix g f)) by (apply (pixel_unit pow32 pow64 PU); auto; apply fits_pos; auto).
  pose proof (proj1 (pix_wide g c GF R)) as BC. pose proof (proj1 (pix_wide g f GF R')) as BF.
  destruct (sdist_close pow32 pow64 (pix g c) (pix g f) BC BF) as (F1 & _ & X & _). apply Rabs_le_inv in X.
  rewrite (diff_same pow32 pow64 _ U). set (d := @diff Ar (pix g c) (pix g f)) in *. clearbody d.
  assert (P : 0 < B2R (d : b32)).
  { destruct (Rle_or_lt (B2R (d : b32)) 0) as [N|N]; auto. exfalso. rewrite (sqrt_neg_0 _ N) in X. unfold gmin, u24 in *. lra. }
  pose proof (proj1 (proj1 F1)) as FD. apply fcmp_of; destruct (d : b32) as [s|s| |s m e H]; try discriminate.
  - exfalso. exact (Rlt_irrefl 0 P).
  - destruct s; [|reflexivity]. exfalso. cbn [B2R] in P. apply (Rlt_irrefl 0). apply Rlt_trans with (1 := P). apply F2R_lt_0. reflexivity.
  - exfalso. exact (Rlt_irrefl 0 P).
  - destruct s; [|reflexivity]. exfalso. cbn [B2R] in P. apply (Rlt_irrefl 0). apply Rlt_trans with (1 := P). apply F2R_lt_0. reflexivity.
Qed.
Lemma zero_div v : (0 < v <= 536870912)%Z -> @ddiv Ar (@d0 Ar) (@dofZ Ar (wrap32 v)) = @d0 Ar.
Proof.
  intros Hv. unfold wrap32. rewrite Z.mod_small by lia. change (Bdiv mode_NE (B754_zero false) (BofZ 53 1024 v) = B754_zero false).
  destruct (BofZ_exact 53 1024 v) as [F V]; try lia. assert (P := IZR_lt 0 v ltac:(lia)). rewrite <- V in P.
  destruct (BofZ 53 1024 v) as [s|s| |s m e H]; try discriminate.
  - exfalso. exact (Rlt_irrefl 0 P).
  - destruct s; [|reflexivity]. exfalso. cbn [B2R] in P. apply (Rlt_irrefl 0). apply Rlt_trans with (1 := P). apply F2R_lt_0. reflexivity.
Qed.

Lemma lossless_ieee u cb a i pxs w (q : @qresult Ar) i' w' ks : unspec_ok u -> usable a -> @image_r Ar i pxs ->
  NoDup (map visible (i_fixed i)) -> image_colors (i_fixed i :: pxs) ks ->
  posterize_bits a = 0%Z -> @deq Ar (a_target_mse a) (@d0 Ar) = true -> (length ks <= a_max_colors a)%nat ->
  (forall m, i_imp i = Some m -> Forall (fun z => z <> 0%Z) m) ->
  gamma_usual (d_gamma (i_px i)) -> (Z.of_nat (i_w i) * Z.of_nat (i_h i) <= 536870912)%Z ->
  @quantize Ar u cb a (i, w) = (Ok q, (i', w')) ->
  q_err q = Some (@d0 Ar) /\
  (forall s, In s (fst (@palette Ar q)) -> exists r c, In r (i_fixed i :: pxs) /\ In c r /\ same_look c s) /\
  (forall r c, In r (i_fixed i :: pxs) -> In c r -> exists s, In s (fst (@palette Ar q)) /\ same_look c s) /\
  forall q1 u2 rcb buf w1 q2 i2 out w2, i_bg i = None -> (q1 = q \/ exists v, @set_dithering_level Ar q v = Ok q1) -> unspec_ok u2 ->
    @remap_into Ar u2 rcb q1 i' buf w1 = (Ok tt, (q2, i2, out, w2)) ->
    option_map snd (q_rem q2) = Some (Some (@d0 Ar)) /\
    forall y x r c, nth_error pxs y = Some r -> nth_error r x = Some c ->
    exists k s, nth_error out (y * i_w i + x)%nat = Some k /\ nth_error (fst (@palette Ar q2)) k = Some s /\ same_look c s.
Proof.
  intros U Ha I FN KF PB TM LK IMP GU CAP E. pose proof (usual_fits _ GU) as GF.
  pose proof (proj1 (proj2 (@objects_ok Ar (ieee_cast pow32 pow64))) i pxs I) as IO.
  pose proof (@rr_image Ar u cb a i pxs w q _ U Ha I E) as RQ.
  pose proof (@reach_pal Ar (ieee_cast pow32 pow64) _ _ RQ) as LP.
  assert (POS : (0 < Z.of_nat (i_w i) * Z.of_nat (i_h i))%Z).
  { pose proof (sh_w _ _ (im_px _ _ IO)) as X1. pose proof (sh_h _ _ (im_px _ _ IO)) as X2.
    change (0 < i_w i)%nat in X1. change (0 < i_h i)%nat in X2. nia. }
  destruct (@few_kept Ar (ieee_cast pow32 pow64) good (near_px pow32 pow64) (avg_of pow32 pow64) big_n ieee_avg_laws plus good_zero good_low i pxs IO
    (fits_pos _ GF)) with (ks := ks) (16 := E) as (X1 & X2 & X3 & X4); auto.
  - intros c R. apply pix_good; auto.
  - intros c c' R R'. apply pix_visible; auto.
  - intros c f R R' V. apply sep_ieee; auto.
  - intros c p R N. refine (eq_trans (back_color pow32 pow64 Acc _ c p GF R N) _). reflexivity.
  - intros p n H N c IN. exact (found _ p n c GU H N IN).
  - apply zero_div. lia.
  - split; [exact X1|]. split; [exact X2|]. split; [exact X3|].
    intros q1 u2 rcb buf w1 q2 i2 out w2 B HQ U2 ER. apply (X4 q1 u2 rcb buf w1 q2 i2 out w2 B HQ); auto.
    assert (R1 : @result_r Ar (a_max_colors a) q1).
    { destruct HQ as [->|(v & EV)]; [exact RQ|]. exact (@rr_dither Ar _ q v q1 RQ EV). }
    destruct (@dither_unit Ar (ieee_ord pow32 pow64) (ieee_cast pow32 pow64) _ _ R1) as [D0 D1]. exact (ieee_levels pow32 pow64 q1 D0 D1).
Qed.
End I.
