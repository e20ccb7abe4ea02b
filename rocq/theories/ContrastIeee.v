(** The generated importance of a pixel is at least 80 in IEEE arithmetic. *)
From Verif Require Import Base BaseFacts Arith Order Ieee IeeeFacts SpecPow PowRef SmallFloat Pal World Attr Hist Nearest Kmeans Blur ImageM Quant Remap SpecImage SpecHist BlurFacts ImageFacts HistFacts Api ApiFacts FewImage ContrastLow.
From Flocq Require Import IEEE754.BinarySingleNaN Core.Core.
From Coq Require Import Reals Lra.
Open Scope R_scope.

(** A further assumption on f32 [powf]: a base in [0, 1] raised to a power >= 0
    (which may be infinite) is in [0, 1]. *)
Definition pow32_unit (pow32 : b32 -> b32 -> b32) : Prop :=
  forall x y : b32, is_finite x = true -> 0 <= B2R x <= 1 -> Bleb (B754_zero false) y = true ->
    is_finite (pow32 x y) = true /\ 0 <= B2R (pow32 x y) <= 1.

Lemma Rpower_unit x y : 0 < x <= 1 -> 0 <= y -> 0 < Rpower x y <= 1.
Proof.
  intros X Y. split; [apply exp_pos|]. unfold Rpower. rewrite <- exp_0. 
  assert (ln x <= 0). { rewrite <- ln_1. destruct (Req_dec x 1) as [->|]; [lra|]. left. apply ln_increasing; lra. }
  destruct (Req_dec (y * ln x) 0) as [->|]; [lra|]. left. apply exp_increasing. nra.
Qed.
Lemma Bleb0_nonneg (y : b32) : Bleb (B754_zero false) y = true -> 0 <= B2R y.
Proof.
  destruct y as [s|s| |s m e H]; cbn; try lra; try discriminate. intros E. destruct s; [discriminate|]. apply F2R_ge_0. cbn. lia.
Qed.
(** It is satisfiable, together with the accuracy assumption. *)
Lemma pow32_ref_unit : pow32_unit pow32_ref.
Proof.
  intros x y F X Y. apply Bleb0_nonneg in Y.
  assert (Z : 0 < B2R x -> pow32_ref x y = Bof 24 128 (Rpower (B2R x) (B2R y))) by (destruct x; auto; cbn; lra).
  destruct (Req_dec (B2R x) 0) as [E|E].
  - destruct x as [s|s| |s m e H]; try discriminate F; [cbn; split; auto; lra|].
    exfalso. revert E. cbn. destruct s; [apply Rlt_not_eq, F2R_lt_0|apply Rgt_not_eq, F2R_gt_0]; cbn; lia.
  - rewrite Z by lra. destruct (Rpower_unit (B2R x) (B2R y)) as [P1 P2]; [lra|auto|].
    assert (H : Rabs (rnd32 (Rpower (B2R x) (B2R y))) <= bpow radix2 0) by (apply rnd_small; [lia|]; rewrite Rabs_pos_eq by lra; cbn; lra).
    destruct (Bof_correct 24 128 (Rpower (B2R x) (B2R y))) as [F' V].
    { apply Rle_lt_trans with (1 := H). apply bpow_lt. lia. }
    split; auto. rewrite V. split.
    + apply round_ge_generic; [apply (fexp_correct 24 128 eq_refl)|apply valid_rnd_N|apply generic_format_0|lra].
    + cbn in H. apply Rle_trans with (2 := H). apply Rle_abs.
Qed.

Section I.
Variables (pow32 : b32 -> b32 -> b32) (pow64 : b64 -> b64 -> b64).
Hypothesis PU : pow32_unit pow32.
Let Ar : Arith := ieee pow32 pow64.
Local Existing Instance Ar.

(** All channels at most 1 in magnitude. *)
Definition unit_px (p : px) : Prop := small 0 (pa p) /\ small 0 (pr p) /\ small 0 (pg p) /\ small 0 (pb p).

Lemma small2 : small 1 (BofZ 24 128 2). Proof. apply small_ofZ; [lia|]. rewrite Rabs_pos_eq; cbn; lra. Qed.
Lemma small_one : small 0 (BofZ 24 128 1). Proof. apply small_ofZ; [lia|]. rewrite Rabs_pos_eq; cbn; lra. Qed.
Lemma bend_small a b c : small 0 a -> small 0 b -> small 0 c ->
  small 2 (Babs (Bminus mode_NE (Bplus mode_NE a b) (Bmult mode_NE c (BofZ 24 128 2)))).
Proof.
  intros Sa Sb Sc. apply small_abs. apply (small_sub 1); [lia| |].
  - apply (small_add 0); auto; lia.
  - apply (small_mul 0 1); auto; [lia|apply small2].
Qed.
Lemma minus_half_SF : B2SF (Bopp (Bdiv mode_NE (BofZ 24 128 5) (BofZ 24 128 10))) = SpecFloat.S754_finite true 8388608 (-24).
Proof. vm_compute. reflexivity. Qed.
Lemma minus_half : small (-1) (Bopp (Bdiv mode_NE (BofZ 24 128 5) (BofZ 24 128 10))).
Proof.
  split; [rewrite <- is_finite_SF_B2SF, minus_half_SF; reflexivity|].
  rewrite <- (SF2R_B2SF 24 128), minus_half_SF. cbn. unfold F2R. cbn. rewrite Rabs_left1; lra.
Qed.
Lemma trunc_80 (x : b32) : is_finite x = true -> 80 <= B2R x -> (80 <= Bto_uint 255 x)%Z.
Proof.
  intros F H. destruct x as [s|s| |s m e B]; try discriminate F; [cbn in H; lra|].
  unfold Bto_uint. assert (K : (80 <= Btrunc (B754_finite s m e B))%Z); [|lia].
  pose proof (Btrunc_correct 24 128 emax32 (B754_finite s m e B)) as T.
  apply le_IZR. rewrite T. apply round_ge_generic; auto; try typeclasses eauto.
  change 80 with (IZR 80). apply generic_format_FIX. exists (Float radix2 80 0); auto. unfold F2R. cbn. lra.
Qed.
Lemma fmt_80 : generic_format radix2 (SpecFloat.fexp 24 128) 80.
Proof. change 80 with (IZR 80). apply (format_small_Z 24 128); lia. Qed.

Lemma low_value z : small 16 z -> 0 <= B2R z -> (80 <= Bto_uint 255 (Bfma mode_NE z (BofZ 24 128 176) (BofZ 24 128 80)))%Z.
Proof.
  intros Sz Pz.
  assert (S1 : small 8 (BofZ 24 128 176)) by (apply small_ofZ; [lia|]; rewrite Rabs_pos_eq; cbn; lra).
  assert (S2 : small 24 (BofZ 24 128 80)) by (apply small_ofZ; [lia|]; rewrite Rabs_pos_eq; cbn; lra).
  destruct (small_fma 16 8 24 _ _ _ (ltac:(lia)) (ltac:(lia)) Sz S1 S2) as [[F _] V].
  apply trunc_80; auto. rewrite V.
  destruct (BofZ_exact 24 128 176) as [_ V1]; try lia. destruct (BofZ_exact 24 128 80) as [_ V2]; try lia. rewrite V1, V2.
  apply round_ge_generic; [apply (fexp_correct 24 128 eq_refl)|apply valid_rnd_N|apply fmt_80|]. nra.
Qed.
Lemma square_nonneg j x : (-100 <= j + j <= 100)%Z -> small j x -> small (j + j) (Bmult mode_NE x x) /\ 0 <= B2R (Bmult mode_NE x x).
Proof.
  intros K S. destruct (small_mul j j x x K S S) as [S' V]. split; auto. rewrite V.
  apply round_ge_generic; [apply (fexp_correct 24 128 eq_refl)|apply valid_rnd_N|apply generic_format_0|]. apply Rle_0_sqr.
Qed.
Lemma px_max4_small k p : small k (pa p) -> small k (pr p) -> small k (pg p) -> small k (pb p) -> small k (px_max4 p).
Proof. intros. unfold px_max4. apply small_max; apply small_max; auto. Qed.

Lemma ieee_low_px : low_px unit_px.
Proof.
  intros p c n pl nl (P1 & P2 & P3 & P4) (C1 & C2 & C3 & C4) (N1 & N2 & N3 & N4) (L1 & L2 & L3 & L4) (M1 & M2 & M3 & M4).
  unfold contrast_px. cbv zeta. cbn [fst].
  set (hz := px_max4 (px_map _ (px_sub (px_add p n) _))). set (vt := px_max4 (px_map _ (px_sub (px_add pl nl) _))).
  assert (Sh : small 2 hz) by (apply px_max4_small; apply bend_small; auto).
  assert (Sv : small 2 vt) by (apply px_max4_small; apply bend_small; auto).
  clearbody hz vt.
  assert (S1 : small 3 (ffma (fabs (hz -f vt)) (fneg (flit 5 10)) (fmax hz vt))).
  { apply (small_fma 3 (-1) 2); try lia; [|apply minus_half|apply small_max; auto].
    apply small_abs. apply (small_sub 2); auto; lia. }
  assert (S2 : small 4 (f1 -f fmax (ffma (fabs (hz -f vt)) (fneg (flit 5 10)) (fmax hz vt)) (fmin hz vt))).
  { apply (small_sub 3); [lia| |].
    - apply small_le with 0%Z; [apply small_one|lia].
    - apply small_max; [auto|]. apply small_le with 2%Z; [apply small_min; auto|lia]. }
  match goal with |- context [?x *f ?x *f _] => set (z := x) in * end.
  destruct (square_nonneg 4 z) as [S3 _]; auto; [lia|].
  destruct (square_nonneg 8 (z *f z)) as [S4 P]; auto; [lia|].
  exact (low_value _ S4 P).
Qed.

(** Not NaN, not negative. *)
Definition pos {p e} (x : binary_float p e) : Prop := is_nan x = false /\ Bsign x = false.
Lemma pos_shape {p e} (x : binary_float p e) : pos x -> x = B754_zero false \/ x = B754_infinity false \/ exists m k H, x = B754_finite false m k H.
Proof. destruct x as [[]|[]| |[] m k H]; intros [N S]; try discriminate; eauto. right; right; eauto. Qed.
Lemma pos_leb (x : b32) : pos x -> Bleb (B754_zero false) x = true.
Proof. intros P. destruct (pos_shape x P) as [->|[->|(m & k & H & ->)]]; reflexivity. Qed.
Lemma pos_real {p e} (x : binary_float p e) : is_finite x = true -> Bsign x = false -> pos x.
Proof. destruct x; try discriminate; split; auto. Qed.
Lemma pos_overflow {p e} (x : binary_float p e) : B2SF x = binary_overflow p e mode_NE false -> pos x.
Proof. destruct x as [[]|[]| |[] m k H]; cbn; intros E; try discriminate; split; auto. Qed.

Lemma IG_SF : B2SF (@INTERNAL_GAMMA Ar) = SpecFloat.S754_finite false 5134103575202365 (-53).
Proof. vm_compute. reflexivity. Qed.
Lemma IG_ok : is_finite (@INTERNAL_GAMMA Ar) = true /\ Bsign (@INTERNAL_GAMMA Ar) = false /\ is_nan (@INTERNAL_GAMMA Ar) = false.
Proof.
  pose proof IG_SF as E. set (x := @INTERNAL_GAMMA Ar) in *. clearbody x. destruct x as [s|s| |s m k H]; cbn in E; try discriminate. inversion E. auto.
Qed.
Lemma div_pos (x g : b64) : is_finite x = true -> Bsign x = false -> Bltb (B754_zero false) g = true -> pos (Bdiv mode_NE x g).
Proof.
  intros F S G.
  destruct g as [s|s| |s m k H]; try discriminate G.
  - destruct s; [discriminate|]. destruct x as [t|t| |t ? ? ?]; try discriminate F; cbn in S; subst t; split; reflexivity.
  - destruct s; [discriminate|].
    assert (Hy : B2R (B754_finite false m k H) <> 0) by (apply Rgt_not_eq, F2R_gt_0; cbn; lia).
    pose proof (Bdiv_correct 53 1024 prec64 emax64 mode_NE x _ Hy) as C. cbn [round_mode] in C.
    destruct (Rlt_bool _ _).
    + destruct C as (_ & C2 & C3). rewrite F in C2. apply pos_real; [exact C2|]. rewrite C3.
      * rewrite S. reflexivity.
      * destruct (Bdiv mode_NE x _); auto; discriminate.
    + apply pos_overflow. rewrite S in C. exact C.
Qed.
Lemma conv_pos (x : b64) : pos x -> pos (Bconv 24 128 x).
Proof.
  intros P. destruct (pos_shape x P) as [->|[->|(m & k & H & ->)]]; [split; reflexivity|split; reflexivity|].
  unfold Bconv. cbn [cond_Zopp].
  pose proof (binary_normalize_correct 24 128 prec32 emax32 mode_NE (Z.pos m) k false) as C. cbn [round_mode] in C.
  assert (P0 : 0 < F2R (Float radix2 (Z.pos m) k)) by (apply F2R_gt_0; cbn; lia).
  destruct (Rlt_bool _ _).
  - destruct C as (_ & C2 & C3). apply pos_real; auto. rewrite C3. rewrite Rcompare_Gt; auto.
  - rewrite Rlt_bool_false in C by lra. apply pos_overflow. exact C.
Qed.

Lemma byte_unit v : (0 <= v <= 255)%Z -> is_finite (Bdiv mode_NE (BofZ 24 128 v) (BofZ 24 128 255)) = true /\ 0 <= B2R (Bdiv mode_NE (BofZ 24 128 v) (BofZ 24 128 255)) <= 1.
Proof.
  intros V. destruct (BofZ_exact 24 128 v) as [F1 V1]; try lia. destruct (BofZ_exact 24 128 255) as [F2 V2]; try lia.
  assert (Q : 0 <= IZR v / 255 <= 1).
  { assert (0 <= IZR v <= 255) by (split; [apply (IZR_le 0)|apply (IZR_le v 255)]; lia). lra. }
  assert (N : B2R (BofZ 24 128 255) <> 0) by (rewrite V2; lra).
  destruct (proj1 (Bdiv_fin 24 128 _ _ F1 N)) as [F V3].
  - rewrite V1, V2. apply rnd_fits with 0%Z; [lia|]. rewrite Rabs_pos_eq by lra. cbn. lra.
  - split; auto. rewrite V3, V1, V2. split.
    + apply round_ge_generic; [apply (fexp_correct 24 128 eq_refl)|apply valid_rnd_N|apply generic_format_0|lra].
    + apply round_le_generic; [apply (fexp_correct 24 128 eq_refl)|apply valid_rnd_N| |lra].
      change 1 with (bpow radix2 0). apply fmt_bpow. lia.
Qed.
Lemma unit_small x : is_finite x = true /\ 0 <= B2R x <= 1 -> small 0 x.
Proof. intros [F H]. split; auto. rewrite Rabs_pos_eq by lra. cbn. lra. Qed.

Lemma weights_small : small 0 (@LIQ_WEIGHT_A Ar) /\ small 0 (@LIQ_WEIGHT_R Ar) /\ small 0 (@LIQ_WEIGHT_G Ar) /\ small 0 (@LIQ_WEIGHT_B Ar).
Proof.
  assert (Q : forall p q, (0 <= p <= q)%Z -> (0 < q <= 1000)%Z -> small 0 (Bdiv mode_NE (BofZ 24 128 p) (BofZ 24 128 q))).
  { intros p q P Q. destruct (BofZ_exact 24 128 p) as [F1 V1]; try lia. destruct (BofZ_exact 24 128 q) as [F2 V2]; try lia.
    assert (Q0 : 0 < IZR q) by (apply IZR_lt; lia). assert (P0 : 0 <= IZR p <= IZR q) by (split; apply IZR_le; lia).
    assert (R : 0 <= IZR p / IZR q <= 1).
    { split; [apply Rmult_le_pos; [lra|left; apply Rinv_0_lt_compat; lra]|]. apply Rmult_le_reg_r with (IZR q); auto. unfold Rdiv. rewrite Rmult_assoc, Rinv_l; lra. }
    destruct (proj1 (Bdiv_fin 24 128 (BofZ 24 128 p) (BofZ 24 128 q) F1 ltac:(rewrite V2; lra))) as [F V3].
    - rewrite V1, V2. apply rnd_fits with 0%Z; [lia|]. rewrite Rabs_pos_eq by lra. cbn. lra.
    - split; auto. rewrite V3, V1, V2. apply rnd_small; [lia|]. rewrite Rabs_pos_eq by lra. cbn. lra. }
  split; [|split; [|split]]; [apply (Q 625 1000)%Z|apply (Q 5 10)%Z|apply small_one|apply (Q 45 100)%Z]; lia.
Qed.
Lemma mul_unit x y : small 0 x -> small 0 y -> small 0 (Bmult mode_NE x y).
Proof. intros X Y. exact (proj1 (small_mul 0 0 x y ltac:(lia) X Y)). Qed.

Lemma pixel_unit (g : b64) c : Bltb (B754_zero false) g = true -> rgba_ok c -> unit_px (@from_rgba Ar (@gamma_lut Ar g) c).
Proof.
  intros G (H1 & H2 & H3 & H4). unfold byte in *. destruct weights_small as (W1 & W2 & W3 & W4).
  destruct IG_ok as (I1 & I2 & _).
  assert (L : forall v, (0 <= v <= 255)%Z -> small 0 (@gamma_lut Ar g v)).
  { intros v V. apply unit_small. destruct (byte_unit v V) as [B1 B2]. apply (PU _ _ B1 B2). apply pos_leb, conv_pos, div_pos; auto. }
  assert (SA : small 0 (Bdiv mode_NE (BofZ 24 128 (ca c)) (BofZ 24 128 255))) by (apply unit_small, byte_unit; lia).
  unfold unit_px, from_rgba. cbn [pa pr pg pb].
  split; [|split; [|split]].
  - apply mul_unit; assumption.
  - apply mul_unit; [apply mul_unit; [apply L; lia|assumption]|assumption].
  - apply mul_unit; [apply mul_unit; [apply L; lia|assumption]|assumption].
  - apply mul_unit; [apply mul_unit; [apply L; lia|assumption]|assumption].
Qed.

Lemma ieee_default_gamma : (d0 <d dlit 45455 100000) = true. Proof. vm_compute. reflexivity. Qed.

Lemma ieee_generated_importance (u : unspec) cb a h i pxs w r h' i' w' : image_r i pxs -> i_imp i = None ->
  add_image u cb a (h, i, w) = (r, (h', i', w')) -> forall m, i_imp i' = Some m -> Forall (fun v => 80 <= v <= 255)%Z m.
Proof.
  intros I N E m M. pose proof (image_gamma_kept i pxs I ieee_default_gamma) as G.
  pose proof (proj1 (proj2 (@objects_ok Ar (ieee_cast pow32 pow64))) i pxs I) as IO.
  refine (@add_image_low Ar (ieee_cast pow32 pow64) unit_px ieee_low_px u cb a h i w pxs r h' i' w' IO _ N E m M).
  intros rw c Hr Hc. apply pixel_unit; auto.
  pose proof (sh_rows _ _ (im_px _ _ IO)) as SR. rewrite Forall_forall in SR. destruct (SR rw Hr) as [_ SR']. rewrite Forall_forall in SR'. auto.
Qed.
End I.
