(** Floating point: the computed distance between two colours is close to the
    exact metric. *)
From Coq Require Import Reals Lra.
From Verif Require Import Base Arith Ieee IeeeFacts Order Pal RealArith NearReal SmallFloat MedianIeee AvgIeee SimdFacts.
From Flocq Require Import IEEE754.BinarySingleNaN Core.Core Mult_error Relative Plus_error.
Open Scope R_scope.

Definition tiny : R := bpow radix2 (-149).
Lemma tiny_pos : 0 < tiny. Proof. apply bpow_gt_0. Qed.

(** One rounding: relative 2^-24, and an absolute part from underflow. *)
Lemma rnd32_err x : Rabs (rnd32 x - x) <= u24 * Rabs x + tiny.
Proof.
  destruct (error_N_FLT radix2 (-149) 24 eq_refl (fun x => negb (Z.even x)) x) as (e & t & E & T & _ & V).
  change (FLT_exp (-149) 24) with (SpecFloat.fexp 24 128) in V.
  rewrite V. replace (x * (1 + e) + t - x) with (x * e + t) by ring.
  assert (E' : Rabs e <= u24).
  { apply Rle_trans with (1 := E). unfold u24. cbn. lra. }
  assert (T' : Rabs t <= tiny).
  { apply Rle_trans with (1 := T). unfold tiny. pose proof (bpow_gt_0 radix2 (-149)). lra. }
  eapply Rle_trans; [apply Rabs_triang|]. rewrite Rabs_mult, (Rmult_comm u24). apply Rplus_le_compat; auto.
  apply Rmult_le_compat_l; auto. apply Rabs_pos.
Qed.
Lemma rnd32_max x y : Rmax (rnd32 x) (rnd32 y) = rnd32 (Rmax x y).
Proof.
  unfold Rmax. destruct (Rle_dec x y) as [H|H]; destruct (Rle_dec (rnd32 x) (rnd32 y)) as [K|K]; auto.
  - exfalso. apply K. apply round_le; auto; [apply (fexp_correct 24 128 eq_refl)|apply valid_rnd_N].
  - apply Rle_antisym; auto. apply round_le; [apply (fexp_correct 24 128 eq_refl)|apply valid_rnd_N|lra].
Qed.

(** * Real estimates *)
Lemma chan_lip c a b w d : Rabs (b - c) <= d -> Rabs (w - (c + a)) <= d -> Rabs (chan b (w - b) - chan c a) <= d.
Proof.
  intros H1 H2. unfold chan. replace (b + (w - b)) with w by ring.
  assert (K1 : Rabs (Rabs b - Rabs c) <= d) by (eapply Rle_trans; [apply Rabs_triang_inv2|auto]).
  assert (K2 : Rabs (Rabs w - Rabs (c + a)) <= d) by (eapply Rle_trans; [apply Rabs_triang_inv2|auto]).
  apply Rabs_le_inv in K1. apply Rabs_le_inv in K2. apply Rabs_le.
  unfold Rmax. destruct (Rle_dec (Rabs b) (Rabs w)), (Rle_dec (Rabs c) (Rabs (c + a))); lra.
Qed.
Lemma sqrt_sub x y : 0 <= x -> 0 <= y -> sqrt (x + y) <= sqrt x + sqrt y.
Proof.
  intros X Y. pose proof (sqrt_pos x). pose proof (sqrt_pos y). rewrite <- (sqrt_Rsqr (sqrt x + sqrt y)) by lra.
  apply sqrt_le_1_alt. unfold Rsqr. pose proof (sqrt_sqrt x X). pose proof (sqrt_sqrt y Y). nra.
Qed.
Lemma sum_close q1 q2 q3 s1 s2 s3 e1 e2 t : 0 <= s1 -> 0 <= s2 -> 0 <= s3 -> 0 <= q1 -> 0 <= q2 -> 0 <= q3 -> 0 <= t ->
  Rabs (q1 - s1) <= u24 * s1 + t -> Rabs (q2 - s2) <= u24 * s2 + t -> Rabs (q3 - s3) <= u24 * s3 + t ->
  Rabs e1 <= u24 -> Rabs e2 <= u24 ->
  Rabs (((q1 + q2) * (1 + e1) + q3) * (1 + e2) - (s1 + s2 + s3)) <= 4 * u24 * (s1 + s2 + s3) + 4 * t.
Proof.
  intros S1 S2 S3 P1 P2 P3 T Q1 Q2 Q3 E1 E2. unfold u24 in *.
  apply Rabs_le_inv in Q1. apply Rabs_le_inv in Q2. apply Rabs_le_inv in Q3. apply Rabs_le_inv in E1. apply Rabs_le_inv in E2.
  set (S := s1 + s2 + s3) in *. set (Q := q1 + q2 + q3).
  assert (HQ : S * (1 - / 16777216) - 3 * t <= Q <= S * (1 + / 16777216) + 3 * t) by (unfold S, Q; lra).
  assert (SP : 0 <= S) by (unfold S; lra). assert (QP : 0 <= Q) by (unfold Q; lra).
  set (I := (q1 + q2) * (1 + e1) + q3).
  assert (HI : Q * (1 - / 16777216) <= I <= Q * (1 + / 16777216)) by (unfold I, Q; split; nra).
  assert (HD : Q * (1 - / 16777216) * (1 - / 16777216) <= I * (1 + e2) <= Q * (1 + / 16777216) * (1 + / 16777216)).
  { split; apply Rmult_le_compat; lra. }
  clearbody I Q S. apply Rabs_le. split; lra.
Qed.
Lemma root_close D S t : 0 <= D -> 0 <= S -> 0 <= t -> Rabs (D - S) <= 4 * u24 * S + 4 * t ->
  Rabs (sqrt D - sqrt S) <= 3 * u24 * sqrt S + 2 * sqrt t.
Proof.
  intros HD HS HT H. apply Rabs_le_inv in H. pose proof (sqrt_pos D) as PD. pose proof (sqrt_pos S) as PS. pose proof (sqrt_pos t) as PT.
  assert (U : 0 < u24 <= / 1000) by (unfold u24; lra).
  assert (R4 : sqrt (4 * t) = 2 * sqrt t).
  { rewrite sqrt_mult by lra. replace 4 with (Rsqr 2) by (unfold Rsqr; lra). rewrite sqrt_Rsqr by lra. reflexivity. }
  assert (Q : forall k, 0 <= k -> sqrt (S * (k * k)) = sqrt S * k).
  { intros k K. rewrite sqrt_mult by nra. f_equal. apply sqrt_square. auto. }
  apply Rabs_le. split.
  - assert (L : sqrt S * (1 - 3 * u24) <= sqrt D + 2 * sqrt t).
    { rewrite <- Q by lra. rewrite <- R4. eapply Rle_trans; [|apply sqrt_sub; lra]. apply sqrt_le_1_alt.
      assert (0 <= S * (u24 * (2 - 9 * u24))) by (apply Rmult_le_pos; [auto|]; apply Rmult_le_pos; lra). lra. }
    nra.
  - assert (L : sqrt D <= sqrt S * (1 + 2 * u24) + 2 * sqrt t).
    { rewrite <- Q by lra. rewrite <- R4. eapply Rle_trans; [|apply sqrt_sub; [nra|lra]]. apply sqrt_le_1_alt.
      assert (0 <= S * (u24 * u24)) by (apply Rmult_le_pos; [auto|]; apply Rmult_le_pos; lra). lra. }
    nra.
Qed.
Lemma norm_lip a b c x y z d : 0 <= a -> 0 <= b -> 0 <= c -> 0 <= x -> 0 <= y -> 0 <= z -> 0 <= d ->
  Rabs (a - x) <= d -> Rabs (b - y) <= d -> Rabs (c - z) <= d ->
  Rabs (sqrt (sumsq (a, b, c)) - sqrt (sumsq (x, y, z))) <= 1.75 * d.
Proof.
  intros A0 B0 C0 X0 Y0 Z0 D H1 H2 H3. apply Rabs_le_inv in H1. apply Rabs_le_inv in H2. apply Rabs_le_inv in H3.
  assert (R3 : sqrt (d * d + d * d + d * d) <= 1.75 * d).
  { rewrite <- (sqrt_Rsqr (1.75 * d)) by lra. apply sqrt_le_1_alt. unfold Rsqr. nra. }
  assert (K : forall a b c x y z d, sqrt (d * d + d * d + d * d) <= 1.75 * d -> 0 <= a -> 0 <= b -> 0 <= c -> 0 <= x -> 0 <= y -> 0 <= z -> a <= x + d -> b <= y + d -> c <= z + d ->
    sqrt (sumsq (a, b, c)) <= sqrt (sumsq (x, y, z)) + 1.75 * d).
  { clear. intros a b c x y z d R3 A0 B0 C0 X0 Y0 Z0 H1 H2 H3. eapply Rle_trans; [apply sqrt_le_1_alt, (sumsq_le a b c (x + d) (y + d) (z + d)); lra|].
    unfold sumsq. eapply Rle_trans; [apply minkowski|]. lra. }
  apply Rabs_le. split.
  - assert (sqrt (sumsq (x, y, z)) <= sqrt (sumsq (a, b, c)) + 1.75 * d) by (apply K; lra). lra.
  - assert (sqrt (sumsq (a, b, c)) <= sqrt (sumsq (x, y, z)) + 1.75 * d) by (apply K; lra). lra.
Qed.
Lemma tiny_small : 0 <= tiny <= / 1000000000000000000.
Proof.
  pose proof tiny_pos. split; [lra|]. apply Rle_trans with (bpow radix2 (-60)); [apply bpow_le; lia|]. cbn. lra.
Qed.
Lemma tiny_root : sqrt tiny <= / 1000000000.
Proof.
  rewrite <- (sqrt_Rsqr (/ 1000000000)) by lra. apply sqrt_le_1_alt. unfold Rsqr. pose proof tiny_small. lra.
Qed.

Section I.
Variables (pow32 : b32 -> b32 -> b32) (pow64 : b64 -> b64 -> b64).
Notation Ar := (ieee pow32 pow64).
Local Existing Instance ieee.
Notation box := (box_px pow32 pow64).

(** The colour as real numbers. *)
Definition rpx (p : @px Ar) : @px (real 1) := @Px (real 1) (B2R (pa p : b32)) (B2R (pr p : b32)) (B2R (pg p : b32)) (B2R (pb p : b32)).
(** The exact distance between two colours. *)
Definition rdist (s o : @px Ar) : R := @dist 1 (rpx s) (rpx o).

Lemma nonneg1 k (x : b32) : (k <= 0)%Z -> nonneg k x -> small 0 x /\ 0 <= B2R x <= 1.
Proof.
  intros K [[F H] P]. rewrite Rabs_pos_eq in H by auto. pose proof (bpow_le radix2 k 0 K) as Q. cbn in Q. 
  split; [split; auto; rewrite Rabs_pos_eq by auto; change (bpow radix2 0) with 1; lra|lra].
Qed.
Lemma minus_val (x y : b32) : small 0 x -> small 0 y -> small 1 (Bminus mode_NE x y) /\
  exists e, Rabs e <= u24 /\ B2R (Bminus mode_NE x y) = (B2R x - B2R y) * (1 + e).
Proof.
  intros X Y. pose proof (small_sub 0 x y ltac:(lia) X Y) as S'. split; auto.
  destruct (Bminus_fin 24 128 x y (proj1 X) (proj1 Y)) as [Q1 Q2]. destruct (Q1 (Q2 (proj1 S'))) as [_ V].
  destruct (rnd_plus_rel32 x (Bopp y)) as (e & E1 & E2). rewrite B2R_Bopp in E2. exists e. split; auto. rewrite V. exact E2.
Qed.

(** One channel. *)
Lemma chan_ieee (x y a1 a2 : b32) : small 0 x -> small 0 y -> small 0 a1 -> small 0 a2 ->
  0 <= B2R x <= 1 -> 0 <= B2R y <= 1 -> 0 <= B2R a1 <= 1 -> 0 <= B2R a2 <= 1 ->
  let b := Bminus mode_NE x y in let w := Bplus mode_NE b (Bminus mode_NE a1 a2) in
  let m := Bmax (Bmult mode_NE b b) (Bmult mode_NE w w) in
  nonneg 4 m /\ exists M, 0 <= M <= 2.001 /\ Rabs (M - chan (B2R x - B2R y) (B2R a1 - B2R a2)) <= 4.1 * u24 /\
    Rabs (B2R m - M * M) <= u24 * (M * M) + tiny.
Proof.
  intros X Y A1 A2 RX RY R1 R2 b w m.
  destruct (minus_val x y X Y) as (SB & e1 & E1 & VB). fold b in SB, VB.
  destruct (minus_val a1 a2 A1 A2) as (SA & e2 & E2 & VA). set (a := Bminus mode_NE a1 a2) in *.
  assert (SW : small 2 w) by (apply (small_add 1); auto; lia).
  assert (VW : exists e3, Rabs e3 <= u24 /\ B2R w = (B2R b + B2R a) * (1 + e3)).
  { destruct (rnd_plus_rel32 b a) as (e & E & V). exists e. split; auto. rewrite <- V. apply plus_val; [apply SB|apply SA|apply SW]. }
  destruct VW as (e3 & E3 & VW).
  assert (NB : nonneg 4 (Bmult mode_NE b b)) by (apply nonneg_le with 2%Z; [|lia]; apply (nonneg_sq 1); auto; lia).
  assert (NW : nonneg 4 (Bmult mode_NE w w)) by (apply (nonneg_sq 2); auto; lia).
  split; [apply nonneg_max; auto|].
  exists (chan (B2R b) (B2R w - B2R b)).
  assert (L : Rabs (chan (B2R b) (B2R w - B2R b) - chan (B2R x - B2R y) (B2R a1 - B2R a2)) <= 4.1 * u24).
  { unfold u24 in *. apply Rabs_le_inv in E1. apply Rabs_le_inv in E2. apply Rabs_le_inv in E3.
    set (c := B2R x - B2R y) in *. set (d := B2R a1 - B2R a2) in *. assert (-1 <= c <= 1) by (unfold c; lra). assert (-1 <= d <= 1) by (unfold d; lra).
    clearbody c d. assert (HB : - / 16777216 <= B2R b - c <= / 16777216) by (rewrite VB; split; nra).
    assert (HA : - / 16777216 <= B2R a - d <= / 16777216) by (rewrite VA; split; nra).
    apply chan_lip; apply Rabs_le; [lra|]. rewrite VW. split; nra. }
  split; [|split; [exact L|]].
  - split; [apply chan_pos|]. apply Rabs_le_inv in L. unfold u24 in L.
    assert (chan (B2R x - B2R y) (B2R a1 - B2R a2) <= 2) by (unfold chan; apply Rmax_lub; apply Rabs_le; lra). lra.
  - destruct (Bmax_fin 24 128 _ _ (proj1 (proj1 NB)) (proj1 (proj1 NW))) as [_ V]. fold m in V. rewrite V.
    destruct (small_mul 1 1 b b ltac:(lia) SB SB) as [_ ->]. destruct (small_mul 2 2 w w ltac:(lia) SW SW) as [_ ->].
    rewrite rnd32_max. rewrite <- chan_sq. replace (B2R b + (B2R w - B2R b)) with (B2R w) by ring.
    set (z := Rmax _ _). assert (0 <= z) by (unfold z; eapply Rle_trans; [|apply Rmax_l]; nra).
    pose proof (rnd32_err z) as R. rewrite (Rabs_pos_eq z) in R by auto. exact R.
Qed.

(** The error of a computed distance. *)
Definition e1 : R := 24 * u24.
Lemma sdist_close (s o : @px Ar) : box s -> box o ->
  nonneg 6 (@diff Ar s o) /\ nonneg 3 (@fsqrt Ar (@diff Ar s o)) /\
  Rabs (sqrt (B2R (@diff Ar s o : b32)) - rdist s o) <= 20 * u24 /\
  Rabs (B2R (@fsqrt Ar (@diff Ar s o) : b32) - rdist s o) <= e1.
Proof.
  intros B1 B2. pose proof (diff_ok pow32 pow64 s o (box_color _ _ s B1) (box_color _ _ o B2)) as DK.
  assert (SK : nonneg 3 (@fsqrt Ar (@diff Ar s o))) by (apply (nonneg_sqrt 6 3); auto; lia).
  split; auto. split; auto.
  destruct B1 as (A1 & R1 & G1 & L1). destruct B2 as (A2 & R2 & G2 & L2).
  apply nonneg1 in A1 as [A1 A1']; [|lia]. apply nonneg1 in R1 as [R1 R1']; [|lia]. apply nonneg1 in G1 as [G1 G1']; [|lia]. apply nonneg1 in L1 as [L1 L1']; [|lia].
  apply nonneg1 in A2 as [A2 A2']; [|lia]. apply nonneg1 in R2 as [R2 R2']; [|lia]. apply nonneg1 in G2 as [G2 G2']; [|lia]. apply nonneg1 in L2 as [L2 L2']; [|lia].
  destruct (chan_ieee (pr s) (pr o) (pa o) (pa s)) as (N1 & M1 & P1 & C1 & Q1); auto.
  destruct (chan_ieee (pg s) (pg o) (pa o) (pa s)) as (N2 & M2 & P2 & C2 & Q2); auto.
  destruct (chan_ieee (pb s) (pb o) (pa o) (pa s)) as (N3 & M3 & P3 & C3 & Q3); auto.
  assert (DE : exists q1 q2 q3 : b32, @diff Ar s o = Bplus mode_NE (Bplus mode_NE q1 q2) q3 /\
     nonneg 4 q1 /\ nonneg 4 q2 /\ nonneg 4 q3 /\ Rabs (B2R q1 - M1 * M1) <= u24 * (M1 * M1) + tiny /\ Rabs (B2R q2 - M2 * M2) <= u24 * (M2 * M2) + tiny /\
     Rabs (B2R q3 - M3 * M3) <= u24 * (M3 * M3) + tiny).
  { do 3 eexists. split; [reflexivity|]. auto 10. }
  clear N1 N2 N3 Q1 Q2 Q3. destruct DE as (q1 & q2 & q3 & DE & N1 & N2 & N3 & Q1 & Q2 & Q3).
  assert (S1 : nonneg 5 (Bplus mode_NE q1 q2)) by (apply (nonneg_add 4); auto; lia).
  assert (S2 : nonneg 6 (Bplus mode_NE (Bplus mode_NE q1 q2) q3)) by (apply (nonneg_add 5); auto; [lia|eapply nonneg_le; eauto; lia]).
  assert (DV : exists f1 f2, Rabs f1 <= u24 /\ Rabs f2 <= u24 /\ B2R (@diff Ar s o : b32) = ((B2R q1 + B2R q2) * (1 + f1) + B2R q3) * (1 + f2)).
  { destruct (rnd_plus_rel32 q1 q2) as (f1 & F1 & V1). destruct (rnd_plus_rel32 (Bplus mode_NE q1 q2) q3) as (f2 & F2 & V2).
    exists f1, f2. split; auto. split; auto. rewrite DE. rewrite plus_val; [|apply S1|apply N3|apply S2]. rewrite V2. rewrite plus_val; [|apply N1|apply N2|apply S1]. rewrite V1. reflexivity. }
  destruct DV as (f1 & f2 & F1 & F2 & DV).
  pose proof tiny_small as TS. pose proof tiny_root as TR.
  assert (SC : Rabs (B2R (@diff Ar s o : b32) - (M1 * M1 + M2 * M2 + M3 * M3)) <= 4 * u24 * (M1 * M1 + M2 * M2 + M3 * M3) + 4 * tiny).
  { rewrite DV. apply sum_close; auto; try nra; try (apply N1); try (apply N2); try (apply N3). }
  apply root_close in SC; [|apply DK|nra|lra]. fold (sumsq (M1, M2, M3)) in SC.
  assert (NL : Rabs (sqrt (sumsq (M1, M2, M3)) - rdist s o) <= 1.75 * (4.1 * u24)).
  { unfold rdist, dist. rewrite diff_comps. unfold comps, rpx. cbn [pa pr pg pb]. apply norm_lip; auto; try apply chan_pos; try lra. unfold u24. lra. }
  assert (SB : sqrt (sumsq (M1, M2, M3)) <= 3.47).
  { rewrite <- (sqrt_Rsqr 3.47) by lra. apply sqrt_le_1_alt. unfold sumsq, Rsqr. nra. }
  pose proof (sqrt_pos (sumsq (M1, M2, M3))) as SP.
  set (sS := sqrt (sumsq _)) in *. set (sD := sqrt (B2R (@diff Ar s o : b32))) in *.
  assert (SD : Rabs (sD - rdist s o) <= 18 * u24).
  { apply Rabs_le_inv in SC. apply Rabs_le_inv in NL. unfold u24 in *. apply Rabs_le. lra. }
  split; [unfold u24 in *; lra|].
  assert (SV : B2R (@fsqrt Ar (@diff Ar s o) : b32) = rnd32 sD).
  { destruct (Bsqrt_correct 24 128 prec32 emax32 mode_NE (@diff Ar s o : b32)) as (V & _). exact V. }
  rewrite SV. pose proof (rnd32_err sD) as RE. assert (SDP : 0 <= sD) by apply sqrt_pos. rewrite (Rabs_pos_eq sD) in RE by auto.
  apply Rabs_le_inv in RE. apply Rabs_le_inv in SC. apply Rabs_le_inv in SD. apply Rabs_le_inv in NL. unfold e1, u24 in *. apply Rabs_le. lra.
Qed.
End I.
