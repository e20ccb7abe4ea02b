(** Floating point: the logarithms of table entries and channels, which give
    how far apart two colours are (see ThinReal.v). *)
From Coq Require Import Reals Lra.
From Verif Require Import Base Arith Ieee IeeeFacts Order Pal SpecPow RealArith NearReal LnFacts ColorFacts SmallFloat MedianIeee AvgIeee SimdFacts
  MetricIeee NearIeee ContrastIeee FiniteRemap SpecImage Nearest Kmeans.
From Flocq Require Import IEEE754.BinarySingleNaN Core.Core.
Open Scope R_scope.

Lemma ln_step v v' : 1 <= v -> v + 1 <= v' -> / (v + 1) <= ln v' - ln v.
Proof.
  intros V V'. rewrite <- ln_div by lra. eapply Rle_trans; [|apply ln_ge_inv; apply Rdiv_lt_0_compat; lra].
  replace (/ (v' / v)) with (v / v') by (field; lra).
  assert (v / v' <= v / (v + 1)). { apply Rmult_le_compat_l; [lra|]. apply Rinv_le; lra. }
  replace (/ (v + 1)) with (1 - v / (v + 1)) by (field; lra). lra.
Qed.
Lemma exp_ge x : 1 + x <= exp x. Proof. apply exp_ineq1_le. Qed.
Lemma exp_mono x y : x <= y -> exp x <= exp y.
Proof. intros [H| ->]; [left; apply exp_increasing; auto|lra]. Qed.

(** Two channel values given by their logarithms. *)
Definition delta : R := 3 / 1000000.
Lemma exp_low a b M : 0 < M -> Rabs (b - (a + ln M)) <= delta -> exp a * M * (1 - delta) <= exp b.
Proof.
  intros HM H. apply Rabs_le_inv in H. apply Rle_trans with (exp (a + ln M - delta)).
  - replace (a + ln M - delta) with (a + ln M + - delta) by ring. rewrite !exp_plus, exp_ln by auto. apply Rmult_le_compat_l.
    + pose proof (exp_pos a). nra.
    + pose proof (exp_ge (- delta)). lra.
  - apply exp_mono. lra.
Qed.

(** * The colours *)
Section I.
Variables (pow32 : b32 -> b32 -> b32) (pow64 : b64 -> b64 -> b64) (Acc : pow32_accurate pow32).
Notation Ar := (ieee pow32 pow64).
Local Existing Instance ieee.
Notation lut_at := (lut_at pow32).

Definition gamma_usual (g : b64) : Prop := is_finite g = true /\ 44 / 100 <= B2R g <= 1.
Lemma usual_fits g : gamma_usual g -> gamma_fits g.
Proof. intros [F H]. split; auto. lra. Qed.
Lemma e_in_usual g : gamma_usual g -> is_finite (e_in g) = true /\ 1 / 2 <= B2R (e_in g) <= 132 / 100.
Proof.
  intros H. destruct (exponents g (usual_fits g H)) as (X1 & _ & [X3 _] & _). split; auto. split; auto.
  destruct H as [Fg Rg]. destruct G64_ok as [FG RG].
  assert (LG : Rabs (ln (B2R G64)) <= 3) by (apply ln_small; lra).
  assert (Lg : Rabs (ln (B2R g)) <= 3) by (apply ln_small; lra).
  apply Rabs_le_inv in LG, Lg.
  destruct (div64_ln G64 g) as (F1 & P1 & L1); auto; try lra. { apply Rabs_le; lra. }
  apply Rabs_le_inv in L1. unfold u23 in L1.
  destruct (conv_ln _ _ F1 P1 eq_refl) as (l1 & (C1 & C2 & C3) & C4). { apply Rabs_le; lra. }
  fold (e_in g) in *. apply Rabs_le_inv in C4. unfold u23 in C4.
  assert (Q1 : Rabs (ln (B2R (e_in g)) - ln (B2R G64 / B2R g)) <= 2 * u23).
  { rewrite ln_div by lra. apply Rabs_le. unfold u23. lra. }
  assert (R1 : 56 / 100 <= B2R G64 / B2R g <= 1319 / 1000).
  { split; apply Rmult_le_reg_r with (B2R g); try lra; unfold Rdiv; rewrite ?Rmult_assoc, ?Rinv_l by lra; lra. }
  apply from_ln in Q1; [|auto|lra|unfold u23; lra]. apply Rabs_le_inv in Q1. unfold u23 in Q1. lra.
Qed.

Lemma lut_ln g v : gamma_fits g -> (1 <= v <= 255)%Z ->
  exists l, lnf (lut_at g v) l /\ Rabs (l - B2R (e_in g) * (ln (IZR v) - ln 255)) <= 22 / 10000000 /\ -14 <= l <= 1.
Proof.
  intros Hg Hv. destruct (exponents g Hg) as (X1 & X2 & X3 & X4 & X5).
  pose proof (ln_byte v Hv) as LV. assert (L5 : 0 <= ln (IZR 255) <= 577 / 100) by (pose proof (ln_byte 255 ltac:(lia)); lra).
  set (e1 := B2R (e_in g)) in *.
  destruct (div_ln _ _ _ _ (lnf_ofZ v ltac:(lia)) (lnf_ofZ 255 ltac:(lia))) as (lx & Fx & Ex). { apply Rabs_le; lra. }
  apply Rabs_le_inv in Ex. set (T := ln (IZR v) - ln (IZR 255)) in *.
  assert (V255 : ln (IZR v) <= ln (IZR 255)). { apply ln_le; [apply IZR_lt; lia|apply IZR_le; lia]. }
  assert (TR : -577 / 100 <= T <= 0) by (unfold T; lra).
  unfold u23 in *.
  assert (B1 : Rabs (e1 * lx) <= 50).
  { rewrite Rabs_mult, (Rabs_pos_eq e1) by lra. apply Rle_trans with (24 / 10 * (578 / 100)); [|lra].
    apply Rmult_le_compat; try lra. apply Rabs_pos. apply Rabs_le; lra. }
  destruct (pow_ln pow32 _ _ _ Acc Fx X1) as (ly & Fy & Ey). { exact B1. }
  fold e1 in Ey. unfold u19 in Ey. apply Rabs_le_inv in Ey.
  assert (D1 : Rabs (e1 * lx - e1 * T) <= 24 / 10 * / 8388608).
  { rewrite <- Rmult_minus_distr_l, Rabs_mult, (Rabs_pos_eq e1) by lra. apply Rmult_le_compat; try lra. apply Rabs_pos. apply Rabs_le. lra. }
  apply Rabs_le_inv in D1.
  assert (B2 : -1385 / 100 <= e1 * T <= 0) by nra.
  exists ly. split; [exact Fy|]. split; [apply Rabs_le|]; lra.
Qed.

(** A channel of a visible pixel. *)
Lemma channel_ln g v W a lW la : gamma_fits g -> (1 <= v <= 255)%Z -> lnf W lW -> Rabs lW <= 3 -> lnf a la -> Rabs la <= 6 ->
  exists l, lnf (Bmult mode_NE (Bmult mode_NE (lut_at g v) W) a) l /\ Rabs (l - (B2R (e_in g) * (ln (IZR v) - ln 255) + ln (B2R W * B2R a))) <= delta /\ Rabs l <= 24.
Proof.
  intros Hg Hv FW HW Fa Ha. destruct (lut_ln g v Hg Hv) as (ly & Fy & Ey & Ry). apply Rabs_le_inv in HW. apply Rabs_le_inv in Ha. apply Rabs_le_inv in Ey.
  destruct (mul_ln _ _ _ _ Fy FW) as (l2 & F2 & E2). { apply Rabs_le; lra. } apply Rabs_le_inv in E2. unfold u23 in E2.
  destruct (mul_ln _ _ _ _ F2 Fa) as (l3 & F3 & E3). { apply Rabs_le; lra. } apply Rabs_le_inv in E3. unfold u23 in E3.
  exists l3. split; auto. destruct FW as (_ & PW & LW). destruct Fa as (_ & Pa & La). rewrite ln_mult, LW, La by auto.
  split; apply Rabs_le; unfold delta; lra.
Qed.
Lemma zero_lut g : gamma_fits g -> lut_at g 0 = B754_zero false.
Proof.
  intros Hg. destruct (exponents g Hg) as (X1 & X2 & X3 & X4 & X5). unfold ColorFacts.lut_at.
  replace (Bdiv mode_NE (BofZ 24 128 0) (BofZ 24 128 255)) with (B754_zero false : b32) by (vm_compute; reflexivity).
  apply Acc; auto. lra.
Qed.
Lemma channel_nil g W a lW la : gamma_fits g -> lnf W lW -> lnf a la -> Bmult mode_NE (Bmult mode_NE (lut_at g 0) W) a = B754_zero false.
Proof.
  intros Hg FW Fa. rewrite zero_lut by auto.
  destruct (ColorFacts.pos_shape W _ FW) as (m & e & H & ->). destruct (ColorFacts.pos_shape a _ Fa) as (m2 & e2 & H2 & ->). reflexivity.
Qed.

(** Alpha. *)
Lemma div_byte v : (0 <= v <= 255)%Z -> is_finite (alpha v) = true /\ Rabs (B2R (alpha v) - IZR v / 255) <= 2 * u24.
Proof.
  intros H. destruct (byte_unit v H) as [F B]. split; [exact F|].
  destruct (BofZ_exact 24 128 v) as [F1 V1]; try lia. destruct (BofZ_exact 24 128 255) as [F2 V2]; try lia.
  assert (Q : B2R (alpha v) = rnd32 (IZR v / 255)).
  { unfold alpha. pose proof (Bdiv_correct 24 128 prec32 emax32 mode_NE (BofZ 24 128 v) (BofZ 24 128 255)) as C. cbn [round_mode] in C.
    rewrite V1, V2 in C. destruct (Rlt_bool _ _) eqn:E in C.
    - destruct C as (C & _); [lra|exact C].
    - exfalso. specialize (C ltac:(lra)). change (is_finite (alpha v) = true) in F. unfold alpha in F. set (z := Bdiv mode_NE _ _) in *. destruct z; cbn in *; discriminate. }
  rewrite Q. eapply Rle_trans; [apply rnd32_err|]. destruct H as [H1 H2]. apply IZR_le in H1, H2. rewrite Rabs_pos_eq by lra.
  pose proof tiny_small. unfold u24. lra.
Qed.
Lemma weight_val p q : (1 <= p <= q)%Z -> (q <= 1000)%Z ->
  let w := Bdiv mode_NE (BofZ 24 128 p) (BofZ 24 128 q) in is_finite w = true -> Rabs (B2R w - IZR p / IZR q) <= 2 * u24.
Proof.
  intros H1 H2 w F. destruct (BofZ_exact 24 128 p) as [F1 V1]; try lia. destruct (BofZ_exact 24 128 q) as [F2 V2]; try lia.
  assert (P : 1 <= IZR p) by (apply IZR_le; lia). assert (PQ : IZR p <= IZR q) by (apply IZR_le; lia).
  assert (Q : B2R w = rnd32 (IZR p / IZR q)).
  { unfold w in *. pose proof (Bdiv_correct 24 128 prec32 emax32 mode_NE (BofZ 24 128 p) (BofZ 24 128 q)) as C. cbn [round_mode] in C.
    rewrite V1, V2 in C. destruct (Rlt_bool _ _) eqn:E in C.
    - destruct C as (C & _); [lra|exact C].
    - exfalso. specialize (C ltac:(lra)). set (z := Bdiv mode_NE _ _) in *. destruct z; cbn in *; discriminate. }
  rewrite Q. eapply Rle_trans; [apply rnd32_err|].
  assert (0 <= IZR p / IZR q <= 1). { split; [apply Rmult_le_pos; [lra|apply Rlt_le, Rinv_0_lt_compat; lra]|]. apply Rmult_le_reg_r with (IZR q); [lra|]. unfold Rdiv. rewrite Rmult_assoc, Rinv_l by lra. lra. }
  rewrite Rabs_pos_eq by lra. pose proof tiny_small. unfold u24. lra.
Qed.
Lemma alpha_val v : (0 <= v <= 255)%Z -> Rabs (B2R (Bmult mode_NE (alpha v) WA) - IZR v / 255 * (625 / 1000)) <= 6 * u24.
Proof.
  intros H. destruct (div_byte v H) as [F E]. destruct (byte_unit v H) as [_ B].
  assert (FW : is_finite WA = true) by reflexivity. pose proof (weight_val 625 1000 ltac:(lia) ltac:(lia) FW) as EW. cbv zeta in EW. fold WA in EW.
  assert (S1 : small 0 (alpha v)) by (apply unit_small; split; [exact F|exact B]).
  assert (S2 : small 0 WA) by apply (weights_small pow32 pow64).
  destruct (small_mul 0 0 _ _ ltac:(lia) S1 S2) as [_ ->].
  pose proof (rnd32_err (B2R (alpha v) * B2R WA)) as R. apply Rabs_le_inv in EW. apply Rabs_le_inv in E. unfold u24 in *.
  assert (HW : 0 <= B2R WA <= 1) by lra. fold (alpha v) in B.
  assert (0 <= B2R (alpha v) * B2R WA <= 1) by (split; nra). rewrite (Rabs_pos_eq (B2R (alpha v) * B2R WA)) in R by lra. pose proof tiny_small. apply Rabs_le_inv in R.
  set (x := B2R (alpha v)) in *. set (y := B2R WA) in *. set (t := IZR v / 255) in *.
  assert (0 <= t <= 1). { destruct H as [H1' H2']. apply IZR_le in H1', H2'. unfold t. lra. }
  clearbody x y t. apply Rabs_le. split; nra.
Qed.

(** Distances. *)
Lemma rdist_chan (s o : @px Ar) : Rabs (B2R (pr s : b32) - B2R (pr o : b32)) <= rdist pow32 pow64 s o /\ Rabs (B2R (pg s : b32) - B2R (pg o : b32)) <= rdist pow32 pow64 s o /\
  Rabs (B2R (pb s : b32) - B2R (pb o : b32)) <= rdist pow32 pow64 s o /\ Rabs (B2R (pa s : b32) - B2R (pa o : b32)) <= 2 * rdist pow32 pow64 s o.
Proof.
  unfold rdist, dist. rewrite diff_comps. unfold comps, sumsq. cbn [rpx pr pg pb pa].
  set (A := B2R (pa o) - B2R (pa s)).
  match goal with |- context [sqrt (?x * ?x + ?y * ?y + ?z * ?z)] => set (cr := x); set (cg := y); set (cb := z) end.
  assert (P1 : 0 <= cr) by apply chan_pos. assert (P2 : 0 <= cg) by apply chan_pos. assert (P3 : 0 <= cb) by apply chan_pos.
  assert (D : forall x, 0 <= x -> x * x <= cr * cr + cg * cg + cb * cb -> x <= sqrt (cr * cr + cg * cg + cb * cb)).
  { intros x X H. rewrite <- (sqrt_square x) by auto. apply sqrt_le_1_alt. auto. }
  assert (K : forall c a, Rabs c <= chan c a /\ Rabs a <= 2 * chan c a).
  { intros c a. unfold chan. pose proof (Rmax_l (Rabs c) (Rabs (c + a))). pose proof (Rmax_r (Rabs c) (Rabs (c + a))). split; auto.
    replace a with (c + a + - c) at 1 by ring. eapply Rle_trans; [apply Rabs_triang|]. rewrite Rabs_Ropp. lra. }
  assert (Q1 : cr <= sqrt (cr * cr + cg * cg + cb * cb)) by (apply D; nra).
  assert (Q2 : cg <= sqrt (cr * cr + cg * cg + cb * cb)) by (apply D; nra).
  assert (Q3 : cb <= sqrt (cr * cr + cg * cg + cb * cb)) by (apply D; nra).
  split; [eapply Rle_trans; [|exact Q1]; apply K|]. split; [eapply Rle_trans; [|exact Q2]; apply K|]. split; [eapply Rle_trans; [|exact Q3]; apply K|].
  rewrite Rabs_minus_sym. eapply Rle_trans; [|apply Rmult_le_compat_l; [lra|exact Q1]]. apply K.
Qed.

End I.
