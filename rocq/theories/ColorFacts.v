(** 8-bit colours survive the conversion to the internal format and back. *)
From Verif Require Import Base Arith Ieee Order IeeeFacts SpecPow LnFacts Pal.
From Flocq Require Import IEEE754.BinarySingleNaN Core.Core.
From Flocq Require Import Relative.
From Coq Require Import Reals Lra.
Open Scope R_scope.

Lemma exp_near t d : Rabs t <= d -> d <= 1 / 100 -> Rabs (exp t - 1) <= 102 / 100 * d.
Proof.
  intros T D. assert (D0 : 0 <= d) by (pose proof (Rabs_pos t); lra). apply Rabs_le_inv in T.
  pose proof (exp_ineq1_le t). pose proof (exp_ineq1_le (- t)). rewrite exp_Ropp in H0.
  pose proof (exp_pos t) as P. apply Rabs_le. split; [lra|].
  assert (exp t <= / (1 - t)).
  { rewrite <- (Rinv_inv (exp t)). apply Rinv_le; lra. }
  assert (/ (1 - t) <= / (1 - d)) by (apply Rinv_le; lra).
  assert (/ (1 - d) <= 1 + 102 / 100 * d); [|lra].
  apply Rmult_le_reg_r with (1 - d); [lra|]. rewrite Rinv_l by lra.
  assert (0 <= d * (2 / 100 - 102 / 100 * d)) by (apply Rmult_le_pos; lra). lra.
Qed.
Lemma from_ln x y d : 0 < x -> 0 < y -> Rabs (ln x - ln y) <= d -> d <= 1 / 100 -> Rabs (x - y) <= 102 / 100 * d * y.
Proof.
  intros X Y H D. replace (x - y) with ((exp (ln x - ln y) - 1) * y).
  - rewrite Rabs_mult, (Rabs_pos_eq y) by lra. apply Rmult_le_compat_r; [lra|]. apply exp_near; auto.
  - rewrite <- ln_div by auto. rewrite exp_ln by (apply Rdiv_lt_0_compat; auto). field. lra.
Qed.

(** f64 division, with the coarse error bound of f32 *)
Lemma div64_ln (x y : b64) : is_finite x = true -> is_finite y = true -> 0 < B2R x -> 0 < B2R y ->
  Rabs (ln (B2R x) - ln (B2R y)) <= 50 ->
  is_finite (Bdiv mode_NE x y) = true /\ 0 < B2R (Bdiv mode_NE x y) /\
  Rabs (ln (B2R (Bdiv mode_NE x y)) - (ln (B2R x) - ln (B2R y))) <= u23.
Proof.
  intros F1 F2 P1 P2 H. set (r := B2R x / B2R y). set (l := ln (B2R x) - ln (B2R y)).
  assert (E : ln r = l) by (apply ln_div; auto). assert (P : 0 < r) by (apply Rdiv_lt_0_compat; auto).
  destruct (bpow_range r l 100 P E) as [B1 B2]; [lia|unfold l; lra|].
  set (rn := round radix2 (SpecFloat.fexp 53 1024) ZnearestE r).
  assert (Q : Rabs (rn - r) <= / 2 * bpow radix2 (- 53 + 1) * Rabs r).
  { apply (relative_error_N_FLT radix2 (3 - 1024 - 53) 53 prec64 (fun x => negb (Z.even x)) r).
    rewrite Rabs_pos_eq by lra. apply Rle_trans with (2 := B1). apply bpow_le. lia. }
  rewrite (Rabs_pos_eq r) in Q by lra.
  assert (Q2 : / 2 * bpow radix2 (- 53 + 1) <= / 2 * u23) by (unfold u23; simpl; lra).
  assert (Q3 : Rabs (rn - r) <= / 2 * u23 * r).
  { apply Rle_trans with (1 := Q). apply Rmult_le_compat_r; lra. }
  destruct (ln_near rn r (/ 2 * u23) P) as [X Y]; auto.
  { unfold u23. lra. }
  assert (B : Rabs rn < bpow radix2 1024).
  { rewrite Rabs_pos_eq by lra. apply Rle_lt_trans with (bpow radix2 100); [|apply bpow_lt; lia].
    apply round_le_generic; auto; [exact (fexp_correct 53 1024 prec64)|apply valid_rnd_N|]. apply generic_format_bpow. unfold SpecFloat.fexp, SpecFloat.emin. lia. }
  destruct (Bdiv_fin 53 1024 x y F1 ltac:(lra)) as [G _]. destruct (G B) as [F V]. fold r in V. fold rn in V. rewrite V. rewrite E in Y. repeat split; auto. lra.
Qed.

(** The internal gamma. *)
Definition G64 : b64 := Bdiv mode_NE (BofZ 53 1024 57) (BofZ 53 1024 100).
Lemma ln_small x : 1 / 8 <= x <= 8 -> Rabs (ln x) <= 3.
Proof.
  intros [L U]. pose proof ln2_lt. assert (E : ln 8 = 3 * ln 2) by (replace 8 with (2 ^ 3) by lra; rewrite ln_pow by lra; simpl; lra).
  assert (ln (/ 8) = - (3 * ln 2)) by (rewrite ln_Rinv by lra; lra).
  apply Rabs_le. split.
  - apply Rle_trans with (ln (/ 8)); [|apply ln_le; lra]. lra.
  - apply Rle_trans with (ln 8); [apply ln_le; lra|]. lra.
Qed.
Lemma G64_ok : is_finite G64 = true /\ 56 / 100 <= B2R G64 <= 58 / 100.
Proof.
  destruct (BofZ_exact 53 1024 57) as [F1 V1]; try lia. destruct (BofZ_exact 53 1024 100) as [F2 V2]; try lia.
  destruct (div64_ln (BofZ 53 1024 57) (BofZ 53 1024 100)) as (F & P & L); auto; try (rewrite ?V1, ?V2; lra).
  { rewrite V1, V2, <- ln_div by lra. apply Rle_trans with 3; [apply ln_small; lra|lra]. }
  fold G64 in F, P, L. split; auto. rewrite V1, V2 in L. rewrite <- ln_div in L by lra.
  apply from_ln in L; auto; [|lra|unfold u23; lra]. apply Rabs_le_inv in L. unfold u23 in L. lra.
Qed.

(** The two exponents are positive, of moderate size and inverse to each other
    up to rounding. *)
Definition gamma_fits (g : b64) : Prop := is_finite g = true /\ / 4 <= B2R g <= 1.
Definition e_in (g : b64) : b32 := Bconv 24 128 (Bdiv mode_NE G64 g).
Definition e_out (g : b64) : b32 := Bconv 24 128 (Bdiv mode_NE g G64).
Lemma exponents g : gamma_fits g ->
  is_finite (e_in g) = true /\ is_finite (e_out g) = true /\
  1 / 2 <= B2R (e_in g) <= 24 / 10 /\ 4 / 10 <= B2R (e_out g) <= 18 / 10 /\
  Rabs (B2R (e_in g) * B2R (e_out g) - 1) <= 5 * u23.
Proof.
  intros [Fg Rg]. destruct G64_ok as [FG RG].
  assert (LG : Rabs (ln (B2R G64)) <= 3) by (apply ln_small; lra).
  assert (Lg : Rabs (ln (B2R g)) <= 3) by (apply ln_small; lra).
  apply Rabs_le_inv in LG, Lg.
  destruct (div64_ln G64 g) as (F1 & P1 & L1); auto; try lra. { apply Rabs_le; lra. }
  destruct (div64_ln g G64) as (F2 & P2 & L2); auto; try lra. { apply Rabs_le; lra. }
  apply Rabs_le_inv in L1, L2. unfold u23 in L1, L2.
  destruct (conv_ln _ _ F1 P1 eq_refl) as (l1 & (C1 & C2 & C3) & C4). { apply Rabs_le; lra. }
  destruct (conv_ln _ _ F2 P2 eq_refl) as (l2 & (D1 & D2 & D3) & D4). { apply Rabs_le; lra. }
  fold (e_in g) in *. fold (e_out g) in *. apply Rabs_le_inv in C4, D4. unfold u23 in C4, D4.
  split; auto. split; auto.
  assert (Q1 : Rabs (ln (B2R (e_in g)) - ln (B2R G64 / B2R g)) <= 2 * u23).
  { rewrite ln_div by lra. apply Rabs_le. unfold u23. lra. }
  assert (Q2 : Rabs (ln (B2R (e_out g)) - ln (B2R g / B2R G64)) <= 2 * u23).
  { rewrite ln_div by lra. apply Rabs_le. unfold u23. lra. }
  assert (R1 : 56 / 100 <= B2R G64 / B2R g <= 232 / 100).
  { split; apply Rmult_le_reg_r with (B2R g); try lra; unfold Rdiv at 2 || idtac; unfold Rdiv; rewrite ?Rmult_assoc, ?Rinv_l by lra; lra. }
  assert (R2 : 25 / 58 <= B2R g / B2R G64 <= 100 / 56).
  { split; apply Rmult_le_reg_r with (B2R G64); try lra; unfold Rdiv; rewrite ?Rmult_assoc, ?Rinv_l by lra; lra. }
  apply from_ln in Q1; [|auto|lra|unfold u23; lra]. apply from_ln in Q2; [|auto|lra|unfold u23; lra].
  apply Rabs_le_inv in Q1, Q2. unfold u23 in Q1, Q2. split; [lra|]. split; [lra|].
  assert (Q3 : Rabs (ln (B2R (e_in g) * B2R (e_out g)) - ln 1) <= 4 * u23).
  { rewrite ln_mult, ln_1 by auto. apply Rabs_le. unfold u23. lra. }
  apply from_ln in Q3; [|apply Rmult_lt_0_compat; auto|lra|unfold u23; lra]. unfold u23 in *. lra.
Qed.

(** One colour channel: the premultiplied value divided by alpha again. *)
Section Channel.
Variables (pow32 : b32 -> b32 -> b32) (Acc : pow32_accurate pow32).
Notation "x [*] y" := (Bmult mode_NE x y) (at level 40, left associativity).
Notation "x [/] y" := (Bdiv mode_NE x y) (at level 40, left associativity).

Lemma unweight (A W a y : b32) lA lW la ly : lnf A lA -> lnf W lW -> lnf a la -> lnf y ly ->
  Rabs lA <= 3 -> Rabs lW <= 3 -> Rabs la <= 6 -> Rabs ly <= 15 ->
  exists l, lnf (((A [/] W) [*] ((y [*] W) [*] a)) [/] (a [*] A)) l /\ Rabs (l - ly) <= 6 * u23.
Proof.
  intros FA FW Fa Fy HA HW Ha Hy. apply Rabs_le_inv in HA, HW, Ha, Hy. assert (U : 0 < u23 < 1 / 1000) by (unfold u23; lra).
  destruct (div_ln _ _ _ _ FA FW) as (l1 & F1 & E1). { apply Rabs_le; lra. } apply Rabs_le_inv in E1.
  destruct (mul_ln _ _ _ _ Fy FW) as (l2 & F2 & E2). { apply Rabs_le; lra. } apply Rabs_le_inv in E2.
  destruct (mul_ln _ _ _ _ F2 Fa) as (l3 & F3 & E3). { apply Rabs_le; lra. } apply Rabs_le_inv in E3.
  destruct (mul_ln _ _ _ _ F1 F3) as (l4 & F4 & E4). { apply Rabs_le; lra. } apply Rabs_le_inv in E4.
  destruct (mul_ln _ _ _ _ Fa FA) as (l5 & F5 & E5). { apply Rabs_le; lra. } apply Rabs_le_inv in E5.
  destruct (div_ln _ _ _ _ F4 F5) as (l6 & F6 & E6). { apply Rabs_le; lra. } apply Rabs_le_inv in E6.
  exists l6. split; auto. apply Rabs_le. lra.
Qed.

Lemma ln_byte v : (1 <= v <= 255)%Z -> 0 <= ln (IZR v) <= 575 / 100 + 2 / 100.
Proof.
  intros [L U]. apply IZR_le in L, U. split.
  - rewrite <- ln_1. apply ln_le; lra.
  - apply Rle_trans with (ln 256); [apply ln_le; lra|]. replace 256 with (2 ^ 8) by lra. rewrite ln_pow by lra.
    pose proof ln2_lt. simpl INR. lra.
Qed.

Definition lut_at (g : b64) (v : Z) : b32 := pow32 (BofZ 24 128 v [/] BofZ 24 128 255) (e_in g).
Definition shown (g : b64) (A W a y : b32) : Z :=
  Bto_uint 255 (pow32 (((A [/] W) [*] ((y [*] W) [*] a)) [/] (a [*] A)) (e_out g) [*] BofZ 24 128 256).

Lemma channel_back g v (A W a : b32) lA lW la : gamma_fits g -> (1 <= v <= 255)%Z ->
  lnf A lA -> lnf W lW -> lnf a la -> Rabs lA <= 3 -> Rabs lW <= 3 -> Rabs la <= 6 ->
  shown g A W a (lut_at g v) = v.
Proof.
  intros Hg Hv FA FW Fa HA HW Ha. destruct (exponents g Hg) as (X1 & X2 & X3 & X4 & X5).
  pose proof (ln_byte v Hv) as LV. assert (L5 : 0 <= ln (IZR 255) <= 577 / 100) by (pose proof (ln_byte 255 ltac:(lia)); lra).
  set (e1 := B2R (e_in g)) in *. set (e2 := B2R (e_out g)) in *.
  destruct (div_ln _ _ _ _ (lnf_ofZ v ltac:(lia)) (lnf_ofZ 255 ltac:(lia))) as (lx & Fx & Ex). { apply Rabs_le; lra. }
  apply Rabs_le_inv in Ex. set (T := ln (IZR v) - ln (IZR 255)) in *.
  assert (V255 : ln (IZR v) <= ln (IZR 255)). { apply ln_le; [apply IZR_lt; lia|apply IZR_le; lia]. }
  assert (TR : -577 / 100 <= T <= 0) by (unfold T; lra).
  unfold u23 in *.
  assert (B1 : Rabs (e1 * lx) <= 14).
  { rewrite Rabs_mult, (Rabs_pos_eq e1) by lra. apply Rle_trans with (24 / 10 * (578 / 100)); [|lra].
    apply Rmult_le_compat; try lra. apply Rabs_pos. apply Rabs_le; lra. }
  destruct (pow_ln pow32 _ _ _ Acc Fx X1) as (ly & Fy & Ey). { fold e1. lra. }
  fold e1 in Ey. unfold u19 in Ey. apply Rabs_le_inv in B1. apply Rabs_le_inv in Ey.
  fold (lut_at g v) in Fy.
  destruct (unweight A W a (lut_at g v) lA lW la ly FA FW Fa Fy HA HW Ha) as (lr & Fr & Er). { apply Rabs_le; lra. }
  unfold u23 in Er. apply Rabs_le_inv in Er.
  (* distance of lr from e1 * T *)
  assert (D1 : Rabs (e1 * lx - e1 * T) <= 24 / 10 * / 8388608).
  { rewrite <- Rmult_minus_distr_l, Rabs_mult, (Rabs_pos_eq e1) by lra. apply Rmult_le_compat; try lra. apply Rabs_pos. apply Rabs_le. lra. }
  apply Rabs_le_inv in D1.
  assert (D2 : Rabs (lr - e1 * T) <= 3 / 1000000). { apply Rabs_le. lra. }
  assert (B2 : Rabs (e1 * T) <= 14).
  { rewrite Rabs_mult, (Rabs_pos_eq e1) by lra. apply Rle_trans with (24 / 10 * (577 / 100)); [|lra].
    apply Rmult_le_compat; try lra. apply Rabs_pos. apply Rabs_le; lra. }
  apply Rabs_le_inv in B2.
  assert (B3 : Rabs (e2 * lr) <= 27).
  { rewrite Rabs_mult, (Rabs_pos_eq e2) by lra. apply Rabs_le_inv in D2. apply Rle_trans with (18 / 10 * 15); [|lra].
    apply Rmult_le_compat; try lra. apply Rabs_pos. apply Rabs_le; lra. }
  destruct (pow_ln pow32 _ _ _ Acc Fr X2) as (lo & Fo & Eo). { fold e2. lra. }
  fold e2 in Eo. unfold u19 in Eo. apply Rabs_le_inv in Eo.
  assert (D3 : Rabs (e2 * lr - e2 * (e1 * T)) <= 18 / 10 * (3 / 1000000)).
  { rewrite <- Rmult_minus_distr_l, Rabs_mult, (Rabs_pos_eq e2) by lra. apply Rmult_le_compat; try lra. apply Rabs_pos. }
  apply Rabs_le_inv in D3.
  assert (D4 : Rabs (e2 * (e1 * T) - T) <= 5 * / 8388608 * (577 / 100)).
  { replace (e2 * (e1 * T) - T) with ((e1 * e2 - 1) * T) by ring. rewrite Rabs_mult. apply Rmult_le_compat; try apply Rabs_pos; auto. apply Rabs_le; lra. }
  apply Rabs_le_inv in D4.
  assert (D5 : Rabs (lo - T) <= 12 / 1000000). { apply Rabs_le. lra. }
  apply Rabs_le_inv in D5.
  (* times 256 *)
  destruct (mul_ln _ _ _ _ Fo (lnf_ofZ 256 ltac:(lia))) as (lf & (F1 & F2 & F3) & Ef).
  { assert (ln 256 <= 577 / 100 /\ 0 <= ln 256).
    { replace 256 with (2 ^ 8) by lra. rewrite ln_pow by lra. pose proof ln2_lt. pose proof ln2_pos. simpl INR. lra. }
    apply Rabs_le. lra. }
  apply Rabs_le_inv in Ef. unfold u23 in Ef.
  unfold shown. set (x := pow32 _ (e_out g) [*] _) in *.
  destruct Hv as [V1 V2]. assert (V1' := IZR_le _ _ V1). assert (V2' := IZR_le _ _ V2).
  assert (N : Rabs (ln (B2R x) - ln (256 * IZR v / 255)) <= 13 / 1000000).
  { rewrite ln_div, ln_mult by lra. rewrite F3. apply Rabs_le. unfold T in *. lra. }
  apply from_ln in N; [|auto|apply Rdiv_lt_0_compat; lra|lra]. apply Rabs_le_inv in N.
  apply to_uint_eq; auto; [lia|lra|].
  destruct (Z.eq_dec v 255) as [->|NV]; [right; auto|]. left. rewrite plus_IZR.
  assert (V3 : (v <= 254)%Z) by lia. apply IZR_le in V3. lra.
Qed.
End Channel.

(** A zero channel stays zero. *)
Lemma pos_shape (x : b32) l : lnf x l -> exists m e H, x = B754_finite false m e H.
Proof.
  intros (F & P & _). destruct x as [s|s| |s m e H]; try discriminate; [cbn in P; lra|]. destruct s.
  - exfalso. cbn in P. assert (F2R (Float radix2 (Zneg m) e) < 0) by (apply F2R_lt_0; cbn; lia). cbn in H0. unfold cond_Zopp in P. lra.
  - eauto.
Qed.
Section Zero.
Variables (pow32 : b32 -> b32 -> b32) (Acc : pow32_accurate pow32).
Notation "x [*] y" := (Bmult mode_NE x y) (at level 40, left associativity).
Notation "x [/] y" := (Bdiv mode_NE x y) (at level 40, left associativity).
Lemma channel_zero g (A W a : b32) lA lW la : gamma_fits g ->
  lnf A lA -> lnf W lW -> lnf a la -> Rabs lA <= 3 -> Rabs lW <= 3 -> Rabs la <= 6 ->
  shown pow32 g A W a (lut_at pow32 g 0) = 0%Z.
Proof.
  intros Hg FA FW Fa HA HW Ha. destruct (exponents g Hg) as (X1 & X2 & X3 & X4 & X5). destruct Acc as [_ Z].
  apply Rabs_le_inv in HA, HW, Ha.
  destruct (div_ln _ _ _ _ FA FW) as (l1 & F1 & E1). { apply Rabs_le; lra. } apply Rabs_le_inv in E1.
  destruct (mul_ln _ _ _ _ Fa FA) as (l5 & F5 & E5). { apply Rabs_le; lra. } apply Rabs_le_inv in E5.
  unfold lut_at. replace (BofZ 24 128 0 [/] BofZ 24 128 255) with (B754_zero false : b32) by (vm_compute; reflexivity).
  rewrite Z by (auto; lra). unfold shown.
  set (k1 := A [/] W) in *. set (k5 := a [*] A) in *. clearbody k1 k5.
  destruct (pos_shape W _ FW) as (m & e & H & ->). destruct (pos_shape a _ Fa) as (m2 & e2 & H2 & ->).
  cbn [Bmult xorb].
  destruct (pos_shape _ _ F1) as (m3 & e3 & H3 & ->). cbn [Bmult xorb].
  destruct (pos_shape _ _ F5) as (m4 & e4 & H4 & ->). cbn [Bdiv xorb].
  rewrite Z by (auto; lra). destruct (pos_shape _ _ (lnf_ofZ 256 ltac:(lia))) as (m6 & e6 & H6 & ->). reflexivity.
Qed.
End Zero.

(** ** All channels *)
Section Whole.
Variables (pow32 : b32 -> b32 -> b32) (pow64 : b64 -> b64 -> b64) (Acc : pow32_accurate pow32).
Let Ar : Arith := ieee pow32 pow64.
Definition WA : b32 := Bdiv mode_NE (BofZ 24 128 625) (BofZ 24 128 1000).
Definition WR : b32 := Bdiv mode_NE (BofZ 24 128 5) (BofZ 24 128 10).
Definition WG : b32 := BofZ 24 128 1.
Definition WB : b32 := Bdiv mode_NE (BofZ 24 128 45) (BofZ 24 128 100).
Definition alpha (v : Z) : b32 := Bdiv mode_NE (BofZ 24 128 v) (BofZ 24 128 255).
Lemma weight_ok p q : (1 <= p <= q)%Z -> (q <= 1000)%Z -> (q <= 4 * p)%Z ->
  exists l, lnf (Bdiv mode_NE (BofZ 24 128 p) (BofZ 24 128 q)) l /\ Rabs l <= 3.
Proof.
  intros H1 H2 H3. assert (P : 1 <= IZR p) by (apply IZR_le; lia). assert (Q : 1 <= IZR q) by (apply IZR_le; lia).
  assert (PQ : IZR p <= IZR q) by (apply IZR_le; lia). assert (QP : IZR q <= 4 * IZR p) by (rewrite <- (mult_IZR 4); apply IZR_le; lia).
  assert (L : -2 * (72 / 100) <= ln (IZR p) - ln (IZR q) <= 0).
  { rewrite <- ln_div by lra. pose proof ln2_lt. assert (/ 4 <= IZR p / IZR q <= 1).
    { split; apply Rmult_le_reg_r with (IZR q); try lra; unfold Rdiv; rewrite ?Rmult_assoc, ?Rinv_l by lra; lra. }
    split.
    - apply Rle_trans with (ln (/ 4)); [|apply ln_le; lra]. rewrite ln_Rinv by lra. replace 4 with (2 ^ 2) by lra. rewrite ln_pow by lra. simpl INR. lra.
    - rewrite <- ln_1. apply ln_le; lra. }
  destruct (div_ln _ _ _ _ (lnf_ofZ p ltac:(lia)) (lnf_ofZ q ltac:(lia))) as (l & F & E). { apply Rabs_le; lra. }
  exists l. split; auto. apply Rabs_le_inv in E. unfold u23 in E. apply Rabs_le. lra.
Qed.
Lemma alpha_ln v : (1 <= v <= 255)%Z -> exists l, lnf (alpha v) l /\ Rabs l <= 6.
Proof.
  intros H. pose proof (ln_byte v H). pose proof (ln_byte 255 ltac:(lia)).
  destruct (div_ln _ _ _ _ (lnf_ofZ v ltac:(lia)) (lnf_ofZ 255 ltac:(lia))) as (l & F & E). { apply Rabs_le; lra. }
  exists l. split; auto. apply Rabs_le_inv in E. unfold u23 in E. apply Rabs_le. lra.
Qed.

(** Alpha needs no [powf]: all values tried. *)
Definition alpha_check (v : Z) : bool :=
  let a := Bmult mode_NE (alpha v) WA in
  (negb (Bltb a (Bmult mode_NE (Bdiv mode_NE (BofZ 24 128 1) (BofZ 24 128 256)) WA)) &&
   (Bto_uint 255 (Bmult mode_NE (Bdiv mode_NE (BofZ 24 128 256) WA) a) =? v)%Z)%bool.
Lemma alpha_sweep : forallb alpha_check (map Z.of_nat (seq 1 255)) = true.
Proof. vm_compute. reflexivity. Qed.
Lemma alpha_back v : (1 <= v <= 255)%Z -> alpha_check v = true.
Proof.
  intros H. pose proof alpha_sweep as S. rewrite forallb_forall in S. apply S. apply in_map_iff. exists (Z.to_nat v).
  split; [lia|]. apply in_seq. lia.
Qed.

Lemma channel_any g v W la a : gamma_fits g -> (0 <= v <= 255)%Z -> (exists l, lnf W l /\ Rabs l <= 3) -> lnf a la -> Rabs la <= 6 ->
  shown pow32 g WA W a (lut_at pow32 g v) = v.
Proof.
  intros Hg Hv (lW & FW & HW) Fa Ha. destruct (weight_ok 625 1000) as (lA & FA & HA); try lia. fold WA in FA.
  destruct (Z.eq_dec v 0) as [->|N].
  - eapply channel_zero; eauto.
  - eapply channel_back; eauto. lia.
Qed.
Lemma WR_ok : exists l, lnf WR l /\ Rabs l <= 3. Proof. apply weight_ok; lia. Qed.
Lemma WB_ok : exists l, lnf WB l /\ Rabs l <= 3. Proof. apply weight_ok; lia. Qed.
Lemma WG_ok : exists l, lnf WG l /\ Rabs l <= 3.
Proof. exists (ln 1). split; [apply lnf_ofZ; lia|]. rewrite ln_1, Rabs_R0. lra. Qed.

Lemma round_trip_color g c : gamma_fits g -> rgba_ok c -> ca c <> 0%Z ->
  @to_rgb Ar (@from_rgba Ar (@gamma_lut Ar g) c) g = c.
Proof.
  intros Hg (Hr & Hgr & Hb & Ha) N. unfold byte in *. destruct c as [r gr b a]. cbn [cr Base.cg Base.cb ca] in *.
  assert (Ha1 : (1 <= a <= 255)%Z) by lia. destruct (alpha_ln a Ha1) as (la & Fa & La).
  pose proof (alpha_back a Ha1) as AB. unfold alpha_check in AB. apply andb_prop in AB as [A1 A2].
  apply Bool.negb_true_iff in A1. apply Z.eqb_eq in A2.
  assert (Q : @to_rgb Ar (@from_rgba Ar (@gamma_lut Ar g) (Rgba r gr b a)) g =
    if Bltb (Bmult mode_NE (alpha a) WA) (Bmult mode_NE (Bdiv mode_NE (BofZ 24 128 1) (BofZ 24 128 256)) WA) then Rgba 0 0 0 0
    else Rgba (shown pow32 g WA WR (alpha a) (lut_at pow32 g r)) (shown pow32 g WA WG (alpha a) (lut_at pow32 g gr))
              (shown pow32 g WA WB (alpha a) (lut_at pow32 g b)) (Bto_uint 255 (Bmult mode_NE (Bdiv mode_NE (BofZ 24 128 256) WA) (Bmult mode_NE (alpha a) WA)))).
  { reflexivity. }
  rewrite Q, A1, A2.
  rewrite (channel_any g r WR la (alpha a) Hg ltac:(lia) WR_ok Fa La).
  rewrite (channel_any g gr WG la (alpha a) Hg ltac:(lia) WG_ok Fa La).
  rewrite (channel_any g b WB la (alpha a) Hg ltac:(lia) WB_ok Fa La). reflexivity.
Qed.
Lemma transparent_color g lut c : ca c = 0%Z -> @to_rgb Ar (@from_rgba Ar lut c) g = Rgba 0 0 0 0.
Proof. intros E. unfold to_rgb. cbn [pa from_rgba]. rewrite E. reflexivity. Qed.
End Whole.
