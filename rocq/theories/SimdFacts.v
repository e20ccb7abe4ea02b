(** The three versions of [f_pixel::diff] agree. *)
From Coq Require Import Reals Lra.
From Verif Require Import Base Arith Order Ieee IeeeFacts SmallFloat RealArith Pal World MedianCut MedianIeee PalSimd.
From Flocq Require Import IEEE754.BinarySingleNaN Core.Core.
From Flocq Require Import Relative Plus_error.
Open Scope R_scope.

(** Over the reals. *)
Lemma diff_x86_real big (s o : @px (real big)) : @diff_x86 (real big) s o = @diff (real big) s o.
Proof.
  unfold diff_x86, diff, lanewise, load, sub_ss, splat0, maxps. cbn.
  assert (M : forall x y, (if Rltb x y then y else x) = Rmax x y).
  { intros x y. unfold Rltb. destruct (Rlt_dec x y); [rewrite Rmax_right|rewrite Rmax_left]; lra. }
  rewrite !M. reflexivity.
Qed.
Lemma diff_neon_real big (s o : @px (real big)) : @diff_neon (real big) s o = @diff (real big) s o.
Proof.
  unfold diff_neon, diff, lanewise, load, splat0, fmaxneon, paddq. cbn.
  assert (E : forall x, Reqb x x = true) by (intros; rbool; reflexivity). rewrite !E. cbn.
  assert (M : forall x y, (if Rltb x y then y else x) = Rmax x y).
  { intros x y. unfold Rltb. destruct (Rlt_dec x y); [rewrite Rmax_right|rewrite Rmax_left]; lra. }
  rewrite !M. rewrite Rplus_assoc. reflexivity.
Qed.

(** In IEEE arithmetic. *)
Section I.
Variables pow32 : b32 -> b32 -> b32.
Variables pow64 : b64 -> b64 -> b64.
Notation Ar := (ieee pow32 pow64).
Local Existing Instance ieee.

Lemma sq_nan (x : b32) : is_nan (Bmult mode_NE x x) = is_nan x.
Proof.
  destruct (is_nan x) eqn:N; [destruct x; try discriminate; reflexivity|].
  destruct x as [s|s| |s m e H]; try discriminate; try reflexivity.
  set (x := B754_finite s m e H : b32) in *.
  pose proof (Bmult_correct 24 128 prec32 emax32 mode_NE x x) as C. cbv zeta in C.
  destruct (Rlt_bool _ _).
  - destruct C as (_ & F & _). change (is_finite x) with true in F. cbn [andb] in F.
    revert F. generalize (Bmult mode_NE x x). intros z. destruct z; intros; try discriminate; reflexivity.
  - revert C. generalize (Bmult mode_NE x x). intros z C. destruct z; auto.
    exfalso. cbn [B2SF] in C. unfold binary_overflow in C. destruct (overflow_to_inf _ _) in C; discriminate.
Qed.
Lemma nan_add (x y : b32) : is_nan x = true -> is_nan (Bplus mode_NE x y) = true.
Proof. destruct x; try discriminate. intros _. destruct y; reflexivity. Qed.
Lemma nan_eq (x y : b32) : is_nan x = true -> is_nan y = true -> x = y.
Proof. destruct x, y; try discriminate; reflexivity. Qed.
Lemma Bltb_nan_l (x y : b32) : is_nan x = true -> Bltb x y = false.
Proof. destruct x; try discriminate. destruct y; reflexivity. Qed.
Lemma Bltb_nan_r (x y : b32) : is_nan y = true -> Bltb x y = false.
Proof. destruct y; try discriminate. destruct x; reflexivity. Qed.

(** [_mm_max_ps(white, black)] is [black.max(white)] when a NaN in [black] implies one in [white]. *)
Lemma maxps_max (b w : b32) : (is_nan b = true -> is_nan w = true) -> @maxps Ar w b = Bmax b w.
Proof.
  intros H. unfold maxps, Bmax. cbn. destruct (is_nan b) eqn:NB.
  - rewrite Bltb_nan_l by auto. apply nan_eq; auto.
  - destruct (is_nan w) eqn:NW; [rewrite Bltb_nan_r by auto|]; reflexivity.
Qed.
Lemma diff_x86_ieee (s o : @px Ar) : @diff_x86 Ar s o = @diff Ar s o.
Proof.
  unfold diff_x86, diff, lanewise, load, sub_ss, splat0. cbn [l0 l1 l2 l3 pa pr pg pb].
  assert (M : forall b a : b32, @maxps Ar (Bmult mode_NE (Bplus mode_NE b a) (Bplus mode_NE b a)) (Bmult mode_NE b b)
    = Bmax (Bmult mode_NE b b) (Bmult mode_NE (Bplus mode_NE b a) (Bplus mode_NE b a))).
  { intros b a. apply maxps_max. rewrite !sq_nan. apply nan_add. }
  cbn [fadd fsub fmul fmax ieee]. rewrite !M. reflexivity.
Qed.

(** NEON: the sum is associated to the right. *)
Definition small_px (p : @px Ar) : Prop := small 30 (pa p) /\ small 30 (pr p) /\ small 30 (pg p) /\ small 30 (pb p).

Lemma fmaxneon_max (b w : b32) : is_finite b = true -> is_finite w = true -> @fmaxneon Ar w b = Bmax b w.
Proof.
  intros FB FW. unfold fmaxneon, Bmax. cbn.
  assert (E : forall x : b32, is_finite x = true -> Beqb x x = true).
  { intros x F. rewrite Beqb_correct by auto. rewrite Req_bool_true by auto. reflexivity. }
  rewrite !E by auto. cbn. replace (is_nan b) with false by (destruct b; auto; discriminate).
  replace (is_nan w) with false by (destruct w; auto; discriminate). reflexivity.
Qed.

Definition u24 : R := / 16777216.
Lemma rnd_plus_rel32 (x y : b32) : exists e, Rabs e <= u24 /\ rnd32 (B2R x + B2R y) = (B2R x + B2R y) * (1 + e).
Proof.
  destruct (FLT_plus_error_N_ex radix2 (-149) 24 (fun x => negb (Z.even x)) (B2R x) (B2R y)) as (e & E1 & E2).
  - exact (generic_format_B2R 24 128 x).
  - exact (generic_format_B2R 24 128 y).
  - exists e. split; [|exact E2]. apply Rle_trans with (1 := E1).
    replace u24 with (u_ro radix2 24) by (unfold u_ro, u24; cbn; lra). apply u_rod1pu_ro_le_u_ro.
Qed.

Lemma assoc_close (x y z : R) e1 e2 e3 e4 : 0 <= x -> 0 <= y -> 0 <= z ->
  Rabs e1 <= u24 -> Rabs e2 <= u24 -> Rabs e3 <= u24 -> Rabs e4 <= u24 ->
  Rabs ((x + (y + z) * (1 + e1)) * (1 + e2) - ((x + y) * (1 + e3) + z) * (1 + e4))
  <= / 2097152 * (((x + y) * (1 + e3) + z) * (1 + e4)).
Proof.
  intros X Y Z0 E1 E2 E3 E4. unfold u24 in *.
  apply Rabs_le_inv in E1. apply Rabs_le_inv in E2. apply Rabs_le_inv in E3. apply Rabs_le_inv in E4.
  set (S0 := x + y + z). assert (S0 >= 0) by (unfold S0; lra).
  set (p := x + (y + z) * (1 + e1)). set (q := (x + y) * (1 + e3) + z).
  assert (P : S0 * (1 - / 16777216) <= p <= S0 * (1 + / 16777216)) by (unfold p, S0; split; nra).
  assert (Q : S0 * (1 - / 16777216) <= q <= S0 * (1 + / 16777216)) by (unfold q, S0; split; nra).
  assert (P' : S0 * (1 - / 16777216) * (1 - / 16777216) <= p * (1 + e2) <= S0 * (1 + / 16777216) * (1 + / 16777216)).
  { split; [apply Rmult_le_compat|apply Rmult_le_compat]; nra. }
  assert (Q' : S0 * (1 - / 16777216) * (1 - / 16777216) <= q * (1 + e4) <= S0 * (1 + / 16777216) * (1 + / 16777216)).
  { split; [apply Rmult_le_compat|apply Rmult_le_compat]; nra. }
  apply Rabs_le. split; nra.
Qed.

Lemma plus_val (x y : b32) : is_finite x = true -> is_finite y = true -> is_finite (Bplus mode_NE x y) = true ->
  B2R (Bplus mode_NE x y) = rnd32 (B2R x + B2R y).
Proof. intros X Y Z0. destruct (Bplus_fin 24 128 x y X Y) as [Q1 Q2]. apply (Q1 (Q2 Z0)). Qed.

Lemma diff_neon_ieee (s o : @px Ar) : small_px s -> small_px o ->
  is_finite (@diff Ar s o : b32) = true /\ is_finite (@diff_neon Ar s o : b32) = true /\
  Rabs (B2R (@diff_neon Ar s o : b32) - B2R (@diff Ar s o : b32)) <= / 2097152 * B2R (@diff Ar s o : b32).
Proof.
  intros (A1 & A2 & A3 & A4) (B1 & B2 & B3 & B4).
  unfold diff_neon, diff, lanewise, load, splat0, paddq. cbn [l0 l1 l2 l3]. cbv zeta.
  cbn [fadd fsub fmul fmax ieee].
  assert (SA : small 31 (Bminus mode_NE (pa o) (pa s) : b32)) by (apply (small_sub 30); auto; lia).
  assert (C : forall x y : b32, small 30 x -> small 30 y ->
    let b := Bminus mode_NE x y in let w := Bplus mode_NE b (Bminus mode_NE (pa o) (pa s)) in
    nonneg 64 (Bmult mode_NE b b) /\ nonneg 64 (Bmult mode_NE w w)).
  { intros x y X Y b w. assert (D : small 31 b) by (apply (small_sub 30); auto; lia). split.
    - apply nonneg_le with 62%Z; [|lia]. apply (nonneg_sq 31); auto. lia.
    - apply (nonneg_sq 32); [lia|]. apply (small_add 31); auto. lia. }
  assert (K : forall x y : b32, small 30 x -> small 30 y ->
    let b := Bminus mode_NE x y in let w := Bplus mode_NE b (Bminus mode_NE (pa o) (pa s)) in
    exists m, @fmaxneon Ar (Bmult mode_NE w w) (Bmult mode_NE b b) = m /\ Bmax (Bmult mode_NE b b) (Bmult mode_NE w w) = m /\ nonneg 64 m).
  { intros x y X Y b w. destruct (C x y X Y) as [P Q]. fold b w in P, Q. eexists. split; [apply fmaxneon_max; [apply P|apply Q]|].
    split; [reflexivity|]. apply nonneg_max; auto. }
  destruct (K _ _ A2 B2) as (mr & -> & -> & R1). destruct (K _ _ A3 B3) as (mg & -> & -> & G1). destruct (K _ _ A4 B4) as (mb & -> & -> & Bl1).
  clear K C SA.
  assert (H1 : nonneg 65 (Bplus mode_NE mr mg)) by (apply (nonneg_add 64); auto; lia).
  assert (H2 : nonneg 65 (Bplus mode_NE mg mb)) by (apply (nonneg_add 64); auto; lia).
  assert (V1 : B2R (Bplus mode_NE mr mg) = rnd32 (B2R mr + B2R mg)) by (apply plus_val; [apply R1|apply G1|apply H1]).
  assert (V2 : B2R (Bplus mode_NE mg mb) = rnd32 (B2R mg + B2R mb)) by (apply plus_val; [apply G1|apply Bl1|apply H2]).
  assert (H3 : nonneg 66 (Bplus mode_NE (Bplus mode_NE mr mg) mb)) by (apply (nonneg_add 65); auto; [lia|eapply nonneg_le; eauto; lia]).
  assert (H4 : nonneg 66 (Bplus mode_NE mr (Bplus mode_NE mg mb))) by (apply (nonneg_add 65); auto; [lia|eapply nonneg_le; eauto; lia]).
  assert (V3 : B2R (Bplus mode_NE (Bplus mode_NE mr mg) mb) = rnd32 (B2R (Bplus mode_NE mr mg) + B2R mb)) by (apply plus_val; [apply H1|apply Bl1|apply H3]).
  assert (V4 : B2R (Bplus mode_NE mr (Bplus mode_NE mg mb)) = rnd32 (B2R mr + B2R (Bplus mode_NE mg mb))) by (apply plus_val; [apply R1|apply H2|apply H4]).
  split; [apply H3|]. split; [apply H4|].
  destruct (rnd_plus_rel32 mr mg) as (e3 & E3 & W3). destruct (rnd_plus_rel32 mg mb) as (e1 & E1 & W1).
  destruct (rnd_plus_rel32 (Bplus mode_NE mr mg) mb) as (e4 & E4 & W4). destruct (rnd_plus_rel32 mr (Bplus mode_NE mg mb)) as (e2 & E2 & W2).
  rewrite V3, V4, W4, W2, V1, V2, W3, W1. apply assoc_close; auto; [apply R1|apply G1|apply Bl1].
Qed.
End I.
