(** Rounding errors on a logarithmic scale: every rounded multiplication,
    division or power moves the logarithm of the result by a small amount. *)
From Verif Require Import Base Arith Ieee IeeeFacts SpecPow.
From Flocq Require Import IEEE754.BinarySingleNaN Core.Core.
From Flocq Require Import Relative.
From Coq Require Import Reals Lra.
Open Scope R_scope.

Lemma ln_le_sub1 z : 0 < z -> ln z <= z - 1.
Proof.
  intros H. destruct (Req_dec z 1) as [->|N]; [rewrite ln_1; lra|].
  assert (1 + ln z <= z); [|lra]. rewrite <- (exp_ln z H) at 2. apply exp_ineq1_le.
Qed.
Lemma ln_ge_inv z : 0 < z -> 1 - / z <= ln z.
Proof.
  intros H. pose proof (ln_le_sub1 (/ z) (Rinv_0_lt_compat _ H)). rewrite ln_Rinv in H0 by auto. lra.
Qed.
Lemma ln_div x y : 0 < x -> 0 < y -> ln (x / y) = ln x - ln y.
Proof. intros X Y. unfold Rdiv. rewrite ln_mult, ln_Rinv by (auto using Rinv_0_lt_compat). lra. Qed.
Lemma ln_near x y e : 0 < y -> 0 <= e <= / 2 -> Rabs (x - y) <= e * y -> 0 < x /\ Rabs (ln x - ln y) <= 2 * e.
Proof.
  intros Y E H. apply Rabs_le_inv in H. assert (e * y <= / 2 * y) by (apply Rmult_le_compat_r; lra).
  assert (X : 0 < x) by lra. split; auto.
  rewrite <- ln_div by auto. assert (Q : 1 - e <= x / y <= 1 + e).
  { split; (apply Rmult_le_reg_r with y; auto; unfold Rdiv; rewrite Rmult_assoc, Rinv_l by lra; lra). }
  assert (P : 0 < x / y) by lra. apply Rabs_le. split.
  - apply Rle_trans with (2 := ln_ge_inv _ P).
    assert (/ (x / y) <= / (1 - e)) by (apply Rinv_le; lra).
    assert (/ (1 - e) <= 1 + 2 * e); [|lra].
    apply Rmult_le_reg_r with (1 - e); [lra|]. rewrite Rinv_l by lra.
    assert (0 <= e * (1 - 2 * e)) by (apply Rmult_le_pos; lra). lra.
  - apply Rle_trans with (1 := ln_le_sub1 _ P). lra.
Qed.

(** ln 2 < 0.72 *)
Lemma ln2_lt : ln 2 < 72 / 100.
Proof.
  assert (H : ln 2 <= ln ((33 / 32) ^ 23)).
  { destruct (Req_dec 2 ((33 / 32) ^ 23)) as [->|N]; [lra|]. left. apply ln_increasing; [lra|].
    simpl. lra. }
  rewrite ln_pow in H by lra. pose proof (ln_le_sub1 (33 / 32) ltac:(lra)). simpl INR in H. lra.
Qed.
Lemma ln_le x y : 0 < x -> x <= y -> ln x <= ln y.
Proof. intros X [L| <-]; [left; apply ln_increasing; auto|lra]. Qed.
Lemma ln_bpow n : ln (bpow radix2 n) = IZR n * ln 2.
Proof. rewrite bpow_powerRZ. change (IZR radix2) with 2. rewrite powerRZ_Rpower by lra. unfold Rpower. apply ln_exp. Qed.
Lemma ln2_pos : / 2 <= ln 2.
Proof. pose proof (ln_ge_inv 2 ltac:(lra)). lra. Qed.

Lemma bpow_range x l n : 0 < x -> ln x = l -> (0 <= n)%Z -> Rabs l <= IZR n / 2 -> bpow radix2 (- n) <= x <= bpow radix2 n.
Proof.
  intros X <- N H. apply Rabs_le_inv in H. pose proof ln2_pos. apply IZR_le in N.
  assert (IZR n * / 2 <= IZR n * ln 2) by (apply Rmult_le_compat_l; lra).
  rewrite <- (exp_ln x X), <- (exp_ln (bpow radix2 (- n))), <- (exp_ln (bpow radix2 n)) by apply bpow_gt_0.
  rewrite !ln_bpow, opp_IZR. assert (M : forall a b, a <= b -> exp a <= exp b).
  { intros a b [L| <-]; [left; apply exp_increasing; auto|lra]. }
  split; apply M; lra.
Qed.

(** [x] is a finite positive float with logarithm [l]. *)
Definition lnf (x : b32) (l : R) : Prop := is_finite x = true /\ 0 < B2R x /\ ln (B2R x) = l.
Definition u23 : R := / 8388608.
Definition u19 : R := / 524288.

Notation rnd32 := (round radix2 (SpecFloat.fexp 24 128) ZnearestE).
Lemma rnd_ln r l : 0 < r -> ln r = l -> Rabs l <= 50 ->
  Rabs (rnd32 r) < bpow radix2 128 /\ 0 < rnd32 r /\ Rabs (ln (rnd32 r) - l) <= u23.
Proof.
  intros P E L. destruct (bpow_range r l 100 P E) as [B1 B2]; [lia|lra|].
  assert (Q : Rabs (rnd32 r - r) <= / 2 * bpow radix2 (- 24 + 1) * Rabs r).
  { apply (relative_error_N_FLT radix2 (3 - 128 - 24) 24 prec32 (fun x => negb (Z.even x)) r).
    rewrite Rabs_pos_eq by lra. apply Rle_trans with (2 := B1). apply bpow_le. lia. }
  rewrite (Rabs_pos_eq r) in Q by lra.
  destruct (ln_near (rnd32 r) r (/ 2 * bpow radix2 (- 24 + 1)) P) as [X Y]; auto.
  { simpl. lra. }
  split; [|split; auto].
  - rewrite Rabs_pos_eq by lra. apply Rle_lt_trans with (bpow radix2 100); [|apply bpow_lt; lia].
    apply round_le_generic; auto; [exact (fexp_correct 24 128 prec32)|apply valid_rnd_N|]. apply generic_format_bpow. unfold SpecFloat.fexp, SpecFloat.emin. lia.
  - rewrite E in Y. apply Rle_trans with (1 := Y). unfold u23. simpl. lra.
Qed.

Lemma mul_ln x y lx ly : lnf x lx -> lnf y ly -> Rabs (lx + ly) <= 50 ->
  exists l, lnf (Bmult mode_NE x y) l /\ Rabs (l - (lx + ly)) <= u23.
Proof.
  intros (F1 & P1 & L1) (F2 & P2 & L2) H.
  assert (E : ln (B2R x * B2R y) = lx + ly) by (rewrite ln_mult by auto; lra).
  assert (P : 0 < B2R x * B2R y) by (apply Rmult_lt_0_compat; auto).
  destruct (rnd_ln _ _ P E H) as (B & Q & L).
  destruct (Bmult_fin 24 128 x y F1 F2) as [G _]. destruct (G B) as [F V].
  eexists. split; [split; [exact F|split; [rewrite V; exact Q|reflexivity]]|]. rewrite V. exact L.
Qed.
Lemma div_ln x y lx ly : lnf x lx -> lnf y ly -> Rabs (lx - ly) <= 50 ->
  exists l, lnf (Bdiv mode_NE x y) l /\ Rabs (l - (lx - ly)) <= u23.
Proof.
  intros (F1 & P1 & L1) (F2 & P2 & L2) H.
  assert (E : ln (B2R x / B2R y) = lx - ly) by (rewrite ln_div by auto; lra).
  assert (P : 0 < B2R x / B2R y) by (apply Rdiv_lt_0_compat; auto).
  destruct (rnd_ln _ _ P E H) as (B & Q & L).
  destruct (Bdiv_fin 24 128 x y F1 ltac:(lra)) as [G _]. destruct (G B) as [F V].
  eexists. split; [split; [exact F|split; [rewrite V; exact Q|reflexivity]]|]. rewrite V. exact L.
Qed.
Lemma pow_ln pow32 x y lx : pow32_accurate pow32 -> lnf x lx -> is_finite y = true -> Rabs (B2R y * lx) <= 50 ->
  exists l, lnf (pow32 x y) l /\ Rabs (l - B2R y * lx) <= u19.
Proof.
  intros [A _] (F1 & P1 & L1) Fy H.
  assert (E : ln (Rpower (B2R x) (B2R y)) = B2R y * lx) by (unfold Rpower; rewrite ln_exp, L1; auto).
  assert (P : 0 < Rpower (B2R x) (B2R y)) by apply exp_pos.
  destruct (A x y F1 Fy P1) as [F V].
  { destruct (bpow_range _ _ 100 P E) as [B1 B2]; [lia|lra|]. auto. }
  destruct (ln_near (B2R (pow32 x y)) _ (bpow radix2 (-20)) P ltac:(simpl; lra) V) as [X Y].
  eexists. split; [split; [exact F|split; [exact X|reflexivity]]|]. rewrite E in Y. apply Rle_trans with (1 := Y). unfold u19. simpl. lra.
Qed.
Lemma lnf_ofZ z : (1 <= z <= 16777216)%Z -> lnf (BofZ 24 128 z) (ln (IZR z)).
Proof.
  intros H. destruct (BofZ_exact 24 128 z) as [F V]; try lia. rewrite <- V. split; auto. split; auto. rewrite V. apply IZR_lt. lia.
Qed.

(** Conversion from f64. *)
Lemma conv_ln (x : b64) l : is_finite x = true -> 0 < B2R x -> ln (B2R x) = l -> Rabs l <= 50 ->
  exists l', lnf (Bconv 24 128 x) l' /\ Rabs (l' - l) <= u23.
Proof.
  intros F P E L. destruct (rnd_ln _ _ P E L) as (B & Q & R0).
  destruct x as [s|s| |s m e Hb]; try discriminate; [cbn in P; lra|].
  unfold Bconv.
  pose proof (binary_normalize_correct 24 128 prec32 emax32 mode_NE (cond_Zopp s (Zpos m)) e s) as N. cbn [round_mode] in N.
  change (F2R {| Fnum := cond_Zopp s (Z.pos m); Fexp := e |}) with (B2R (B754_finite s m e Hb : b64)) in N.
  rewrite Rlt_bool_true in N by exact B. destruct N as (N1 & N2 & _).
  eexists. split; [split; [exact N2|split; [rewrite N1; exact Q|reflexivity]]|]. rewrite N1. exact R0.
Qed.

(** Truncation to an unsigned integer. *)
Lemma to_uint_eq (x : b32) z m : is_finite x = true -> (0 <= z <= m)%Z -> IZR z <= B2R x ->
  (B2R x < IZR (z + 1) \/ z = m) -> Bto_uint m x = z.
Proof.
  intros F Hz L U.
  assert (T : IZR (Btrunc x) = IZR (Ztrunc (B2R x))).
  { rewrite Btrunc_correct by reflexivity. unfold round, F2R, scaled_mantissa, cexp, FIX_exp. cbn. rewrite !Rmult_1_r. auto. }
  apply eq_IZR in T.
  assert (Zf : (z <= Zfloor (B2R x))%Z) by (apply Zfloor_lub; auto).
  assert (P : 0 <= B2R x) by (apply Rle_trans with (2 := L); apply IZR_le; lia).
  assert (E : Bto_uint m x = Z.max 0 (Z.min m (Btrunc x))).
  { destruct x as [s|s| |s mm e Hb]; try discriminate; auto. cbn in T |- *. lia. }
  rewrite E, T, Ztrunc_floor by auto. destruct U as [U|Em]; [|subst m].
  - assert ((Zfloor (B2R x) < z + 1)%Z). { apply lt_IZR. apply Rle_lt_trans with (2 := U). apply Zfloor_lb. }
    lia.
  - lia.
Qed.
