(** Magnitudes: finite floats bounded by a power of two, closed under the
    operations of the contrast filter. *)
From Verif Require Import Base Arith Ieee IeeeFacts.
From Flocq Require Import IEEE754.BinarySingleNaN Core.Core.
From Coq Require Import Reals Lra.
Open Scope R_scope.

Notation rnd32 := (round radix2 (SpecFloat.fexp 24 128) ZnearestE).
Definition small (k : Z) (x : b32) : Prop := is_finite x = true /\ Rabs (B2R x) <= bpow radix2 k.

Lemma fmt_bpow k : (-100 <= k)%Z -> generic_format radix2 (SpecFloat.fexp 24 128) (bpow radix2 k).
Proof. intros H. apply generic_format_bpow. unfold SpecFloat.fexp, SpecFloat.emin. lia. Qed.
Lemma rnd_small k x : (-100 <= k)%Z -> Rabs x <= bpow radix2 k -> Rabs (rnd32 x) <= bpow radix2 k.
Proof.
  intros K H. apply abs_round_le_generic; auto; [apply (fexp_correct 24 128 eq_refl)|apply valid_rnd_N|apply fmt_bpow; auto].
Qed.
Lemma rnd_fits k x : (-100 <= k <= 120)%Z -> Rabs x <= bpow radix2 k -> Rabs (rnd32 x) < bpow radix2 128.
Proof. intros K H. apply Rle_lt_trans with (bpow radix2 k); [apply rnd_small; auto; lia|]. apply bpow_lt. lia. Qed.

Lemma small_le k k' x : small k x -> (k <= k')%Z -> small k' x.
Proof. intros [F H] K. split; auto. apply Rle_trans with (1 := H). apply bpow_le. auto. Qed.
Lemma bpow_S k : bpow radix2 (k + 1) = bpow radix2 k + bpow radix2 k.
Proof. rewrite bpow_plus. cbn. lra. Qed.

Lemma small_add k x y : (-100 <= k <= 100)%Z -> small k x -> small k y -> small (k + 1) (Bplus mode_NE x y).
Proof.
  intros K [Fx Hx] [Fy Hy]. assert (S : Rabs (B2R x + B2R y) <= bpow radix2 (k + 1)).
  { rewrite bpow_S. eapply Rle_trans; [apply Rabs_triang|]. lra. }
  destruct (proj1 (Bplus_fin 24 128 x y Fx Fy)) as [F V]; [apply rnd_fits with (k + 1)%Z; auto; lia|].
  split; auto. rewrite V. apply rnd_small; auto. lia.
Qed.
Lemma small_sub k x y : (-100 <= k <= 100)%Z -> small k x -> small k y -> small (k + 1) (Bminus mode_NE x y).
Proof.
  intros K [Fx Hx] [Fy Hy]. assert (S : Rabs (B2R x - B2R y) <= bpow radix2 (k + 1)).
  { rewrite bpow_S. unfold Rminus. eapply Rle_trans; [apply Rabs_triang|]. rewrite Rabs_Ropp. lra. }
  destruct (proj1 (Bminus_fin 24 128 x y Fx Fy)) as [F V]; [apply rnd_fits with (k + 1)%Z; auto; lia|].
  split; auto. rewrite V. apply rnd_small; auto. lia.
Qed.
Lemma mul_bound j k x y : Rabs x <= bpow radix2 j -> Rabs y <= bpow radix2 k -> Rabs (x * y) <= bpow radix2 (j + k).
Proof. intros Hx Hy. rewrite Rabs_mult, bpow_plus. apply Rmult_le_compat; auto; apply Rabs_pos. Qed.
Lemma small_mul j k x y : (-100 <= j + k <= 100)%Z -> small j x -> small k y ->
  small (j + k) (Bmult mode_NE x y) /\ B2R (Bmult mode_NE x y) = rnd32 (B2R x * B2R y).
Proof.
  intros K [Fx Hx] [Fy Hy]. pose proof (mul_bound _ _ _ _ Hx Hy) as S.
  destruct (proj1 (Bmult_fin 24 128 x y Fx Fy)) as [F V]; [apply rnd_fits with (j + k)%Z; auto; lia|].
  split; auto. split; auto. rewrite V. apply rnd_small; auto. lia.
Qed.
Lemma small_fma j k m x y z : (-100 <= m <= 100)%Z -> (j + k <= m)%Z -> small j x -> small k y -> small m z ->
  small (m + 1) (Bfma mode_NE x y z) /\ B2R (Bfma mode_NE x y z) = rnd32 (B2R x * B2R y + B2R z).
Proof.
  intros K J [Fx Hx] [Fy Hy] [Fz Hz]. pose proof (mul_bound _ _ _ _ Hx Hy) as S.
  assert (T : Rabs (B2R x * B2R y + B2R z) <= bpow radix2 (m + 1)).
  { rewrite bpow_S. eapply Rle_trans; [apply Rabs_triang|]. pose proof (bpow_le radix2 (j + k) m J). lra. }
  pose proof (Bfma_correct 24 128 prec32 emax32 mode_NE x y z Fx Fy Fz) as C. cbv zeta in C. cbn [round_mode] in C.
  rewrite Rlt_bool_true in C by (apply rnd_fits with (m + 1)%Z; auto; lia). destruct C as (V & F & _).
  split; auto. split; auto. rewrite V. apply rnd_small; auto. lia.
Qed.
Lemma small_max k x y : small k x -> small k y -> small k (Bmax x y).
Proof.
  intros [Fx Hx] [Fy Hy]. destruct (Bmax_fin 24 128 x y Fx Fy) as [F V]. split; auto. rewrite V.
  unfold Rmax. destruct (Rle_dec _ _); auto.
Qed.
Lemma small_min k x y : small k x -> small k y -> small k (Bmin x y).
Proof.
  intros [Fx Hx] [Fy Hy]. destruct (Bmin_fin 24 128 x y Fx Fy) as [F V]. split; auto. rewrite V.
  unfold Rmin. destruct (Rle_dec _ _); auto.
Qed.
Lemma small_abs k x : small k x -> small k (Babs x).
Proof. intros [F H]. split; [rewrite is_finite_Babs; auto|]. rewrite B2R_Babs, Rabs_Rabsolu. auto. Qed.

Lemma small_ofZ k z : (Z.abs z <= 16777216)%Z -> Rabs (IZR z) <= bpow radix2 k -> small k (BofZ 24 128 z).
Proof. intros Z1 H. destruct (BofZ_exact 24 128 z) as [F V]; try lia; auto. split; auto. rewrite V. auto. Qed.
