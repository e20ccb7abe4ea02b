(** Interval reasoning on IEEE operations: every rounded operation is monotone
    in its exact result, so bounds computed at the end points are bounds. *)
From Verif Require Import Base Arith Ieee Order.
From Flocq Require Import IEEE754.BinarySingleNaN Core.Core.
From Coq Require Import Reals Lra.
Open Scope R_scope.

Section Gen.
Variables (prec emax : Z).
Context {Hp : Prec_gt_0 prec} {He : Prec_lt_emax prec emax}.
Notation bf := (binary_float prec emax).
Notation rnd := (round radix2 (SpecFloat.fexp prec emax) ZnearestE).

#[local] Instance fexp_valid : Valid_exp (SpecFloat.fexp prec emax) := fexp_correct prec emax Hp.

Lemma rnd_le x y : x <= y -> rnd x <= rnd y.
Proof. apply round_le; [apply fexp_valid | apply valid_rnd_N]. Qed.

Lemma rnd_B2R (x : bf) : rnd (B2R x) = B2R x.
Proof. apply round_generic; [apply valid_rnd_N|apply generic_format_B2R]. Qed.

Lemma overflow_not_finite (z : bf) s : B2SF z = binary_overflow prec emax mode_NE s -> is_finite z = false.
Proof. destruct z; cbn; intros H; try discriminate; auto. Qed.

(** Finite result <-> no overflow, with its value. *)
Lemma Bplus_fin (x y : bf) : is_finite x = true -> is_finite y = true ->
  (Rabs (rnd (B2R x + B2R y)) < bpow radix2 emax ->
     is_finite (Bplus mode_NE x y) = true /\ B2R (Bplus mode_NE x y) = rnd (B2R x + B2R y)) /\
  (is_finite (Bplus mode_NE x y) = true -> Rabs (rnd (B2R x + B2R y)) < bpow radix2 emax).
Proof.
  intros Hx Hy. pose proof (Bplus_correct prec emax Hp He mode_NE x y Hx Hy) as H. cbn [round_mode] in H.
  destruct (Rlt_bool_spec (Rabs (rnd (B2R x + B2R y))) (bpow radix2 emax)) as [E|E].
  - destruct H as (H1 & H2 & _). split; auto.
  - destruct H as (H1 & _). apply overflow_not_finite in H1. split; intros; [lra|congruence].
Qed.
Lemma Bminus_fin (x y : bf) : is_finite x = true -> is_finite y = true ->
  (Rabs (rnd (B2R x - B2R y)) < bpow radix2 emax ->
     is_finite (Bminus mode_NE x y) = true /\ B2R (Bminus mode_NE x y) = rnd (B2R x - B2R y)) /\
  (is_finite (Bminus mode_NE x y) = true -> Rabs (rnd (B2R x - B2R y)) < bpow radix2 emax).
Proof.
  intros Hx Hy. pose proof (Bminus_correct prec emax Hp He mode_NE x y Hx Hy) as H. cbn [round_mode] in H.
  destruct (Rlt_bool_spec (Rabs (rnd (B2R x - B2R y))) (bpow radix2 emax)) as [E|E].
  - destruct H as (H1 & H2 & _). split; auto.
  - destruct H as (H1 & _). apply overflow_not_finite in H1. split; intros; [lra|congruence].
Qed.
Lemma Bmult_fin (x y : bf) : is_finite x = true -> is_finite y = true ->
  (Rabs (rnd (B2R x * B2R y)) < bpow radix2 emax ->
     is_finite (Bmult mode_NE x y) = true /\ B2R (Bmult mode_NE x y) = rnd (B2R x * B2R y)) /\
  (is_finite (Bmult mode_NE x y) = true -> Rabs (rnd (B2R x * B2R y)) < bpow radix2 emax).
Proof.
  intros Hx Hy. pose proof (Bmult_correct prec emax Hp He mode_NE x y) as H. cbn [round_mode] in H.
  destruct (Rlt_bool_spec (Rabs (rnd (B2R x * B2R y))) (bpow radix2 emax)) as [E|E].
  - destruct H as (H1 & H2 & _). rewrite Hx, Hy in H2. split; auto.
  - apply overflow_not_finite in H. split; intros; [lra|congruence].
Qed.
Lemma Bdiv_fin (x y : bf) : is_finite x = true -> B2R y <> 0 ->
  (Rabs (rnd (B2R x / B2R y)) < bpow radix2 emax ->
     is_finite (Bdiv mode_NE x y) = true /\ B2R (Bdiv mode_NE x y) = rnd (B2R x / B2R y)) /\
  (is_finite (Bdiv mode_NE x y) = true -> Rabs (rnd (B2R x / B2R y)) < bpow radix2 emax).
Proof.
  intros Hx Hy. pose proof (Bdiv_correct prec emax Hp He mode_NE x y Hy) as H. cbn [round_mode] in H.
  destruct (Rlt_bool_spec (Rabs (rnd (B2R x / B2R y))) (bpow radix2 emax)) as [E|E].
  - destruct H as (H1 & H2 & _). rewrite Hx in H2. split; auto.
  - apply overflow_not_finite in H. split; intros; [lra|congruence].
Qed.

(** [x] lies between the finite floats [lo] and [hi]. *)
Definition within (lo hi x : bf) : Prop :=
  is_finite lo = true /\ is_finite hi = true /\ is_finite x = true /\ B2R lo <= B2R x <= B2R hi.

Lemma within_refl x : is_finite x = true -> within x x x.
Proof. intros; repeat split; auto; lra. Qed.

Lemma within_le lo hi x lo' hi' : within lo hi x -> is_finite lo' = true -> is_finite hi' = true ->
  B2R lo' <= B2R lo -> B2R hi <= B2R hi' -> within lo' hi' x.
Proof. intros (H1 & H2 & H3 & H4) ? ? ? ?. repeat split; auto; lra. Qed.

Lemma rnd_mid a b v : a <= v <= b ->
  Rabs (rnd a) < bpow radix2 emax -> Rabs (rnd b) < bpow radix2 emax -> Rabs (rnd v) < bpow radix2 emax.
Proof.
  intros [H1 H2] Ha Hb. apply rnd_le in H1, H2. apply Rabs_lt_inv in Ha, Hb.
  apply Rabs_lt. lra.
Qed.

Lemma within_plus a b x c d y : within a b x -> within c d y ->
  is_finite (Bplus mode_NE a c) = true -> is_finite (Bplus mode_NE b d) = true ->
  within (Bplus mode_NE a c) (Bplus mode_NE b d) (Bplus mode_NE x y).
Proof.
  intros (A1 & A2 & A3 & A4) (C1 & C2 & C3 & C4) F1 F2.
  destruct (Bplus_fin a c A1 C1) as [Ga Ga']. destruct (Bplus_fin b d A2 C2) as [Gb Gb'].
  destruct (Bplus_fin x y A3 C3) as [Gx _].
  specialize (Ga (Ga' F1)). specialize (Gb (Gb' F2)).
  assert (M : Rabs (rnd (B2R x + B2R y)) < bpow radix2 emax).
  { eapply rnd_mid; [|apply Ga', F1|apply Gb', F2]. lra. }
  destruct (Gx M) as [G1 G2]. destruct Ga as [_ Ga], Gb as [_ Gb].
  repeat split; auto; rewrite ?G2, ?Ga, ?Gb; apply rnd_le; lra.
Qed.
Lemma within_minus a b x c d y : within a b x -> within c d y ->
  is_finite (Bminus mode_NE a d) = true -> is_finite (Bminus mode_NE b c) = true ->
  within (Bminus mode_NE a d) (Bminus mode_NE b c) (Bminus mode_NE x y).
Proof.
  intros (A1 & A2 & A3 & A4) (C1 & C2 & C3 & C4) F1 F2.
  destruct (Bminus_fin a d A1 C2) as [Ga Ga']. destruct (Bminus_fin b c A2 C1) as [Gb Gb'].
  destruct (Bminus_fin x y A3 C3) as [Gx _].
  specialize (Ga (Ga' F1)). specialize (Gb (Gb' F2)).
  assert (M : Rabs (rnd (B2R x - B2R y)) < bpow radix2 emax).
  { eapply rnd_mid; [|apply Ga', F1|apply Gb', F2]. lra. }
  destruct (Gx M) as [G1 G2]. destruct Ga as [_ Ga], Gb as [_ Gb].
  repeat split; auto; rewrite ?G2, ?Ga, ?Gb; apply rnd_le; lra.
Qed.
Lemma within_mult a b x c d y : within a b x -> within c d y -> 0 <= B2R a -> 0 <= B2R c ->
  is_finite (Bmult mode_NE a c) = true -> is_finite (Bmult mode_NE b d) = true ->
  within (Bmult mode_NE a c) (Bmult mode_NE b d) (Bmult mode_NE x y).
Proof.
  intros (A1 & A2 & A3 & A4) (C1 & C2 & C3 & C4) Pa Pc F1 F2.
  destruct (Bmult_fin a c A1 C1) as [Ga Ga']. destruct (Bmult_fin b d A2 C2) as [Gb Gb'].
  destruct (Bmult_fin x y A3 C3) as [Gx _].
  specialize (Ga (Ga' F1)). specialize (Gb (Gb' F2)).
  assert (B1 : B2R a * B2R c <= B2R x * B2R y) by (apply Rmult_le_compat; lra).
  assert (B2 : B2R x * B2R y <= B2R b * B2R d) by (apply Rmult_le_compat; lra).
  assert (M : Rabs (rnd (B2R x * B2R y)) < bpow radix2 emax).
  { eapply rnd_mid; [|apply Ga', F1|apply Gb', F2]. lra. }
  destruct (Gx M) as [G1 G2]. destruct Ga as [_ Ga], Gb as [_ Gb].
  repeat split; auto; rewrite ?G2, ?Ga, ?Gb; apply rnd_le; lra.
Qed.
Lemma within_div a b x c d y : within a b x -> within c d y -> 0 <= B2R a -> 0 < B2R c ->
  is_finite (Bdiv mode_NE a d) = true -> is_finite (Bdiv mode_NE b c) = true ->
  within (Bdiv mode_NE a d) (Bdiv mode_NE b c) (Bdiv mode_NE x y).
Proof.
  intros (A1 & A2 & A3 & A4) (C1 & C2 & C3 & C4) Pa Pc F1 F2.
  destruct (Bdiv_fin a d A1) as [Ga Ga']; [lra|]. destruct (Bdiv_fin b c A2) as [Gb Gb']; [lra|].
  destruct (Bdiv_fin x y A3) as [Gx _]; [lra|].
  specialize (Ga (Ga' F1)). specialize (Gb (Gb' F2)).
  assert (I1 : 0 < / B2R d) by (apply Rinv_0_lt_compat; lra).
  assert (I2 : / B2R d <= / B2R y) by (apply Rinv_le; lra).
  assert (I3 : / B2R y <= / B2R c) by (apply Rinv_le; lra).
  assert (B1 : B2R a / B2R d <= B2R x / B2R y) by (apply Rmult_le_compat; lra).
  assert (B2 : B2R x / B2R y <= B2R b / B2R c) by (apply Rmult_le_compat; lra).
  assert (M : Rabs (rnd (B2R x / B2R y)) < bpow radix2 emax).
  { eapply rnd_mid; [|apply Ga', F1|apply Gb', F2]. lra. }
  destruct (Gx M) as [G1 G2]. destruct Ga as [_ Ga], Gb as [_ Gb].
  repeat split; auto; rewrite ?G2, ?Ga, ?Gb; apply rnd_le; lra.
Qed.

Lemma Bmult_fin_lt (x y : bf) : is_finite x = true -> is_finite y = true -> is_finite (Bmult mode_NE x y) = true ->
  B2R (Bmult mode_NE x y) = rnd (B2R x * B2R y).
Proof. intros. apply Bmult_fin; auto. apply Bmult_fin; auto. Qed.

(** Comparisons of finite floats. *)
Lemma Bleb_fin (x y : bf) : is_finite x = true -> is_finite y = true -> (Bleb x y = true <-> B2R x <= B2R y).
Proof. intros Hx Hy. rewrite Bleb_correct by auto. destruct (Rle_bool_spec (B2R x) (B2R y)); split; intros; auto; try discriminate; lra. Qed.
Lemma Bltb_fin (x y : bf) : is_finite x = true -> is_finite y = true -> (Bltb x y = true <-> B2R x < B2R y).
Proof. intros Hx Hy. rewrite Bltb_correct by auto. destruct (Rlt_bool_spec (B2R x) (B2R y)); split; intros; auto; try discriminate; lra. Qed.
Lemma Bleb_fin_false (x y : bf) : is_finite x = true -> is_finite y = true -> (Bleb x y = false <-> B2R y < B2R x).
Proof. intros Hx Hy. rewrite Bleb_correct by auto. destruct (Rle_bool_spec (B2R x) (B2R y)); split; intros; auto; try discriminate; lra. Qed.
Lemma Bltb_fin_false (x y : bf) : is_finite x = true -> is_finite y = true -> (Bltb x y = false <-> B2R y <= B2R x).
Proof. intros Hx Hy. rewrite Bltb_correct by auto. destruct (Rlt_bool_spec (B2R x) (B2R y)); split; intros; auto; try discriminate; lra. Qed.

(** Integers up to 2^prec are exact. *)
Lemma BofZ_fin (z : Z) : Rabs (rnd (IZR z)) < bpow radix2 emax ->
  is_finite (BofZ prec emax z) = true /\ B2R (BofZ prec emax z) = rnd (IZR z).
Proof.
  intros H. pose proof (binary_normalize_correct prec emax Hp He mode_NE z 0 false) as G.
  cbv zeta in G. replace (F2R {| Fnum := z; Fexp := 0 |}) with (IZR z) in G by (unfold F2R; cbn; ring).
  cbn [round_mode] in G. rewrite Rlt_bool_true in G by auto. destruct G as (G1 & G2 & _). split; auto.
Qed.
Lemma format_small_Z (z : Z) : (Z.abs z <= 2 ^ prec)%Z -> (3 - emax - prec <= 0)%Z ->
  generic_format radix2 (SpecFloat.fexp prec emax) (IZR z).
Proof.
  intros Hz Hm. apply generic_format_FLT.
  assert (P : (0 < prec)%Z) by apply Hp.
  destruct (Z.eq_dec (Z.abs z) (2 ^ prec)) as [E|E].
  - assert (IZR z = F2R (Float radix2 (Z.sgn z) prec)).
    { unfold F2R. cbn [Fnum Fexp]. rewrite <- (IZR_Zpower radix2) by lia. rewrite <- mult_IZR. f_equal.
      change (radix_val radix2) with 2%Z. rewrite <- E. lia. }
    exists (Float radix2 (Z.sgn z) prec); auto; cbn.
    + apply Z.lt_le_trans with 2%Z; [lia|]. change 2%Z with (2 ^ 1)%Z at 1. apply Z.pow_le_mono_r; lia.
    + unfold SpecFloat.emin. lia.
  - exists (Float radix2 z 0); cbn.
    + unfold F2R; cbn; ring.
    + lia.
    + unfold SpecFloat.emin. lia.
Qed.
Lemma BofZ_exact (z : Z) : (Z.abs z <= 2 ^ prec)%Z -> (3 - emax - prec <= 0)%Z -> (prec < emax)%Z ->
  is_finite (BofZ prec emax z) = true /\ B2R (BofZ prec emax z) = IZR z.
Proof.
  intros Hz Hm Hpe. assert (G := format_small_Z z Hz Hm).
  assert (R : rnd (IZR z) = IZR z) by (apply round_generic; auto; apply valid_rnd_N).
  destruct (BofZ_fin z) as [F V]; [|split; auto; rewrite V; exact R]. rewrite R.
  rewrite <- abs_IZR. apply Rle_lt_trans with (IZR (2 ^ prec)); [apply IZR_le; auto|].
  rewrite <- (IZR_Zpower radix2) by (assert (0 < prec)%Z by apply Hp; lia).
  apply IZR_lt. apply Z.pow_lt_mono_r; auto; try (assert (0 < prec)%Z by apply Hp; lia). cbn; lia.
Qed.

Lemma Bmax_fin (x y : bf) : is_finite x = true -> is_finite y = true ->
  is_finite (Bmax x y) = true /\ B2R (Bmax x y) = Rmax (B2R x) (B2R y).
Proof.
  intros Hx Hy. unfold Bmax.
  replace (is_nan x) with false by (destruct x; auto; discriminate).
  replace (is_nan y) with false by (destruct y; auto; discriminate).
  destruct (Bltb x y) eqn:E.
  - apply Bltb_fin in E; auto. rewrite Rmax_right by lra. auto.
  - apply Bltb_fin_false in E; auto. rewrite Rmax_left by lra. auto.
Qed.
Lemma Bmin_fin (x y : bf) : is_finite x = true -> is_finite y = true ->
  is_finite (Bmin x y) = true /\ B2R (Bmin x y) = Rmin (B2R x) (B2R y).
Proof.
  intros Hx Hy. unfold Bmin.
  replace (is_nan x) with false by (destruct x; auto; discriminate).
  replace (is_nan y) with false by (destruct y; auto; discriminate).
  destruct (Bltb y x) eqn:E.
  - apply Bltb_fin in E; auto. rewrite Rmin_right by lra. auto.
  - apply Bltb_fin_false in E; auto. rewrite Rmin_left by lra. auto.
Qed.
End Gen.
Arguments within {prec emax} _ _ _.
