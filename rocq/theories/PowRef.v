(** The accuracy hypotheses on [powf] are satisfiable: the correctly rounded
    power meets them. *)
From Verif Require Import Base Arith Ieee IeeeFacts SpecPow.
From Flocq Require Import IEEE754.BinarySingleNaN Core.Core.
From Flocq Require Import Relative.
From Coq Require Import Reals Lra.
Open Scope R_scope.

Section Gen.
Variables (prec emax : Z).
Context {Hp : Prec_gt_0 prec} {He : Prec_lt_emax prec emax}.
Notation fe := (SpecFloat.fexp prec emax).
Notation rnd := (round radix2 fe ZnearestE).

(** The float nearest to a real number. *)
Definition Bof (r : R) : binary_float prec emax :=
  binary_normalize prec emax Hp He mode_NE (ZnearestE (scaled_mantissa radix2 fe r)) (cexp radix2 fe r) false.

Lemma Bof_correct r : Rabs (rnd r) < bpow radix2 emax -> is_finite (Bof r) = true /\ B2R (Bof r) = rnd r.
Proof.
  intros H. unfold Bof.
  pose proof (binary_normalize_correct prec emax Hp He mode_NE (ZnearestE (scaled_mantissa radix2 fe r)) (cexp radix2 fe r) false) as C.
  cbn [round_mode] in C.
  change (F2R {| Fnum := ZnearestE (scaled_mantissa radix2 fe r); Fexp := cexp radix2 fe r |}) with (rnd r) in C.
  rewrite round_generic in C; [|apply valid_rnd_N|].
  - rewrite Rlt_bool_true in C by auto. destruct C as (C1 & C2 & _). auto.
  - apply generic_format_round; [exact (fexp_correct prec emax Hp)|apply valid_rnd_N].
Qed.

Lemma Bof_near r k : (1 < prec)%Z -> bpow radix2 (3 - emax) <= r <= bpow radix2 k -> (k < emax)%Z ->
  is_finite (Bof r) = true /\ Rabs (B2R (Bof r) - r) <= bpow radix2 (1 - prec) * r.
Proof.
  intros P1 [H1 H2] Hk.
  assert (P : 0 < r) by (eapply Rlt_le_trans; [apply bpow_gt_0|exact H1]).
  pose proof He as He'. unfold Prec_lt_emax in He'. pose proof Hp as Hp'. unfold Prec_gt_0 in Hp'.
  assert (V : Valid_exp fe) by exact (fexp_correct prec emax Hp).
  assert (S : rnd r <= bpow radix2 k).
  { apply round_le_generic; auto; [apply valid_rnd_N|]. apply generic_format_bpow.
    unfold SpecFloat.fexp, SpecFloat.emin.
    assert (Q : (3 - emax < k + 1)%Z). { apply (lt_bpow radix2). apply Rle_lt_trans with r; auto.
      apply Rle_lt_trans with (bpow radix2 k); auto. apply bpow_lt; lia. }
    lia. }
  assert (S0 : 0 <= rnd r).
  { apply round_ge_generic; auto; [apply valid_rnd_N|apply generic_format_0|lra]. }
  assert (B : Rabs (rnd r) < bpow radix2 emax).
  { rewrite Rabs_pos_eq by auto. apply Rle_lt_trans with (bpow radix2 k); auto. apply bpow_lt; auto. }
  destruct (Bof_correct r B) as [F V']. split; auto. rewrite V'.
  assert (E : Rabs (rnd r - r) <= / 2 * bpow radix2 (- prec + 1) * Rabs r).
  { apply (relative_error_N_FLT radix2 (3 - emax - prec) prec Hp (fun x => negb (Z.even x)) r).
    rewrite Rabs_pos_eq by lra. apply Rle_trans with (bpow radix2 (3 - emax)); auto. apply bpow_le. lia. }
  rewrite (Rabs_pos_eq r) in E by lra. replace (1 - prec)%Z with (- prec + 1)%Z by lia.
  pose proof (bpow_gt_0 radix2 (- prec + 1)). apply Rle_trans with (1 := E). apply Rmult_le_compat_r; lra.
Qed.
End Gen.

Definition pow64_ref (x y : b64) : b64 := Bof 53 1024 (Rpower (B2R x) (B2R y)).
Definition pow32_ref (x y : b32) : b32 :=
  match x with B754_zero _ => B754_zero false | _ => Bof 24 128 (Rpower (B2R x) (B2R y)) end.

Lemma pow64_ref_accurate : pow64_accurate pow64_ref.
Proof.
  intros x y Fx Fy Px [H1 H2].
  destruct (Bof_near 53 1024 (Rpower (B2R x) (B2R y)) 1000) as [F E]; try lia.
  { split; auto. apply Rle_trans with (2 := H1). apply bpow_le. lia. }
  split; auto. apply Rle_trans with (1 := E). apply Rmult_le_compat_r; [left; apply exp_pos|].
  apply bpow_le. lia.
Qed.
Lemma pow32_ref_accurate : pow32_accurate pow32_ref.
Proof.
  split.
  - intros x y Fx Fy Px [H1 H2].
    destruct (Bof_near 24 128 (Rpower (B2R x) (B2R y)) 100) as [F E]; try lia.
    { split; auto. apply Rle_trans with (2 := H1). apply bpow_le. lia. }
    assert (X : pow32_ref x y = Bof 24 128 (Rpower (B2R x) (B2R y))).
    { destruct x; auto. cbn in Px. lra. }
    rewrite X. split; auto. apply Rle_trans with (1 := E). apply Rmult_le_compat_r; [left; apply exp_pos|].
    apply bpow_le. lia.
  - reflexivity.
Qed.
