(** Order laws shared by IEEE comparisons (NaN included) and exact
    comparisons; and their proof for the IEEE instance. *)
From Verif Require Import Base Arith Ieee.
From Flocq Require Import IEEE754.BinarySingleNaN Core.Core.
From Coq Require Import Reals Lra.

(** [x] is comparable iff [fle x x] (i.e. it is not NaN). *)
Class OrdLaws (A : Arith) := {
  flt_fle : forall a b, flt a b = true -> fle a b = true;
  fle_trans : forall a b c, fle a b = true -> fle b c = true -> fle a c = true;
  flt_fle_trans : forall a b c, flt a b = true -> fle b c = true -> flt a c = true;
  fle_flt_trans : forall a b c, fle a b = true -> flt b c = true -> flt a c = true;
  flt_irrefl : forall a, flt a a = false;
  fle_total : forall a b, fle a a = true -> fle b b = true -> flt a b = true \/ fle b a = true;
  fle_refl_l : forall a b, fle a b = true -> fle a a = true;
  fle_refl_r : forall a b, fle a b = true -> fle b b = true;
  feq_fle : forall a b, feq a b = true <-> fle a b = true /\ fle b a = true;
  dlt_dle : forall a b, dlt a b = true -> dle a b = true;
  dle_trans : forall a b c, dle a b = true -> dle b c = true -> dle a c = true;
  dlt_dle_trans : forall a b c, dlt a b = true -> dle b c = true -> dlt a c = true;
  dle_dlt_trans : forall a b c, dle a b = true -> dlt b c = true -> dlt a c = true;
  dlt_irrefl : forall a, dlt a a = false;
  dle_total : forall a b, dle a a = true -> dle b b = true -> dlt a b = true \/ dle b a = true;
  dle_refl_l : forall a b, dle a b = true -> dle a a = true;
  dle_refl_r : forall a b, dle a b = true -> dle b b = true;
  deq_dle : forall a b, deq a b = true <-> dle a b = true /\ dle b a = true;
  fofZ_le : forall a b, (a <= b)%Z -> fle (fofZ a) (fofZ b) = true;
  dofZ_le : forall a b, (a <= b)%Z -> dle (dofZ a) (dofZ b) = true
}.

(** A cast to [u8]/[u32] yields a value of that type. *)
Class CastLaws (A : Arith) := {
  fto_u8_range : forall x, (0 <= fto_u8 x < 256)%Z;
  fto_u32_range : forall x, (0 <= fto_u32 x < 4294967296)%Z
}.

Section IeeeOrder.
Variables (prec emax : Z).
Context {Hp : Prec_gt_0 prec} {He : Prec_lt_emax prec emax}.
Notation bf := (binary_float prec emax).

(** Extended-real reading of a float: NaN is incomparable. *)
Definition rank (x : bf) : option (option R * bool) :=
  match x with
  | B754_nan => None
  | B754_infinity s => Some (None, s)
  | _ => Some (Some (B2R x), false)
  end.

Definition rle (x y : option R * bool) : Prop :=
  match x, y with
  | (None, true), _ => True
  | _, (None, false) => True
  | (Some a, _), (Some b, _) => (a <= b)%R
  | _, _ => False
  end.
Definition rlt (x y : option R * bool) : Prop :=
  match x, y with
  | (None, true), (None, true) => False
  | (None, true), _ => True
  | (None, false), (None, false) => False
  | _, (None, false) => True
  | (Some a, _), (Some b, _) => (a < b)%R
  | _, _ => False
  end.

Lemma Bcompare_nan_l (y : bf) : Bcompare B754_nan y = None.
Proof. destruct y; reflexivity. Qed.

Lemma Bleb_rank (x y : bf) : Bleb x y = true <->
  exists a b, rank x = Some a /\ rank y = Some b /\ rle a b.
Proof.
  destruct (is_finite x) eqn:Hx, (is_finite y) eqn:Hy.
  - rewrite Bleb_correct by auto.
    assert (Rx : rank x = Some (Some (B2R x), false)) by (destruct x; try discriminate; reflexivity).
    assert (Ry : rank y = Some (Some (B2R y), false)) by (destruct y; try discriminate; reflexivity).
    rewrite Rx, Ry. destruct (Rle_bool_spec (B2R x) (B2R y)) as [H|H]; split; intros H1; auto.
    + eexists _, _; split; [reflexivity|]; split; [reflexivity|]. exact H.
    + discriminate.
    + destruct H1 as (a & b & H1 & H2 & H3). inversion H1; inversion H2; subst. cbn in H3. lra.
  - destruct y as [s|[]| |]; try discriminate; cbn [rank];
    destruct x as [s'|[]| |s' m e B]; try discriminate; cbn; try destruct s'; split; intros H; try discriminate;
    try reflexivity; try (eexists _, _; split; [reflexivity|]; split; [reflexivity|]; exact I);
    destruct H as (a & b & H1 & H2 & H3); inversion H1; inversion H2; subst; cbn in H3; try contradiction.
  - destruct x as [s|[]| |]; try discriminate; cbn [rank];
    destruct y as [s'|[]| |s' m e B]; try discriminate; cbn; try destruct s'; split; intros H; try discriminate;
    try reflexivity; try (eexists _, _; split; [reflexivity|]; split; [reflexivity|]; exact I);
    destruct H as (a & b & H1 & H2 & H3); inversion H1; inversion H2; subst; cbn in H3; try contradiction.
  - destruct x as [s|[]| |]; try discriminate; destruct y as [s'|[]| |s' m e B]; try discriminate; cbn;
    split; intros H; try discriminate; try reflexivity;
    try (eexists _, _; split; [reflexivity|]; split; [reflexivity|]; exact I);
    destruct H as (a & b & H1 & H2 & H3); inversion H1; inversion H2; subst; cbn in H3; try contradiction.
Qed.

Lemma Bltb_rank (x y : bf) : Bltb x y = true <->
  exists a b, rank x = Some a /\ rank y = Some b /\ rlt a b.
Proof.
  destruct (is_finite x) eqn:Hx, (is_finite y) eqn:Hy.
  - rewrite Bltb_correct by auto.
    assert (Rx : rank x = Some (Some (B2R x), false)) by (destruct x; try discriminate; reflexivity).
    assert (Ry : rank y = Some (Some (B2R y), false)) by (destruct y; try discriminate; reflexivity).
    rewrite Rx, Ry. destruct (Rlt_bool_spec (B2R x) (B2R y)) as [H|H]; split; intros H1; auto.
    + eexists _, _; split; [reflexivity|]; split; [reflexivity|]. exact H.
    + discriminate.
    + destruct H1 as (a & b & H1 & H2 & H3). inversion H1; inversion H2; subst. cbn in H3. lra.
  - destruct y as [s|[]| |]; try discriminate; cbn [rank];
    destruct x as [s'|[]| |s' m e B]; try discriminate; cbn; try destruct s'; split; intros H; try discriminate;
    try reflexivity; try (eexists _, _; split; [reflexivity|]; split; [reflexivity|]; exact I);
    destruct H as (a & b & H1 & H2 & H3); inversion H1; inversion H2; subst; cbn in H3; try contradiction.
  - destruct x as [s|[]| |]; try discriminate; cbn [rank];
    destruct y as [s'|[]| |s' m e B]; try discriminate; cbn; try destruct s'; split; intros H; try discriminate;
    try reflexivity; try (eexists _, _; split; [reflexivity|]; split; [reflexivity|]; exact I);
    destruct H as (a & b & H1 & H2 & H3); inversion H1; inversion H2; subst; cbn in H3; try contradiction.
  - destruct x as [s|[]| |]; try discriminate; destruct y as [s'|[]| |s' m e B]; try discriminate; cbn;
    split; intros H; try discriminate; try reflexivity;
    try (eexists _, _; split; [reflexivity|]; split; [reflexivity|]; exact I);
    destruct H as (a & b & H1 & H2 & H3); inversion H1; inversion H2; subst; cbn in H3; try contradiction.
Qed.

Lemma Beqb_rank (x y : bf) : Beqb x y = true <-> Bleb x y = true /\ Bleb y x = true.
Proof.
  destruct (is_finite x) eqn:Hx, (is_finite y) eqn:Hy.
  - rewrite Beqb_correct, !Bleb_correct by auto.
    destruct (Req_bool_spec (B2R x) (B2R y)), (Rle_bool_spec (B2R x) (B2R y)), (Rle_bool_spec (B2R y) (B2R x));
      split; intros H3; try discriminate; try destruct H3; try discriminate; auto; lra.
  - destruct y as [s|[]| |]; try discriminate; destruct x as [s'|[]| |s' m e B]; try discriminate; cbn;
      try destruct s'; intuition discriminate.
  - destruct x as [s|[]| |]; try discriminate; destruct y as [s'|[]| |s' m e B]; try discriminate; cbn;
      try destruct s'; intuition discriminate.
  - destruct x as [s|[]| |]; try discriminate; destruct y as [s'|[]| |s' m e B]; try discriminate; cbn;
      intuition discriminate.
Qed.

Ltac rk :=
  repeat match goal with
  | H : Bleb _ _ = true |- _ => apply Bleb_rank in H as (? & ? & ? & ? & ?)
  | H : Bltb _ _ = true |- _ => apply Bltb_rank in H as (? & ? & ? & ? & ?)
  | H1 : ?x = Some ?a, H2 : ?x = Some ?b |- _ => rewrite H1 in H2; inversion H2; subst; clear H2
  end.
Ltac rk_fin :=
  repeat match goal with x : (option R * bool)%type |- _ => destruct x as [[?|] []] end;
  cbn in *; try tauto; try lra.

Lemma Bltb_Bleb (a b : bf) : Bltb a b = true -> Bleb a b = true.
Proof. intros H; rk. apply Bleb_rank. do 2 eexists; repeat split; eauto. rk_fin. Qed.
Lemma Bleb_trans (a b c : bf) : Bleb a b = true -> Bleb b c = true -> Bleb a c = true.
Proof. intros H H'; rk. apply Bleb_rank. do 2 eexists; repeat split; eauto. rk_fin. Qed.
Lemma Bltb_Bleb_trans (a b c : bf) : Bltb a b = true -> Bleb b c = true -> Bltb a c = true.
Proof. intros H H'; rk. apply Bltb_rank. do 2 eexists; repeat split; eauto. rk_fin. Qed.
Lemma Bleb_Bltb_trans (a b c : bf) : Bleb a b = true -> Bltb b c = true -> Bltb a c = true.
Proof. intros H H'; rk. apply Bltb_rank. do 2 eexists; repeat split; eauto. rk_fin. Qed.
Lemma Bltb_irrefl (a : bf) : Bltb a a = false.
Proof. destruct (Bltb a a) eqn:H; auto. rk. rk_fin. Qed.
Lemma Bleb_total (a b : bf) : Bleb a a = true -> Bleb b b = true -> Bltb a b = true \/ Bleb b a = true.
Proof.
  intros H H'; rk. rewrite Bltb_rank, Bleb_rank.
  repeat match goal with x : (option R * bool)%type |- _ => destruct x as [[?|] []] end; cbn in *; try tauto;
  try (left; do 2 eexists; repeat split; eauto; cbn; tauto);
  try (right; do 2 eexists; repeat split; eauto; cbn; tauto);
  match goal with H1 : (?a <= ?a)%R, H2 : (?b <= ?b)%R |- _ => destruct (Rlt_le_dec a b) end;
  try (left; do 2 eexists; repeat split; eauto; cbn; lra);
  try (right; do 2 eexists; repeat split; eauto; cbn; lra).
Qed.
Lemma Bleb_refl_l (a b : bf) : Bleb a b = true -> Bleb a a = true.
Proof. intros H; rk. apply Bleb_rank. do 2 eexists; repeat split; eauto. rk_fin. Qed.
Lemma Bleb_refl_r (a b : bf) : Bleb a b = true -> Bleb b b = true.
Proof. intros H; rk. apply Bleb_rank. do 2 eexists; repeat split; eauto. rk_fin. Qed.

Lemma Bleb_refl (a : bf) : is_nan a = false -> Bleb a a = true.
Proof.
  intros H. apply Bleb_rank. destruct a; try discriminate; do 2 eexists; repeat split; cbn; try lra.
  destruct s; auto.
Qed.

(** Monotonicity of integer conversion. *)
Lemma BofZ_rank (z : Z) :
  rank (BofZ prec emax z) = Some
   (if Rlt_bool (Rabs (round radix2 (SpecFloat.fexp prec emax) ZnearestE (IZR z))) (bpow radix2 emax)
    then (Some (round radix2 (SpecFloat.fexp prec emax) ZnearestE (IZR z)), false)
    else (None, Z.ltb z 0)).
Proof.
  unfold BofZ. pose proof (binary_normalize_correct prec emax Hp He mode_NE z 0 false) as H.
  cbv zeta in H. replace (F2R {| Fnum := z; Fexp := 0 |}) with (IZR z) in H by (unfold F2R; cbn; ring).
  cbn [round_mode] in H.
  destruct (Rlt_bool _ _) eqn:E.
  - destruct H as (H1 & H2 & H3).
    destruct (binary_normalize _ _ _ _ _ _ _ _); try discriminate; unfold rank; rewrite <- ?H1; reflexivity.
  - assert (Hs : Rlt_bool (IZR z) 0 = (z <? 0)%Z).
    { destruct (Rlt_bool_spec (IZR z) 0), (Z.ltb_spec z 0); auto.
      - apply IZR_le in H1. lra.
      - apply IZR_lt in H1. lra. }
    rewrite Hs in H.
    destruct (binary_normalize _ _ _ _ _ _ _ _) as [s|s| |s m e B]; unfold binary_overflow, overflow_to_inf in H; cbn in H; inversion H; subst. reflexivity.
Qed.

Lemma BofZ_le (a b : Z) : (a <= b)%Z -> Bleb (BofZ prec emax a) (BofZ prec emax b) = true.
Proof.
  intros H. apply Bleb_rank. rewrite !BofZ_rank. do 2 eexists. split; [reflexivity|]. split; [reflexivity|].
  assert (M : (round radix2 (SpecFloat.fexp prec emax) ZnearestE (IZR a) <= round radix2 (SpecFloat.fexp prec emax) ZnearestE (IZR b))%R).
  { apply round_le; [apply fexp_correct; auto|apply valid_rnd_N|apply IZR_le; auto]. }
  assert (Ze : forall z, (0 <= z)%Z -> (0 <= round radix2 (SpecFloat.fexp prec emax) ZnearestE (IZR z))%R).
  { intros z Hz. rewrite <- (round_0 radix2 (SpecFloat.fexp prec emax) ZnearestE). apply round_le; [apply fexp_correct; auto|apply valid_rnd_N|].
    apply (IZR_le 0); auto. }
  assert (Zn : forall z, (z <= 0)%Z -> (round radix2 (SpecFloat.fexp prec emax) ZnearestE (IZR z) <= 0)%R).
  { intros z Hz. rewrite <- (round_0 radix2 (SpecFloat.fexp prec emax) ZnearestE). apply round_le; [apply fexp_correct; auto|apply valid_rnd_N|].
    apply (IZR_le _ 0); auto. }
  destruct (Rlt_bool_spec (Rabs (round radix2 (SpecFloat.fexp prec emax) ZnearestE (IZR a))) (bpow radix2 emax)) as [Ha|Ha];
  destruct (Rlt_bool_spec (Rabs (round radix2 (SpecFloat.fexp prec emax) ZnearestE (IZR b))) (bpow radix2 emax)) as [Hb|Hb]; cbn.
  - auto.
  - destruct (Z.ltb_spec b 0); auto. exfalso.
    assert (Za := Zn a ltac:(lia)). assert (Zb := Zn b ltac:(lia)).
    rewrite Rabs_left1 in Ha, Hb by auto. lra.
  - destruct (Z.ltb_spec a 0); auto. exfalso.
    assert (Za := Ze a ltac:(lia)). assert (Zb := Ze b ltac:(lia)).
    rewrite Rabs_pos_eq in Ha, Hb by auto. lra.
  - destruct (Z.ltb_spec a 0), (Z.ltb_spec b 0); auto. lia.
Qed.
End IeeeOrder.

#[global] Instance ieee_ord pow32 pow64 : OrdLaws (ieee pow32 pow64).
Proof.
  constructor.
  - exact (Bltb_Bleb _ _).
  - exact (Bleb_trans _ _).
  - exact (Bltb_Bleb_trans _ _).
  - exact (Bleb_Bltb_trans _ _).
  - exact (Bltb_irrefl _ _).
  - exact (Bleb_total _ _).
  - exact (Bleb_refl_l _ _).
  - exact (Bleb_refl_r _ _).
  - exact (Beqb_rank _ _).
  - exact (Bltb_Bleb _ _).
  - exact (Bleb_trans _ _).
  - exact (Bltb_Bleb_trans _ _).
  - exact (Bleb_Bltb_trans _ _).
  - exact (Bltb_irrefl _ _).
  - exact (Bleb_total _ _).
  - exact (Bleb_refl_l _ _).
  - exact (Bleb_refl_r _ _).
  - exact (Beqb_rank _ _).
  - exact (BofZ_le _ _).
  - exact (BofZ_le _ _).
Qed.

Section Consequences.
Context {A : Arith} {O : OrdLaws A}.

Lemma flt_not_fle a b : flt a b = true -> fle b a = false.
Proof.
  intros H. destruct (fle b a) eqn:E; auto.
  pose proof (flt_fle_trans _ _ _ H E) as F. rewrite flt_irrefl in F. discriminate.
Qed.
Lemma dlt_not_dle a b : dlt a b = true -> dle b a = false.
Proof.
  intros H. destruct (dle b a) eqn:E; auto.
  pose proof (dlt_dle_trans _ _ _ H E) as F. rewrite dlt_irrefl in F. discriminate.
Qed.
Lemma fofZ_ok z : fle (fofZ z) (fofZ z) = true.
Proof. apply fofZ_le; lia. Qed.
Lemma dofZ_ok z : dle (dofZ z) (dofZ z) = true.
Proof. apply dofZ_le; lia. Qed.

(** [OrdFloat] comparison on comparable values is a total preorder. *)
Lemma fcmp_le a b : fle a a = true -> fle b b = true -> (fcmp a b <> Gt <-> fle a b = true).
Proof.
  intros Ha Hb. unfold fcmp. destruct (flt a b) eqn:E1.
  - split; intros; [apply flt_fle; auto|discriminate].
  - destruct (flt b a) eqn:E2.
    + split; intros H; [congruence|]. rewrite (flt_not_fle _ _ E2) in H. discriminate.
    + split; intros H; [|discriminate]. destruct (fle_total b a Hb Ha) as [G|G]; auto. congruence.
Qed.
Lemma dcmp_le a b : dle a a = true -> dle b b = true -> (dcmp a b <> Gt <-> dle a b = true).
Proof.
  intros Ha Hb. unfold dcmp. destruct (dlt a b) eqn:E1.
  - split; intros; [apply dlt_dle; auto|discriminate].
  - destruct (dlt b a) eqn:E2.
    + split; intros H; [congruence|]. rewrite (dlt_not_dle _ _ E2) in H. discriminate.
    + split; intros H; [|discriminate]. destruct (dle_total b a Hb Ha) as [G|G]; auto. congruence.
Qed.
End Consequences.

Lemma Bto_uint_range {prec emax} max (x : binary_float prec emax) : (0 <= max)%Z -> (0 <= Bto_uint max x <= max)%Z.
Proof. intros H. destruct x as [s|s| |s m e Hb]; unfold Bto_uint; [lia|destruct s; lia|lia|lia]. Qed.
#[global] Instance ieee_cast pow32 pow64 : CastLaws (ieee pow32 pow64).
Proof.
  constructor; intros x; cbn.
  - pose proof (Bto_uint_range 255 x). lia.
  - pose proof (Bto_uint_range U32_MAX x). unfold U32_MAX in *. lia.
Qed.
