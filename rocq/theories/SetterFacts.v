(** Which floating-point arguments the setters accept, as real numbers. *)
From Verif Require Import Base BaseFacts Arith Ieee Order IeeeFacts Pal World Attr Hist Blur ImageM Quant SpecImage ImageFacts.
From Flocq Require Import IEEE754.BinarySingleNaN Core.Core.
From Coq Require Import Reals Lra.
Open Scope R_scope.

Section Gen.
Variables (prec emax : Z).
Context {Hp : Prec_gt_0 prec} {He : Prec_lt_emax prec emax}.
Notation bf := (binary_float prec emax).
Lemma le_num (x y : bf) : is_finite x = true -> (Bleb x y = true <-> y = B754_infinity false \/ (is_finite y = true /\ B2R x <= B2R y)).
Proof.
  intros F. destruct (is_finite y) eqn:Fy.
  - rewrite (Bleb_fin prec emax) by auto. split; [auto|]. intros [->|[_ H]]; [discriminate|auto].
  - destruct x as [sx|sx| |sx mx ex Bx]; try discriminate; destruct y as [sy|[]| |sy my ey By]; try discriminate; cbn; try destruct sx; cbn; split; intros H; try discriminate; auto; destruct H as [H|[H _]]; discriminate.
Qed.
Lemma num_le (x y : bf) : is_finite y = true -> (Bleb x y = true <-> x = B754_infinity true \/ (is_finite x = true /\ B2R x <= B2R y)).
Proof.
  intros F. destruct (is_finite x) eqn:Fx.
  - rewrite (Bleb_fin prec emax) by auto. split; [auto|]. intros [->|[_ H]]; [discriminate|auto].
  - destruct y as [sx|sx| |sx mx ex Bx]; try discriminate; destruct x as [sy|[]| |sy my ey By]; try discriminate; cbn; try destruct sx; cbn; split; intros H; try discriminate; auto; destruct H as [H|[H _]]; discriminate.
Qed.
Lemma num_lt (x y : bf) : is_finite y = true -> (Bltb x y = true <-> x = B754_infinity true \/ (is_finite x = true /\ B2R x < B2R y)).
Proof.
  intros F. destruct (is_finite x) eqn:Fx.
  - rewrite (Bltb_fin prec emax) by auto. split; [auto|]. intros [->|[_ H]]; [discriminate|auto].
  - destruct y as [sx|sx| |sx mx ex Bx]; try discriminate; destruct x as [sy|[]| |sy my ey By]; try discriminate; cbn; try destruct sx; cbn; split; intros H; try discriminate; auto; destruct H as [H|[H _]]; discriminate.
Qed.
End Gen.

(** The closed and half-open unit intervals. *)
Definition real_in_01 {p e} (v : binary_float p e) : Prop := is_finite v = true /\ 0 <= B2R v <= 1.
Lemma zero64 : is_finite (BofZ 53 1024 0) = true /\ B2R (BofZ 53 1024 0) = 0. Proof. split; vm_compute; lra || reflexivity. Qed.
Lemma one64 : is_finite (BofZ 53 1024 1) = true /\ B2R (BofZ 53 1024 1) = 1. Proof. split; [reflexivity|vm_compute; lra]. Qed.
Lemma zero32 : is_finite (BofZ 24 128 0) = true /\ B2R (BofZ 24 128 0) = 0. Proof. split; vm_compute; lra || reflexivity. Qed.
Lemma one32 : is_finite (BofZ 24 128 1) = true /\ B2R (BofZ 24 128 1) = 1. Proof. split; [reflexivity|vm_compute; lra]. Qed.
Lemma in01_64 (v : b64) : (Bleb (BofZ 53 1024 0) v && Bleb v (BofZ 53 1024 1))%bool = true <-> real_in_01 v.
Proof.
  destruct zero64 as [Z1 Z2], one64 as [O1 O2]. rewrite Bool.andb_true_iff, le_num, num_le by auto. rewrite Z2, O2. unfold real_in_01. split.
  - intros [[->|[F L]] [E|[F' U]]]; try discriminate; try (split; auto; lra). rewrite E in F. discriminate.
  - intros [F [L U]]. auto.
Qed.
Lemma in01_32 (v : b32) : (Bleb (BofZ 24 128 0) v && Bleb v (BofZ 24 128 1))%bool = true <-> real_in_01 v.
Proof.
  destruct zero32 as [Z1 Z2], one32 as [O1 O2]. rewrite Bool.andb_true_iff, le_num, num_le by auto. rewrite Z2, O2. unfold real_in_01. split.
  - intros [[->|[F L]] [E|[F' U]]]; try discriminate; try (split; auto; lra). rewrite E in F. discriminate.
  - intros [F [L U]]. auto.
Qed.

Section Setters.
Variables (pow32 : b32 -> b32 -> b32) (pow64 : b64 -> b64 -> b64).
Local Instance Ar : Arith := ieee pow32 pow64.

Lemma dithering_accepts (q : qresult) (v : b32) :
  (real_in_01 v -> exists q', set_dithering_level q (v : f32) = Ok q' /\ q_dither q' = v) /\
  (~ real_in_01 v -> set_dithering_level q (v : f32) = Err ValueOutOfRange).
Proof.
  unfold set_dithering_level. change (@fle Ar) with (@Bleb 24 128). change (@f0 Ar) with (BofZ 24 128 0). change (@Arith.f1 Ar) with (BofZ 24 128 1).
  pose proof (in01_32 v) as I. destruct (Bleb (BofZ 24 128 0) v && Bleb v (BofZ 24 128 1))%bool eqn:E; cbn [negb].
  - split; [|intros N; exfalso; apply N, I; auto]. intros _. eexists. split; reflexivity.
  - split; [intros N; apply I in N; discriminate|auto].
Qed.
Lemma gamma_accepts (q : qresult) (v : b64) : is_nan v = false ->
  (is_finite v = true /\ 0 < B2R v < 1 -> exists q', set_output_gamma q (v : f64) = Ok q' /\ output_gamma q' = v) /\
  (~ (is_finite v = true /\ 0 < B2R v < 1) -> set_output_gamma q (v : f64) = Err ValueOutOfRange).
Proof.
  intros N. unfold set_output_gamma. change (@dle Ar) with (@Bleb 53 1024). change (@d0 Ar) with (BofZ 53 1024 0). change (@Arith.d1 Ar) with (BofZ 53 1024 1).
  destruct zero64 as [Z1 Z2], one64 as [O1 O2]. pose proof (num_le 53 1024 v _ Z1) as L. pose proof (le_num 53 1024 _ v O1) as U. rewrite Z2 in L. rewrite O2 in U.
  destruct (Bleb v (BofZ 53 1024 0)) eqn:E1; cbn [orb].
  { split; auto. intros [F R]. destruct (proj1 L eq_refl) as [->|[_ H]]; [discriminate|lra]. }
  destruct (Bleb (BofZ 53 1024 1) v) eqn:E2; cbn [orb].
  { split; auto. intros [F R]. destruct (proj1 U eq_refl) as [->|[_ H]]; [discriminate|lra]. }
  split; [intros _; eexists; split; reflexivity|]. intros H. exfalso. apply H. clear H.
  assert (F : is_finite v = true). { destruct v as [s|[]| |s m e B]; try discriminate; auto. }
  split; auto. split; apply Rnot_le_lt; intros C.
  - assert (false = true) by (apply L; auto). discriminate.
  - assert (false = true) by (apply U; auto). discriminate.
Qed.
Lemma gamma_accepts_nan (q : qresult) : exists q', set_output_gamma q (B754_nan : b64) = Ok q' /\ output_gamma q' = (B754_nan : b64).
Proof. eexists. split; reflexivity. Qed.
Lemma image_gamma_accepts buf w h s (v : b64) : (0 <= w)%Z -> (0 <= h)%Z -> (0 <= s)%Z -> dims_ok w h -> buffer_ok (Z.of_nat (length buf)) w h s ->
  ((exists i, image_new_stride buf w h s (v : f64) = Ok i) <-> real_in_01 v) /\
  (~ real_in_01 v -> image_new_stride buf w h s (v : f64) = Err ValueOutOfRange).
Proof.
  intros W H S D B. destruct (@constructor_accepts Ar buf w h s v W H S) as [E M].
  assert (G : @gamma_ok Ar v <-> real_in_01 v).
  { unfold gamma_ok. change (@dle Ar) with (@Bleb 53 1024). change (@d0 Ar) with (BofZ 53 1024 0). change (@Arith.d1 Ar) with (BofZ 53 1024 1).
    rewrite <- in01_64, Bool.andb_true_iff. tauto. }
  split; [rewrite E, G; tauto|]. intros N. destruct (@image_new_stride Ar buf w h s v) as [i|[]|]; try contradiction; auto.
  - exfalso. apply N, G. destruct (proj1 E); eauto. tauto.
  - exfalso. destruct M as (_ & _ & _ & M). destruct B. lia.
Qed.
Lemma colors_gamma_accepts (h : hist) es (v : b64) : es <> [] -> (Z.of_nat (length es) <= 2 ^ 24)%Z ->
  ((exists h', add_colors h es (v : f64) = Ok h') <-> is_finite v = true /\ 0 <= B2R v < 1) /\
  (~ (is_finite v = true /\ 0 <= B2R v < 1) -> add_colors h es (v : f64) = Err ValueOutOfRange).
Proof.
  intros N L. unfold add_colors. destruct es as [|e es]; [congruence|]. cbn [length Nat.eqb orb]. 
  destruct (Z.ltb_spec (2 ^ 24) (Z.of_nat (Datatypes.S (length es)))) as [C|C]; [cbn [length] in L; lia|]. clear L C N.
  unfold gamma_in_0_1. change (@dle Ar) with (@Bleb 53 1024). change (@dlt Ar) with (@Bltb 53 1024). change (@d0 Ar) with (BofZ 53 1024 0). change (@Arith.d1 Ar) with (BofZ 53 1024 1).
  destruct zero64 as [Z1 Z2], one64 as [O1 O2]. pose proof (le_num 53 1024 _ v Z1) as L. pose proof (num_lt 53 1024 v _ O1) as U. rewrite Z2 in L. rewrite O2 in U.
  assert (G : (Bleb (BofZ 53 1024 0) v && Bltb v (BofZ 53 1024 1))%bool = true <-> is_finite v = true /\ 0 <= B2R v < 1).
  { rewrite Bool.andb_true_iff, L, U. split.
    - intros [[->|[F H]] [E|[F' H']]]; try discriminate; try (split; auto; lra). rewrite E in F. discriminate.
    - intros [F [H H']]. auto. }
  destruct (Bleb (BofZ 53 1024 0) v && Bltb v (BofZ 53 1024 1))%bool; cbn [negb].
  - split; [|intros H; exfalso; apply H, G; auto]. split; [intros _; apply G; auto|]. intros _. eexists. reflexivity.
  - split; auto. split; [intros [h' H]; discriminate|]. intros H. apply G in H. discriminate.
Qed.
(** Histogram::add_fixed_color takes any gamma. *)
Lemma fixed_gamma_unchecked c : exists h', hist_add_fixed_color (hist_new attrs_new) c (BofZ 53 1024 7 : @f64 Ar) = Ok h' /\ hg_gamma h' = Some (BofZ 53 1024 7 : @f64 Ar).
Proof. eexists. split; reflexivity. Qed.
End Setters.
