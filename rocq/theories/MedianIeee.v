(** Rounding cannot empty a half of a split box: error bounds for the sums of
    weights in f64. *)
From Verif Require Import Base BaseFacts Arith Order Ieee IeeeFacts SmallFloat Pal World Attr Hist MedianCut MedianFacts SplitFacts.
From Flocq Require Import IEEE754.BinarySingleNaN Core.Core.
From Flocq Require Import Relative Plus_error.
From Coq Require Import Reals Lra.
Open Scope R_scope.

Notation rnd64 := (round radix2 (SpecFloat.fexp 53 1024) ZnearestE).
Definition u53 : R := / 9007199254740992.       (* 2^-53 *)

Lemma u_ro53 : u_ro radix2 53 = u53.
Proof. unfold u_ro, u53. cbn. lra. Qed.

(** f64 addition of two floats: relative error at most 2^-53. *)
Lemma rnd_plus_rel (x y : b64) : exists e, Rabs e <= u53 /\ rnd64 (B2R x + B2R y) = (B2R x + B2R y) * (1 + e).
Proof.
  destruct (FLT_plus_error_N_ex radix2 (-1074) 53 (fun x => negb (Z.even x)) (B2R x) (B2R y)) as (e & E1 & E2).
  - exact (generic_format_B2R 53 1024 x).
  - exact (generic_format_B2R 53 1024 y).
  - exists e. split; [|exact E2]. apply Rle_trans with (1 := E1). rewrite <- u_ro53. apply u_rod1pu_ro_le_u_ro. 
Qed.

Lemma f2d_exact (x : b32) : is_finite x = true -> is_finite (Bconv 53 1024 x) = true /\ B2R (Bconv 53 1024 x) = B2R x.
Proof.
  destruct x as [s|s| |s m e H]; try discriminate; intros _; [cbn; auto|].
  unfold Bconv.
  pose proof (binary_normalize_correct 53 1024 prec64 emax64 mode_NE (cond_Zopp s (Zpos m)) e s) as N. cbn [round_mode] in N.
  set (x := B754_finite s m e H : b32) in *.
  change (F2R {| Fnum := cond_Zopp s (Z.pos m); Fexp := e |}) with (B2R x) in N.
  assert (G : rnd64 (B2R x) = B2R x).
  { apply round_generic; [apply valid_rnd_N|].
    pose proof (generic_format_B2R 24 128 x) as Q. apply FLT_format_generic in Q; [|reflexivity]. destruct Q as [f Q1 Q2 Q3].
    apply (generic_format_FLT radix2 (-1074) 53). exists f; auto; [|unfold SpecFloat.emin in Q3; lia].
    apply Z.lt_trans with (1 := Q2). reflexivity. }
  rewrite G in N. rewrite Rlt_bool_true in N; [tauto|].
  apply Rlt_trans with (bpow radix2 128); [apply (abs_B2R_lt_emax 24 128)|apply bpow_lt; lia].
Qed.

(** Sums of weights. *)
Definition weight (x : b64) : Prop := is_finite x = true /\ 0 <= B2R x <= bpow radix2 100 /\ (B2R x = 0 \/ bpow radix2 (-149) <= B2R x).
Fixpoint Rsum (l : list b64) : R := match l with [] => 0 | x :: t => B2R x + Rsum t end.
Lemma Rsum_app a b : Rsum (a ++ b) = Rsum a + Rsum b.
Proof. induction a as [|x a IH]; cbn; [lra|]. rewrite IH. lra. Qed.
Lemma Rsum_perm a b : Permutation a b -> Rsum a = Rsum b.
Proof. induction 1; cbn; lra. Qed.
Lemma Rsum_pos l : Forall weight l -> 0 <= Rsum l.
Proof. induction 1 as [|x l (_ & H & _) F IH]; cbn [Rsum]; lra. Qed.
Lemma Rsum_zero_or l : Forall weight l -> Rsum l = 0 \/ bpow radix2 (-149) <= Rsum l.
Proof.
  induction 1 as [|x l (_ & H & Z0) F IH]; cbn [Rsum]; [auto|]. pose proof (Rsum_pos l F). destruct Z0 as [Z0|Z0]; [|right; lra].
  rewrite Z0. destruct IH; [left|right]; lra.
Qed.
Lemma Rsum_le l : Forall weight l -> Rsum l <= IZR (Z.of_nat (length l)) * bpow radix2 100.
Proof.
  induction 1 as [|x l (_ & H & _) F IH]; cbn [Rsum length]; [cbn; lra|]. rewrite Nat2Z.inj_succ, succ_IZR. lra.
Qed.

Definition N40 : R := 1099511627776.            (* 2^40 *)
Definition eps : R := / 4096.                   (* 2^-12 *)
Lemma b100_140 : N40 * bpow radix2 100 = bpow radix2 140.
Proof. unfold N40. replace 1099511627776 with (bpow radix2 40) by (cbn; lra). rewrite <- bpow_plus. reflexivity. Qed.
Lemma big_fits : 4 * bpow radix2 140 < bpow radix2 1024.
Proof. replace 4 with (bpow radix2 2) by (cbn; lra). rewrite <- bpow_plus. apply bpow_lt. lia. Qed.

Section Err.
Lemma step_err A Sx x e j : 0 <= Sx -> 0 <= x -> 0 <= j -> j + 1 <= N40 -> Rabs (A - Sx) <= 2 * j * u53 * Sx -> Rabs e <= u53 ->
  Rabs ((A + x) * (1 + e) - (Sx + x)) <= 2 * (j + 1) * u53 * (Sx + x).
Proof.
  intros HS Hx Hj J HA He.
  assert (U : 0 < u53) by (unfold u53; lra). assert (JU : 2 * j * u53 <= / 2) by (unfold N40, u53 in *; lra).
  replace ((A + x) * (1 + e) - (Sx + x)) with ((A - Sx) * (1 + e) + (Sx + x) * e) by ring.
  eapply Rle_trans; [apply Rabs_triang|]. rewrite !Rabs_mult, (Rabs_pos_eq (Sx + x)) by lra.
  assert (E1 : Rabs (1 + e) <= 1 + u53). { eapply Rle_trans; [apply Rabs_triang|]. rewrite (Rabs_pos_eq 1) by lra. lra. }
  pose proof (Rabs_pos (A - Sx)). pose proof (Rabs_pos (1 + e)). pose proof (Rabs_pos e).
  apply Rle_trans with (2 * j * u53 * Sx * (1 + u53) + (Sx + x) * u53).
  { apply Rplus_le_compat; [apply Rmult_le_compat; auto|apply Rmult_le_compat_l; lra]. }
  set (D := 2 * j * u53) in *. assert (D * Sx <= D * (Sx + x)) by (apply Rmult_le_compat_l; [unfold D|]; try lra; apply Rmult_le_pos; lra).
  assert (D * Sx * u53 <= / 2 * (Sx + x) * u53).
  { apply Rmult_le_compat_r; [lra|]. apply Rle_trans with (/ 2 * Sx); [apply Rmult_le_compat_r; lra|lra]. }
  replace (2 * (j + 1) * u53 * (Sx + x)) with (D * (Sx + x) + 2 * u53 * (Sx + x)) by (unfold D; ring). nra.
Qed.
End Err.

Lemma fold_err l : forall acc Sx j, Forall weight l -> is_finite acc = true -> 0 <= Sx -> 0 <= j -> j + IZR (Z.of_nat (length l)) <= N40 ->
  Rabs (B2R acc - Sx) <= 2 * j * u53 * Sx -> Sx + Rsum l <= bpow radix2 140 ->
  is_finite (fold_left (Bplus mode_NE) l acc) = true /\
  Rabs (B2R (fold_left (Bplus mode_NE) l acc) - (Sx + Rsum l)) <= 2 * (j + IZR (Z.of_nat (length l))) * u53 * (Sx + Rsum l).
Proof.
  induction l as [|x l IH]; intros acc Sx j F Fa HS Hj J HA B; cbn [fold_left Rsum length] in *.
  - split; auto. rewrite !Rplus_0_r. auto.
  - rewrite Nat2Z.inj_succ, succ_IZR in *. apply Forall_cons_iff in F as [(Fx & Hx & _) F]. pose proof (Rsum_pos l F) as RP.
    assert (L0 : 0 <= IZR (Z.of_nat (length l))) by (apply (IZR_le 0); lia).
    destruct (rnd_plus_rel acc x) as (e & E1 & E2).
    pose proof (step_err (B2R acc) Sx (B2R x) e j HS (proj1 Hx) Hj ltac:(lra) HA E1) as ST.
    assert (NF : Rabs (rnd64 (B2R acc + B2R x)) < bpow radix2 1024).
    { rewrite E2. apply Rle_lt_trans with (2 := big_fits).
      apply Rle_trans with (2 * (Sx + B2R x)).
      - replace ((B2R acc + B2R x) * (1 + e)) with (((B2R acc + B2R x) * (1 + e) - (Sx + B2R x)) + (Sx + B2R x)) by ring.
        eapply Rle_trans; [apply Rabs_triang|]. rewrite (Rabs_pos_eq (Sx + B2R x)) by lra.
        assert (2 * (j + 1) * u53 <= 1) by (unfold N40, u53 in *; lra).
        assert (2 * (j + 1) * u53 * (Sx + B2R x) <= 1 * (Sx + B2R x)) by (apply Rmult_le_compat_r; lra). lra.
      - lra. }
    destruct (proj1 (Bplus_fin 53 1024 acc x Fa Fx) NF) as [FF V].
    replace (Sx + (B2R x + Rsum l)) with ((Sx + B2R x) + Rsum l) by ring.
    replace (j + (IZR (Z.of_nat (length l)) + 1)) with ((j + 1) + IZR (Z.of_nat (length l))) by ring.
    apply IH; auto; try lra. rewrite V, E2. exact ST.
Qed.
Lemma dsum_err l : Forall weight l -> IZR (Z.of_nat (length l)) <= N40 ->
  is_finite (fold_left (Bplus mode_NE) l (BofZ 53 1024 0)) = true /\
  Rabs (B2R (fold_left (Bplus mode_NE) l (BofZ 53 1024 0)) - Rsum l) <= eps * Rsum l.
Proof.
  intros F L. pose proof (Rsum_pos l F) as RP. pose proof (Rsum_le l F) as RL.
  destruct (fold_err l (BofZ 53 1024 0) 0 0 F) as [F1 E1]; try lra; try reflexivity.
  - cbn. unfold Rminus. rewrite Rplus_0_l, Ropp_0, Rabs_R0. lra.
  - rewrite Rplus_0_l. apply Rle_trans with (1 := RL). rewrite <- b100_140. apply Rmult_le_compat_r; auto. apply bpow_ge_0.
  - split; auto. rewrite !Rplus_0_l in E1. apply Rle_trans with (1 := E1). apply Rmult_le_compat_r; auto.
    unfold N40, u53, eps in *. lra.
Qed.

(** The invariant of the search for the half. *)
Definition enough (k : nat) (l : list b64) (h : b64) : Prop :=
  exists T, Forall weight l /\ is_finite h = true /\ IZR (Z.of_nat (k + length l)) <= N40 /\ Rsum l <= T <= bpow radix2 140 /\
    B2R h <= T / 2 - (T - Rsum l) + eps * T + eps * (T - Rsum l) + IZR (Z.of_nat k) * u53 * T.
Lemma enough_perm k l l' h : Permutation l l' -> enough k l h -> enough k l' h.
Proof.
  intros P (T & F & H1 & H2 & H3 & H4). exists T. rewrite <- (Rsum_perm _ _ P), <- (Permutation_length P).
  split; [eapply Permutation_Forall; eauto|]. auto.
Qed.
Lemma enough_step k a b h : a <> [] -> enough k (a ++ b) h -> Bleb h (fold_left (Bplus mode_NE) a (BofZ 53 1024 0)) = false ->
  b <> [] /\ enough (S k) b (Bminus mode_NE h (fold_left (Bplus mode_NE) a (BofZ 53 1024 0))).
Proof.
  intros NA (T & F & FH & L & [T1 T2] & H) D. apply Forall_app in F as [Fa Fb]. rewrite Rsum_app in *.
  pose proof (Rsum_pos a Fa) as Pa. pose proof (Rsum_pos b Fb) as Pb.
  rewrite app_length, !Nat2Z.inj_add, !plus_IZR in L.
  assert (K0 : 0 <= IZR (Z.of_nat k)) by (apply (IZR_le 0); lia).
  assert (A1 : 1 <= IZR (Z.of_nat (length a))) by (destruct a; [contradiction NA; auto|]; apply (IZR_le 1); cbn; lia).
  assert (B0 : 0 <= IZR (Z.of_nat (length b))) by (apply (IZR_le 0); lia).
  destruct (dsum_err a Fa ltac:(lra)) as [FS ES]. set (s := fold_left (Bplus mode_NE) a (BofZ 53 1024 0)) in *.
  apply Bleb_fin_false in D; auto. apply Rabs_le_inv in ES.
  assert (KU : IZR (Z.of_nat k) * u53 * T <= / 8192 * T).
  { apply Rmult_le_compat_r; [lra|]. unfold N40, u53 in *. lra. }
  assert (HT : B2R h <= T) by (unfold eps in *; lra).
  split.
  - intros ->. cbn [Rsum] in *. unfold eps in *. lra.
  - assert (HS : 0 <= B2R s) by (unfold eps in *; lra).
    destruct (rnd_plus_rel h (Bopp s)) as (e & E1 & E2). rewrite B2R_Bopp in E2. fold (B2R h - B2R s) in E2.
    apply Rabs_le_inv in E1.
    assert (EB : Rabs ((B2R h - B2R s) * e) <= u53 * T).
    { rewrite Rabs_mult, Rmult_comm. apply Rmult_le_compat; try apply Rabs_pos; [apply Rabs_le; lra|].
      rewrite Rabs_pos_eq; lra. }
    apply Rabs_le_inv in EB.
    assert (UT : u53 * T <= T) by (unfold u53; lra).
    assert (NF : Rabs (rnd64 (B2R h - B2R s)) < bpow radix2 1024).
    { rewrite E2. apply Rle_lt_trans with (2 := big_fits). apply Rabs_le. rewrite Rmult_plus_distr_l, Rmult_1_r. split; lra. }
    destruct (proj1 (Bminus_fin 53 1024 h s FH FS) NF) as [FF V].
    exists T. split; auto. split; auto. split; [|split; [lra|]].
    + rewrite Nat2Z.inj_add, Nat2Z.inj_succ, plus_IZR, succ_IZR. lra.
    + rewrite V, E2, Nat2Z.inj_succ, succ_IZR. unfold eps in *. lra.
Qed.
Lemma enough_start l : Forall weight l -> IZR (Z.of_nat (length l)) <= N40 ->
  enough 0 l (Bdiv mode_NE (fold_left (Bplus mode_NE) l (BofZ 53 1024 0)) (BofZ 53 1024 2)).
Proof.
  intros F L. destruct (dsum_err l F L) as [FS ES]. set (s := fold_left (Bplus mode_NE) l (BofZ 53 1024 0)) in *. pose proof (Rsum_pos l F) as RP. pose proof (Rsum_le l F) as RL.
  assert (R140 : Rsum l <= bpow radix2 140).
  { apply Rle_trans with (1 := RL). rewrite <- b100_140. apply Rmult_le_compat_r; auto. apply bpow_ge_0. }
  destruct (BofZ_exact 53 1024 2) as [F2 V2]; try lia. apply Rabs_le_inv in ES.
  assert (RE : 0 <= rnd64 (B2R s / 2) <= B2R s / 2 * (1 + / 1000000)).
  { split.
    - apply round_ge_generic; [apply (fexp_correct 53 1024 eq_refl)|apply valid_rnd_N|apply generic_format_0|]. unfold eps in *. lra.
    - destruct (Rsum_zero_or l F) as [Z0|Z0].
      + assert (B2R s = 0) as -> by (unfold eps in *; rewrite Z0 in *; lra). unfold Rdiv. rewrite Rmult_0_l, round_0 by apply valid_rnd_N. lra.
      + assert (Q : bpow radix2 (-152) <= B2R s / 2).
        { replace (bpow radix2 (-149)) with (8 * bpow radix2 (-152)) in Z0 by (change 8 with (bpow radix2 3); rewrite <- bpow_plus; reflexivity).
          pose proof (bpow_gt_0 radix2 (-152)). unfold eps in *. lra. }
        pose proof (relative_error_N_FLT radix2 (-1074) 53 eq_refl (fun x => negb (Z.even x)) (B2R s / 2)) as RR.
        pose proof (bpow_gt_0 radix2 (-152)) as BP.
        assert (QQ : Rabs (rnd64 (B2R s / 2) - B2R s / 2) <= / 2 * bpow radix2 (- (53) + 1) * Rabs (B2R s / 2)).
        { apply RR. rewrite Rabs_pos_eq by lra. apply Rle_trans with (2 := Q). apply bpow_le. lia. }
        rewrite (Rabs_pos_eq (B2R s / 2)) in QQ by lra. apply Rabs_le_inv in QQ.
        assert (/ 2 * bpow radix2 (- (53) + 1) <= / 1000000) by (cbn; lra).
        assert (/ 2 * bpow radix2 (- (53) + 1) * (B2R s / 2) <= / 1000000 * (B2R s / 2)) by (apply Rmult_le_compat_r; lra). lra. }
  destruct (proj1 (Bdiv_fin 53 1024 s (BofZ 53 1024 2) FS ltac:(rewrite V2; lra))) as [FF V].
  { rewrite V2. rewrite Rabs_pos_eq by lra. apply Rle_lt_trans with (2 := big_fits). unfold eps in *. lra. }
  exists (Rsum l). split; auto. split; auto. split; [exact L|]. split; [lra|]. rewrite V, V2. unfold eps in *. cbn [Z.of_nat]. lra.
Qed.

(** * Split weights of items with colours and weights of moderate size *)
Section I.
Variables (pow32 : b32 -> b32 -> b32) (pow64 : b64 -> b64 -> b64).
Let Ar : Arith := ieee pow32 pow64.
Local Existing Instance Ar.

Definition nonneg (k : Z) (x : b32) : Prop := small k x /\ 0 <= B2R x.
Definition color_ok (p : px) : Prop := small 0 (pa p) /\ small 0 (pr p) /\ small 0 (pg p) /\ small 0 (pb p).
(** Colour channels at most 1, adjusted weight in [0, 2^60]. *)
Definition item_ok (c : px * b32 * b32) : Prop := color_ok (fst (fst c)) /\ nonneg 60 (snd (fst c)).

Lemma rnd32_pos x : 0 <= x -> 0 <= rnd32 x.
Proof. intros H. apply round_ge_generic; [apply (fexp_correct 24 128 eq_refl)|apply valid_rnd_N|apply generic_format_0|auto]. Qed.
Lemma nonneg_sq j x : (-100 <= j + j <= 100)%Z -> small j x -> nonneg (j + j) (Bmult mode_NE x x).
Proof. intros K H. destruct (small_mul j j x x K H H) as [S' V]. split; auto. rewrite V. apply rnd32_pos, Rle_0_sqr. Qed.
Lemma nonneg_max k x y : nonneg k x -> nonneg k y -> nonneg k (Bmax x y).
Proof.
  intros [X1 X2] [Y1 Y2]. split; [apply small_max; auto|]. destruct (Bmax_fin 24 128 x y (proj1 X1) (proj1 Y1)) as [_ ->].
  apply Rle_trans with (1 := X2). apply Rmax_l.
Qed.
Lemma nonneg_add k x y : (-100 <= k <= 100)%Z -> nonneg k x -> nonneg k y -> nonneg (k + 1) (Bplus mode_NE x y).
Proof.
  intros K [X1 X2] [Y1 Y2]. pose proof (small_add k x y K X1 Y1) as S'. split; auto.
  destruct (Bplus_fin 24 128 x y (proj1 X1) (proj1 Y1)) as [Q1 Q2]. destruct (Q1 (Q2 (proj1 S'))) as [_ ->]. apply rnd32_pos. lra.
Qed.
Lemma nonneg_sqrt j k x : (0 <= k)%Z -> (j <= 2 * k)%Z -> nonneg j x -> nonneg k (Bsqrt mode_NE x).
Proof.
  intros K J [[F H] P]. destruct (Bsqrt_correct 24 128 prec32 emax32 mode_NE x) as (V & FF & _). cbn [round_mode] in V.
  assert (FX : is_finite (Bsqrt mode_NE x) = true).
  { rewrite FF. destruct x as [s|s| |s m e B]; try discriminate; auto. destruct s; auto.
    exfalso. revert P. apply Rlt_not_le. apply F2R_lt_0. cbn. lia. }
  assert (P' : 0 <= B2R (Bsqrt mode_NE x)) by (rewrite V; apply rnd32_pos, sqrt_pos).
  split; auto. split; auto. rewrite V. apply rnd_small; [lia|]. rewrite Rabs_pos_eq by apply sqrt_pos.
  rewrite <- (sqrt_square (bpow radix2 k)) by apply bpow_ge_0. apply sqrt_le_1_alt. rewrite <- bpow_plus.
  rewrite Rabs_pos_eq in H by auto. apply Rle_trans with (1 := H). apply bpow_le. lia.
Qed.
Lemma nonneg_le k k' x : nonneg k x -> (k <= k')%Z -> nonneg k' x.
Proof. intros [S' P] K. split; auto. eapply small_le; eauto. Qed.
Lemma nonneg_mul j k x y : (-100 <= j + k <= 100)%Z -> nonneg j x -> nonneg k y -> nonneg (j + k) (Bmult mode_NE x y).
Proof. intros K [X1 X2] [Y1 Y2]. destruct (small_mul j k x y K X1 Y1) as [S' V]. split; auto. rewrite V. apply rnd32_pos, Rmult_le_pos; auto. Qed.

Lemma diff_ok a b : color_ok a -> color_ok b -> nonneg 6 (diff a b).
Proof.
  intros (A1 & A2 & A3 & A4) (B1 & B2 & B3 & B4). unfold diff. cbv zeta.
  assert (SA : small 1 (pa b -f pa a)) by (apply (small_sub 0); auto; lia).
  assert (C : forall x y, small 0 x -> small 0 y -> nonneg 4 (fmax ((x -f y) *f (x -f y)) ((x -f y +f (pa b -f pa a)) *f (x -f y +f (pa b -f pa a))))).
  { intros x y X Y. assert (D : small 1 (x -f y)) by (apply (small_sub 0); auto; lia).
    apply nonneg_max.
    - apply nonneg_le with 2%Z; [|lia]. apply (nonneg_sq 1); auto. lia.
    - apply (nonneg_sq 2); [lia|]. apply (small_add 1); auto. lia. }
  apply (nonneg_add 5); [lia|apply (nonneg_add 4); [lia|apply C; auto|apply C; auto]|].
  apply nonneg_le with 4%Z; [apply C; auto|lia].
Qed.
Lemma color_weight_ok mid c : color_ok mid -> item_ok (core c) -> nonneg 34 (color_weight mid c).
Proof.
  intros M [C W]. cbn [core fst snd] in C, W. unfold color_weight.
  apply (nonneg_mul 3 31); [lia| |].
  - apply (nonneg_sqrt 6 3); try lia. apply diff_ok; auto.
  - apply (nonneg_sqrt 61 31); try lia. apply (nonneg_add 60); auto; [lia|].
    change (nonneg 60 (BofZ 24 128 1)). destruct (BofZ_exact 24 128 1) as [F V]; try lia. split; [|rewrite V; lra].
    split; auto. rewrite V, Rabs_pos_eq by lra. change 1 with (bpow radix2 0). apply bpow_le. lia.
Qed.
Lemma b32_min (x : b32) : is_finite x = true -> 0 <= B2R x -> B2R x = 0 \/ bpow radix2 (-149) <= B2R x.
Proof.
  intros F P. destruct x as [s|s| |s m e B]; try discriminate; [left; reflexivity|]. right.
  destruct s; [exfalso; revert P; apply Rlt_not_le, F2R_lt_0; cbn; lia|].
  cbn [B2R cond_Zopp]. assert (E : (-149 <= e)%Z).
  { clear F P. unfold SpecFloat.bounded in B. apply andb_prop in B as [B _]. unfold SpecFloat.canonical_mantissa in B. apply Zeq_bool_eq in B.
    unfold SpecFloat.fexp, SpecFloat.emin in B. lia. }
  apply Rle_trans with (bpow radix2 e); [apply bpow_le; auto|].
  unfold F2R. cbn [Fnum Fexp]. rewrite <- (Rmult_1_l (bpow radix2 e)) at 1. apply Rmult_le_compat_r; [apply bpow_ge_0|]. apply (IZR_le 1). lia.
Qed.
Lemma weight_of k x : (k <= 100)%Z -> nonneg k x -> weight (Bconv 53 1024 x).
Proof.
  intros K [[F H] P]. destruct (f2d_exact x F) as [F' V]. rewrite Rabs_pos_eq in H by auto.
  split; auto. rewrite V. split; [split; auto; apply Rle_trans with (1 := H); apply bpow_le; auto|apply b32_min; auto].
Qed.

(** At most 2^40 items, all of moderate size. *)
Definition moderate (cs : list (px * b32 * b32)) : Prop := Forall item_ok cs /\ (Z.of_nat (length cs) <= 1099511627776)%Z.
Lemma moderate_parts cs a b : Permutation cs (a ++ b) -> moderate cs -> moderate a /\ moderate b.
Proof.
  intros P [F L]. rewrite (Permutation_length P), app_length in L. pose proof (Permutation_Forall P F) as F'. apply Forall_app in F' as [Fa Fb].
  split; split; auto; lia.
Qed.
Lemma moderate_enough cs l mid : moderate cs -> (2 <= length cs)%nat -> Permutation cs (map core l) -> In mid (map (fun c => fst (fst c)) cs) ->
  Forall (fun c => h_mcw c = color_weight mid c) l -> enough 0 (wts l) (dsum (wts l) /d dofZ 2).
Proof.
  intros [F L] _ P M W.
  assert (CM : color_ok mid).
  { apply in_map_iff in M as (c & <- & Hc). rewrite Forall_forall in F. apply (F c Hc). }
  assert (LL : length l = length cs) by (rewrite (Permutation_length P), map_length; auto).
  apply enough_start.
  - apply Forall_map, Forall_forall. intros c Hc. rewrite Forall_forall in W. rewrite (W c Hc).
    apply (weight_of 34); [lia|]. apply color_weight_ok; auto.
    rewrite Forall_forall in F. apply F. eapply Permutation_in; [apply Permutation_sym; exact P|]. apply in_map. auto.
  - unfold wts. rewrite map_length, LL. apply IZR_le. auto.
Qed.

Lemma mediancut_nonempty_ieee (u : unspec) h target t m : unspec_ok u ->
  clusters_fit (hi_clusters h) (length (hi_items h)) -> (0 < target <= 256)%nat -> (0 < length (hi_items h))%nat -> moderate (map core (hi_items h)) ->
  exists (p : palf) (h' : hint) (groups : list (list hitem)), mediancut u h target t m = Ok (p, h') /\ (1 <= length p <= target)%nat /\
    Permutation (map core (hi_items h)) (map core (hi_items h')) /\
    grouped p (hi_items h') groups /\ Forall (fun g => g <> []) groups.
Proof.
  intros U C T L M. exact (mediancut_nonempty u U enough enough_perm enough_step moderate moderate_parts moderate_enough h target t m C T L M).
Qed.
Lemma box_split_nonempty_ieee (u : unspec) b others b1 b2 : unspec_ok u -> moderate (map core (b_items b)) -> (2 <= length (b_items b))%nat ->
  box_split u b others = Ok [b1; b2] -> (0 < length (b_items b1) /\ 0 < length (b_items b2))%nat.
Proof.
  intros U. exact (box_split_nonempty u U enough enough_perm enough_step moderate moderate_enough b others b1 b2).
Qed.
End I.
