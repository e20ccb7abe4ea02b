(** Floating point: sharper estimates of computed distances, for the palette
    search over nearly invisible colours. *)
From Coq Require Import Reals Lra.
From Verif Require Import Base BaseFacts Arith Ieee IeeeFacts Order Pal Nearest SearchFacts NearFacts TreeFacts RealArith NearReal SmallFloat
  MedianIeee AvgIeee SimdFacts MetricIeee NearIeee.
From Flocq Require Import IEEE754.BinarySingleNaN Core.Core.
Open Scope R_scope.

Section I.
Variables (pow32 : b32 -> b32 -> b32) (pow64 : b64 -> b64 -> b64).
Notation Ar := (ieee pow32 pow64).
Local Existing Instance ieee.
Notation box := (box_px pow32 pow64).
Notation rdist := (rdist pow32 pow64).
Notation set_ := (set_ pow32 pow64).
Notation vis_ok := (vis_ok pow32 pow64).
Notation dval := (dval pow32 pow64).
Let O := ieee_ord pow32 pow64.

(** One channel: the computed value is near the square of [M], which is made of
    rounded differences. *)
Definition chan_is (x y a1 a2 : b32) (M : R) : Prop := exists e1 e2 e3, Rabs e1 <= u24 /\ Rabs e2 <= u24 /\ Rabs e3 <= u24 /\
  let b := (B2R x - B2R y) * (1 + e1) in let a := (B2R a1 - B2R a2) * (1 + e2) in let w := (b + a) * (1 + e3) in M = chan b (w - b) /\
  (B2R a1 = B2R a2 -> w = b).
Lemma chan_core (x y a1 a2 : b32) : small 0 x -> small 0 y -> small 0 a1 -> small 0 a2 ->
  let b := Bminus mode_NE x y in let w := Bplus mode_NE b (Bminus mode_NE a1 a2) in
  let m := Bmax (Bmult mode_NE b b) (Bmult mode_NE w w) in
  nonneg 4 m /\ exists M, 0 <= M /\ chan_is x y a1 a2 M /\ Rabs (B2R m - M * M) <= u24 * (M * M) + tiny.
Proof.
  intros X Y A1 A2 b w m.
  destruct (minus_val pow32 x y X Y) as (SB & e1 & E1 & VB). fold b in SB, VB.
  destruct (minus_val pow32 a1 a2 A1 A2) as (SA & e2 & E2 & VA). set (a := Bminus mode_NE a1 a2) in *.
  assert (SW : small 2 w) by (apply (small_add 1); auto; lia).
  assert (VW : exists e3, Rabs e3 <= u24 /\ B2R w = (B2R b + B2R a) * (1 + e3)).
  { destruct (rnd_plus_rel32 b a) as (e & E & V). exists e. split; auto. rewrite <- V. apply plus_val; [apply SB|apply SA|apply SW]. }
  destruct VW as (e3 & E3 & VW).
  assert (NB : nonneg 4 (Bmult mode_NE b b)) by (apply nonneg_le with 2%Z; [|lia]; apply (nonneg_sq 1); auto; lia).
  assert (NW : nonneg 4 (Bmult mode_NE w w)) by (apply (nonneg_sq 2); auto; lia).
  split; [apply nonneg_max; auto|].
  exists (chan (B2R b) (B2R w - B2R b)). split; [apply chan_pos|]. split.
  - exists e1, e2, e3. split; auto. split; auto. split; auto. cbv zeta. rewrite <- VB, <- VA, <- VW. split; [reflexivity|].
    intros E. assert (A0 : B2R a = 0) by (rewrite VA, E; ring).
    unfold w. rewrite plus_val; [|apply SB|apply SA|apply SW]. rewrite A0, Rplus_0_r. apply (rnd_B2R 24 128).
  - destruct (Bmax_fin 24 128 _ _ (proj1 (proj1 NB)) (proj1 (proj1 NW))) as [_ V]. fold m in V. rewrite V.
    destruct (small_mul 1 1 b b ltac:(lia) SB SB) as [_ ->]. destruct (small_mul 2 2 w w ltac:(lia) SW SW) as [_ ->].
    rewrite rnd32_max. rewrite <- chan_sq. replace (B2R b + (B2R w - B2R b)) with (B2R w) by ring.
    set (z := Rmax _ _). assert (0 <= z) by (unfold z; eapply Rle_trans; [|apply Rmax_l]; nra).
    pose proof (rnd32_err z) as R. rewrite (Rabs_pos_eq z) in R by auto. exact R.
Qed.

Lemma dist_core (s o : @px Ar) : box s -> box o -> exists M1 M2 M3, 0 <= M1 /\ 0 <= M2 /\ 0 <= M3 /\
  chan_is (pr s) (pr o) (pa o) (pa s) M1 /\ chan_is (pg s) (pg o) (pa o) (pa s) M2 /\ chan_is (pb s) (pb o) (pa o) (pa s) M3 /\
  Rabs (sqrt (B2R (@diff Ar s o : b32)) - sqrt (sumsq (M1, M2, M3))) <= 3 * u24 * sqrt (sumsq (M1, M2, M3)) + 2 * sqrt tiny.
Proof.
  intros B1 B2. pose proof (diff_ok pow32 pow64 s o (box_color _ _ s B1) (box_color _ _ o B2)) as DK.
  destruct B1 as (A1 & R1 & G1 & L1). destruct B2 as (A2 & R2 & G2 & L2).
  apply nonneg1 in A1 as [A1 A1']; [|lia]. apply nonneg1 in R1 as [R1 R1']; [|lia]. apply nonneg1 in G1 as [G1 G1']; [|lia]. apply nonneg1 in L1 as [L1 L1']; [|lia].
  apply nonneg1 in A2 as [A2 A2']; [|lia]. apply nonneg1 in R2 as [R2 R2']; [|lia]. apply nonneg1 in G2 as [G2 G2']; [|lia]. apply nonneg1 in L2 as [L2 L2']; [|lia].
  destruct (chan_core (pr s) (pr o) (pa o) (pa s)) as (N1 & M1 & P1 & C1 & Q1); auto.
  destruct (chan_core (pg s) (pg o) (pa o) (pa s)) as (N2 & M2 & P2 & C2 & Q2); auto.
  destruct (chan_core (pb s) (pb o) (pa o) (pa s)) as (N3 & M3 & P3 & C3 & Q3); auto.
  exists M1, M2, M3. do 6 (split; auto).
  assert (DE : exists q1 q2 q3 : b32, @diff Ar s o = Bplus mode_NE (Bplus mode_NE q1 q2) q3 /\
     nonneg 4 q1 /\ nonneg 4 q2 /\ nonneg 4 q3 /\ Rabs (B2R q1 - M1 * M1) <= u24 * (M1 * M1) + tiny /\ Rabs (B2R q2 - M2 * M2) <= u24 * (M2 * M2) + tiny /\
     Rabs (B2R q3 - M3 * M3) <= u24 * (M3 * M3) + tiny).
  { do 3 eexists. split; [reflexivity|]. auto 10. }
  clear N1 N2 N3 Q1 Q2 Q3. destruct DE as (q1 & q2 & q3 & DE & N1 & N2 & N3 & Q1 & Q2 & Q3).
  assert (S1 : nonneg 5 (Bplus mode_NE q1 q2)) by (apply (nonneg_add 4); auto; lia).
  assert (S2 : nonneg 6 (Bplus mode_NE (Bplus mode_NE q1 q2) q3)) by (apply (nonneg_add 5); auto; [lia|eapply nonneg_le; eauto; lia]).
  assert (DV : exists f1 f2, Rabs f1 <= u24 /\ Rabs f2 <= u24 /\ B2R (@diff Ar s o : b32) = ((B2R q1 + B2R q2) * (1 + f1) + B2R q3) * (1 + f2)).
  { destruct (rnd_plus_rel32 q1 q2) as (f1 & F1 & V1). destruct (rnd_plus_rel32 (Bplus mode_NE q1 q2) q3) as (f2 & F2 & V2).
    exists f1, f2. split; auto. split; auto. rewrite DE. rewrite plus_val; [|apply S1|apply N3|apply S2]. rewrite V2. rewrite plus_val; [|apply N1|apply N2|apply S1]. rewrite V1. reflexivity. }
  destruct DV as (f1 & f2 & F1 & F2 & DV).
  pose proof tiny_small as TS.
  unfold sumsq. apply root_close; [apply DK|nra|lra|].
  rewrite DV. apply sum_close; auto; try nra; try (apply N1); try (apply N2); try (apply N3).
Qed.

(** Colours as [from_rgba] makes them, and those of an alpha below 16. *)
Definition wide (p : @px Ar) : Prop := box p /\ B2R (pa p : b32) <= 6251 / 10000.
Definition thin (p : @px Ar) : Prop := box p /\ B2R (pa p : b32) <= 4 / 100 /\ B2R (pr p : b32) <= 4 / 100 /\ B2R (pg p : b32) <= 7 / 100 /\ B2R (pb p : b32) <= 4 / 100.
Lemma thin_wide p : thin p -> wide p. Proof. intros (B & H & _). split; auto. lra. Qed.

Lemma chan_thin (x y a1 a2 : b32) M : -7 / 100 <= B2R x - B2R y <= 1 -> -6251 / 10000 <= B2R a1 - B2R a2 <= 4 / 100 -> chan_is x y a1 a2 M ->
  Rabs (M - chan (B2R x - B2R y) (B2R a1 - B2R a2)) <= 2.1 * u24.
Proof.
  intros HC HD (f1 & f2 & f3 & E1 & E2 & E3 & H). cbv zeta in H. destruct H as [-> _]. set (c := B2R x - B2R y) in *. set (d := B2R a1 - B2R a2) in *. clearbody c d.
  apply Rabs_le_inv in E1. apply Rabs_le_inv in E2. apply Rabs_le_inv in E3.
  apply chan_lip.
  - apply Rabs_le. unfold u24 in *. split; nra.
  - replace ((c * (1 + f1) + d * (1 + f2)) * (1 + f3) - (c + d)) with (c * f1 + d * f2 + (c + d) * f3 + (c * f1 + d * f2) * f3) by ring.
    assert (T1 : Rabs (c * f1) <= Rabs c * u24). { rewrite Rabs_mult. apply Rmult_le_compat_l; [apply Rabs_pos|]. apply Rabs_le. auto. }
    assert (T2 : Rabs (d * f2) <= Rabs d * u24). { rewrite Rabs_mult. apply Rmult_le_compat_l; [apply Rabs_pos|]. apply Rabs_le. auto. }
    assert (T3 : Rabs ((c + d) * f3) <= Rabs (c + d) * u24). { rewrite Rabs_mult. apply Rmult_le_compat_l; [apply Rabs_pos|]. apply Rabs_le. auto. }
    assert (SUM : Rabs c + Rabs d + Rabs (c + d) <= 2.09). { unfold Rabs. destruct (Rcase_abs c), (Rcase_abs d), (Rcase_abs (c + d)); lra. }
    assert (PC : 0 <= Rabs c <= 1) by (split; [apply Rabs_pos|apply Rabs_le; lra]).
    assert (PD : 0 <= Rabs d <= 1) by (split; [apply Rabs_pos|apply Rabs_le; lra]).
    assert (T4 : Rabs ((c * f1 + d * f2) * f3) <= 2 * u24 * u24).
    { rewrite Rabs_mult. apply Rmult_le_compat; try apply Rabs_pos; [|apply Rabs_le; auto].
      eapply Rle_trans; [apply Rabs_triang|]. unfold u24 in *. lra. }
    eapply Rle_trans; [apply Rabs_triang|]. eapply Rle_trans; [apply Rplus_le_compat_r, Rabs_triang|].
    eapply Rle_trans; [apply Rplus_le_compat_r, Rplus_le_compat_r, Rabs_triang|]. unfold u24 in *. lra.
Qed.

Definition e9 : R := 9.5 * u24.
Lemma sdist_thin (s o : @px Ar) : wide s -> thin o -> Rabs (B2R (@fsqrt Ar (@diff Ar s o) : b32) - rdist s o) <= e9.
Proof.
  intros [B1 W1] (B2 & T1 & T2 & T3 & T4). destruct (dist_core s o B1 B2) as (M1 & M2 & M3 & P1 & P2 & P3 & C1 & C2 & C3 & SC).
  assert (DK : nonneg 6 (@diff Ar s o)) by (apply (diff_ok pow32 pow64); apply box_color; auto).
  destruct B1 as (A1 & R1 & G1 & L1). destruct B2 as (A2 & R2 & G2 & L2).
  assert (HALF : forall x : b32, nonneg (-1) x -> B2R x <= / 2).
  { intros x [[_ H] P]. rewrite Rabs_pos_eq in H by auto. exact H. }
  pose proof (HALF _ R1) as HR. pose proof (HALF _ L1) as HL.
  apply nonneg1 in A1 as [_ A1]; [|lia]. apply nonneg1 in R1 as [_ R1]; [|lia]. apply nonneg1 in G1 as [_ G1]; [|lia]. apply nonneg1 in L1 as [_ L1]; [|lia].
  apply nonneg1 in A2 as [_ A2]; [|lia]. apply nonneg1 in R2 as [_ R2]; [|lia]. apply nonneg1 in G2 as [_ G2]; [|lia]. apply nonneg1 in L2 as [_ L2]; [|lia].
  apply chan_thin in C1; try lra. apply chan_thin in C2; try lra. apply chan_thin in C3; try lra.
  assert (NL : Rabs (sqrt (sumsq (M1, M2, M3)) - rdist s o) <= 1.75 * (2.1 * u24)).
  { unfold MetricIeee.rdist, dist. rewrite diff_comps. unfold comps, rpx. cbn [pa pr pg pb]. apply norm_lip; auto; try apply chan_pos; try lra. unfold u24. lra. }
  assert (K : forall c d x, - x <= c <= x -> - x <= c + d <= x -> chan c d <= x) by (intros c d x H1 H2; unfold chan; apply Rmax_lub; apply Rabs_le; lra).
  pose proof (K (B2R (pr s : b32) - B2R (pr o : b32)) (B2R (pa o : b32) - B2R (pa s : b32)) (67 / 100) ltac:(lra) ltac:(lra)) as K1.
  pose proof (K (B2R (pg s : b32) - B2R (pg o : b32)) (B2R (pa o : b32) - B2R (pa s : b32)) (104 / 100) ltac:(lra) ltac:(lra)) as K2.
  pose proof (K (B2R (pb s : b32) - B2R (pb o : b32)) (B2R (pa o : b32) - B2R (pa s : b32)) (67 / 100) ltac:(lra) ltac:(lra)) as K3.
  apply Rabs_le_inv in C1. apply Rabs_le_inv in C2. apply Rabs_le_inv in C3.
  assert (SB : sqrt (sumsq (M1, M2, M3)) <= 1.41).
  { rewrite <- (sqrt_Rsqr 1.41) by lra. apply sqrt_le_1_alt. unfold sumsq, Rsqr. unfold u24 in *.
    assert (M1 * M1 <= 0.6701 * 0.6701) by (apply Rmult_le_compat; lra). assert (M2 * M2 <= 1.0401 * 1.0401) by (apply Rmult_le_compat; lra).
    assert (M3 * M3 <= 0.6701 * 0.6701) by (apply Rmult_le_compat; lra). lra. }
  pose proof (sqrt_pos (sumsq (M1, M2, M3))) as SP. pose proof tiny_root as TR. pose proof tiny_small as TS.
  set (sS := sqrt (sumsq _)) in *. set (sD := sqrt (B2R (@diff Ar s o : b32))) in *.
  assert (SV : B2R (@fsqrt Ar (@diff Ar s o) : b32) = rnd32 sD).
  { destruct (Bsqrt_correct 24 128 prec32 emax32 mode_NE (@diff Ar s o : b32)) as (V & _). exact V. }
  rewrite SV. pose proof (rnd32_err sD) as RE. assert (SDP : 0 <= sD) by apply sqrt_pos. rewrite (Rabs_pos_eq sD) in RE by auto.
  apply Rabs_le_inv in RE. apply Rabs_le_inv in SC. apply Rabs_le_inv in NL. unfold e9, u24 in *. apply Rabs_le. lra.
Qed.

(** Colours of one opacity: no cancellation, so a relative bound. *)
Lemma sdist_same (s o : @px Ar) : box s -> box o -> pa s = pa o -> rdist s o * (1 - 4 * u24) <= sqrt (B2R (@diff Ar s o : b32)) + 2 * sqrt tiny.
Proof.
  intros B1 B2 EA. destruct (dist_core s o B1 B2) as (M1 & M2 & M3 & P1 & P2 & P3 & C1 & C2 & C3 & SC).
  assert (K : forall x y a M, 0 <= M -> chan_is x y a a M -> chan (B2R x - B2R y) (B2R a - B2R a) * (1 - u24) <= M).
  { intros x y a M P (f1 & f2 & f3 & E1 & E2 & E3 & H). cbv zeta in H. destruct H as [-> H]. rewrite (H eq_refl). set (c := B2R x - B2R y).
    assert (CH : forall z, chan z 0 = Rabs z) by (intros z; unfold chan; rewrite Rplus_0_r; apply Rmax_left, Rle_refl).
    replace (B2R a - B2R a) with 0 by ring. replace (c * (1 + f1) - c * (1 + f1)) with 0 by ring. rewrite !CH.
    rewrite Rabs_mult. apply Rmult_le_compat_l; [apply Rabs_pos|].
    apply Rabs_le_inv in E1. rewrite Rabs_pos_eq; unfold u24 in *; lra. }
  rewrite EA in C1, C2, C3. apply K in C1; auto. apply K in C2; auto. apply K in C3; auto. clear K.
  assert (SQ : rdist s o * (1 - u24) <= sqrt (sumsq (M1, M2, M3))).
  { unfold MetricIeee.rdist, dist. rewrite diff_comps. unfold comps, rpx. cbn [pa pr pg pb]. rewrite EA.
    set (x := chan (B2R (pr s : b32) - _) _) in *. set (y := chan (B2R (pg s : b32) - _) _) in *. set (z := chan (B2R (pb s : b32) - _) _) in *.
    assert (0 <= x) by apply chan_pos. assert (0 <= y) by apply chan_pos. assert (0 <= z) by apply chan_pos.
    assert (U : 0 <= 1 - u24) by (unfold u24; lra). rewrite <- (sqrt_square (1 - u24)) by auto. rewrite <- sqrt_mult; [|unfold sumsq; nra|nra].
    apply sqrt_le_1_alt. unfold sumsq.
    assert (Q : forall a b, 0 <= a -> a * (1 - u24) <= b -> a * a * ((1 - u24) * (1 - u24)) <= b * b).
    { intros a b A0 HB. replace (a * a * ((1 - u24) * (1 - u24))) with (a * (1 - u24) * (a * (1 - u24))) by ring.
      assert (0 <= a * (1 - u24)) by (apply Rmult_le_pos; auto). apply Rmult_le_compat; auto. }
    rewrite !Rmult_plus_distr_r. pose proof (Q _ _ H C1). pose proof (Q _ _ H0 C2). pose proof (Q _ _ H1 C3). lra. }
  apply Rabs_le_inv in SC. pose proof (rdist_pos pow32 pow64 s o) as RP. pose proof (sqrt_pos (sumsq (M1, M2, M3))).
  set (sS := sqrt (sumsq _)) in *. set (sD := sqrt (B2R (@diff Ar s o : b32))) in *. set (r := rdist s o) in *. clearbody sS sD r. unfold u24 in *. nra.
Qed.

(** * The search, for one colour that it is to find *)
Lemma prune_far0 (r v d : b32) : nonneg 3 r -> nonneg 3 v -> nonneg 3 d -> Bleb (Bminus mode_NE r v) d = false -> B2R v <= B2R r - B2R d.
Proof.
  intros HR HV HD L. assert (S' : small 4 (Bminus mode_NE r v)) by (apply (small_sub 3); [lia|apply HR|apply HV]).
  apply nonneg3 in HR as [FR HR]. apply nonneg3 in HV as [FV HV]. apply nonneg3 in HD as [FD HD].
  apply (Bleb_fin_false 24 128) in L; auto; [|apply S'].
  destruct (Bminus_fin 24 128 r v FR FV) as [Q1 Q2]. destruct (Q1 (Q2 (proj1 S'))) as [_ V]. rewrite V in L.
  destruct (Rle_dec (B2R r - B2R v) (B2R d)) as [H|H]; [|lra]. exfalso.
  apply (rnd_le 24 128) in H. rewrite (rnd_B2R 24 128 d) in H. lra.
Qed.
Lemma prune_near0 (r v d : b32) : nonneg 3 r -> nonneg 3 v -> nonneg 3 d -> Bleb d (Bplus mode_NE r v) = false -> B2R v <= B2R d - B2R r.
Proof.
  intros HR HV HD L. assert (S' : small 4 (Bplus mode_NE r v)) by (apply (small_add 3); [lia|apply HR|apply HV]).
  apply nonneg3 in HR as [FR HR]. apply nonneg3 in HV as [FV HV]. apply nonneg3 in HD as [FD HD].
  apply (Bleb_fin_false 24 128) in L; auto; [|apply S']. rewrite plus_val in L; auto; [|apply S'].
  destruct (Rle_dec (B2R d) (B2R r + B2R v)) as [H|H]; [|lra]. exfalso.
  apply (rnd_le 24 128) in H. rewrite (rnd_B2R 24 128 d) in H. lra.
Qed.

Local Opaque diff Bsqrt.
Notation sd s o := (B2R (@fsqrt Ar (@diff Ar s o) : b32)).
Lemma visit_gets needle v i c K : box needle -> box c -> vis_ok v -> excluded (v_excl v) i = false -> sd c needle <= K ->
  set_ (@visit Ar v (@fsqrt Ar (@diff Ar c needle)) (@diff Ar c needle) i) /\
  dval (@visit Ar v (@fsqrt Ar (@diff Ar c needle)) (@diff Ar c needle) i) <= K.
Proof.
  intros BN BC V X HK. destruct (visit_better pow32 pow64 needle v i c BN BC V) as (_ & _ & _ & H).
  specialize (H (i, c) (or_introl eq_refl) X). split; [apply H|]. destruct H as [H _]. apply Rle_trans with (2 := HK).
  destruct (sdist_close pow32 pow64 c needle BC BN) as (D1 & _). revert H. unfold visit. rewrite X. cbn [negb]. rewrite andb_true_r.
  destruct (@flt Ar (@diff Ar c needle) (v_dsq v)) eqn:L; intros H; [apply Rle_refl|].
  destruct H as [S1 S2]. unfold NearIeee.dval. rewrite S2. apply root_mono; auto.
  apply Bltb_fin_false in L; auto; [apply D1|apply S1].
Qed.
Local Opaque visit.
Lemma leaf_gets needle es j tgt K : box needle -> Forall (fun ic => box (snd ic)) es -> In (j, tgt) es -> sd tgt needle <= K ->
  forall v, vis_ok v -> excluded (v_excl v) j = false ->
  let v' := fold_left (fun v (e : nat * @px Ar) => let d := @diff Ar (snd e) needle in @visit Ar v (@fsqrt Ar d) d (fst e)) es v in set_ v' /\ dval v' <= K.
Proof.
  intros BN F IN HK. apply in_split in IN as (l1 & l2 & ->). intros v V X v'. unfold v'. rewrite fold_left_app. cbn [fold_left]. cbv zeta. cbn [fst snd].
  apply Forall_app in F as [F1 F2]. apply Forall_cons_iff in F2 as [F2 F3]. cbn [snd] in F2.
  pose proof (leaf_better pow32 pow64 needle l1 BN F1 v V) as (B1 & B2 & _). cbv zeta in B1, B2.
  set (v1 := fold_left _ l1 v) in *.
  destruct (visit_gets needle v1 j tgt K BN F2 B1) as [S1 S2]; [rewrite B2; exact X|exact HK|].
  pose proof (leaf_better pow32 pow64 needle l2 BN F3 _ (or_introl S1)) as (_ & _ & M & _). cbv zeta in M. specialize (M S1). split; [apply M|]. lra.
Qed.

Lemma search_gets needle j tgt K : box needle -> sd tgt needle <= K ->
  forall t v, Forall (fun ic => box (snd ic) /\ Rabs (sd (snd ic) tgt - sd (snd ic) needle) <= K) (tree_pairs t) -> @split_ok Ar t -> vis_ok v ->
  In (j, tgt) (tree_pairs t) -> excluded (v_excl v) j = false ->
  set_ (@search_node Ar t needle v) /\ dval (@search_node Ar t needle v) <= K.
Proof.
  intros BN HK. induction t as [vp i es|vp i rad rsq l IHl r IHr]; intros v F S V IN X; cbn [tree_pairs search_node] in *; apply Forall_cons_iff in F as [[F0 FK] F]; cbn [snd] in F0, FK.
  - assert (FB : Forall (fun ic => box (snd ic)) es) by (eapply Forall_impl; [|exact F]; intros ic H; apply H).
    pose proof (visit_better pow32 pow64 needle v i vp BN F0 V) as (B1 & B2 & B3 & _).
    destruct IN as [E|IN].
    + injection E as -> ->. destruct (visit_gets needle v j tgt K BN F0 V X HK) as [S1 S2].
      pose proof (leaf_better pow32 pow64 needle es BN FB _ (or_introl S1)) as (_ & _ & M & _). cbv zeta in M. specialize (M S1). split; [apply M|]. lra.
    + apply (leaf_gets needle es j tgt K BN FB IN HK); auto. rewrite B2. exact X.
  - destruct S as (-> & Sl & Sr & Ol & Or). apply Forall_app in F as [Fl Fr].
    assert (FBl : Forall (fun ic => box (snd ic)) (tree_pairs l)) by (eapply Forall_impl; [|exact Fl]; intros ic H; apply H).
    assert (FBr : Forall (fun ic => box (snd ic)) (tree_pairs r)) by (eapply Forall_impl; [|exact Fr]; intros ic H; apply H).
    pose proof (Forall_forall (fun ic => box (snd ic)) (tree_pairs l)) as [Bl _]. specialize (Bl FBl).
    pose proof (Forall_forall (fun ic => box (snd ic)) (tree_pairs r)) as [Br _]. specialize (Br FBr).
    rewrite Forall_forall in Sl, Sr.
    pose proof (visit_better pow32 pow64 needle v i vp BN F0 V) as (V0 & B2 & B3 & _). 
    assert (BV : i = j -> vp = tgt -> set_ (@visit Ar v (@fsqrt Ar (@diff Ar vp needle)) (@diff Ar vp needle) i) /\
       dval (@visit Ar v (@fsqrt Ar (@diff Ar vp needle)) (@diff Ar vp needle) i) <= K).
    { intros -> ->. apply visit_gets; auto. }
    set (v0 := visit v _ _ i) in *. cbv zeta.
    assert (RS : nonneg 6 (rsq : b32)).
    { destruct (pairs_ne pow32 pow64 l) as [jl Hl]. destruct (pairs_ne pow32 pow64 r) as [jr Hr].
      apply (between (@diff Ar vp (snd jl)) rsq (@diff Ar vp (snd jr))); [apply (sdist_close pow32 pow64); auto|apply (sdist_close pow32 pow64); auto|exact (Sl _ Hl)|exact (Sr _ Hr)]. }
    pose proof (root_ok rsq RS) as RR. destruct (sdist_close pow32 pow64 vp needle F0 BN) as (DQ & DN & _).
    apply Rabs_le_inv in FK.
    assert (FAR : In (j, tgt) (tree_pairs r) -> B2R (@fsqrt Ar rsq : b32) <= sd vp tgt).
    { intros H. pose proof (Sr _ H) as L. pose proof (Br _ H) as Bt. cbn [snd] in Bt, L. destruct (sdist_close pow32 pow64 vp tgt F0 Bt) as (X1 & _).
      change (Bleb rsq (@diff Ar vp tgt) = true) in L. apply (Bleb_fin 24 128) in L; [|apply RS|apply X1]. apply (root_mono rsq); auto. }
    assert (NEAR : In (j, tgt) (tree_pairs l) -> sd vp tgt <= B2R (@fsqrt Ar rsq : b32)).
    { intros H. pose proof (Sl _ H) as L. pose proof (Bl _ H) as Bt. cbn [snd] in Bt, L. destruct (sdist_close pow32 pow64 vp tgt F0 Bt) as (X1 & _).
      change (Bleb (@diff Ar vp tgt) rsq = true) in L. apply (Bleb_fin 24 128) in L; [|apply X1|apply RS]. apply (root_mono (@diff Ar vp tgt) rsq); auto. }
    set (rad := @fsqrt Ar rsq) in *. set (d := @fsqrt Ar (@diff Ar vp needle)) in *.
    assert (R4 : nonneg 4 (rad : b32)) by (eapply nonneg_le; [exact RR|lia]).
    assert (XE : excluded (v_excl v0) j = false) by (rewrite B2; exact X).
    destruct (@flt Ar (@diff Ar vp needle) rsq) eqn:C.
    + pose proof (search_node_better pow32 pow64 needle BN l v0 FBl Ol V0) as (V1 & E1 & M1 & _).
      assert (XE1 : excluded (v_excl (search_node l needle v0)) j = false) by (rewrite E1; exact XE).
      assert (G1 : (i, vp) = (j, tgt) \/ In (j, tgt) (tree_pairs l) -> set_ (search_node l needle v0) /\ dval (search_node l needle v0) <= K).
      { intros [H|H]; [|apply IHl; auto]. injection H as -> ->. destruct (BV eq_refl eq_refl) as [S1 S2]. specialize (M1 S1). split; [apply M1|lra]. }
      set (v1 := search_node l needle v0) in *.
      pose proof (search_node_better pow32 pow64 needle BN r v1 FBr Or V1) as (V2 & E2 & M2 & _).
      destruct (@fle Ar (@fsub Ar rad (v_dist v1)) d) eqn:D.
      * assert (CASE : ((i, vp) = (j, tgt) \/ In (j, tgt) (tree_pairs l)) \/ In (j, tgt) (tree_pairs r)).
        { destruct IN as [H|H]; [tauto|]. apply in_app_or in H. tauto. }
        destruct CASE as [H|H]; [|apply IHr; auto]. specialize (G1 H). destruct G1 as [S1 S2]. specialize (M2 S1). split; [apply M2|lra].
      * assert (CASE : ((i, vp) = (j, tgt) \/ In (j, tgt) (tree_pairs l)) \/ In (j, tgt) (tree_pairs r)).
        { destruct IN as [H|H]; [tauto|]. apply in_app_or in H. tauto. }
        destruct CASE as [H|H]; [auto|]. specialize (FAR H).
        destruct V1 as [V1|V1].
        2:{ exfalso. destruct V1 as [[_ V1]|[_ V1]]; rewrite V1 in D.
            - pose proof (max_minus rad d R4 (proj1 (proj1 DN)) (proj2 DN)) as Q.
              change (Bleb (Bminus mode_NE rad (Bmax_float : b32)) d = false) in D. congruence.
            - destruct R4 as [[RF _] _]. destruct DN as [[DF _] _].
              change (Bleb (Bminus mode_NE rad (B754_infinity false : b32)) d = false) in D.
              destruct (rad : b32) as [s|s| |s m e BB]; try discriminate; destruct (d : b32) as [s'|s'| |s' m' e' BB']; try discriminate; destruct s'; discriminate. }
        split; auto. pose proof (prune_far0 rad (v_dist v1) d RR (set_dist pow32 pow64 v1 V1) DN D) as P. unfold NearIeee.dval. lra.
    + pose proof (search_node_better pow32 pow64 needle BN r v0 FBr Or V0) as (V1 & E1 & M1 & _).
      assert (XE1 : excluded (v_excl (search_node r needle v0)) j = false) by (rewrite E1; exact XE).
      assert (G1 : (i, vp) = (j, tgt) \/ In (j, tgt) (tree_pairs r) -> set_ (search_node r needle v0) /\ dval (search_node r needle v0) <= K).
      { intros [H|H]; [|apply IHr; auto]. injection H as -> ->. destruct (BV eq_refl eq_refl) as [S1 S2]. specialize (M1 S1). split; [apply M1|lra]. }
      set (v1 := search_node r needle v0) in *.
      pose proof (search_node_better pow32 pow64 needle BN l v1 FBl Ol V1) as (V2 & E2 & M2 & _).
      assert (CASE : ((i, vp) = (j, tgt) \/ In (j, tgt) (tree_pairs r)) \/ In (j, tgt) (tree_pairs l)).
      { destruct IN as [H|H]; [tauto|]. apply in_app_or in H. tauto. }
      destruct (@fle Ar d (@fadd Ar rad (v_dist v1))) eqn:D.
      * destruct CASE as [H|H]; [|apply IHl; auto]. specialize (G1 H). destruct G1 as [S1 S2]. specialize (M2 S1). split; [apply M2|lra].
      * destruct CASE as [H|H]; [auto|]. specialize (NEAR H).
        destruct V1 as [V1|V1].
        2:{ exfalso. destruct V1 as [[_ V1]|[_ V1]]; rewrite V1 in D.
            - pose proof (max_plus rad d R4 (proj1 (proj1 DN))) as Q.
              change (Bleb d (Bplus mode_NE rad (Bmax_float : b32)) = false) in D. congruence.
            - destruct R4 as [[RF _] _]. destruct DN as [[DF _] _].
              change (Bleb d (Bplus mode_NE rad (B754_infinity false : b32)) = false) in D.
              destruct (rad : b32) as [s|s| |s m e BB]; try discriminate; destruct (d : b32) as [s'|s'| |s' m' e' BB']; try discriminate; destruct s'; discriminate. }
        split; auto. pose proof (prune_near0 rad (v_dist v1) d RR (set_dist pow32 pow64 v1 V1) DN D) as P. unfold NearIeee.dval. lra.
Qed.

Local Opaque search_node.
(** The table of distances to the nearest other colour, between two nearly
    invisible colours. *)
Lemma other_thin (p : @palf Ar) n k pk (g : b32) : Forall wide (colors_of p) -> @nearest_new Ar p = Ok n -> nth_error (colors_of p) k = Some pk -> nonneg 6 g ->
  @flt Ar g (nth k (n_other n) (@f0 Ar)) = true ->
  forall j pj, nth_error (colors_of p) j = Some pj -> k <> j -> thin pk -> thin pj -> sqrt (B2R g) <= rdist pj pk / 2 * (1 + 4 * u24) + 9.6 * u24.
Proof.
  intros W N K HG L j pj J NE TK TJ. assert (B : Forall box (colors_of p)) by (eapply Forall_impl; [|exact W]; intros c H; apply H).
  destruct (@nearest_new_split Ar O p n (clear_box pow32 pow64 p B) N) as [S I]. destruct (nearest_new_tree p n N) as (_ & _ & T).
  assert (E : n_other n = map (fun ic => @fdiv Ar (v_dsq (@search_node Ar (n_root n) (snd ic) (@Visitor Ar (@fmaxv Ar) (@fmaxv Ar) 0 (Some (fst ic))))) (@fofZ Ar 4)) (enumerate (colors_of p))).
  { unfold nearest_new in N. destruct (Nat.ltb_spec 256 (length p)); [discriminate|]. destruct p as [|e p]; [discriminate|].
    injection N as <-. reflexivity. }
  assert (Q : nth_error (n_other n) k = Some (@fdiv Ar (v_dsq (@search_node Ar (n_root n) pk (@Visitor Ar (@fmaxv Ar) (@fmaxv Ar) 0 (Some k)))) (@fofZ Ar 4))).
  { rewrite E, nth_error_map, nth_error_enumerate, K. reflexivity. }
  rewrite (nth_error_nth _ _ _ Q) in L. clear E Q.
  assert (V : vis_ok (@Visitor Ar (@fmaxv Ar) (@fmaxv Ar) 0 (Some k))) by (right; left; split; reflexivity).
  assert (BK : box pk) by apply TK.
  destruct (search_gets pk j pj (rdist pj pk + 2 * e9) BK) with (t := n_root n) (v := @Visitor Ar (@fmaxv Ar) (@fmaxv Ar) 0 (Some k)) as [D1 D2].
  - pose proof (sdist_thin pj pk (thin_wide _ TJ) TK) as D. apply Rabs_le_inv in D. unfold e9, u24 in *. lra.
  - eapply Forall_impl; [|exact T]. intros ic H. assert (WI : wide (snd ic)) by (rewrite Forall_forall in W; apply W; eapply nth_error_In; exact H).
    split; [apply WI|]. pose proof (sdist_thin (snd ic) pk WI TK) as D. pose proof (sdist_thin (snd ic) pj WI TJ) as D'.
    apply Rabs_le_inv in D. apply Rabs_le_inv in D'. pose proof (rdist_triangle pow32 pow64 (snd ic) pk pj) as T1. pose proof (rdist_triangle pow32 pow64 (snd ic) pj pk) as T2.
    rewrite (rdist_sym pow32 pow64 pk pj) in T1. apply Rabs_le. lra.
  - exact S.
  - exact V.
  - apply I. exact J.
  - cbn [v_excl excluded]. apply Nat.eqb_neq. auto.
  - set (v := search_node _ _ _) in *. destruct D1 as [D1 D3]. unfold NearIeee.dval in D2. rewrite D3 in D2. clear D3. set (s := v_dsq v) in *. clearbody s. clear v.
    assert (V4 : B2R (@fofZ Ar 4 : b32) = 4) by exact (proj2 (BofZ_exact 24 128 4 ltac:(lia) ltac:(lia) ltac:(lia))).
    destruct D1 as [[F1 F2] F3]. rewrite Rabs_pos_eq in F2 by auto. change (bpow radix2 6) with 64 in F2.
    destruct (proj1 (Bdiv_fin 24 128 s (@fofZ Ar 4) F1 ltac:(rewrite V4; lra))) as [FD VD].
    { apply (rnd_fits 6); [lia|]. rewrite V4, Rabs_pos_eq by lra. change (bpow radix2 6) with 64. lra. }
    rewrite V4 in VD. apply (Bltb_fin 24 128) in L; auto; [|apply HG].
    change (@fdiv Ar s (@fofZ Ar 4)) with (Bdiv mode_NE s (@fofZ Ar 4 : b32)) in L. rewrite VD in L.
    pose proof (rnd32_err (B2R s / 4)) as R. rewrite (Rabs_pos_eq (B2R s / 4)) in R by lra. apply Rabs_le_inv in R.
    assert (NS : nonneg 6 s) by (split; [split; [auto|rewrite Rabs_pos_eq by auto; change (bpow radix2 6) with 64; lra]|auto]).
    pose proof (root_near s NS) as RN. pose proof tiny_small as TS. pose proof tiny_root as TR. pose proof u24_pos as U.
    assert (G1 : sqrt (B2R g) <= sqrt (B2R s) / 2 * (1 + u24) + sqrt tiny).
    { replace (sqrt (B2R s) / 2 * (1 + u24)) with (sqrt (B2R s * (((1 + u24) / 2) * ((1 + u24) / 2)))).
      - eapply Rle_trans; [|apply sqrt_sub; [nra|lra]]. apply sqrt_le_1_alt.
        assert (0 <= B2R s * (u24 / 4 + u24 * u24 / 4)) by (apply Rmult_le_pos; [auto|]; nra). lra.
      - rewrite sqrt_mult by nra. rewrite sqrt_square by lra. lra. }
    change (@fsqrt Ar s) with (Bsqrt mode_NE s) in D2. pose proof (sqrt_pos (B2R s)) as PS. pose proof (root_ok s NS) as RO. apply nonneg3 in RO as [_ RO].
    pose proof (rdist_pos pow32 pow64 pj pk) as RP.
    set (rs := B2R (Bsqrt mode_NE s : b32)) in *. set (qs := sqrt (B2R s)) in *. set (qg := sqrt (B2R g)) in *. set (dd := rdist pj pk) in *.
    clearbody rs qs qg dd. unfold e9, u24 in *. lra.
Qed.
End I.
