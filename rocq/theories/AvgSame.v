(** Floating point: the average of copies of one colour is very nearly that
    colour. *)
From Coq Require Import Reals Lra.
From Verif Require Import Base Arith Ieee IeeeFacts Order Pal Kmeans SpecPow LnFacts ColorFacts SmallFloat MedianIeee.
From Flocq Require Import IEEE754.BinarySingleNaN Core.Core Relative.
Open Scope R_scope.

Definition v24 : R := / 16777216.
Definition v53 : R := / 9007199254740992.

Lemma rnd32_rel y : bpow radix2 (-100) <= y -> Rabs (rnd32 y - y) <= v24 * y.
Proof.
  intros H. assert (P : 0 < y) by (eapply Rlt_le_trans; [apply (bpow_gt_0 radix2 (-100))|exact H]).
  pose proof (relative_error_N_FLT radix2 (3 - 128 - 24) 24 prec32 (fun x => negb (Z.even x)) y) as Q.
  rewrite (Rabs_pos_eq y) in Q by lra. eapply Rle_trans; [apply Q|].
  - apply Rle_trans with (2 := H). apply bpow_le. lia.
  - apply Rmult_le_compat_r; [lra|]. unfold v24. simpl. lra.
Qed.
Lemma rnd64_rel y : bpow radix2 (-100) <= y -> Rabs (rnd64 y - y) <= v53 * y.
Proof.
  intros H. assert (P : 0 < y) by (eapply Rlt_le_trans; [apply (bpow_gt_0 radix2 (-100))|exact H]).
  pose proof (relative_error_N_FLT radix2 (3 - 1024 - 53) 53 prec64 (fun x => negb (Z.even x)) y) as Q.
  rewrite (Rabs_pos_eq y) in Q by lra. eapply Rle_trans; [apply Q|].
  - apply Rle_trans with (2 := H). apply bpow_le. lia.
  - apply Rmult_le_compat_r; [lra|]. unfold v53. simpl. lra.
Qed.
Lemma rnd64_of (x : b64) : rnd64 (B2R x) = B2R x.
Proof. apply round_generic; [apply valid_rnd_N|apply generic_format_B2R]. Qed.

(** [S] is about [T] times [x], after at most [N] roundings. *)
Definition big_n : Z := 536870912.
Definition coef (N : Z) : R := v24 + 2 * v53 * IZR N.
Definition sum_ok (x : R) (N T : Z) (S : b64) : Prop :=
  is_finite S = true /\ Rabs (B2R S - IZR T * x) <= coef N * (IZR T * x) /\ (T = 0 \/ 1 <= N)%Z /\ (0 <= T <= 255 * N)%Z.
Lemma coef_small N : (0 <= N <= big_n)%Z -> 0 <= coef N <= / 1000.
Proof. intros [H1 H2]. unfold coef, v24, v53, big_n in *. apply IZR_le in H1, H2. lra. Qed.
Lemma sum_le x N N' T S : 0 < x -> (N <= N')%Z -> sum_ok x N T S -> sum_ok x N' T S.
Proof.
  intros X L (F & E & D & B). split; auto. split; [|split; [lia|lia]]. eapply Rle_trans; [exact E|]. apply Rmult_le_compat_r.
  - apply Rmult_le_pos; [apply IZR_le; lia|lra].
  - unfold coef, v53. apply IZR_le in L. lra.
Qed.
Lemma sum_zero x : sum_ok x 0 0 (B754_zero false).
Proof. split; [reflexivity|]. split; [|split; [left; auto|lia]]. cbn [B2R]. rewrite Rmult_0_l, Rmult_0_r, Rminus_0_r, Rabs_R0. lra. Qed.
Lemma sum_size x N T S : bpow radix2 (-50) <= x <= 1 -> (N <= big_n)%Z -> sum_ok x N T S -> (T = 0%Z /\ B2R S = 0) \/ ((1 <= T)%Z /\ 1 <= IZR T <= 512 * IZR big_n /\ IZR T * x / 2 <= B2R S <= 2 * (IZR T * x)).
Proof.
  intros X HN (F & E & D & B). assert (XP : 0 < x) by (eapply Rlt_le_trans; [apply (bpow_gt_0 radix2 (-50))|apply X]).
  destruct (Z.eq_dec T 0) as [->|NT].
  - left. split; auto. rewrite Rmult_0_l, Rmult_0_r, Rminus_0_r in E. pose proof (Rabs_pos (B2R S)). destruct (Req_dec (B2R S) 0); auto. apply Rabs_pos_lt in H0. lra.
  - right. split; [lia|]. assert (T1 : 1 <= IZR T) by (apply IZR_le; lia). split; [split; auto; rewrite <- mult_IZR; apply IZR_le; unfold big_n in *; lia|].
    pose proof (coef_small N ltac:(lia)) as C. apply Rabs_le_inv in E. set (z := IZR T * x) in *. assert (0 < z) by (unfold z; nra).
    assert (coef N * z <= / 1000 * z) by (apply Rmult_le_compat_r; lra). lra.
Qed.
Lemma sum_add x N1 T1 S1 N2 T2 S2 : bpow radix2 (-50) <= x <= 1 -> (N1 + N2 <= big_n)%Z -> sum_ok x N1 T1 S1 -> sum_ok x N2 T2 S2 ->
  sum_ok x (N1 + N2) (T1 + T2) (Bplus mode_NE S1 S2).
Proof.
  intros X HN K1 K2. assert (XP : 0 < x) by (eapply Rlt_le_trans; [apply (bpow_gt_0 radix2 (-50))|apply X]).
  pose proof K1 as (F1 & E1 & D1 & B1). pose proof K2 as (F2 & E2 & D2 & B2).
  assert (BIG : IZR big_n = 536870912) by reflexivity.
  destruct (sum_size x N1 T1 S1 X ltac:(lia) K1) as [[Z1 V1]|(P1 & Q1 & R1)], (sum_size x N2 T2 S2 X ltac:(lia) K2) as [[Z2 V2]|(P2 & Q2 & R2)].
  - (* both zero *)
    destruct (Bplus_fin 53 1024 S1 S2 F1 F2) as [G _]. rewrite V1, V2, Rplus_0_l, round_0, Rabs_R0 in G by apply valid_rnd_N.
    destruct (G (bpow_gt_0 _ _)) as [F V]. split; auto. subst. rewrite V. split; [|split; lia]. cbn [Z.add]. rewrite Rmult_0_l, Rmult_0_r, Rminus_0_r, Rabs_R0. lra.
  - assert (V : rnd64 (B2R S1 + B2R S2) = B2R S2) by (rewrite V1, Rplus_0_l; apply rnd64_of).
    destruct (Bplus_fin 53 1024 S1 S2 F1 F2) as [G _]. rewrite V in G. destruct G as [F VV]; [apply abs_B2R_lt_emax|].
    subst T1. cbn [Z.add]. split; auto. rewrite VV. apply (sum_le x N2 (N1 + N2) T2 S2) in K2; auto; [|lia]. destruct K2 as (_ & K2). exact K2.
  - assert (V : rnd64 (B2R S1 + B2R S2) = B2R S1) by (rewrite V2, Rplus_0_r; apply rnd64_of).
    destruct (Bplus_fin 53 1024 S1 S2 F1 F2) as [G _]. rewrite V in G. destruct G as [F VV]; [apply abs_B2R_lt_emax|].
    subst T2. rewrite Z.add_0_r. split; auto. rewrite VV. apply (sum_le x N1 (N1 + N2) T1 S1) in K1; auto; [|lia]. destruct K1 as (_ & K1). exact K1.
  - assert (N1P : (1 <= N1)%Z) by lia. assert (N2P : (1 <= N2)%Z) by lia.
    set (y := B2R S1 + B2R S2). set (z := IZR (T1 + T2) * x). assert (HZ : z = IZR T1 * x + IZR T2 * x) by (unfold z; rewrite plus_IZR; ring).
    set (z1 := IZR T1 * x) in *. set (z2 := IZR T2 * x) in *.
    assert (z1 >= x) by (unfold z1; nra). assert (z2 >= x) by (unfold z2; nra).
    assert (Z1M : z1 <= IZR T1) by (unfold z1; nra). assert (Z2M : z2 <= IZR T2) by (unfold z2; nra).
    assert (YL : x <= y) by (unfold y; lra). assert (YU : y <= 2 * z) by (unfold y; lra).
    assert (YL' : bpow radix2 (-100) <= y). { apply Rle_trans with (2 := YL). apply Rle_trans with (2 := proj1 X). apply bpow_le. lia. }
    pose proof (rnd64_rel y YL') as E. apply Rabs_le_inv in E.
    assert (FIN : Rabs (rnd64 y) < bpow radix2 1024).
    { rewrite Rabs_pos_eq by (unfold v53 in E; lra). apply Rlt_trans with (bpow radix2 100); [|apply bpow_lt; lia].
      change (bpow radix2 100) with (IZR (2 ^ 100)). apply Rle_lt_trans with (4 * (IZR T1 + IZR T2)); [unfold v53 in E; lra|].
      apply Rle_lt_trans with (4 * (1024 * 1073741824)); [lra|]. lra. }
    destruct (Bplus_fin 53 1024 S1 S2 F1 F2) as [G _]. destruct (G FIN) as [F V]. fold y in V.
    split; auto. split; [|split; lia]. rewrite V. fold z. apply Rabs_le_inv in E1. apply Rabs_le_inv in E2.
    assert (C1 : coef N1 * z1 <= (coef (N1 + N2) - 2 * v53) * z1).
    { apply Rmult_le_compat_r; [lra|]. unfold coef, v53. rewrite plus_IZR. apply IZR_le in N2P. lra. }
    assert (C2 : coef N2 * z2 <= (coef (N1 + N2) - 2 * v53) * z2).
    { apply Rmult_le_compat_r; [lra|]. unfold coef, v53. rewrite plus_IZR. apply IZR_le in N1P. lra. }
    assert (C3 : v53 * y <= 2 * v53 * z) by (unfold v53; lra).
    assert (C4 : coef (N1 + N2) * z = coef (N1 + N2) * z1 + coef (N1 + N2) * z2) by (rewrite HZ; ring).
    unfold y in *. clearbody z1 z2 z. subst z. apply Rabs_le. rewrite C4. split; lra.
Qed.

(** One weighted copy. *)
Lemma term_ok (x : b32) v : is_finite x = true -> bpow radix2 (-50) <= B2R x <= 1 -> byte v ->
  sum_ok (B2R x) 1 v (Bconv 53 1024 (Bmult mode_NE x (BofZ 24 128 v))).
Proof.
  intros F X V. unfold byte in V. destruct (BofZ_exact 24 128 v) as [FV VV]; try lia.
  assert (S1 : small 0 x). { split; auto. rewrite Rabs_pos_eq; [exact (proj2 X)|]. pose proof (bpow_gt_0 radix2 (-50)). lra. }
  assert (S2 : small 8 (BofZ 24 128 v)). { apply small_ofZ; [lia|]. rewrite Rabs_pos_eq by (apply (IZR_le 0); lia). change (bpow radix2 8) with (IZR 256). apply IZR_le. lia. }
  destruct (small_mul 0 8 x _ ltac:(lia) S1 S2) as [[FM _] VM]. destruct (f2d_exact _ FM) as [FC VC].
  split; auto. split; [|split; lia]. rewrite VC, VM, VV.
  destruct (Z.eq_dec v 0) as [->|N].
  - rewrite Rmult_0_r, Rmult_0_l, round_0, Rminus_0_r, Rabs_R0, Rmult_0_r by apply valid_rnd_N. lra.
  - assert (1 <= IZR v) by (apply IZR_le; lia). assert (XP : 0 < B2R x) by (eapply Rlt_le_trans; [apply (bpow_gt_0 radix2 (-50))|apply X]).
    rewrite (Rmult_comm (IZR v)). eapply Rle_trans; [apply rnd32_rel|].
    + apply Rle_trans with (B2R x); [|nra]. apply Rle_trans with (2 := proj1 X). apply bpow_le. lia.
    + apply Rmult_le_compat_r; [nra|]. unfold coef, v53. lra.
Qed.

(** The total is exact. *)
Definition total_is (N T : Z) (t : b64) : Prop := is_finite t = true /\ B2R t = IZR T /\ (0 <= T <= 255 * N)%Z.
Lemma total_sum N1 T1 t1 N2 T2 t2 : (N1 + N2 <= big_n)%Z -> total_is N1 T1 t1 -> total_is N2 T2 t2 -> total_is (N1 + N2) (T1 + T2) (Bplus mode_NE t1 t2).
Proof.
  intros HN (F1 & V1 & B1) (F2 & V2 & B2). destruct (Bplus_fin 53 1024 t1 t2 F1 F2) as [G _].
  assert (E : rnd64 (B2R t1 + B2R t2) = IZR (T1 + T2)).
  { rewrite V1, V2, <- plus_IZR. apply round_generic; [apply valid_rnd_N|]. apply (format_small_Z 53 1024); [|lia]. unfold big_n in HN. lia. }
  rewrite E in G. destruct G as [F V].
  - rewrite <- abs_IZR. apply Rlt_trans with (bpow radix2 100); [|apply bpow_lt; lia]. change (bpow radix2 100) with (IZR (2 ^ 100)). apply IZR_lt. unfold big_n in HN. lia.
  - split; auto. split; auto. lia.
Qed.
Lemma total_term v : byte v -> total_is 1 v (Bconv 53 1024 (BofZ 24 128 v)).
Proof.
  intros V. unfold byte in V. destruct (BofZ_exact 24 128 v) as [FV VV]; try lia. destruct (f2d_exact _ FV) as [FC VC].
  split; auto. split; [congruence|lia].
Qed.

(** * Channels *)
(** A channel value: +0 or a positive number of moderate size. *)
Definition cvalue (x : b32) : Prop := x = B754_zero false \/ (is_finite x = true /\ bpow radix2 (-50) <= B2R x <= 1).
Definition chan_sum (x : b32) (N T : Z) (S : b64) : Prop :=
  (x = B754_zero false /\ S = B754_zero false) \/ (is_finite x = true /\ bpow radix2 (-50) <= B2R x <= 1 /\ sum_ok (B2R x) N T S).
Lemma chan_start x : cvalue x -> chan_sum x 0 0 (B754_zero false).
Proof. intros [->|[F X]]; [left; auto|right]. split; auto. split; auto. apply sum_zero. Qed.
Lemma chan_sum_add x N1 T1 S1 N2 T2 S2 : (N1 + N2 <= big_n)%Z -> chan_sum x N1 T1 S1 -> chan_sum x N2 T2 S2 -> chan_sum x (N1 + N2) (T1 + T2) (Bplus mode_NE S1 S2).
Proof.
  intros HN [[-> ->]|(F & X & K1)] [[E ->]|(_ & X' & K2)].
  - left. auto.
  - exfalso. cbn in X'. pose proof (bpow_gt_0 radix2 (-50)). lra.
  - exfalso. subst x. cbn in X. pose proof (bpow_gt_0 radix2 (-50)). lra.
  - right. split; auto. split; auto. apply sum_add; auto.
Qed.
Lemma zero_times v : byte v -> Bmult mode_NE (B754_zero false : b32) (BofZ 24 128 v) = B754_zero false.
Proof.
  intros H.
  assert (C : forallb (fun n => match BofZ 24 128 (Z.of_nat n) with B754_zero false | B754_finite false _ _ _ => true | _ => false end) (seq 0 256) = true) by (vm_compute; reflexivity).
  rewrite forallb_forall in C. unfold byte in H. specialize (C (Z.to_nat v)). rewrite Z2Nat.id in C by lia.
  specialize (C ltac:(apply in_seq; lia)). destruct (BofZ 24 128 v) as [[]|[]| |[] m e B]; try discriminate; reflexivity.
Qed.
Lemma chan_term x v : cvalue x -> byte v -> chan_sum x 1 v (Bconv 53 1024 (Bmult mode_NE x (BofZ 24 128 v))).
Proof.
  intros [->|[F X]] V; [left|right].
  - rewrite zero_times by auto. split; reflexivity.
  - split; auto. split; auto. apply term_ok; auto.
Qed.
Lemma chan_sum_le x N N' T S : (N <= N')%Z -> chan_sum x N T S -> chan_sum x N' T S.
Proof.
  intros L [H|(F & X & K)]; [left; auto|right]. split; auto. split; auto. eapply sum_le; eauto. eapply Rlt_le_trans; [apply (bpow_gt_0 radix2 (-50))|apply X].
Qed.

(** Close on the logarithmic scale; zero stays zero. *)
Definition near (x x' : b32) : Prop := (x = B754_zero false /\ x' = B754_zero false) \/
  (is_finite x = true /\ bpow radix2 (-50) <= B2R x <= 1 /\ is_finite x' = true /\ 0 < B2R x' /\ Rabs (ln (B2R x') - ln (B2R x)) <= 7 / 10000000).
Lemma near_refl x : cvalue x -> near x x.
Proof.
  intros [->|[F X]]; [left; auto|right]. split; auto. split; auto. split; auto.
  split; [eapply Rlt_le_trans; [apply (bpow_gt_0 radix2 (-50))|apply X]|]. rewrite Rminus_diag_eq, Rabs_R0 by auto. lra.
Qed.
Lemma chan_avg x N T S t : (N <= big_n)%Z -> chan_sum x N T S -> total_is N T t -> 0 < B2R t -> near x (Bconv 24 128 (Bdiv mode_NE S t)).
Proof.
  intros HN K (Ft & Vt & Bt) P. destruct K as [[-> ->]|(F & X & K)].
  - left. split; auto. destruct t as [s|s| |s m e B]; try discriminate; [cbn in P; lra|].
    destruct s; [|reflexivity]. exfalso. assert (Q : F2R (Float radix2 (Z.neg m) e) < 0) by (apply F2R_lt_0; cbn; lia). exact (Rlt_irrefl 0 (Rlt_trans _ _ _ P Q)).
  - right. split; auto. split; auto. assert (XP : 0 < B2R x) by (eapply Rlt_le_trans; [apply (bpow_gt_0 radix2 (-50))|apply X]).
    destruct (sum_size _ _ _ _ X HN K) as [[-> _]|(T1 & T2 & SS)]; [rewrite Vt in P; cbn in P; lra|].
    destruct K as (FS & E & _ & _). set (z := IZR T * B2R x) in *. assert (ZP : 0 < z) by (unfold z; nra).
    assert (C : 0 <= coef N <= 2 / 10000000).
    { assert (0 <= N)%Z by lia. unfold coef, v24, v53, big_n in *. apply IZR_le in H. apply IZR_le in HN. lra. }
    destruct (ln_near (B2R S) z (2 / 10000000)) as [SP LS]; auto; [lra| |].
    { eapply Rle_trans; [exact E|]. apply Rmult_le_compat_r; lra. }
    assert (LZ : ln z = ln (IZR T) + ln (B2R x)) by (unfold z; apply ln_mult; lra).
    assert (LX : -36 <= ln (B2R x) <= 0).
    { split; [|rewrite <- ln_1; apply ln_le; lra]. apply Rle_trans with (ln (bpow radix2 (-50))); [rewrite ln_bpow; pose proof ln2_lt; lra|]. apply ln_le; [apply bpow_gt_0|apply X]. }
    apply Rabs_le_inv in LS. rewrite LZ in LS.
    destruct (div64_ln S t FS Ft SP P) as (FD & PD & LD). { rewrite Vt. apply Rabs_le. lra. }
    rewrite Vt in LD. apply Rabs_le_inv in LD. unfold u23 in LD.
    destruct (conv_ln _ _ FD PD eq_refl) as (l & (FC & PC & <-) & LC). { apply Rabs_le. lra. }
    split; auto. split; auto. apply Rabs_le_inv in LC. unfold u23 in LC. apply Rabs_le. lra.
Qed.

(** * Colours *)
Section I.
Variables (pow32 : b32 -> b32 -> b32) (pow64 : b64 -> b64 -> b64).
Notation Ar := (ieee pow32 pow64).
Local Existing Instance ieee.

Definition cvalues (c : @px Ar) : Prop := cvalue (pa c) /\ cvalue (pr c) /\ cvalue (pg c) /\ cvalue (pb c).
Definition near_px (c c' : @px Ar) : Prop := near (pa c) (pa c') /\ near (pr c) (pr c') /\ near (pg c) (pg c') /\ near (pb c) (pb c').
Lemma near_px_refl c : cvalues c -> near_px c c.
Proof. intros (H1 & H2 & H3 & H4). split; [|split; [|split]]; apply near_refl; auto. Qed.
Definition avg_of (N : Z) (a : @coloravg Ar) (c : @px Ar) : Prop := exists T, total_is N T (c_total a) /\
  chan_sum (pa c) N T (da (c_sum a)) /\ chan_sum (pr c) N T (dr (c_sum a)) /\ chan_sum (pg c) N T (dg (c_sum a)) /\ chan_sum (pb c) N T (db (c_sum a)).
Lemma avg_new c : cvalues c -> avg_of 0 (CAvg dpx0 d0) c.
Proof.
  intros (H1 & H2 & H3 & H4). exists 0%Z. cbn [c_total c_sum dpx0 da dr dg db]. split; [split; [reflexivity|split; [reflexivity|lia]]|].
  split; [|split; [|split]]; apply chan_start; auto.
Qed.
Lemma avg_one N a c v : cvalues c -> byte v -> (N + 1 <= big_n)%Z -> avg_of N a c -> avg_of (N + 1) (@avg_add Ar a c (@fofZ Ar v)) c.
Proof.
  intros (H1 & H2 & H3 & H4) V HN (T & K0 & K1 & K2 & K3 & K4). exists (T + v)%Z. split; [exact (total_sum _ _ _ _ _ _ HN K0 (total_term v V))|].
  split; [exact (chan_sum_add _ _ _ _ _ _ _ HN K1 (chan_term _ v H1 V))|]. split; [exact (chan_sum_add _ _ _ _ _ _ _ HN K2 (chan_term _ v H2 V))|].
  split; [exact (chan_sum_add _ _ _ _ _ _ _ HN K3 (chan_term _ v H3 V))|exact (chan_sum_add _ _ _ _ _ _ _ HN K4 (chan_term _ v H4 V))].
Qed.
Lemma avg_both N1 N2 a b c : (N1 + N2 <= big_n)%Z -> avg_of N1 a c -> avg_of N2 b c ->
  avg_of (N1 + N2) (@CAvg Ar (@dpx_add Ar (c_sum a) (c_sum b)) (@dadd Ar (c_total a) (c_total b))) c.
Proof.
  intros HN (T & K0 & K1 & K2 & K3 & K4) (T' & K0' & K1' & K2' & K3' & K4'). exists (T + T')%Z. split; [exact (total_sum _ _ _ _ _ _ HN K0 K0')|].
  split; [exact (chan_sum_add _ _ _ _ _ _ _ HN K1 K1')|]. split; [exact (chan_sum_add _ _ _ _ _ _ _ HN K2 K2')|].
  split; [exact (chan_sum_add _ _ _ _ _ _ _ HN K3 K3')|exact (chan_sum_add _ _ _ _ _ _ _ HN K4 K4')].
Qed.
Lemma avg_more N N' a c : (N <= N')%Z -> avg_of N a c -> avg_of N' a c.
Proof.
  intros L (T & (F & V & B) & K1 & K2 & K3 & K4). exists T. split; [split; auto; split; auto; lia|].
  split; [|split; [|split]]; eapply chan_sum_le; eauto.
Qed.
Lemma avg_final N a c pop : (N <= big_n)%Z -> cvalues c -> avg_of N a c -> near_px c (fst (@finalize_entry Ar (a, (c, pop)))).
Proof.
  intros HN C (T & K0 & K1 & K2 & K3 & K4). unfold finalize_entry. destruct (pop_is_fixed pop); [apply near_px_refl; auto|]. cbn [fst].
  destruct (@dlt Ar d0 (c_total a)) eqn:P; [|apply near_px_refl; auto]. destruct (negb _); [|apply near_px_refl; auto]. cbn [andb].
  assert (P' : 0 < B2R (c_total a : b64)). { apply (Bltb_fin 53 1024) in P; [exact P|reflexivity|apply K0]. }
  split; [exact (chan_avg _ _ _ _ _ HN K1 K0 P')|]. split; [exact (chan_avg _ _ _ _ _ HN K2 K0 P')|].
  split; [exact (chan_avg _ _ _ _ _ HN K3 K0 P')|exact (chan_avg _ _ _ _ _ HN K4 K0 P')].
Qed.
End I.
