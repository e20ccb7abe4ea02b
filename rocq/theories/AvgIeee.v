(** The averages of k-means in IEEE floating point: sums of weighted colours
    never exceed the sum of the weights, so that an average of colours with
    channels in [0,1] has channels in [0,1], whatever was rounded. *)
From Coq Require Import Reals Lra.
From Verif Require Import Base BaseFacts Arith Order Ieee IeeeFacts SmallFloat Pal World Hist Nearest Kmeans MedianIeee.
From Flocq Require Import IEEE754.BinarySingleNaN Core.Core Mult_error.
Open Scope R_scope.

Lemma fmt64_bpow k : (-1074 <= k)%Z -> generic_format radix2 (SpecFloat.fexp 53 1024) (bpow radix2 k).
Proof. intros H. apply generic_format_bpow. unfold SpecFloat.fexp, SpecFloat.emin. lia. Qed.
Lemma rnd64_le_bpow k x : (-1074 <= k)%Z -> x <= bpow radix2 k -> rnd64 x <= bpow radix2 k.
Proof. intros K H. apply round_le_generic; auto; [apply (fexp_correct 53 1024 eq_refl)|apply valid_rnd_N|apply fmt64_bpow; auto]. Qed.
Lemma rnd64_ge_bpow k x : (-1074 <= k)%Z -> bpow radix2 k <= x -> bpow radix2 k <= rnd64 x.
Proof. intros K H. apply round_ge_generic; auto; [apply (fexp_correct 53 1024 eq_refl)|apply valid_rnd_N|apply fmt64_bpow; auto]. Qed.
Lemma rnd64_pos x : 0 <= x -> 0 <= rnd64 x.
Proof. intros H. apply round_ge_generic; [apply (fexp_correct 53 1024 eq_refl)|apply valid_rnd_N|apply generic_format_0|auto]. Qed.
Lemma rnd64_mono x y : x <= y -> rnd64 x <= rnd64 y.
Proof. apply round_le; [apply (fexp_correct 53 1024 eq_refl)|apply valid_rnd_N]. Qed.
Lemma rnd32_mono x y : x <= y -> rnd32 x <= rnd32 y.
Proof. apply round_le; [apply (fexp_correct 24 128 eq_refl)|apply valid_rnd_N]. Qed.

(** Adding a much smaller number to a power of two changes nothing. *)
Lemma saturates p e (Hp : FLX.Prec_gt_0 p) m k t v : (SpecFloat.emin p e + p <= m)%Z -> (k + p + 1 <= m)%Z -> t <= bpow radix2 m -> v <= bpow radix2 k ->
  round radix2 (SpecFloat.fexp p e) ZnearestE (t + v) <= bpow radix2 m.
Proof.
  intros M K T V. pose proof (fexp_correct p e Hp) as VE.
  assert (FM : SpecFloat.fexp p e (m + 1) = (m + 1 - p)%Z) by (unfold SpecFloat.fexp; lia).
  assert (G : generic_format radix2 (SpecFloat.fexp p e) (bpow radix2 m)).
  { apply generic_format_bpow. rewrite FM. unfold FLX.Prec_gt_0 in Hp. lia. }
  apply round_N_le_midp; auto.
  rewrite succ_eq_pos by apply bpow_ge_0. rewrite ulp_bpow, FM.
  apply Rle_lt_trans with (bpow radix2 m + bpow radix2 k); [lra|].
  assert (bpow radix2 (k + 1) < bpow radix2 (m + 1 - p)) by (apply bpow_lt; lia). rewrite bpow_S in H. lra.
Qed.

(** Halving (no subnormals) commutes with rounding. *)
Lemma rnd64_scale j y : (0 <= j <= 10)%Z -> bpow radix2 (-149) <= y -> rnd64 (bpow radix2 (- j) * y) = bpow radix2 (- j) * rnd64 y.
Proof.
  intros J H. pose proof (bpow_gt_0 radix2 (-149)) as P. assert (Y : y <> 0) by lra.
  assert (MG : mag radix2 (y * bpow radix2 (- j)) = (mag radix2 y - j)%Z :> Z) by (rewrite mag_mult_bpow by auto; lia).
  assert (M0 : (-148 <= mag radix2 y)%Z).
  { apply Z.le_trans with (mag radix2 (bpow radix2 (-149)) : Z); [rewrite mag_bpow; lia|]. apply mag_le; auto. }
  rewrite (Rmult_comm (bpow radix2 (- j))). unfold round. 
  assert (CE : cexp radix2 (SpecFloat.fexp 53 1024) (y * bpow radix2 (- j)) = (cexp radix2 (SpecFloat.fexp 53 1024) y - j)%Z).
  { unfold cexp. rewrite MG. unfold SpecFloat.fexp, SpecFloat.emin. lia. }
  assert (SM : scaled_mantissa radix2 (SpecFloat.fexp 53 1024) (y * bpow radix2 (- j)) = scaled_mantissa radix2 (SpecFloat.fexp 53 1024) y).
  { unfold scaled_mantissa. rewrite CE. rewrite Rmult_assoc, <- bpow_plus. f_equal. f_equal. lia. }
  rewrite SM, CE. unfold F2R. cbn [Fnum Fexp]. unfold Zminus. rewrite bpow_plus. ring.
Qed.

Definition total_ok (m : Z) (t : b64) : Prop := is_finite t = true /\ (B2R t = 0 \/ bpow radix2 (-149) <= B2R t) /\ B2R t <= bpow radix2 m.
Definition part_ok (j : Z) (x t : b64) : Prop := is_finite x = true /\ 0 <= B2R x <= bpow radix2 (- j) * B2R t.

Lemma total_pos m t : total_ok m t -> 0 <= B2R t.
Proof. intros (_ & [->|H] & _); [lra|]. pose proof (bpow_gt_0 radix2 (-149)). lra. Qed.
Lemma total_le m m' t : total_ok m t -> (m <= m')%Z -> total_ok m' t.
Proof. intros (F & L & H) M. split; auto. split; auto. apply Rle_trans with (1 := H). apply bpow_le. auto. Qed.
Lemma total_add k m t w : (-149 <= k)%Z -> (k + 54 <= m <= 1000)%Z -> total_ok m t -> total_ok k w ->
  total_ok m (Bplus mode_NE t w) /\ B2R (Bplus mode_NE t w) = rnd64 (B2R t + B2R w).
Proof.
  intros K M T W. pose proof (total_pos _ _ T) as T0. pose proof (total_pos _ _ W) as W0.
  destruct T as (FT & LT & UT), W as (FW & LW & UW).
  assert (UB : rnd64 (B2R t + B2R w) <= bpow radix2 m).
  { apply (saturates 53 1024 eq_refl m k); auto; unfold SpecFloat.emin; lia. }
  assert (LB : 0 <= rnd64 (B2R t + B2R w)) by (apply rnd64_pos; lra).
  destruct (proj1 (Bplus_fin 53 1024 t w FT FW)) as [F V].
  { rewrite Rabs_pos_eq by auto. apply Rle_lt_trans with (1 := UB). apply bpow_lt. lia. }
  split; auto. split; auto. rewrite V. split; auto.
  destruct LT as [ZT|LT], LW as [ZW|LW]; try (right; apply rnd64_ge_bpow; [lia|lra]).
  left. rewrite ZT, ZW, Rplus_0_l. apply round_0, valid_rnd_N.
Qed.
Lemma part_add j m k x t y w : (0 <= j <= 10)%Z -> (-149 <= k)%Z -> (k + 54 <= m <= 1000)%Z -> total_ok m t -> total_ok k w ->
  part_ok j x t -> part_ok j y w -> part_ok j (Bplus mode_NE x y) (Bplus mode_NE t w).
Proof.
  intros J K M T W [FX X] [FY Y]. destruct (total_add k m t w K M T W) as [TW V].
  pose proof (total_pos _ _ T) as T0. pose proof (total_pos _ _ W) as W0.
  assert (UB : rnd64 (B2R x + B2R y) <= bpow radix2 (- j) * rnd64 (B2R t + B2R w)).
  { destruct T as (FT & LT & UT), W as (FW & LW & UW).
    assert (C : B2R t + B2R w = 0 \/ bpow radix2 (-149) <= B2R t + B2R w) by (destruct LT, LW; [left|right|right|right]; lra).
    destruct C as [C|C].
    - assert (B2R t = 0) as ZT by lra. assert (B2R w = 0) as ZW by lra. rewrite ZT, ZW, Rmult_0_r in *.
      replace (B2R x + B2R y) with 0 by lra. rewrite Rplus_0_l, round_0 by apply valid_rnd_N. lra.
    - rewrite <- rnd64_scale by auto. apply rnd64_mono. lra. }
  assert (LB : 0 <= rnd64 (B2R x + B2R y)) by (apply rnd64_pos; lra).
  assert (BJ : 0 < bpow radix2 (- j) <= 1) by (split; [apply bpow_gt_0|change 1 with (bpow radix2 0); apply bpow_le; lia]).
  destruct (proj1 (Bplus_fin 53 1024 x y FX FY)) as [F V'].
  { rewrite Rabs_pos_eq by auto. destruct TW as (_ & _ & UT). rewrite V in UT. apply Rle_lt_trans with (1 := UB).
    apply Rle_lt_trans with (bpow radix2 m); [|apply bpow_lt; lia]. apply Rle_trans with (2 := UT).
    rewrite <- (Rmult_1_l (rnd64 (B2R t + B2R w))) at 2. apply Rmult_le_compat_r; [apply rnd64_pos; lra|lra]. }
  split; auto. rewrite V', V. auto.
Qed.

(** Conversions and quotients. *)
Lemma bconv_down (x : b64) : is_finite x = true -> Rabs (rnd32 (B2R x)) < bpow radix2 128 ->
  is_finite (Bconv 24 128 x) = true /\ B2R (Bconv 24 128 x) = rnd32 (B2R x).
Proof.
  destruct x as [s|s| |s m e H]; try discriminate; intros _ B; [cbn; split; auto; symmetry; apply round_0, valid_rnd_N|].
  unfold Bconv. pose proof (binary_normalize_correct 24 128 prec32 emax32 mode_NE (cond_Zopp s (Zpos m)) e s) as N. cbn [round_mode] in N.
  change (F2R {| Fnum := cond_Zopp s (Z.pos m); Fexp := e |}) with (B2R (B754_finite s m e H : b64)) in N.
  rewrite Rlt_bool_true in N by auto. tauto.
Qed.
Lemma quotient_ok j m x t : (0 <= j <= 10)%Z -> (m <= 1000)%Z -> total_ok m t -> part_ok j x t -> 0 < B2R t ->
  nonneg (- j) (Bconv 24 128 (Bdiv mode_NE x t)).
Proof.
  intros J M (FT & LT & UT) [FX X] P.
  assert (Q : 0 <= B2R x / B2R t <= bpow radix2 (- j)).
  { split; [apply Rmult_le_pos; [lra|left; apply Rinv_0_lt_compat; auto]|].
    apply Rmult_le_reg_r with (B2R t); auto. unfold Rdiv. rewrite Rmult_assoc, Rinv_l by lra. lra. }
  assert (Q2 : 0 <= rnd64 (B2R x / B2R t) <= bpow radix2 (- j)) by (split; [apply rnd64_pos; lra|apply rnd64_le_bpow; [lia|lra]]).
  destruct (proj1 (Bdiv_fin 53 1024 x t FX ltac:(lra))) as [F V].
  { rewrite Rabs_pos_eq by lra. apply Rle_lt_trans with (1 := proj2 Q2). apply bpow_lt. lia. }
  assert (Q3 : Rabs (rnd32 (B2R (Bdiv mode_NE x t))) <= bpow radix2 (- j)) by (rewrite V; apply rnd_small; [lia|rewrite Rabs_pos_eq; lra]).
  destruct (bconv_down _ F) as [F' V'].
  { apply Rle_lt_trans with (1 := Q3). apply bpow_lt. lia. }
  split; [split; [auto|rewrite V'; auto]|]. rewrite V', V. apply rnd32_pos. lra.
Qed.

(** Weights: 0 or at least 2^-100, at most 2^k. *)
Definition wt_ok (k : Z) (w : b32) : Prop := is_finite w = true /\ (B2R w = 0 \/ bpow radix2 (-100) <= B2R w) /\ B2R w <= bpow radix2 k.
Lemma wt_pos k w : wt_ok k w -> 0 <= B2R w.
Proof. intros (_ & [->|H] & _); [lra|]. pose proof (bpow_gt_0 radix2 (-100)). lra. Qed.
Lemma wt_le k k' w : wt_ok k w -> (k <= k')%Z -> wt_ok k' w.
Proof. intros (F & L & H) K. split; auto. split; auto. apply Rle_trans with (1 := H). apply bpow_le. auto. Qed.
Lemma wt_total k w : wt_ok k w -> total_ok k (Bconv 53 1024 w).
Proof.
  intros (F & L & H). destruct (f2d_exact w F) as [F' V]. split; auto. rewrite V. split; auto.
  destruct L; auto. right. apply Rle_trans with (2 := H0). apply bpow_le. lia.
Qed.
(** A channel times a weight. *)
Lemma scaled_ok j k c w : (0 <= j <= 10)%Z -> wt_ok k w -> nonneg (- j) c ->
  is_finite (Bmult mode_NE c w) = true /\ 0 <= B2R (Bmult mode_NE c w) <= bpow radix2 (- j) * B2R w.
Proof.
  intros J W [[FC C] P]. pose proof (wt_pos k w W) as W0. destruct W as (FW & LW & UW). rewrite Rabs_pos_eq in C by auto.
  assert (G : generic_format radix2 (SpecFloat.fexp 24 128) (bpow radix2 (- j) * B2R w)).
  { destruct LW as [->|LW]; [rewrite Rmult_0_r; apply generic_format_0|]. rewrite Rmult_comm.
    assert (N0 : B2R w <> 0) by (pose proof (bpow_gt_0 radix2 (-100)); lra).
    apply (mult_bpow_exact_FLT radix2 (-149) 24); [exact (generic_format_B2R 24 128 w)|].
    assert ((-99 <= mag radix2 (B2R w))%Z).
    { apply Z.le_trans with (mag radix2 (bpow radix2 (-100)) : Z); [rewrite mag_bpow; lia|]. apply mag_le; auto. apply bpow_gt_0. }
    lia. }
  assert (UB : rnd32 (B2R c * B2R w) <= bpow radix2 (- j) * B2R w).
  { apply round_le_generic; auto; [apply (fexp_correct 24 128 eq_refl)|apply valid_rnd_N|]. apply Rmult_le_compat_r; auto. }
  assert (LB : 0 <= rnd32 (B2R c * B2R w)) by (apply rnd32_pos, Rmult_le_pos; auto).
  assert (BJ : 0 < bpow radix2 (- j) <= 1) by (split; [apply bpow_gt_0|change 1 with (bpow radix2 0); apply bpow_le; lia]).
  destruct (proj1 (Bmult_fin 24 128 c w FC FW)) as [F V].
  { rewrite Rabs_pos_eq by auto. apply Rle_lt_trans with (1 := UB). apply Rle_lt_trans with (B2R w).
    - rewrite <- (Rmult_1_l (B2R w)) at 2. apply Rmult_le_compat_r; lra.
    - apply Rle_lt_trans with (1 := Rle_abs _). apply (abs_B2R_lt_emax 24 128). }
  split; auto. rewrite V. auto.
Qed.

Section I.
Variables (pow32 : b32 -> b32 -> b32) (pow64 : b64 -> b64 -> b64).
Let Ar : Arith := ieee pow32 pow64.
Local Existing Instance Ar.

(** Colours as [from_rgba] makes them: channels at most 1; red and blue, whose
    weights are 0.5 and 0.45, at most 1/2. *)
Definition box_px (p : px) : Prop := nonneg 0 (pa p) /\ nonneg (-1) (pr p) /\ nonneg 0 (pg p) /\ nonneg (-1) (pb p).
Lemma box_color p : box_px p -> color_ok pow32 pow64 p.
Proof.
  intros (H1 & H2 & H3 & H4). split; [apply H1|]. split; [apply small_le with (-1)%Z; [apply H2|lia]|].
  split; [apply H3|]. apply small_le with (-1)%Z; [apply H4|lia].
Qed.

Definition avg_ok (m : Z) (a : coloravg) : Prop :=
  total_ok m (c_total a) /\ part_ok 0 (da (c_sum a)) (c_total a) /\ part_ok 1 (dr (c_sum a)) (c_total a) /\
  part_ok 0 (dg (c_sum a)) (c_total a) /\ part_ok 1 (db (c_sum a)) (c_total a).
Lemma avg_zero m : avg_ok m (CAvg dpx0 d0).
Proof.
  assert (Z0 : is_finite (@d0 Ar) = true /\ B2R (@d0 Ar) = 0) by (split; [reflexivity|]; exact (proj2 (BofZ_exact 53 1024 0 ltac:(lia) ltac:(lia) ltac:(lia)))).
  destruct Z0 as [F V]. set (z := @d0 Ar) in *.
  assert (T : total_ok m z) by (split; auto; rewrite V; split; [left; auto|apply bpow_ge_0]).
  assert (P : forall j, part_ok j z z) by (intros j; split; auto; rewrite V; lra).
  unfold avg_ok. cbn. fold z. auto.
Qed.
Lemma avg_add_ok k m a p w : (-149 <= k)%Z -> (k + 54 <= m <= 1000)%Z -> avg_ok m a -> box_px p -> wt_ok k w -> avg_ok m (avg_add a p w).
Proof.
  intros K M (T & P1 & P2 & P3 & P4) (B1 & B2 & B3 & B4) W. pose proof (wt_total k w W) as WT.
  assert (C : forall j c, (0 <= j <= 10)%Z -> nonneg (- j) c -> part_ok j (Bconv 53 1024 (Bmult mode_NE c w)) (Bconv 53 1024 w)).
  { intros j c J N. destruct (scaled_ok j k c w J W N) as [F H]. destruct (f2d_exact _ F) as [F' V]. destruct (f2d_exact w (proj1 W)) as [_ V'].
    split; auto. rewrite V, V'. auto. }
  unfold avg_ok, avg_add, dpx_add, dpx_of, px_scale. cbn [c_total c_sum da dr dg db pa pr pg pb].
  split; [exact (proj1 (total_add k m _ _ K M T WT))|].
  split; [|split; [|split]]; (refine (part_add _ m k _ _ _ _ _ K M T WT _ _); [lia|eassumption|apply C; [lia|assumption]]).
Qed.
Lemma avg_merge_ok k m a b : (-149 <= k)%Z -> (k + 54 <= m <= 1000)%Z -> avg_ok m a -> avg_ok k b ->
  avg_ok m (CAvg (dpx_add (c_sum a) (c_sum b)) (c_total a +d c_total b)).
Proof.
  intros K M (T & P1 & P2 & P3 & P4) (W & B1 & B2 & B3 & B4).
  unfold avg_ok, dpx_add. cbn [c_total c_sum da dr dg db].
  split; [exact (proj1 (total_add k m _ _ K M T W))|].
  split; [|split; [|split]]; (refine (part_add _ m k _ _ _ _ _ K M T W _ _); [lia|eassumption|assumption]).
Qed.
Lemma avg_le m m' a : avg_ok m a -> (m <= m')%Z -> avg_ok m' a.
Proof. intros (T & P) M. split; auto. eapply total_le; eauto. Qed.

(** The refined colour is again in the box. *)
Lemma finalize_ok m a c pop : (m <= 1000)%Z -> avg_ok m a -> box_px c -> box_px (fst (finalize_entry (a, (c, pop)))).
Proof.
  intros M (T & P1 & P2 & P3 & P4) B. cbn [finalize_entry]. destruct (pop_is_fixed pop); [exact B|].
  destruct (d0 <d c_total a) eqn:D; [|exact B]. destruct (negb _); [|exact B]. cbn [andb fst].
  assert (P : 0 < B2R (c_total a)).
  { apply (Bltb_fin 53 1024) in D; [|reflexivity|apply T].
    destruct (BofZ_exact 53 1024 0) as [_ V]; try lia. change (B2R (@d0 Ar)) with (B2R (BofZ 53 1024 0)) in D. rewrite V in D. exact D. }
  unfold box_px. cbn [pa pr pg pb].
  split; [|split; [|split]].
  - exact (quotient_ok 0 m _ _ ltac:(lia) M T P1 P).
  - exact (quotient_ok 1 m _ _ ltac:(lia) M T P2 P).
  - exact (quotient_ok 0 m _ _ ltac:(lia) M T P3 P).
  - exact (quotient_ok 1 m _ _ ltac:(lia) M T P4 P).
Qed.
Lemma km_finalize_ok m k (p : palf) : (m <= 1000)%Z -> Forall (avg_ok m) (k_avg k) -> Forall box_px (colors_of p) -> Forall box_px (colors_of (fst (km_finalize k p))).
Proof.
  intros M K B. unfold km_finalize. cbn [fst]. unfold colors_of in *. rewrite map_app. apply Forall_app. split.
  - rewrite map_map. apply Forall_map, Forall_forall. intros [a [c pop]] H.
    pose proof (in_combine_l _ _ _ _ H) as H1. pose proof (in_combine_r _ _ _ _ H) as H2.
    rewrite Forall_forall in K. apply finalize_ok with m; auto. rewrite Forall_map in B. rewrite Forall_forall in B. exact (B _ H2).
  - rewrite Forall_map in *. apply Forall_forall. intros e He. rewrite Forall_forall in B. apply B.
    rewrite <- (firstn_skipn (length (k_avg k)) p). apply in_app_iff. auto.
Qed.
Lemma km_new_ok m n : Forall (avg_ok m) (k_avg (km_new n)).
Proof. apply Forall_forall. intros x H. apply repeat_spec in H. subst x. apply avg_zero. Qed.
Lemma update_color_ok k m km p w i km' : (-149 <= k)%Z -> (k + 54 <= m <= 1000)%Z -> Forall (avg_ok m) (k_avg km) -> box_px p -> wt_ok k w ->
  update_color km p w i = Ok km' -> Forall (avg_ok m) (k_avg km').
Proof.
  intros K M F B W E. unfold update_color in E. destruct (idx (k_avg km) i) as [c| |] eqn:I; try discriminate. injection E as <-. cbn [k_avg].
  apply Forall_upd; auto. eapply avg_add_ok; eauto. rewrite Forall_forall in F. apply F. 
  unfold idx in I. destruct (nth_error (k_avg km) i) eqn:N; try discriminate. injection I as ->. eapply nth_error_In; eauto.
Qed.
Lemma km_merge_ok k m a b : (-149 <= k)%Z -> (k + 54 <= m <= 1000)%Z -> Forall (avg_ok m) (k_avg a) -> Forall (avg_ok k) (k_avg b) -> Forall (avg_ok m) (k_avg (km_merge a b)).
Proof.
  intros K M Fa Fb. unfold km_merge. cbn [k_avg]. apply Forall_app. split.
  - apply Forall_map, Forall_forall. intros [x y] H. cbn [fst snd].
    pose proof (in_combine_l _ _ _ _ H) as H1. pose proof (in_combine_r _ _ _ _ H) as H2. rewrite Forall_forall in Fa, Fb.
    apply avg_merge_ok with k; auto.
  - apply Forall_forall. intros e He. rewrite Forall_forall in Fa. apply Fa.
    rewrite <- (firstn_skipn (length (k_avg b)) (k_avg a)). apply in_app_iff. auto.
Qed.
Lemma km_reduce_ok k m ks km : (-149 <= k)%Z -> (k + 54 <= m <= 1000)%Z -> Forall (fun x => Forall (avg_ok k) (k_avg x)) ks -> km_reduce ks = Some km -> Forall (avg_ok m) (k_avg km).
Proof.
  intros K M F E. destruct ks as [|x ks]; [discriminate|]. injection E as <-. apply Forall_cons_iff in F as [Fx F].
  assert (F0 : Forall (avg_ok m) (k_avg x)) by (eapply Forall_impl; [|exact Fx]; intros a Ha; apply avg_le with k; auto; lia).
  clear Fx. revert x F0. induction F as [|y ks Fy F IH]; intros x F0; cbn [fold_left]; auto. apply IH. apply km_merge_ok with k; auto.
Qed.
End I.
