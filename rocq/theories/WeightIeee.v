(** How much the weights of histogram entries can grow in the palette search
    (IEEE arithmetic): in every adjusting k-means round the weight of an entry
    is multiplied by at most a constant given by the colours' range. *)
From Coq Require Import Reals Lra Psatz.
From Verif Require Import Base BaseFacts Arith Order Ieee IeeeFacts SmallFloat Pal World Attr Hist Nearest MedianCut Kmeans MedianFacts MedianIeee AvgIeee AvgF32.
From Flocq Require Import IEEE754.BinarySingleNaN Core.Core Relative.
Open Scope R_scope.

Definition e18 : R := / 262144.                 (* 2^-18 *)
Lemma rnd32_err z : Rabs z <= 64 -> Rabs (rnd32 z - z) <= e18.
Proof.
  intros H. apply Rle_trans with (1 := error_le_half_ulp radix2 (SpecFloat.fexp 24 128) (fun x => negb (Z.even x)) z).
  assert (U : ulp radix2 (SpecFloat.fexp 24 128) z <= bpow radix2 (-17)).
  { apply Rle_trans with (ulp radix2 (SpecFloat.fexp 24 128) (bpow radix2 6)).
    - apply ulp_le; [apply (fexp_correct 24 128 eq_refl)|apply fexp_monotone|]. rewrite (Rabs_pos_eq (bpow radix2 6)) by apply bpow_ge_0. cbn. lra.
    - rewrite ulp_bpow. apply bpow_le. unfold SpecFloat.fexp, SpecFloat.emin. lia. }
  change (bpow radix2 (-17)) with (/ 131072) in U. unfold e18. lra.
Qed.
Lemma fits_64 z : Rabs z <= 64 -> Rabs (rnd32 z) < bpow radix2 128.
Proof. intros H. apply rnd_fits with 6%Z; [lia|]. cbn. lra. Qed.
Lemma add_val (x y : b32) : is_finite x = true -> is_finite y = true -> Rabs (B2R x + B2R y) <= 64 ->
  is_finite (Bplus mode_NE x y) = true /\ Rabs (B2R (Bplus mode_NE x y) - (B2R x + B2R y)) <= e18.
Proof. intros Fx Fy H. destruct (proj1 (Bplus_fin 24 128 x y Fx Fy) (fits_64 _ H)) as [F ->]. split; auto. apply rnd32_err; auto. Qed.
Lemma sub_val (x y : b32) : is_finite x = true -> is_finite y = true -> Rabs (B2R x - B2R y) <= 64 ->
  is_finite (Bminus mode_NE x y) = true /\ Rabs (B2R (Bminus mode_NE x y) - (B2R x - B2R y)) <= e18.
Proof. intros Fx Fy H. destruct (proj1 (Bminus_fin 24 128 x y Fx Fy) (fits_64 _ H)) as [F ->]. split; auto. apply rnd32_err; auto. Qed.
Lemma sq_val (x : b32) r : is_finite x = true -> 0 <= r <= 6 -> Rabs (B2R x) <= r ->
  is_finite (Bmult mode_NE x x) = true /\ 0 <= B2R (Bmult mode_NE x x) <= r * r + e18.
Proof.
  intros Fx R H. apply Rabs_le_inv in H.
  assert (S : 0 <= B2R x * B2R x <= r * r) by nra.
  assert (S64 : Rabs (B2R x * B2R x) <= 64) by (rewrite Rabs_pos_eq; nra).
  destruct (proj1 (Bmult_fin 24 128 x x Fx Fx) (fits_64 _ S64)) as [F ->]. split; auto.
  pose proof (rnd32_err _ S64) as E. apply Rabs_le_inv in E. split; [apply rnd32_pos; lra|lra].
Qed.
Ltac rabs := repeat match goal with H : Rabs _ <= _ |- _ => apply Rabs_le_inv in H end; try (apply Rabs_le).

Lemma chan_bound (x y al : b32) r : is_finite x = true -> is_finite y = true -> is_finite al = true -> 0 <= r <= 5 -> Rabs (B2R al) <= 5 ->
  Rabs (B2R x - B2R y) <= r -> Rabs (B2R x - B2R y + B2R al) <= r ->
  let b := Bminus mode_NE x y in let v := Bmax (Bmult mode_NE b b) (Bmult mode_NE (Bplus mode_NE b al) (Bplus mode_NE b al)) in
  is_finite v = true /\ 0 <= B2R v <= r * r + / 4096.
Proof.
  intros Fx Fy Fa R A H1 H2 b v. 
  destruct (sub_val x y Fx Fy) as [Fb Vb]; [rabs; lra|]. fold b in Fb, Vb.
  assert (Pe : e18 = / 262144) by reflexivity.
  destruct (add_val b al Fb Fa) as [Fw Vw]; [rabs; lra|].
  destruct (sq_val b (r + 2 * e18) Fb) as [F1 V1]; [lra|rabs; lra|].
  destruct (sq_val (Bplus mode_NE b al) (r + 2 * e18) Fw) as [F2 V2]; [lra|rabs; lra|].
  destruct (Bmax_fin 24 128 _ _ F1 F2) as [F V]. fold v in F, V. split; auto. rewrite V.
  assert (Q : (r + 2 * e18) * (r + 2 * e18) + e18 <= r * r + / 4096) by (rewrite Pe; nra).
  unfold Rmax. destruct (Rle_dec _ _); lra.
Qed.

(** * One step of the weight adjustment *)
Definition half : b32 := Bdiv mode_NE (BofZ 24 128 5) (BofZ 24 128 10).
Lemma half_val : is_finite half = true /\ B2R half = 1 / 2.
Proof.
  destruct (BofZ_exact 24 128 5) as [F1 V1]; try lia. destruct (BofZ_exact 24 128 10) as [F2 V2]; try lia.
  assert (E : B2R (BofZ 24 128 5) / B2R (BofZ 24 128 10) = bpow radix2 (-1)) by (rewrite V1, V2; cbn; lra).
  assert (G : rnd32 (bpow radix2 (-1)) = bpow radix2 (-1)) by (apply round_generic; [apply valid_rnd_N|apply fmt_bpow; lia]).
  destruct (proj1 (Bdiv_fin 24 128 (BofZ 24 128 5) (BofZ 24 128 10) F1 ltac:(rewrite V2; lra))) as [F V].
  - rewrite E, G, Rabs_pos_eq by apply bpow_ge_0. apply bpow_lt. lia.
  - split; [exact F|]. unfold half. rewrite V, E, G. cbn. lra.
Qed.
Lemma rnd32_b2r (x : b32) : rnd32 (B2R x) = B2R x.
Proof. apply round_generic; [apply valid_rnd_N|]. exact (generic_format_B2R 24 128 x). Qed.
(** [perc] and [adj] of an entry after [j] rounds. *)
Record level (P G : R) (j : nat) (w a : b32) : Prop := {
  lv_fw : is_finite w = true; lv_fa : is_finite a = true;
  lv_w : B2R w = 0 \/ bpow radix2 (-100) <= B2R w;
  lv_wa : B2R w <= B2R a; lv_wp : B2R w <= P;
  lv_a0 : B2R a = 0 \/ bpow radix2 (-100) <= B2R a;
  lv_a : B2R a + 6 / 10 * P <= 16 / 10 * P * G ^ j
}.
Lemma fma_val (x y z : b32) : is_finite x = true -> is_finite y = true -> is_finite z = true -> Rabs (rnd32 (B2R x * B2R y + B2R z)) < bpow radix2 128 ->
  is_finite (Bfma mode_NE x y z) = true /\ B2R (Bfma mode_NE x y z) = rnd32 (B2R x * B2R y + B2R z).
Proof.
  intros Fx Fy Fz H. pose proof (Bfma_correct 24 128 prec32 emax32 mode_NE x y z Fx Fy Fz) as C. cbv zeta in C. cbn [round_mode] in C.
  rewrite Rlt_bool_true in C by exact H. tauto.
Qed.
Definition grown (w a nd : b32) : b32 := Bmult mode_NE (Bfma mode_NE (BofZ 24 128 2) a w) (Bplus mode_NE half nd).
Lemma level_grow P G D j w a nd : 0 < P -> 6 <= G -> 0 <= D <= 60 -> 2 * (1 / 2 + D + e18) * (1 + / 1048576) <= G ->
  16 / 10 * P * G ^ S j <= bpow radix2 120 -> level P G j w a -> is_finite nd = true -> 0 <= B2R nd <= D -> level P G (S j) w (grown w a nd).
Proof.
  intros P0 G6 D60 GD CAP [FW FA W WA WP A0 LA] FN ND. destruct half_val as [FH VH]. destruct (BofZ_exact 24 128 2) as [F2 V2]; try lia.
  pose proof (bpow_gt_0 radix2 (-100)) as P100. assert (Pe : e18 = / 262144) by reflexivity.
  assert (W0 : 0 <= B2R w) by (destruct W; lra). assert (AP : 0 <= B2R a) by (destruct A0; lra).
  assert (BP : bpow radix2 121 = 2 * bpow radix2 120) by (change 121%Z with (120 + 1)%Z; rewrite bpow_S; ring).
  assert (BQ : bpow radix2 122 = 2 * bpow radix2 121) by (change 122%Z with (121 + 1)%Z; rewrite bpow_S; ring).
  assert (GJ : 1 <= G ^ j) by (apply pow_R1_Rle; lra).
  assert (CJ : 16 / 10 * P * G ^ j <= bpow radix2 120).
  { apply Rle_trans with (2 := CAP). cbn [pow]. assert (0 <= 16 / 10 * P * G ^ j) by (apply Rmult_le_pos; lra). nra. }
  (* twice the old weight plus the plain weight *)
  assert (T0 : 0 <= 2 * B2R a + B2R w <= bpow radix2 122) by (rewrite BQ, BP; lra).
  destruct (fma_val (BofZ 24 128 2) a w F2 FA FW) as [FT VT].
  { rewrite V2. rewrite Rabs_pos_eq by (apply rnd32_pos; lra). apply Rle_lt_trans with (bpow radix2 122); [apply rnd32_le_bpow; [lia|lra]|apply bpow_lt; lia]. }
  rewrite V2 in VT. set (t := Bfma mode_NE (BofZ 24 128 2) a w) in *.
  (* the factor *)
  destruct (add_val half nd FH FN) as [FF VF]; [rewrite VH, Rabs_pos_eq; lra|]. rewrite VH in VF.
  assert (F5 : 1 / 2 <= B2R (Bplus mode_NE half nd)).
  { destruct (Bplus_fin 24 128 half nd FH FN) as [X1 X2]. destruct (X1 (X2 FF)) as [_ ->]. rewrite VH.
    change (1 / 2) with (bpow radix2 (-1)) at 1 || replace (1 / 2) with (bpow radix2 (-1)) by (cbn; lra). apply rnd32_ge_bpow; [lia|]. cbn. lra. }
  set (f := Bplus mode_NE half nd) in *. apply Rabs_le_inv in VF.
  assert (FU : B2R f <= 1 / 2 + D + e18) by lra.
  assert (TU : B2R t <= (2 * B2R a + B2R w) * (1 + u24) /\ (B2R t = 0 \/ bpow radix2 (-100) <= B2R t) /\ 2 * B2R a <= B2R t).
  { rewrite VT. destruct (Rle_lt_dec (bpow radix2 (-100)) (2 * B2R a + B2R w)) as [H|H].
    - split; [apply rnd32_up; apply Rle_trans with (2 := H); apply bpow_le; lia|]. split; [right; apply rnd32_ge_bpow; [lia|auto]|].
      destruct A0 as [->|A0]; [rewrite Rmult_0_r; apply rnd32_pos; lra|].
      apply Rle_trans with (rnd32 (2 * B2R a)); [|apply rnd32_mono; lra].
      change 2 with (bpow radix2 (- -1)). rewrite rnd32_scale; [|lia|apply Rle_trans with (2 := A0); apply bpow_le; lia]. rewrite rnd32_b2r. lra.
    - assert (B2R a = 0) by (destruct A0; lra). assert (B2R w = 0) by (destruct W; lra). rewrite H0, H1, Rmult_0_r, Rplus_0_l, rnd32_0, Rmult_0_l. lra. }
  destruct TU as (TU & TL & TA). assert (T00 : 0 <= B2R t) by (destruct TL; lra).
  assert (XP : 0 <= B2R t * B2R f) by (apply Rmult_le_pos; lra).
  assert (UP : rnd32 (B2R t * B2R f) <= (B2R t * B2R f) * (1 + u24)).
  { destruct TL as [->|TL]; [rewrite Rmult_0_l, rnd32_0; lra|]. apply rnd32_up.
    apply Rle_trans with (bpow radix2 (-100) * (1 / 2)); [|apply Rmult_le_compat; lra].
    replace (1 / 2) with (bpow radix2 (-1)) by (cbn; lra). rewrite <- bpow_plus. apply bpow_le. lia. }
  assert (M : (B2R t * B2R f) * (1 + u24) <= (B2R a + B2R w / 2) * G).
  { apply Rle_trans with ((2 * B2R a + B2R w) * (1 + u24) * (1 / 2 + D + e18) * (1 + u24)).
    - apply Rmult_le_compat_r; [unfold u24; lra|]. apply Rmult_le_compat; lra.
    - replace ((2 * B2R a + B2R w) * (1 + u24) * (1 / 2 + D + e18) * (1 + u24)) with ((B2R a + B2R w / 2) * (2 * (1 / 2 + D + e18) * ((1 + u24) * (1 + u24)))) by field.
      apply Rmult_le_compat_l; [lra|]. apply Rle_trans with (2 := GD). apply Rmult_le_compat_l; [lra|]. unfold u24. lra. }
  assert (NEW : rnd32 (B2R t * B2R f) + 6 / 10 * P <= 16 / 10 * P * G ^ S j).
  { cbn [pow]. apply Rle_trans with ((B2R a + 6 / 10 * P) * G); [|replace (16 / 10 * P * (G * G ^ j)) with (16 / 10 * P * G ^ j * G) by ring; apply Rmult_le_compat_r; lra].
    assert (B2R w / 2 * G <= P / 2 * G) by (apply Rmult_le_compat_r; lra). nra. }
  assert (PN : 0 <= rnd32 (B2R t * B2R f)) by (apply rnd32_pos; auto).
  destruct (proj1 (Bmult_fin 24 128 t f FT FF)) as [FG VG].
  { rewrite Rabs_pos_eq by auto. apply Rle_lt_trans with (bpow radix2 120); [lra|apply bpow_lt; lia]. }
  assert (GE : B2R a <= rnd32 (B2R t * B2R f)).
  { rewrite <- (rnd32_b2r a). apply rnd32_mono. apply Rle_trans with (2 * B2R a * (1 / 2)); [lra|]. apply Rmult_le_compat; lra. }
  constructor; auto; unfold grown; fold t f; rewrite ?VG; auto; [lra|].
  destruct TL as [TL|TL]; [left; rewrite TL, Rmult_0_l; apply rnd32_0|].
  destruct A0 as [A0|A0]; [|right; lra]. 
  left. assert (B2R w = 0) by lra. rewrite VT, H, A0, Rmult_0_r, Rplus_0_l, rnd32_0, Rmult_0_l. apply rnd32_0.
Qed.

Section I.
Variables (pow32 : b32 -> b32 -> b32) (pow64 : b64 -> b64 -> b64).
Let Ar : Arith := ieee pow32 pow64.
Local Existing Instance Ar.
Notation box := (box_px pow32 pow64).
Notation zone := (zone pow32 pow64).

Definition fin_px (p : @px Ar) : Prop := is_finite (pa p) = true /\ is_finite (pr p) = true /\ is_finite (pg p) = true /\ is_finite (pb p) = true.
Lemma box_fin (p : @px Ar) : box p -> fin_px p.
Proof. intros (H1 & H2 & H3 & H4). repeat split; [apply H1|apply H2|apply H3|apply H4]. Qed.

(** The distance of two colours from the differences of their channels. *)
Lemma diff_bound (s o : @px Ar) rr rg : fin_px s -> fin_px o -> 0 <= rr <= 4 -> 0 <= rg <= 4.5 -> Rabs (B2R (pa o) - B2R (pa s)) <= 4 ->
  Rabs (B2R (pr s) - B2R (pr o)) <= rr -> Rabs (B2R (pr s) - B2R (pr o) + (B2R (pa o) - B2R (pa s))) <= rr ->
  Rabs (B2R (pb s) - B2R (pb o)) <= rr -> Rabs (B2R (pb s) - B2R (pb o) + (B2R (pa o) - B2R (pa s))) <= rr ->
  Rabs (B2R (pg s) - B2R (pg o)) <= rg -> Rabs (B2R (pg s) - B2R (pg o) + (B2R (pa o) - B2R (pa s))) <= rg ->
  is_finite (diff s o : b32) = true /\ 0 <= B2R (diff s o : b32) <= 2 * (rr * rr) + rg * rg + / 512.
Proof.
  intros (A1 & A2 & A3 & A4) (B1 & B2 & B3 & B4) R G HA R1 R2 C1 C2 G1 G2. 
  assert (Pe : e18 = / 262144) by reflexivity.
  destruct (sub_val (pa o) (pa s) B1 A1) as [Fa Va]; [rabs; lra|]. set (al := Bminus mode_NE (pa o) (pa s)) in *.
  assert (HA' : Rabs (B2R al) <= 5) by (rabs; lra).
  assert (Q : forall r, 0 <= r <= 4.5 -> (r + e18) * (r + e18) <= r * r + / 8192) by (intros r Hr; rewrite Pe; nra).
  destruct (chan_bound (pr s) (pr o) al (rr + e18) A2 B2 Fa) as [F1 V1]; [lra|auto|rabs; lra|rabs; lra|].
  destruct (chan_bound (pg s) (pg o) al (rg + e18) A3 B3 Fa) as [F2 V2]; [lra|auto|rabs; lra|rabs; lra|].
  destruct (chan_bound (pb s) (pb o) al (rr + e18) A4 B4 Fa) as [F3 V3]; [lra|auto|rabs; lra|rabs; lra|].
  pose proof (Q rr ltac:(lra)) as Q1. pose proof (Q rg ltac:(lra)) as Q2.
  assert (S1 : rr * rr <= 16) by nra. assert (S2 : rg * rg <= 20.25) by nra.
  cbv zeta in F1, F2, F3, V1, V2, V3.
  match type of F1 with is_finite ?v = true => set (v1 := v) in * end. match type of F2 with is_finite ?v = true => set (v2 := v) in * end.
  match type of F3 with is_finite ?v = true => set (v3 := v) in * end.
  change (diff s o) with (Bplus mode_NE (Bplus mode_NE v1 v2) v3).
  destruct (add_val v1 v2 F1 F2) as [F4 V4]; [rewrite Rabs_pos_eq; lra|].
  assert (P4 : 0 <= B2R (Bplus mode_NE v1 v2)).
  { destruct (Bplus_fin 24 128 v1 v2 F1 F2) as [X1 X2]. destruct (X1 (X2 F4)) as [_ ->]. apply rnd32_pos. lra. }
  apply Rabs_le_inv in V4.
  destruct (add_val (Bplus mode_NE v1 v2) v3 F4 F3) as [F5 V5]; [rewrite Rabs_pos_eq; lra|].
  assert (P5 : 0 <= B2R (Bplus mode_NE (Bplus mode_NE v1 v2) v3)).
  { destruct (Bplus_fin 24 128 _ v3 F4 F3) as [X1 X2]. destruct (X1 (X2 F5)) as [_ ->]. apply rnd32_pos. lra. }
  apply Rabs_le_inv in V5. split; [exact F5|]. split; [exact P5|]. lra.
Qed.

(** The mirror image of palette colour [r] with respect to [p] and any palette colour. *)
Definition reach (k hr hg : R) : R := 2 * ((2 * k + 2 * hr) * (2 * k + 2 * hr)) + (2 * k + 2 * hg) * (2 * k + 2 * hg) + / 128.
Lemma mirror_bound k hr hg (p r q : @px Ar) : 1 / 2 <= k <= 1 -> 0 <= hr <= 1 / 2 -> 0 <= hg <= 1 -> zone k hr hg p -> zone k hr hg r -> zone k hr hg q ->
  let x := px_sub (px_add p p) r in
  (is_finite (diff x q : b32) = true /\ 0 <= B2R (diff x q : b32) <= reach k hr hg) /\ (is_finite (diff q x : b32) = true /\ 0 <= B2R (diff q x : b32) <= reach k hr hg).
Proof.
  intros K HR HG (BP & P1 & P2 & P3 & P4) (BR & R1 & R2 & R3 & R4) (BQ & Q1 & Q2 & Q3 & Q4) x.
  pose proof (box_bounds pow32 pow64 p BP) as NP. pose proof (box_bounds pow32 pow64 r BR) as NR. pose proof (box_bounds pow32 pow64 q BQ) as NQ.
  change (ieee pow32 pow64) with Ar in P1, P2, P3, P4, R1, R2, R3, R4, Q1, Q2, Q3, Q4, NP, NR, NQ.
  apply box_fin in BP, BR. pose proof (box_fin q BQ) as FQ. destruct BP as (F1 & F2 & F3 & F4), BR as (G1 & G2 & G3 & G4).
  assert (Pe : e18 = / 262144) by reflexivity.
  assert (M : forall c d : b32, is_finite c = true -> is_finite d = true -> 0 <= B2R c <= 1 -> 0 <= B2R d <= 1 ->
    is_finite (Bminus mode_NE (Bplus mode_NE c c) d) = true /\ Rabs (B2R (Bminus mode_NE (Bplus mode_NE c c) d) - (2 * B2R c - B2R d)) <= 2 * e18).
  { intros c d Fc Fd Hc Hd. destruct (add_val c c Fc Fc) as [Fs Vs]; [rabs; lra|].
    destruct (sub_val (Bplus mode_NE c c) d Fs Fd) as [Ft Vt]; [rabs; lra|]. split; auto. rabs. lra. }
  destruct (M (pa p) (pa r) F1 G1 ltac:(lra) ltac:(lra)) as [Xa Va]. destruct (M (pr p) (pr r) F2 G2 ltac:(lra) ltac:(lra)) as [Xr Vr].
  destruct (M (pg p) (pg r) F3 G3 ltac:(lra) ltac:(lra)) as [Xg Vg]. destruct (M (pb p) (pb r) F4 G4 ltac:(lra) ltac:(lra)) as [Xb Vb].
  assert (FX : fin_px x) by (split; [exact Xa|split; [exact Xr|split; [exact Xg|exact Xb]]]).
  change (Bminus mode_NE (Bplus mode_NE (pa p) (pa p)) (pa r)) with (pa x) in Va. change (Bminus mode_NE (Bplus mode_NE (pr p) (pr p)) (pr r)) with (pr x) in Vr.
  change (Bminus mode_NE (Bplus mode_NE (pg p) (pg p)) (pg r)) with (pg x) in Vg. change (Bminus mode_NE (Bplus mode_NE (pb p) (pb p)) (pb r)) with (pb x) in Vb.
  clearbody x. apply Rabs_le_inv in Va, Vr, Vg, Vb.
  assert (W : forall s o, fin_px s -> fin_px o -> (s = x /\ o = q) \/ (s = q /\ o = x) ->
    is_finite (diff s o : b32) = true /\ 0 <= B2R (diff s o : b32) <= reach k hr hg).
  { intros s o Fs Fo D. 
    assert (Z : 2 * ((2 * k + 2 * hr + 4 * e18) * (2 * k + 2 * hr + 4 * e18)) + (2 * k + 2 * hg + 4 * e18) * (2 * k + 2 * hg + 4 * e18) + / 512 <= reach k hr hg) by (unfold reach; rewrite Pe; nra).
    destruct (diff_bound s o (2 * k + 2 * hr + 4 * e18) (2 * k + 2 * hg + 4 * e18) Fs Fo) as [FD VD]; try lra; [..|split; [exact FD|lra]];
      destruct D as [[-> ->]|[-> ->]]; apply Rabs_le; lra. }
  split; apply W; auto.
Qed.
End I.
