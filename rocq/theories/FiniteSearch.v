(** In IEEE arithmetic the palette search keeps every colour finite and in the
    range of pixels' colours, as long as the weights cannot overflow in the
    number of rounds that the search may make. *)
From Coq Require Import Reals Lra.
From Verif Require Import Base BaseFacts Arith Order Ieee IeeeFacts SmallFloat Pal World Attr Hist Nearest MedianCut Kmeans Blur ImageM Quant
  AttrFacts SpecHist ImageFacts HistFacts MedianFacts NearFacts SearchFacts QuantFacts KmeansSched CutInv RoundInv MedianIeee AvgIeee AvgF32 WeightIeee.
From Flocq Require Import IEEE754.BinarySingleNaN Core.Core.
Open Scope R_scope.

Lemma le_slack x p y : x + 6 / 10 * p <= y -> 0 < p -> x <= y.
Proof. lra. Qed.

Section I.
Variables (pow32 : b32 -> b32 -> b32) (pow64 : b64 -> b64 -> b64).
Let Ar : Arith := ieee pow32 pow64.
Local Existing Instance Ar.
Notation box := (box_px pow32 pow64).
Notation zone := (zone pow32 pow64).
Notation ink := (ink pow32 pow64).
Notation inkc := (inkc pow32 pow64).

(** What relates the range of the colours, the growth per round, the largest
    first weight, the largest weight, the rounds and the number of entries. *)
Record regime (kk hr hg G P : R) (k : Z) (T N : nat) : Prop := {
  rg_k : 1 / 2 <= kk <= 1; rg_hr : 0 <= hr <= 1 / 2; rg_hg : 0 <= hg <= 1; rg_P : 0 < P; rg_6 : 6 <= G;
  rg_G : 2 * (1 / 2 + reach kk hr hg + e18) * (1 + / 1048576) <= G;
  rg_cap : 16 / 10 * P * G ^ T <= bpow radix2 k; rg_lo : (-100 <= k <= 120)%Z;
  rg_avg : forall l : list (@hitem Ar), (length l <= N)%nat -> Forall (inkc k) (map core l) -> zone kk hr hg (weighed_average_color l);
  rg_ink : forall p : @px Ar, ink p -> zone kk hr hg p;
  rg_zero : zone kk hr hg px0
}.

Section Regime.
Variables (kk hr hg G P : R) (k : Z) (T N : nat).
Hypothesis RG : regime kk hr hg G P k T N.
Definition GC (j : nat) (c : @px Ar * @f32 Ar * @f32 Ar) : Prop := ink (fst (fst c)) /\ level P G j (snd c) (snd (fst c)).

Lemma pow_cap j : (j <= T)%nat -> 16 / 10 * P * G ^ j <= bpow radix2 k.
Proof.
  intros J. apply Rle_trans with (2 := rg_cap _ _ _ _ _ _ _ _ RG). pose proof (rg_P _ _ _ _ _ _ _ _ RG). pose proof (rg_6 _ _ _ _ _ _ _ _ RG).
  apply Rmult_le_compat_l; [lra|]. apply Rle_pow; [lra|auto].
Qed.
Lemma GC_wt j c : (j <= T)%nat -> GC j c -> inkc k c.
Proof.
  intros J [I [FW FA W WA WP A0 LA]]. split; auto. split; [exact FA|]. split; [exact A0|].
  exact (Rle_trans _ _ _ (le_slack _ _ _ LA (rg_P _ _ _ _ _ _ _ _ RG)) (pow_cap j J)).
Qed.
Lemma GC_S j c : GC j c -> GC (S j) c.
Proof.
  intros [I [FW FA W WA WP A0 LA]]. split; auto. constructor; auto. apply Rle_trans with (1 := LA).
  pose proof (rg_P _ _ _ _ _ _ _ _ RG). pose proof (rg_6 _ _ _ _ _ _ _ _ RG). apply Rmult_le_compat_l; [lra|]. apply Rle_pow; [lra|lia].
Qed.
Lemma GC_moved j (p : @palf Ar) n adj it : (j < T)%nat -> nearest_new p = Ok n -> pal_in (zone kk hr hg) p -> GC j (core it) -> GC (S j) (core (moved n adj it)).
Proof.
  intros J E HP H. destruct adj.
  2:{ change (GC (S j) (core (moved n false it))). rewrite moved_plain. apply GC_S. exact H. }
  destruct (moved_adj p n it E) as (r & q & nd & R & Q & D & EQ). rewrite EQ. destruct H as [I L]. cbn [core fst snd] in I, L. split; [exact I|]. cbn [fst snd].
  apply in_map_iff in R as (er & <- & R). apply in_map_iff in Q as (eq & <- & Q).
  unfold pal_in in HP. rewrite Forall_forall in HP. pose proof (HP _ R) as ZR. pose proof (HP _ Q) as ZQ.
  destruct (mirror_bound pow32 pow64 kk hr hg (h_color it) (fst er) (fst eq) (rg_k _ _ _ _ _ _ _ _ RG) (rg_hr _ _ _ _ _ _ _ _ RG) (rg_hg _ _ _ _ _ _ _ _ RG)
              (rg_ink _ _ _ _ _ _ _ _ RG _ I) ZR ZQ) as [M1 M2].
  assert (ND : is_finite (nd : b32) = true /\ 0 <= B2R (nd : b32) <= reach kk hr hg) by (destruct D as [-> | ->]; [exact M1|exact M2]).
  destruct ND as [F V].
  assert (R60 : 0 <= reach kk hr hg <= 60).
  { split; [lra|]. unfold reach. pose proof (rg_k _ _ _ _ _ _ _ _ RG). pose proof (rg_hr _ _ _ _ _ _ _ _ RG). pose proof (rg_hg _ _ _ _ _ _ _ _ RG).
    assert (X : (2 * kk + 2 * hr) * (2 * kk + 2 * hr) <= 3 * 3) by (apply Rmult_le_compat; lra).
    assert (Y : (2 * kk + 2 * hg) * (2 * kk + 2 * hg) <= 4 * 4) by (apply Rmult_le_compat; lra). lra. }
  refine (level_grow P G (reach kk hr hg) j (h_perc it) (h_adj it) nd (rg_P _ _ _ _ _ _ _ _ RG) (rg_6 _ _ _ _ _ _ _ _ RG) R60 (rg_G _ _ _ _ _ _ _ _ RG) _ L F V).
  apply Rle_trans with (bpow radix2 k); [apply pow_cap; lia|]. apply bpow_le. apply (rg_lo _ _ _ _ _ _ _ _ RG).
Qed.

Lemma km_red ks km (p : @palf Ar) : Forall (fun x => Forall (avg_ok pow32 pow64 (k + 54)) (k_avg x)) ks -> km_reduce ks = Some km ->
  pal_in box p -> pal_in box (fst (km_finalize km p)).
Proof.
  intros F E HP. pose proof (rg_lo _ _ _ _ _ _ _ _ RG) as K.
  pose proof (km_reduce_ok pow32 pow64 (k + 54) (k + 108) ks km ltac:(lia) ltac:(lia) F E) as FA.
  unfold pal_in in *. apply (proj1 (Forall_map fst box _)). apply (km_finalize_ok pow32 pow64 (k + 108)); [lia|exact FA|].
  apply (proj2 (Forall_map fst box _)). exact HP.
Qed.

(** What a round reports is a number when the total weight is one and not 0. *)
Variable t0 : @f64 Ar.
Definition EB (e : @f64 Ar) : Prop := total_ok 90 t0 -> 0 < B2R (t0 : b64) -> is_finite (e : b64) = true.
Lemma b32_low (x : b32) : is_finite x = true -> 0 <= B2R x -> B2R x = 0 \/ bpow radix2 (-149) <= B2R x.
Proof.
  intros F Px. destruct (Req_dec (B2R x) 0) as [E|E]; [auto|right].
  assert (FS : is_finite_strict x = true) by (destruct x; try discriminate; auto; exfalso; apply E; reflexivity).
  pose proof (abs_B2R_ge_emin 24 128 x FS) as H. rewrite Rabs_pos_eq in H by exact Px. exact H.
Qed.
Lemma plain_bound (p q : @px Ar) : box p -> box q ->
  (is_finite (diff p q : b32) = true /\ 0 <= B2R (diff p q : b32) <= 60) /\ (is_finite (diff q p : b32) = true /\ 0 <= B2R (diff q p : b32) <= 60).
Proof.
  assert (W : forall s o : @px Ar, box s -> box o -> is_finite (diff s o : b32) = true /\ 0 <= B2R (diff s o : b32) <= 60).
  { intros s o Bs Bo. pose proof (box_bounds pow32 pow64 s Bs) as NP. pose proof (box_bounds pow32 pow64 o Bo) as NQ.
    change (ieee pow32 pow64) with Ar in NP, NQ.
    destruct (diff_bound pow32 pow64 s o 2 2 (box_fin pow32 pow64 s Bs) (box_fin pow32 pow64 o Bo)) as [FD VD]; try lra; change (ieee pow32 pow64) with Ar;
      [apply Rabs_le; lra..|]. split; [exact FD|]. refine (conj (proj1 VD) (Rle_trans _ _ _ (proj2 VD) _)). lra. }
  intros Bp Bq. split; apply W; auto.
Qed.
Lemma share_ok (nd w : b32) : is_finite nd = true -> 0 <= B2R nd <= 60 -> is_finite w = true -> 0 <= B2R w <= bpow radix2 120 ->
  total_ok 126 (@f2d Ar (@fmul Ar nd w)).
Proof.
  intros Fn Vn Fw Vw. change (@f2d Ar (@fmul Ar nd w)) with (Bconv 53 1024 (Bmult mode_NE nd w)).
  assert (V : 0 <= B2R nd * B2R w <= bpow radix2 126).
  { split; [apply Rmult_le_pos; lra|]. replace 126%Z with (6 + 120)%Z by lia. rewrite bpow_plus. apply Rmult_le_compat; try lra. cbn. lra. }
  assert (RV : 0 <= rnd32 (B2R nd * B2R w) <= bpow radix2 126) by (split; [apply rnd32_pos; lra|apply rnd32_le_bpow; [lia|lra]]).
  destruct (proj1 (Bmult_fin 24 128 nd w Fn Fw)) as [F E].
  { rewrite Rabs_pos_eq by lra. apply Rle_lt_trans with (1 := proj2 RV). apply bpow_lt. lia. }
  destruct (f2d_exact _ F) as [F2 E2]. split; [exact F2|]. rewrite E2. split; [|rewrite E; lra].
  apply b32_low; [exact F|]. rewrite E. lra.
Qed.
Lemma quotient_fin (s : b64) : total_ok 288 s -> EB (@ddiv Ar s t0).
Proof.
  intros TS (F0 & L0 & _) P0. change (@ddiv Ar s t0) with (Bdiv mode_NE (s : b64) (t0 : b64)).
  pose proof (total_pos _ _ TS) as S0. destruct TS as (FS & _ & US).
  assert (LT : bpow radix2 (-149) <= B2R (t0 : b64)) by (destruct L0 as [E|L0]; [exfalso; lra|exact L0]).
  assert (Q : 0 <= B2R s / B2R (t0 : b64) <= bpow radix2 437).
  { split; [apply Rmult_le_pos; [exact S0|apply Rlt_le, Rinv_0_lt_compat; exact P0]|].
    apply Rmult_le_reg_r with (B2R (t0 : b64)); [exact P0|]. unfold Rdiv. rewrite Rmult_assoc, Rinv_l, Rmult_1_r by lra.
    apply Rle_trans with (1 := US). replace 288%Z with (437 + -149)%Z by lia. rewrite bpow_plus. apply Rmult_le_compat_l; [apply bpow_ge_0|exact LT]. }
  refine (proj1 (proj1 (Bdiv_fin 53 1024 s t0 FS ltac:(lra)) _)).
  rewrite Rabs_pos_eq by (apply rnd64_pos; lra). apply Rle_lt_trans with (bpow radix2 437); [apply rnd64_le_bpow; [lia|lra]|apply bpow_lt; lia].
Qed.
Lemma d0_total m : total_ok m (d0 : @f64 Ar).
Proof. destruct (BofZ_exact 53 1024 0) as [F V]; try lia. split; [exact F|]. change (@d0 Ar) with (BofZ 53 1024 0). rewrite V. split; [left; reflexivity|apply bpow_ge_0]. Qed.
Lemma round_err th h (p : @palf Ar) adj e h' p' : (forall n, covers n (th n)) -> hi_total h = t0 ->
  (forall n it, nearest_new p = Ok n -> In it (hi_items h) -> total_ok 126 (miss n adj it)) ->
  iteration_with th h p adj = Ok (e, h', p') -> EB e.
Proof.
  intros CV HT M E.
  destruct (@round_error Ar (total_ok 126) (total_ok 180) (total_ok 234) (total_ok 288)) with (th := th) (h := h) (p := p) (adj := adj) (e := e) (h' := h') (p' := p') as [->|(s & S & ->)]; auto.
  - apply d0_total.
  - apply d0_total.
  - intros s x Hs Hx. exact (proj1 (total_add 126 180 s x ltac:(lia) ltac:(lia) Hs Hx)).
  - intros s x Hs Hx. exact (proj1 (total_add 180 234 s x ltac:(lia) ltac:(lia) Hs Hx)).
  - intros s x Hs Hx. exact (proj1 (total_add 234 288 s x ltac:(lia) ltac:(lia) Hs Hx)).
  - intros x Hx. apply (total_le 234); [exact Hx|lia].
  - intros _ _. exact (proj1 (d0_total 0)).
  - rewrite HT. apply quotient_fin. exact S.
Qed.
Lemma level_perc j c : GC j c -> (j <= T)%nat -> is_finite (snd c : b32) = true /\ 0 <= B2R (snd c : b32) <= bpow radix2 120.
Proof.
  intros [_ [FW FA W WA WP A0 LA]] J. split; [exact FW|]. split; [destruct W as [->|W]; [lra|pose proof (bpow_gt_0 radix2 (-100)); lra]|].
  apply Rle_trans with (1 := WA).
  exact (Rle_trans _ _ _ (Rle_trans _ _ _ (le_slack _ _ _ LA (rg_P _ _ _ _ _ _ _ _ RG)) (pow_cap j J)) (bpow_le radix2 k 120 (proj2 (rg_lo _ _ _ _ _ _ _ _ RG)))).
Qed.
Lemma reach_60 : 0 <= reach kk hr hg <= 60.
Proof.
  unfold reach. pose proof (rg_k _ _ _ _ _ _ _ _ RG). pose proof (rg_hr _ _ _ _ _ _ _ _ RG). pose proof (rg_hg _ _ _ _ _ _ _ _ RG).
  assert (X : 0 <= (2 * kk + 2 * hr) * (2 * kk + 2 * hr) <= 3 * 3) by (split; [apply Rmult_le_pos; lra|apply Rmult_le_compat; lra]).
  assert (Y : 0 <= (2 * kk + 2 * hg) * (2 * kk + 2 * hg) <= 4 * 4) by (split; [apply Rmult_le_pos; lra|apply Rmult_le_compat; lra]). lra.
Qed.
Lemma miss_plain j (p : @palf Ar) n it : (j <= T)%nat -> nearest_new p = Ok n -> pal_in box p -> GC j (core it) -> total_ok 126 (miss n false it).
Proof.
  intros J E HP H. destruct (level_perc j _ H J) as [FW VW]. destruct H as [(B & _) _]. cbn [core fst snd] in *.
  unfold pal_in in HP. rewrite Forall_forall in HP.
  assert (HB : forall pc, In pc (colors_of p) -> box pc) by (intros pc Hp; apply in_map_iff in Hp as (e & <- & He); apply HP; exact He).
  destruct (miss_shape p n false it E) as (r & q & nd & _ & Q & D & ->).
  - intros _ pc Hp. destruct (plain_bound (h_color it) pc B (HB pc Hp)) as [_ [F _]].
    change ((Bltb (diff pc (h_color it) : b32) (B754_infinity false)) = true). destruct (diff pc (h_color it) : b32); try discriminate F; try reflexivity.
  - destruct (plain_bound (h_color it) q B (HB q Q)) as [P1 P2]. destruct D as [-> | ->]; apply share_ok; tauto.
Qed.
Lemma miss_mirror j (p : @palf Ar) n it : (j <= T)%nat -> nearest_new p = Ok n -> pal_in (zone kk hr hg) p -> GC j (core it) -> total_ok 126 (miss n true it).
Proof.
  intros J E HP H. destruct (level_perc j _ H J) as [FW VW]. destruct H as [I _]. cbn [core fst snd] in *.
  destruct (miss_shape p n true it E) as (r & q & nd & R & Q & D & ->); [discriminate|].
  apply in_map_iff in R as (er & <- & R). apply in_map_iff in Q as (eq & <- & Q).
  unfold pal_in in HP. rewrite Forall_forall in HP. pose proof (HP _ R) as ZR. pose proof (HP _ Q) as ZQ.
  destruct (mirror_bound pow32 pow64 kk hr hg (h_color it) (fst er) (fst eq) (rg_k _ _ _ _ _ _ _ _ RG) (rg_hr _ _ _ _ _ _ _ _ RG) (rg_hg _ _ _ _ _ _ _ _ RG)
              (rg_ink _ _ _ _ _ _ _ _ RG _ I) ZR ZQ) as [[M1 M2] [M3 M4]].
  pose proof reach_60 as R60.
  destruct D as [-> | ->]; apply share_ok; auto.
  - exact (conj (proj1 M2) (Rle_trans _ _ _ (proj2 M2) (proj2 R60))).
  - exact (conj (proj1 M4) (Rle_trans _ _ _ (proj2 M4) (proj2 R60))).
Qed.

Variable u : @unspec Ar.
Variable U : unspec_ok u.
Variable cb : @callback Ar.
Variable a : @attrs Ar.
Hypothesis Ha : (1 <= a_max_colors a <= 256)%nat.

Definition HI (j : nat) (h : @hint Ar) : Prop := hint_ok h /\ length (hi_items h) = N /\ all_gc (GC j) (hi_items h) /\ Forall (zone kk hr hg) (hi_fixed h) /\ hi_total h = t0.
Definition PZ : @palf Ar -> Prop := pal_in (zone kk hr hg).
Definition PB : @palf Ar -> Prop := pal_in box.
Lemma PZ_PB p : PZ p -> PB p.
Proof. unfold PZ, PB, pal_in. apply Forall_impl. intros e (B & _). exact B. Qed.

Lemma cutI j h mc t m p0 h1 p1 : (j <= T)%nat -> HI j h -> (1 <= mc <= a_max_colors a)%nat -> mediancut u h mc t m = Ok (p0, h1) ->
  with_fixed_colors p0 (a_max_colors a) (hi_fixed h1) = Ok p1 -> PZ p1 /\ HI j h1.
Proof.
  intros J ((CF & L) & LN & F & FX & HT) M E1 E2.
  assert (T1 : hi_total h1 = hi_total h).
  { destruct (mediancut_ok u U h mc t m CF ltac:(lia) L) as (p2 & h2 & EQ & _ & _ & TT & _). rewrite E1 in EQ. injection EQ as _ ->. exact TT. }
  destruct (@mediancut_zone Ar (GC j) (zone kk hr hg) N) with (u := u) (h := h) (target := mc) (t := t) (m := m) (p := p0) (h' := h1) as (P0 & G1 & L1 & C1 & F1); auto; try lia.
  - intros l Ll Gl. apply (rg_avg _ _ _ _ _ _ _ _ RG); auto. eapply Forall_impl; [|exact Gl]. intros c. apply GC_wt. auto.
  - intros c [I _]. apply (rg_ink _ _ _ _ _ _ _ _ RG). exact I.
  - exact (rg_zero _ _ _ _ _ _ _ _ RG).
  - rewrite F1 in E2. split.
    + eapply (@with_fixed_in Ar); [exact P0|exact FX|exact E2].
    + split; [unfold hint_ok; rewrite C1, L1; auto|]. split; [lia|]. split; [exact G1|]. rewrite F1, T1. split; [exact FX|exact HT].
Qed.
Lemma GC_add j av c w v : (j <= T)%nat -> avg_ok pow32 pow64 (k + 54) av -> GC j (c, w, v) -> avg_ok pow32 pow64 (k + 54) (avg_add av c w).
Proof.
  intros J H G0. pose proof (rg_lo _ _ _ _ _ _ _ _ RG) as K. pose proof (GC_wt j _ J G0) as [[B _] W].
  exact (avg_add_ok pow32 pow64 k (k + 54) av c w ltac:(lia) ltac:(lia) H B W).
Qed.
Lemma iterI j th h (p : palf) adj e h' p' : (forall n, covers n (th n)) -> (j < T)%nat -> HI j h -> PZ p -> iteration_with th h p adj = Ok (e, h', p') -> HI (S j) h' /\ PB p' /\ EB e.
Proof.
  intros CV J ((CF & L) & LN & F & FX & HT) HP E.
  destruct (@round_inv Ar (GC j) (GC (S j)) box (avg_ok pow32 pow64 (k + 54))) with (th := th) (h := h) (p := p) (adj := adj) (e := e) (h' := h') (p' := p') as (G1 & P1 & L1 & C1 & F1 & T1); auto.
  - exact (avg_zero pow32 pow64 (k + 54)).
  - intros av c w v. apply GC_add. lia.
  - exact km_red.
  - intros c [(B & _) _]. exact B.
  - intros n it N0 G0. eapply GC_moved; eauto.
  - apply PZ_PB. exact HP.
  - split; [|split; [exact P1|]].
    + split; [unfold hint_ok; rewrite C1, L1; auto|]. split; [lia|]. split; [exact G1|]. rewrite F1, T1. split; [exact FX|exact HT].
    + eapply (round_err th h p adj e h' p'); [exact CV|exact HT| |exact E]. intros n it N0 Hit. unfold all_gc in F. rewrite Forall_map, Forall_forall in F. destruct adj.
      * eapply (miss_mirror j); [lia|exact N0|exact HP|apply F; exact Hit].
      * eapply (miss_plain j); [lia|exact N0|apply PZ_PB; exact HP|apply F; exact Hit].
Qed.
Lemma refI j th h (p : palf) e h' p' : (forall n, covers n (th n)) -> (j <= T)%nat -> HI j h -> PB p -> iteration_with th h p false = Ok (e, h', p') -> HI j h' /\ PB p' /\ EB e.
Proof.
  intros CV J ((CF & L) & LN & F & FX & HT) HP E.
  destruct (@round_inv Ar (GC j) (GC j) box (avg_ok pow32 pow64 (k + 54))) with (th := th) (h := h) (p := p) (adj := false) (e := e) (h' := h') (p' := p') as (G1 & P1 & L1 & C1 & F1 & T1); auto.
  - exact (avg_zero pow32 pow64 (k + 54)).
  - intros av c w v. apply GC_add. lia.
  - exact km_red.
  - intros c [(B & _) _]. exact B.
  - intros n it N0 G0. rewrite moved_plain. exact G0.
  - split; [|split; [exact P1|]].
    + split; [unfold hint_ok; rewrite C1, L1; auto|]. split; [lia|]. split; [exact G1|]. rewrite F1, T1. split; [exact FX|exact HT].
    + eapply (round_err th h p false e h' p'); [exact CV|exact HT| |exact E]. intros n it N0 Hit. unfold all_gc in F. rewrite Forall_map, Forall_forall in F.
      eapply (miss_plain j); [lia|exact N0|exact HP|apply F; exact Hit].
Qed.
Lemma directI h p e : HI 0 h -> (length (hi_items h) <= a_max_colors a)%nat -> palette_from_histogram h (a_max_colors a) = Ok (p, e) -> PB p /\ (forall x, e = Some x -> EB x).
Proof.
  intros (_ & _ & F & FX & _) L E. unfold palette_from_histogram in E.
  pose proof (push_all_ok (fun it => (h_color it, h_perc it)) (hi_items h) []) as Q. cbn [fst snd app length] in Q. rewrite Q in E by lia. cbn [bind] in E.
  apply bind_ok in E as (p1 & E1 & E). inversion E; subst. split; [|intros x QE; injection QE as <-; intros _ _; exact (proj1 (d0_total 0))]. eapply (@with_fixed_in Ar); [| |exact E1].
  - unfold pal_in. apply Forall_map. unfold all_gc in F. rewrite Forall_map in F. eapply Forall_impl; [|exact F]. intros it [(B & _) _]. exact B.
  - eapply Forall_impl; [|exact FX]. intros c (B & _). exact B.
Qed.
Hypothesis trials : (feedback_loop_trials a N <= Z.of_nat T)%Z.
Lemma result_box h freeze gamma w q w' : HI 0 h -> result_new u cb a h freeze gamma w = (Ok q, w') ->
  Forall box (colors_of (q_pal q)) /\ q_gamma q = gamma /\ q_post q = a_post_out a /\ (forall e, q_err q = Some e -> EB e).
Proof.
  intros H E. destruct (@result_new_idx Ar u U cb a HI PZ PB EB T) with (h := h) (freeze := freeze) (gamma := gamma) (w := w) (q := q) (w' := w') as (p & HP & PM & Q1 & _ & _ & Q2 & Q3); auto.
  - exact PZ_PB.
  - exact cutI.
  - exact iterI.
  - exact refI.
  - exact directI.
  - lia.
  - intros h0 (_ & LN & _). rewrite LN. exact trials.
  - split; auto. eapply (@pal_in_colors Ar); eauto.
Qed.
End Regime.

(** The two regimes: up to 50000 entries, and more with fewer rounds. *)
Lemma pow_up G (T n : nat) : 1 <= G -> (T <= n)%nat -> G ^ T <= G ^ n.
Proof. intros. apply Rle_pow; auto. Qed.
Lemma cap20 : 16 / 10 * bpow radix2 31 * (1785 / 100) ^ 20 <= bpow radix2 115.
Proof. 
  replace 115%Z with (31 + 84)%Z by lia. rewrite bpow_plus. pose proof (bpow_gt_0 radix2 31).
  assert (X : 16 / 10 * (1785 / 100) ^ 20 <= bpow radix2 84).
  { replace ((1785 / 100) ^ 20) with (((1785 / 100) ^ 5) ^ 4) by (rewrite <- pow_mult; reflexivity).
    assert (Y : 0 <= (1785 / 100) ^ 5 <= 1812200) by (cbn; lra).
    assert (Z : ((1785 / 100) ^ 5) ^ 4 <= 1812200 ^ 4) by (apply pow_incr; auto).
    change (bpow radix2 84) with (IZR (2 ^ 84)). apply Rle_trans with (16 / 10 * 1812200 ^ 4); [lra|]. cbn. lra. }
  replace (16 / 10 * bpow radix2 31 * (1785 / 100) ^ 20) with (bpow radix2 31 * (16 / 10 * (1785 / 100) ^ 20)) by ring.
  apply Rmult_le_compat_l; lra.
Qed.
Lemma cap15 : 16 / 10 * bpow radix2 31 * (1785 / 100) ^ 15 <= bpow radix2 95.
Proof. 
  replace 95%Z with (31 + 64)%Z by lia. rewrite bpow_plus. pose proof (bpow_gt_0 radix2 31).
  assert (X : 16 / 10 * (1785 / 100) ^ 15 <= bpow radix2 64).
  { replace ((1785 / 100) ^ 15) with (((1785 / 100) ^ 5) ^ 3) by (rewrite <- pow_mult; reflexivity).
    assert (Y : 0 <= (1785 / 100) ^ 5 <= 1812200) by (cbn; lra).
    assert (Z : ((1785 / 100) ^ 5) ^ 3 <= 1812200 ^ 3) by (apply pow_incr; auto).
    change (bpow radix2 64) with (IZR (2 ^ 64)). apply Rle_trans with (16 / 10 * 1812200 ^ 3); [lra|]. cbn. lra. }
  replace (16 / 10 * bpow radix2 31 * (1785 / 100) ^ 15) with (bpow radix2 31 * (16 / 10 * (1785 / 100) ^ 15)) by ring.
  apply Rmult_le_compat_l; lra.
Qed.
Lemma cap11 : 16 / 10 * bpow radix2 31 * (691 / 10) ^ 11 <= bpow radix2 99.
Proof. 
  replace 99%Z with (31 + 68)%Z by lia. rewrite bpow_plus. pose proof (bpow_gt_0 radix2 31).
  assert (X : 16 / 10 * (691 / 10) ^ 11 <= bpow radix2 68) by (change (bpow radix2 68) with (IZR (2 ^ 68)); cbn; lra).
  replace (16 / 10 * bpow radix2 31 * (691 / 10) ^ 11) with (bpow radix2 31 * (16 / 10 * (691 / 10) ^ 11)) by ring.
  apply Rmult_le_compat_l; lra.
Qed.
Lemma regime_small (T N : nat) : modest_n N -> (Z.of_nat T <= 20)%Z -> (5000 < Z.of_nat N -> Z.of_nat T <= 15)%Z ->
  exists k, regime K1 0 (1 / 2) (1785 / 100) (bpow radix2 31) k T N.
Proof.
  intros MN T20 T15. 
  assert (B31 : 0 < bpow radix2 31) by apply bpow_gt_0.
  assert (C : forall k, (-100 <= k <= 120)%Z -> fits k N -> 16 / 10 * bpow radix2 31 * (1785 / 100) ^ T <= bpow radix2 k -> regime K1 0 (1 / 2) (1785 / 100) (bpow radix2 31) k T N).
  { intros k K F CAP. constructor; auto; try (unfold K1; lra).
    - unfold reach, K1, e18. lra.
    - intros l L FC. destruct (average_zone pow32 pow64 k l (fits_le _ _ _ F L) FC) as [_ H]. apply H. exact (Z.le_trans _ _ _ (inj_le _ _ L) MN).
    - intros p. apply ink_zone.
    - apply px0_zone. }
  destruct (Z.le_gt_cases (Z.of_nat N) 5000) as [S5|S5].
  - exists 115%Z. apply C; [lia| |].
    + split; [lia|]. right. split; [lia|]. apply Rle_lt_trans with (IZR 5000 * bpow radix2 115); [apply Rmult_le_compat_r; [apply bpow_ge_0|apply IZR_le; auto]|].
      replace 128%Z with (13 + 115)%Z by lia. rewrite bpow_plus. apply Rmult_lt_compat_r; [apply bpow_gt_0|]. cbn. lra.
    + apply Rle_trans with (2 := cap20). apply Rmult_le_compat_l; [lra|]. apply pow_up; [lra|lia].
  - exists 95%Z. apply C; [lia|split; [lia|left; lia]|].
    apply Rle_trans with (2 := cap15). apply Rmult_le_compat_l; [lra|]. apply pow_up; [lra|lia].
Qed.
Lemma regime_large (T N : nat) : (Z.of_nat T <= 11)%Z -> exists k, regime 1 (1 / 2) 1 (691 / 10) (bpow radix2 31) k T N.
Proof.
  intros T11. exists 99%Z. assert (B31 : 0 < bpow radix2 31) by apply bpow_gt_0.
  constructor; auto; try lra; try lia.
  - unfold reach, e18. lra.
  - apply Rle_trans with (2 := cap11). apply Rmult_le_compat_l; [lra|]. apply pow_up; [lra|lia].
  - intros l L FC. apply box_zone. refine (proj1 (average_zone pow32 pow64 99 l _ FC)). split; [lia|left; lia].
  - intros p (B & _). apply box_zone. exact B.
  - apply box_zone, px0_box.
Qed.
End I.
