(** Ranges of the progress numbers in IEEE arithmetic. *)
From Verif Require Import Base BaseFacts Arith Order Pal World Attr Hist Kmeans ImageM Quant Remap
  AttrFacts SpecAttr SpecHist SpecImage ImageFacts Api ApiFacts Ieee IeeeFacts SpecProgress ProgressFacts.
From Coq Require Import Reals Lra.
From Flocq Require Import Core.Core Relative IEEE754.BinarySingleNaN.
Open Scope Z_scope.

(** The three stages for each speed. *)
Definition stages : list (Z * Z * Z) :=
  [(20, 55, 25); (20, 64, 16); (20, 68, 12); (20, 70, 10); (20, 72, 8); (20, 73, 7); (50, 44, 6); (38, 57, 5); (38, 58, 4)].
Lemma usable_stages {A : Arith} a : usable a -> In (a_st1 a, a_st2 a, a_st3 a) stages.
Proof.
  induction 1 as [|a c a' U IH T E|a b U IH]; [vm_compute; auto 10| |exact IH].
  destruct c; cbn [apply_call] in E.
  - unfold set_max_colors in E. destruct (negb _); okinv E. exact IH.
  - pose proof (set_speed_range _ _ _ E) as R. revert E. pattern v. apply speed_cases; auto; intros E; cbn in E; inversion E; subst; cbn; auto 20.
  - unfold set_min_posterization in E. destruct (negb _); okinv E. exact IH.
  - unfold set_quality in E. destruct (_ || _)%bool; okinv E. exact IH.
Qed.


(** * Remapping *)
Section Remapping.
Notation rnd := (round radix2 (SpecFloat.fexp 24 128) ZnearestE).
Open Scope R_scope.
Lemma rnd_rel_up x : 0 <= x -> (x = 0 \/ 1 <= x) -> rnd x <= x * (1 + / 16777216) /\ x * (1 - / 16777216) <= rnd x.
Proof.
  intros H0 [-> | H1].
  { replace (rnd 0) with 0 by (symmetry; apply round_0; apply valid_rnd_N). lra. }
  assert (E : Rabs (rnd x - x) <= / 2 * bpow radix2 (- 24 + 1) * Rabs x).
  { apply (relative_error_N_FLT radix2 (3 - 128 - 24) 24 prec32 (fun x => negb (Z.even x)) x).
    rewrite Rabs_right by lra. apply Rle_trans with 1; [|lra]. change 1 with (bpow radix2 0). apply bpow_le. lia. }
  rewrite (Rabs_right x) in E by lra. replace (/ 2 * bpow radix2 (- 24 + 1)) with (/ 16777216) in E by (cbn; lra).
  apply Rabs_le_inv in E. split; lra.
Qed.
Lemma pct_upper s h : 0 <= s -> (s = 0 \/ 1 <= s) -> 1 <= h -> (s <= h * (1 - / 4096) \/ (s <= h - 1 /\ h <= 16777216 /\ rnd s = s /\ rnd h = h)) ->
  rnd s * (1 + / 16777216) <= rnd h.
Proof.
  intros H0 HS H1 [H|(H & H2 & -> & ->)].
  - destruct (rnd_rel_up s H0 HS) as [U _]. destruct (rnd_rel_up h) as [_ L]; [lra|lra|]. lra.
  - lra.
Qed.
Lemma small_finite x : 0 <= x <= 2 ^ 64 -> Rabs (rnd x) < bpow radix2 128.
Proof.
  intros [H0 H]. assert (L : 0 <= rnd x <= bpow radix2 64).
  { split.
    - rewrite <- (round_0 radix2 (SpecFloat.fexp 24 128) ZnearestE). apply (rnd_le 24 128); auto.
    - apply round_le_generic; [exact (fexp_correct 24 128 prec32)|apply valid_rnd_N| |].
      + apply generic_format_bpow. unfold SpecFloat.fexp, SpecFloat.emin. lia.
      + replace (bpow radix2 64) with (2 ^ 64) by (cbn; lra). auto. }
  rewrite Rabs_right by lra. apply Rle_lt_trans with (bpow radix2 64); [lra|]. apply bpow_lt. lia.
Qed.
(** [st1 + start*(100-st1)/h] *)
Definition chunk_pct (st1 s h : Z) : b32 :=
  Bplus mode_NE (BofZ 24 128 st1)
    (Bdiv mode_NE (Bmult mode_NE (BofZ 24 128 s) (Bminus mode_NE (BofZ 24 128 100) (BofZ 24 128 st1))) (BofZ 24 128 h)).
Lemma hundred : is_finite (BofZ 24 128 100) = true /\ B2R (BofZ 24 128 100) = 100.
Proof. apply BofZ_exact; vm_compute; congruence. Qed.
Lemma zero : is_finite (BofZ 24 128 0) = true /\ B2R (BofZ 24 128 0) = 0.
Proof. apply BofZ_exact; vm_compute; congruence. Qed.
Lemma chunk_range st1 s h : st1 = 0%Z \/ st1 = 20%Z -> (0 <= s < h)%Z -> (h < 2 ^ 31)%Z ->
  (h <= 2 ^ 24 \/ 4096 * s <= 4095 * h)%Z -> in_range (chunk_pct st1 s h) = true.
Proof.
  intros Hst Hs Hh Hc. set (K := (100 - IZR st1)).
  assert (HK : 80 <= K <= 100) by (unfold K; destruct Hst as [-> | ->]; lra).
  assert (F1 : is_finite (BofZ 24 128 st1) = true /\ B2R (BofZ 24 128 st1) = IZR st1).
  { apply BofZ_exact; try lia; destruct Hst as [-> | ->]; cbn; lia. }
  assert (F2 : is_finite (Bminus mode_NE (BofZ 24 128 100) (BofZ 24 128 st1)) = true /\
               B2R (Bminus mode_NE (BofZ 24 128 100) (BofZ 24 128 st1)) = K).
  { destruct hundred as [G1 G2]. destruct F1 as [F1 V1].
    assert (RK : rnd K = K).
    { apply round_generic; [apply valid_rnd_N|]. unfold K. rewrite <- minus_IZR. apply format_small_Z; [exact prec32|destruct Hst as [-> | ->]; vm_compute; discriminate|vm_compute; discriminate]. }
    destruct (Bminus_fin 24 128 (BofZ 24 128 100) (BofZ 24 128 st1) G1 F1) as [M _]. rewrite G2, V1 in M. fold K in M. rewrite RK in M. apply M.
    rewrite Rabs_right by lra. apply Rle_lt_trans with (bpow radix2 7); [cbn; lra|]. apply bpow_lt. lia. }
  set (Kf := Bminus mode_NE _ _) in *. destruct F1 as [F1 V1], F2 as [F2 V2].
  assert (Hs' : 0 <= IZR s <= IZR h - 1). { split; [apply IZR_le; lia|]. rewrite <- minus_IZR. apply IZR_le. lia. }
  assert (Hh' : 1 <= IZR h < 2147483648). { split; [apply IZR_le; lia|apply (IZR_lt h 2147483648); lia]. }
  destruct (BofZ_fin 24 128 s) as [FS VS]; [apply small_finite; lra|].
  destruct (BofZ_fin 24 128 h) as [FH VH]; [apply small_finite; lra|].
  assert (S01 : IZR s = 0 \/ 1 <= IZR s).
  { destruct (Z.eq_dec s 0) as [-> |]; [left; auto|right; apply IZR_le; lia]. }
  assert (U : rnd (IZR s) * (1 + / 16777216) <= rnd (IZR h)).
  { apply pct_upper; auto; try lra. destruct Hc as [Hc|Hc].
    - right. split; [lra|]. split; [apply (IZR_le h 16777216); lia|]. split; (apply round_generic; [apply valid_rnd_N|apply format_small_Z; [exact prec32|lia|vm_compute; discriminate]]).
    - left. apply IZR_le in Hc. rewrite !mult_IZR in Hc. lra. }
  set (S := rnd (IZR s)) in *. set (H := rnd (IZR h)) in *.
  destruct (rnd_rel_up (IZR s)) as [SU SL]; try lra. fold S in SU, SL.
  destruct (rnd_rel_up (IZR h)) as [HU HL]; try lra. fold H in HU, HL.
  assert (SS : S = 0 \/ 1 <= S).
  { destruct S01 as [E|E]; [left; unfold S; rewrite E; apply round_0; apply valid_rnd_N|right].
    apply round_ge_generic; [exact (fexp_correct 24 128 prec32)|apply valid_rnd_N| |exact E]. apply (format_small_Z 24 128 1); vm_compute; discriminate. }
  assert (S0 : 0 <= S) by lra. assert (H1 : 0 < H) by lra.
  assert (SK0 : 0 <= S * K) by (apply Rmult_le_pos; lra).
  assert (SK : S * K <= 2 ^ 64) by (apply Rle_trans with (4294967296 * 100); [apply Rmult_le_compat; lra|lra]).
  destruct (Bmult_fin 24 128 (BofZ 24 128 s) Kf FS F2) as [M _]. rewrite VS, V2 in M. fold S in M.
  destruct M as [FM VM]; [apply small_finite; auto|].
  assert (SK1 : S * K = 0 \/ 1 <= S * K).
  { destruct SS as [-> |E]; [left; ring|right]. apply Rle_trans with (1 * 80); [lra|]. apply Rmult_le_compat; lra. }
  assert (MU : rnd (S * K) <= H * K).
  { destruct (rnd_rel_up (S * K) SK0 SK1) as [E _]. apply Rle_trans with (1 := E).
    replace (S * K * (1 + / 16777216)) with (S * (1 + / 16777216) * K) by ring. apply Rmult_le_compat_r; lra. }
  assert (M0 : 0 <= rnd (S * K)) by (rewrite <- (round_0 radix2 (SpecFloat.fexp 24 128) ZnearestE); apply (rnd_le 24 128); auto).
  set (m := rnd (S * K)) in *.
  assert (D : 0 <= m / H <= K).
  { split; [apply Rmult_le_pos; [auto|]; apply Rlt_le, Rinv_0_lt_compat; auto|]. apply Rmult_le_reg_r with H; auto. unfold Rdiv. rewrite Rmult_assoc, Rinv_l by lra. lra. }
  destruct (Bdiv_fin 24 128 (Bmult mode_NE (BofZ 24 128 s) Kf) (BofZ 24 128 h) FM) as [DV _]; [rewrite VH; fold H; lra|].
  rewrite VM, VH in DV. fold H m in DV. destruct DV as [FD VD]; [apply small_finite; lra|].
  assert (RK : rnd K = K).
  { apply round_generic; [apply valid_rnd_N|]. unfold K. rewrite <- minus_IZR. apply format_small_Z; [exact prec32|destruct Hst as [-> | ->]; vm_compute; discriminate|vm_compute; discriminate]. }
  assert (D2 : 0 <= rnd (m / H) <= K).
  { split; [rewrite <- (round_0 radix2 (SpecFloat.fexp 24 128) ZnearestE); apply (rnd_le 24 128); lra|]. rewrite <- RK. apply (rnd_le 24 128). lra. }
  set (d := rnd (m / H)) in *.
  assert (I0 : 0 <= IZR st1) by (destruct Hst as [-> | ->]; lra).
  assert (B : 0 <= IZR st1 + d <= 100) by (unfold K in *; lra).
  unfold chunk_pct. fold Kf. set (X := Bdiv _ _ _) in *.
  destruct (Bplus_fin 24 128 (BofZ 24 128 st1) X F1 FD) as [P _]. rewrite V1, VD in P. destruct P as [FP VP]; [apply small_finite; lra|].
  assert (R100 : rnd 100 = 100) by (apply round_generic; [apply valid_rnd_N|apply (format_small_Z 24 128 100); vm_compute; discriminate]).
  destruct hundred as [G1 G2]. destruct zero as [Z1 Z2].
  unfold in_range. apply andb_true_iff. split; apply Bleb_fin; auto; rewrite VP, ?G2, ?Z2.
  - rewrite <- (round_0 radix2 (SpecFloat.fexp 24 128) ZnearestE). apply (rnd_le 24 128). lra.
  - rewrite <- R100. apply (rnd_le 24 128). lra.
Qed.
Lemma chunk_early h nc j : (2 ^ 24 <= Z.of_nat h)%Z -> (1 <= nc <= 2048)%nat -> (j * ((h + nc - 1) / nc) < h)%nat ->
  (4096 * Z.of_nat (j * ((h + nc - 1) / nc)) <= 4095 * Z.of_nat h)%Z.
Proof.
  intros H N J. set (s := ((h + nc - 1) / nc)%nat) in *.
  assert (E : (s * nc <= h + nc - 1 < s * nc + nc)%nat).
  { pose proof (Nat.div_mod (h + nc - 1) nc ltac:(lia)) as D. pose proof (Nat.mod_upper_bound (h + nc - 1) nc ltac:(lia)) as M. fold s in D. nia. }
  assert (J1 : (j < nc)%nat) by nia. assert (J2 : (j * s + s <= s * nc)%nat) by nia.
  assert (S1 : (h <= 2048 * s)%nat) by nia. lia.
Qed.
End Remapping.
Section Range.
Variables (pow32 : b32 -> b32 -> b32) (pow64 : b64 -> b64 -> b64).
Let A : Arith := ieee pow32 pow64.
Local Existing Instance A.

Definition zs (a : Z) (n : nat) : list Z := map (fun k => a + Z.of_nat k) (seq 0 n).
Lemma in_zs x a n : a <= x < a + Z.of_nat n -> In x (zs a n).
Proof. intros H. apply in_map_iff. exists (Z.to_nat (x - a)). split; [lia|]. apply in_seq. lia. Qed.

Definition search_pct (st1 st2 left total : Z) : f32 :=
  let q := fofZ left /f fofZ (total + 1) in ffma (ffma q (fneg q) f1) (fofZ st2) (fofZ st1).
Definition refine_pct (st1 st2 st3 i it : Z) : f32 :=
  ffma (fofZ i /f fofZ it *f fofZ st3) (flit 89 100) (fofZ st1 +f fofZ st2).
Lemma sweep : forallb (fun '(st1, st2, st3) =>
   in_range (fofZ st1 *f flit 40 100) && in_range f0 && in_range (fofZ st1 *f flit 89 100) && in_range (fofZ st1) &&
   in_range (ffma (fofZ st3) (flit 95 100) (fofZ st1 +f fofZ st2)) &&
   forallb (fun total => forallb (fun left => (total <? left) || in_range (search_pct st1 st2 left total)) (zs 1 47)) (zs 1 47) &&
   forallb (fun it => forallb (fun i => (it <=? i) || in_range (refine_pct st1 st2 st3 i it)) (zs 0 31)) (zs 1 31))%bool stages = true.
Proof. vm_cast_no_check (eq_refl true). Qed.
Lemma quant_range a p : usable a -> quant_pct a p -> in_range p = true.
Proof.
  intros Ua Q. pose proof (proj1 (forallb_forall _ _) sweep _ (usable_stages a Ua)) as S. cbv beta iota in S.
  apply andb_true_iff in S as [S S7]. apply andb_true_iff in S as [S S6]. apply andb_true_iff in S as [S S5].
  apply andb_true_iff in S as [S S4]. apply andb_true_iff in S as [S S3]. apply andb_true_iff in S as [S1 S2].
  destruct Q as [ | | | |lf tt Hl Ht|i it Hi Hit| ]; [exact S1|exact S2|exact S3|exact S4| | |exact S5].
  - rewrite forallb_forall in S6. pose proof (S6 tt (in_zs tt 1 47 ltac:(lia))) as F. rewrite forallb_forall in F.
    specialize (F lf (in_zs lf 1 47 ltac:(lia))). destruct (Z.ltb_spec tt lf); [lia|]. exact F.
  - rewrite forallb_forall in S7. pose proof (S7 it (in_zs it 1 31 ltac:(lia))) as F. rewrite forallb_forall in F.
    specialize (F i (in_zs i 0 31 ltac:(lia))). destruct (Z.leb_spec it i); [lia|]. exact F.
Qed.
Lemma remap_range cpus h p : Z.of_nat h < 2 ^ 31 -> Z.of_nat h <= 2 ^ 24 \/ (cpus <= 2048)%nat -> remap_pct cpus h p -> in_range p = true.
Proof.
  intros Hh Hc R. destruct R as [st1 Hst|st1 Hst|st1 nc j Hst Hn Hj].
  - destruct Hst as [-> | ->]; vm_compute; reflexivity.
  - destruct Hst as [-> | ->]; vm_compute; reflexivity.
  - apply (chunk_range st1 (Z.of_nat (j * ((h + nc - 1) / nc))) (Z.of_nat h) Hst); [set (x := (j * ((h + nc - 1) / nc))%nat) in *; lia|lia|].
    destruct (Z.le_gt_cases (Z.of_nat h) (2 ^ 24)); [left; lia|right]. apply chunk_early; [lia|lia|exact Hj].
Qed.
Lemma quantize_progress u cb a i pxs w : usable a -> image_r i pxs ->
  exists l, w_trace (snd (snd (quantize u cb a (i, w)))) = l ++ w_trace w /\ Forall (fun p => in_range p = true) l.
Proof.
  intros Ua I. destruct (quantize_tells u cb a (usable_ok a Ua) i w) as (l & E & F). exists l. split; auto.
  eapply Forall_impl; [|exact F]. intros p. apply quant_range; auto.
Qed.
Lemma hist_progress u cb a h w : usable a ->
  exists l, w_trace (snd (snd (hist_quantize u cb a (h, w)))) = l ++ w_trace w /\ Forall (fun p => in_range p = true) l.
Proof.
  intros Ua. destruct (quantize_internal_tells u cb a (usable_ok a Ua) true h w) as (l & E & F). exists l. split; auto.
  eapply Forall_impl; [|exact F]. intros p. apply quant_range; auto.
Qed.
Lemma add_progress u cb a h i w : usable a ->
  exists l, w_trace (snd (snd (add_image u cb a (h, i, w)))) = l ++ w_trace w /\ Forall (fun p => in_range p = true) l.
Proof.
  intros Ua. destruct (add_image_tells u cb a h i w) as (l & E & F). exists l. split; auto.
  eapply Forall_impl; [|exact F]. intros p. apply quant_range; auto.
Qed.
Lemma remap_progress u cb m q i pxs buf w : unspec_ok u -> result_r m q -> image_r i pxs -> Z.of_nat (i_h i) <= 2 ^ 24 \/ (u_cpus u <= 2048)%nat ->
  exists l, w_trace (snd (snd (remap_into u cb q i buf w))) = l ++ w_trace w /\ Forall (fun p => in_range p = true) l.
Proof.
  intros U R I Hc. destruct (remap_told u U cb (ieee_cast _ _) m q i pxs buf w R I) as (l & E & F). exists l. split; auto.
  eapply Forall_impl; [|exact F]. intros p. apply remap_range; auto.
  pose proof (height_small i pxs I) as B. rewrite (sh_len _ _ (im_px _ _ (proj1 (proj2 (@objects_ok A (ieee_cast _ _))) _ _ I))) in B. change (Z.of_nat (i_h i) <= I32_MAX) in B.
  unfold I32_MAX in B. lia.
Qed.
End Range.
