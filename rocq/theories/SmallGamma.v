(** Gammas close to 0: the powers of dark channels underflow. *)
From Coq Require Import Reals Lra Permutation.
From Verif Require Import Base BaseFacts Arith Order Ieee IeeeFacts Pal World Attr Hist Nearest Kmeans Blur ImageM Quant Remap SpecHist SpecPow
  HistFacts AttrFacts Api ApiFacts PowRef ContrastIeee ColorFacts GammaFacts FewFacts FewImage.
From Flocq Require Import IEEE754.BinarySingleNaN Core.Core.
Open Scope R_scope.

Lemma Bof_tiny r : 0 < r < bpow radix2 (-150) -> Bof 24 128 r = B754_zero false.
Proof.
  intros [P L]. unfold Bof. assert (C : cexp radix2 (SpecFloat.fexp 24 128) r = (-149)%Z).
  { unfold cexp. destruct (mag radix2 r) as [k Hk]. cbn [mag_val]. specialize (Hk ltac:(lra)). rewrite Rabs_pos_eq in Hk by lra.
    assert (K : (k - 1 < -150)%Z) by (apply (lt_bpow radix2); lra). unfold SpecFloat.fexp, SpecFloat.emin. lia. }
  assert (M : ZnearestE (scaled_mantissa radix2 (SpecFloat.fexp 24 128) r) = 0%Z).
  { unfold scaled_mantissa. rewrite C. assert (B : 0 < bpow radix2 149) by apply bpow_gt_0. assert (H : r * bpow radix2 149 < / 2).
    { apply Rlt_le_trans with (bpow radix2 (-150) * bpow radix2 149); [apply Rmult_lt_compat_r; auto|]. rewrite <- bpow_plus. cbn. lra. }
    apply Znearest_imp. change (IZR 0) with 0. rewrite Rminus_0_r, Rabs_pos_eq; [exact H|]. left. apply Rmult_lt_0_compat; auto. }
  rewrite M, C. reflexivity.
Qed.

Notation Ar := (ieee pow32_ref pow64_ref).
(** The gamma 1/64. *)
Definition g64 : b64 := Bdiv mode_NE (BofZ 53 1024 1) (BofZ 53 1024 64).
Lemma g64_ok : is_finite g64 = true /\ B2R g64 = / 64.
Proof. split; [vm_compute; reflexivity|]. vm_compute. lra. Qed.

Lemma lut_dark v : (v = 1 \/ v = 2)%Z -> @gamma_lut Ar g64 v = B754_zero false.
Proof.
  intros V. unfold gamma_lut.
  set (x := @fdiv Ar (@fofZ Ar v) (@fofZ Ar 255)). set (e := @d2f Ar (@ddiv Ar (@INTERNAL_GAMMA Ar) g64)). change (pow32_ref (x : b32) (e : b32) = B754_zero false).
  assert (X : 0 < B2R (x : b32) <= bpow radix2 (-6)).
  { assert (T : B2R (Bdiv mode_NE (BofZ 24 128 1) (BofZ 24 128 64)) = bpow radix2 (-6)) by (vm_compute; lra).
    assert (T2 : 0 < B2R (Bdiv mode_NE (BofZ 24 128 1) (BofZ 24 128 256))) by (vm_compute; lra).
    rewrite <- T. split; [apply Rlt_le_trans with (1 := T2)|]; apply b2r_le; destruct V as [-> | ->]; vm_compute; reflexivity. }
  assert (EE : 36 <= B2R (e : b32)).
  { assert (T : B2R (BofZ 24 128 36) = 36) by (vm_compute; lra). rewrite <- T. apply b2r_le; vm_compute; reflexivity. }
  assert (R : pow32_ref (x : b32) (e : b32) = Bof 24 128 (Rpower (B2R (x : b32)) (B2R (e : b32)))).
  { unfold pow32_ref. destruct (x : b32); auto. cbn in X. lra. }
  rewrite R. apply Bof_tiny. split; [apply exp_pos|].
  apply Rle_lt_trans with (Rpower (bpow radix2 (-6)) 36).
  - unfold Rpower. apply exp_le. assert (LN : ln (B2R (x : b32)) <= ln (bpow radix2 (-6))).
    { destruct X as [X1 [X2|X2]]; [left; apply ln_increasing; auto|rewrite X2; lra]. }
    assert (NG : ln (bpow radix2 (-6)) < 0) by (rewrite <- ln_1; apply ln_increasing; [apply bpow_gt_0|cbn; lra]).
    nra.
  - replace 36 with (INR 36) by (rewrite INR_IZR_INZ; reflexivity). rewrite Rpower_pow by apply bpow_gt_0.
    replace (bpow radix2 (-6) ^ 36) with (bpow radix2 (-216)); [apply bpow_lt; lia|]. cbn. lra.
Qed.

Definition dim1 : rgba := Rgba 1 1 1 255.
Definition dim2 : rgba := Rgba 2 2 2 255.
Lemma dark_same : @from_rgba Ar (@gamma_lut Ar g64) dim1 = @from_rgba Ar (@gamma_lut Ar g64) dim2.
Proof. unfold from_rgba, dim1, dim2. cbn [cr cg cb ca]. rewrite (lut_dark 1), (lut_dark 2) by auto. reflexivity. Qed.

Definition dark_hist : @hist Ar :=
  match @add_colors Ar (@hist_new Ar (@attrs_new Ar)) [(dim1, 1%Z); (dim2, 1%Z)] g64 with Ok h => h | _ => @hist_new Ar (@attrs_new Ar) end.
Lemma dark_made : @add_colors Ar (@hist_new Ar (@attrs_new Ar)) [(dim1, 1%Z); (dim2, 1%Z)] g64 = Ok dark_hist.
Proof.
  unfold dark_hist, add_colors. assert (G : @gamma_in_0_1 Ar g64 = true) by (vm_compute; reflexivity). rewrite G. reflexivity.
Qed.
Lemma dark_map : hg_map dark_hist = [(dim1, (1%Z, dim1)); (dim2, (1%Z, dim2))] /\ hg_fixed dark_hist = [] /\ hg_gamma dark_hist = Some g64.
Proof.
  unfold dark_hist, add_colors. assert (G : @gamma_in_0_1 Ar g64 = true) by (vm_compute; reflexivity).
  assert (L : @dlt Ar (@d0 Ar) g64 = true) by (vm_compute; reflexivity).
  rewrite G. cbn [negb hg_gamma hist_new length Nat.eqb orb]. rewrite L.
  split; [reflexivity|]. split; reflexivity.
Qed.
Lemma dark_r : @hist_r Ar dark_hist.
Proof.
  eapply (@hr_colors Ar); [exact (@hr_new Ar _ (@us_new Ar))| |exact dark_made].
  repeat (apply Forall_cons || apply Forall_nil); (split; [repeat split; cbn; lia|unfold U32_MAX; cbn [snd]; lia]).
Qed.

(** The palette has no more than one of the two colours. *)
Lemma dark_lost u cb w q s' : unspec_ok u -> @hist_quantize Ar u cb (@attrs_new Ar) (dark_hist, w) = (Ok q, s') ->
  q_err q = Some (@d0 Ar) /\ ~ (In dim1 (fst (@palette Ar q)) /\ In dim2 (fst (@palette Ar q))).
Proof.
  intros U E. pose proof (@us_new Ar) as Ha. pose proof (@usable_ok Ar _ Ha) as [MC _ _ _].
  pose proof (proj1 (@objects_ok Ar (ieee_cast pow32_ref pow64_ref)) _ dark_r) as W. destruct dark_map as (M & F & G).
  assert (TM : @deq Ar (a_target_mse (@attrs_new Ar)) (@d0 Ar) = true) by (vm_compute; reflexivity).
  assert (UG : @used_gamma Ar dark_hist = g64) by (unfold used_gamma; rewrite G; reflexivity).
  assert (US : u_set u [] = []). { apply Permutation_nil. symmetry. apply Permutation_sym, (uo_set u U). }
  assert (IF : hg_map (insert_fixed u dark_hist) = hg_map dark_hist). { unfold insert_fixed. rewrite F, US. reflexivity. }
  destruct (@few_internal Ar u cb (@attrs_new Ar) true dark_hist w q _ U W ltac:(rewrite IF, M; exact (proj1 MC)) ltac:(lia) TM E) as (Q1 & Q2 & _ & Q4 & Q5 & _).
  destruct (@hist_few Ar u cb (@attrs_new Ar) true dark_hist w q _ U Ha W F ltac:(rewrite M; exact (proj1 MC)) TM E) as (_ & _ & P).
  split; [exact Q1|]. rewrite UG, M in P. cbn [map snd] in P. rewrite dark_same in P. set (p := @from_rgba Ar _ dim2) in P.
  assert (ALL : forall k, In k (colors_of (q_pal q)) -> k = p).
  { intros k Hk. apply (Permutation_in _ (Permutation_sym P)) in Hk. destruct Hk as [<-|[<-|[]]]; reflexivity. }
  set (c := rgba_map (fun v => posterize_channel v (q_post q)) (@to_rgb Ar p (q_gamma q))).
  assert (SH : forall s, In s (fst (@palette Ar q)) -> s = c \/ ca s = 0%Z).
  { intros s Hs. unfold palette in Hs. rewrite Q4, Q5 in Hs. cbn [fst init_int_palette] in Hs. apply in_map_iff in Hs as ([k wt] & <- & He).
    assert (k = p) as -> by (apply ALL; unfold colors_of; apply in_map_iff; exists (k, wt); auto).
    unfold int_entry. cbn [fst snd]. fold c. destruct ((ca c =? 0)%Z && _)%bool eqn:X; [right|left; reflexivity].
    apply andb_true_iff in X as [X _]. apply Z.eqb_eq in X. exact X. }
  intros [H1 H2]. destruct (SH _ H1) as [E1|E1]; [|discriminate]. destruct (SH _ H2) as [E2|E2]; [|discriminate]. rewrite <- E1 in E2. discriminate.
Qed.
