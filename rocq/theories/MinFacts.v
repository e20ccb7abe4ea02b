(** The minimum quality setting (C13): what is known about an accepted
    result, on IEEE floats. *)
From Verif Require Import Base Arith Order Pal World Attr Hist ImageM Quant Api Ieee IeeeFacts SpecPow SpecAttr AttrFacts QualityFacts QuantFacts ImageFacts ApiFacts PalFacts.
From Flocq Require Import IEEE754.BinarySingleNaN Core.Core.
From Coq Require Import Reals Lra.

(** The stored limit always comes from a quality setting. *)
Lemma usable_min {A : Arith} a : usable a -> a_max_mse a = None \/
  exists mn, (0 <= mn <= 100)%Z /\ a_max_mse a = Some (quality_to_mse mn).
Proof.
  induction 1 as [|a c a' U IH T E|a b U IH]; [left; reflexivity| |exact IH].
  destruct c; cbn [apply_call] in E.
  - unfold set_max_colors in E. destruct (negb _); okinv E. exact IH.
  - unfold set_speed in E. destruct (negb _); okinv E. exact IH.
  - unfold set_min_posterization in E. destruct (negb _); okinv E. exact IH.
  - unfold set_quality in E. destruct (negb ((0 <=? target)%Z && (target <=? 100)%Z) || (target <? min)%Z)%bool eqn:G; [discriminate|].
    inversion E; subst. right. exists min. cbn in T. split; [lia|reflexivity].
Qed.

Lemma fin_not_nan (x : b64) : is_finite x = true -> is_nan x = false.
Proof. destruct x; intros H; try discriminate H; reflexivity. Qed.
Lemma self_le (x : b64) : is_nan x = false -> Bleb x x = true.
Proof.
  intros N. destruct (is_finite x) eqn:F; [apply Bleb_fin; auto; apply Rle_refl|].
  destruct x as [s|[]| |]; try discriminate; reflexivity.
Qed.

Section Ieee.
Variables (pow32 : b32 -> b32 -> b32) (pow64 : b64 -> b64 -> b64).
Let A := ieee pow32 pow64.
Hypothesis Acc : pow64_accurate pow64.

Lemma limit_fin q : (0 <= q <= 100)%Z ->
  is_finite (@quality_to_mse A q) = true /\ (0 <= B2R (@quality_to_mse A q))%R.
Proof.
  intros Hq. destruct (qtable_entry pow32 pow64 q Hq) as (lo & hi & I1 & W). specialize (W Acc).
  destruct (entry_fin _ _ _ I1) as (_ & _ & _ & _ & P). destruct W as (_ & _ & W3 & W4). split; [exact W3|].
  apply Rle_trans with (2 := proj1 W4). exact P.
Qed.

Notation rnd := (round radix2 (SpecFloat.fexp 53 1024) ZnearestE).
Lemma shrunk (m c : b64) : is_finite m = true -> (0 <= B2R m)%R -> is_finite c = true -> (0 <= B2R c <= 1)%R ->
  Bleb (Bmult mode_NE m c) m = true.
Proof.
  intros Fm Pm Fc Pc. destruct (Bmult_fin 53 1024 m c Fm Fc) as [G _].
  assert (R1 : (0 <= rnd (B2R m * B2R c) <= B2R m)%R).
  { split.
    - rewrite <- (round_0 radix2 (SpecFloat.fexp 53 1024) ZnearestE). apply (rnd_le 53 1024). apply Rmult_le_pos; lra.
    - rewrite <- (rnd_B2R 53 1024 m) at 2. apply (rnd_le 53 1024). apply Rle_trans with (B2R m * 1)%R; [apply Rmult_le_compat_l; lra|lra]. }
  assert (L : (Rabs (rnd (B2R m * B2R c)) < bpow radix2 1024)%R).
  { rewrite Rabs_pos_eq by lra. apply Rle_lt_trans with (Rabs (B2R m)); [rewrite Rabs_pos_eq; lra|]. apply abs_B2R_lt_emax. }
  destruct (G L) as [F V]. apply Bleb_fin; auto. rewrite V. lra.
Qed.
Lemma factor (b : bool) : is_finite (if b then @dlit A 33 100 else @Arith.d1 A) = true /\ (0 <= B2R (if b then @dlit A 33 100 else @Arith.d1 A) <= 1)%R.
Proof.
  assert (B1 : is_finite (B754_zero false : b64) = true) by reflexivity.
  assert (B2 : is_finite (@Arith.d1 A) = true) by (vm_compute; reflexivity).
  assert (V : B2R (@Arith.d1 A) = 1%R) by (apply (BofZ_exact 53 1024 1); vm_compute; congruence).
  assert (B3 : is_finite (@dlit A 33 100) = true) by (vm_compute; reflexivity).
  destruct b; split; auto; [|rewrite V; lra].
  assert (L1 : Bleb (B754_zero false) (@dlit A 33 100) = true) by (vm_compute; reflexivity).
  assert (L2 : Bleb (@dlit A 33 100) (@Arith.d1 A) = true) by (vm_compute; reflexivity).
  apply Bleb_fin in L1, L2; auto. rewrite V in L2. cbn in L1. split; auto.
Qed.

(** An error that is not above the allowed one reads as a quality not below
    the requested minimum. *)
Lemma min_kept (a : @attrs A) cb len (q : @qresult A) e : usable a -> min_respected cb a len q ->
  q_err q = Some e -> dle e e = true -> (fst (get_quality a) <= mse_to_quality e)%Z.
Proof.
  intros U [M _] E N. pose proof (proj1 (quality_scale pow32 pow64)) as Mono. pose proof (proj1 (proj2 (quality_scale pow32 pow64))) as Rng.
  destruct (usable_min a U) as [H|(mn & Hmn & H)]; unfold get_quality; cbn [fst]; rewrite H; [apply Rng|].
  apply Mono. destruct (limit_fin mn Hmn) as [F P]. set (m := @quality_to_mse A mn) in *.
  set (lim := dmul m (if Nat.leb len MAX_COLORS then dlit 33 100 else Arith.d1)).
  assert (M1 : dlt lim e = false).
  { apply M; auto. unfold allowed_mse, target_mse. rewrite H. reflexivity. }
  destruct (factor (Nat.leb len MAX_COLORS)) as [Ff Pf].
  assert (M2 : dle lim m = true) by (apply (shrunk m _ F P Ff Pf)).
  pose proof (@ieee_ord pow32 pow64) as O.
  destruct (@dle_total A O lim e) as [T|T]; auto.
  - eapply (@dle_refl_l A O); eauto.
  - congruence.
  - eapply (@dle_trans A O); eauto.
Qed.
End Ieee.

(** Every result of a quantization respects the limit. *)
Section Any.
Context {A : Arith} {C : CastLaws A}.
Lemma quantize_min u cb a i pxs w q s' : unspec_ok u -> usable a -> image_ok i pxs -> quantize u cb a (i, w) = (Ok q, s') ->
  exists len, min_respected cb a len q.
Proof.
  intros U Ha I E. pose proof (usable_colors a Ha) as Hc. unfold quantize in E.
  pose proof (add_image_ok u cb a (hist_new a) i w pxs U I (hist_new_wf a)) as P.
  destruct (add_image u cb a (hist_new a, i, w)) as [[[]|e|] [[h' i'] w']]; try discriminate. destruct P as (P1 & _).
  pose proof (quantize_internal_ok u U cb a false h' w' Hc P1) as R. unfold runs in R.
  destruct (quantize_internal u cb a false (h', w')) as [[q'|e|] [h2 w2]]; try discriminate. inversion E; subst.
  destruct R as (_ & _ & R2 & _ & R3 & R4 & _ & _ & _ & _ & _ & _ & R5). eauto.
Qed.
Lemma hist_quantize_min u cb a h w q s' : unspec_ok u -> usable a -> hist_wf h -> hist_quantize u cb a (h, w) = (Ok q, s') ->
  exists len, min_respected cb a len q.
Proof.
  intros U Ha W E. pose proof (usable_colors a Ha) as Hc. unfold hist_quantize in E.
  pose proof (quantize_internal_ok u U cb a true h w Hc W) as R. unfold runs in R. rewrite E in R. destruct s' as [h2 w2].
  destruct R as (_ & _ & R2 & _ & R3 & R4 & _ & _ & _ & _ & _ & _ & R5). eauto.
Qed.
End Any.
Lemma made_by_min {A : Arith} (C : CastLaws A) u cb a q : unspec_ok u -> usable a -> made_by u cb a q ->
  exists len, min_respected cb a len q.
Proof.
  intros U Ha [(h & w & s' & H & E)|(i & pxs & w & s' & I & E)].
  - exact (hist_quantize_min u cb a h w q s' U Ha (proj1 objects_ok h H) E).
  - exact (quantize_min u cb a i pxs w q s' U Ha (proj1 (proj2 objects_ok) i pxs I) E).
Qed.
Lemma min_quality pow32 pow64 : pow64_accurate pow64 -> let A := ieee pow32 pow64 in
  forall u cb (a : attrs) (q : qresult) v, unspec_ok u -> usable a -> made_by u cb a q ->
  quantization_quality q = Some v -> (forall e, q_err q = Some e -> is_nan e = false) -> (fst (get_quality a) <= v)%Z.
Proof.
  intros Acc A u cb a q v U Ha M V N. destruct (made_by_min (ieee_cast pow32 pow64) u cb a q U Ha M) as (len & R).
  unfold quantization_quality in V. destruct (q_err q) as [e|] eqn:E; [|discriminate]. inversion V; subst v.
  eapply min_kept; eauto. specialize (N e eq_refl). apply self_le; auto.
Qed.
Lemma error_known {A : Arith} (C : CastLaws A) u cb a q : unspec_ok u -> usable a -> made_by u cb a q ->
  a_max_mse a <> None -> (forall told p, cb told p = false) -> quantization_quality q <> None.
Proof.
  intros U Ha M Mn CB. destruct (made_by_min C u cb a q U Ha M) as (len & _ & R). unfold quantization_quality.
  destruct (usable_ok a Ha) as [_ _ _ P].
  destruct (q_err q) eqn:E; [discriminate|]. exfalso. apply R; auto; [destruct P; lia|]. intros (t & p & H). rewrite CB in H. discriminate.
Qed.
