(** Fixed and frozen palette entries in IEEE arithmetic. *)
From Verif Require Import Base BaseFacts Arith Ieee Order IeeeFacts SpecPow Pal World Attr Hist MedianCut Nearest Kmeans Blur ImageM Quant Remap
  SpecHist SpecImage SpecAttr AttrFacts ImageFacts HistFacts MedianFacts SearchFacts QuantFacts RemapFacts Api ApiFacts ResultFacts SpecPal LnFacts ColorFacts PalFacts FixedFacts.
From Flocq Require Import IEEE754.BinarySingleNaN Core.Core.
From Coq Require Import Reals Lra.
Open Scope R_scope.

Lemma fix_law_ieee pow32 pow64 : @fix_law (ieee pow32 pow64).
Proof.
  intros w. unfold pop_is_fixed, pop_to_fixed. change (@f32 (ieee pow32 pow64)) with b32 in w. cbn [flt ieee fneg].
  change (@f0 (ieee pow32 pow64)) with (BofZ 24 128 0). change (@f1 (ieee pow32 pow64)) with (BofZ 24 128 1).
  destruct (Bltb w (BofZ 24 128 0)) eqn:E1; [exact E1|].
  destruct (Bltb (BofZ 24 128 0) w) eqn:E2; [|reflexivity].
  destruct w as [s|[]| |[] m e B]; try discriminate; reflexivity.
Qed.

Definition K_alpha : b32 := Bdiv mode_NE (BofZ 24 128 256) WA.
Definition MIN_alpha : b32 := Bmult mode_NE (Bdiv mode_NE (BofZ 24 128 1) (BofZ 24 128 256)) WA.
Lemma to_uint_ge (x : b32) z m : is_finite x = true -> (0 <= z <= m)%Z -> IZR z <= B2R x -> (z <= Bto_uint m x)%Z.
Proof.
  intros F Hz L.
  assert (T : IZR (Btrunc x) = IZR (Ztrunc (B2R x))).
  { rewrite Btrunc_correct by reflexivity. unfold round, F2R, scaled_mantissa, cexp, FIX_exp. cbn. rewrite !Rmult_1_r. auto. }
  apply eq_IZR in T.
  assert (Zf : (z <= Zfloor (B2R x))%Z) by (apply Zfloor_lub; auto).
  assert (P : 0 <= B2R x) by (apply Rle_trans with (2 := L); apply IZR_le; lia).
  assert (E : Bto_uint m x = Z.max 0 (Z.min m (Btrunc x))).
  { destruct x as [s|s| |s mm e Hb]; try discriminate; auto. cbn in T |- *. lia. }
  rewrite E, T, Ztrunc_floor by auto. lia.
Qed.
Lemma alpha_one : is_finite (Bmult mode_NE K_alpha MIN_alpha) = true /\ is_finite K_alpha = true /\ is_finite MIN_alpha = true /\
  1 <= B2R (Bmult mode_NE K_alpha MIN_alpha) /\ 0 < B2R MIN_alpha /\ 0 < B2R K_alpha.
Proof.
  repeat split; try (vm_compute; reflexivity).
  - replace 1 with (B2R (BofZ 24 128 1)).
    + apply (Bleb_fin 24 128); vm_compute; reflexivity.
    + rewrite (proj2 (BofZ_exact 24 128 1 ltac:(lia) ltac:(lia) ltac:(lia))); auto.
  - replace 0 with (B2R (BofZ 24 128 0)) by (vm_compute; reflexivity).
    apply (Bltb_fin 24 128); vm_compute; reflexivity.
  - replace 0 with (B2R (BofZ 24 128 0)) by (vm_compute; reflexivity).
    apply (Bltb_fin 24 128); vm_compute; reflexivity.
Qed.
(** A colour whose alpha is a number not below the limit keeps a visible alpha. *)
Lemma alpha_visible (x : b32) : is_nan x = false -> Bltb x MIN_alpha = false -> (1 <= Bto_uint 255 (Bmult mode_NE K_alpha x))%Z.
Proof.
  intros N L. destruct (is_finite x) eqn:F.
  2:{ destruct x as [s|[]| |s m e B]; try discriminate; vm_compute in L |- *; congruence. }
  destruct alpha_one as (F1 & FK & FM & G1 & PM & PK).
  apply (Bltb_fin_false 24 128) in L; auto.
  pose proof (Bmult_correct 24 128 prec32 emax32 mode_NE K_alpha x) as C. cbn [round_mode] in C.
  destruct (Rlt_bool_spec (Rabs (round radix2 (SpecFloat.fexp 24 128) ZnearestE (B2R K_alpha * B2R x))) (bpow radix2 128)) as [H|H].
  - destruct C as (C1 & C2 & _). rewrite FK, F in C2. apply to_uint_ge; [exact C2|lia|].
    change (IZR 1) with 1. apply Rle_trans with (1 := G1). rewrite C1.
    destruct (Bmult_fin 24 128 K_alpha MIN_alpha FK FM) as [M1 M2]. destruct (M1 (M2 F1)) as [_ M3]. rewrite M3.
    apply (rnd_le 24 128). apply Rmult_le_compat_l; lra.
  - assert (S : Bsign x = false).
    { assert (PX : 0 < B2R x) by lra. clear - PX F. destruct x as [s|s| |[] m e B]; try discriminate; auto; [cbn in PX; lra|].
      exfalso. assert (B2R (B754_finite true m e B) < 0) by (apply F2R_lt_0; cbn; lia). lra. }
    assert (SK : Bsign K_alpha = false) by (vm_compute; reflexivity). rewrite S, SK in C.
    destruct (Bmult mode_NE K_alpha x) as [s|s| |s m e B]; cbn in C; try discriminate. inversion C; subst s. cbn. lia.
Qed.

Section Ieee.
Variables (pow32 : b32 -> b32 -> b32) (pow64 : b64 -> b64 -> b64).
Notation Ar := (ieee pow32 pow64).
Lemma to_rgb_invisible (c : @px Ar) g : is_nan (@pa Ar c : b32) = false -> ca (@to_rgb Ar c g) = 0%Z -> @to_rgb Ar c g = Rgba 0 0 0 0.
Proof.
  intros N. unfold to_rgb. change (@MIN_OPAQUE_A Ar) with MIN_alpha. cbn [flt ieee].
  destruct (Bltb (@pa Ar c) MIN_alpha) eqn:L; auto. cbn [ca]. intros E. exfalso.
  pose proof (alpha_visible _ N L) as V. unfold K_alpha in V. change (@fto_u8 Ar) with (@Bto_uint 24 128 255) in E.
  change (@fmul Ar (@fdiv Ar (@fofZ Ar 256) (@LIQ_WEIGHT_A Ar)) (@pa Ar c)) with (Bmult mode_NE (Bdiv mode_NE (BofZ 24 128 256) WA) (@pa Ar c)) in E. lia.
Qed.
Definition alphas_known (q : @qresult Ar) : Prop := Forall (fun e => is_nan (@pa Ar (fst e) : b32) = false) (@q_pal Ar q).
Lemma stable_shown_ieee (Acc : pow32_accurate pow32) (q : @qresult Ar) : gamma_fits (@q_gamma Ar q) -> @q_post Ar q = 0%Z -> alphas_known q -> @stable_shown Ar q.
Proof.
  intros G P N. unfold stable_shown, shown_now, init_int_palette. cbn [fst snd]. rewrite P, map_map. apply map_ext_in. intros [c w] Hin.
  assert (RM : forall k, rgba_map (fun v : Z => posterize_channel v 0) k = k) by (intros []; reflexivity).
  unfold int_entry. cbn [fst snd]. rewrite !RM. set (k := @to_rgb Ar c (@q_gamma Ar q)).
  assert (K : @to_rgb Ar (@from_rgba Ar (@gamma_lut Ar (@q_gamma Ar q)) k) (@q_gamma Ar q) = k).
  { destruct (Z.eq_dec (ca k) 0) as [E|E].
    - rewrite (transparent_color pow32 pow64) by auto. symmetry. apply to_rgb_invisible; auto.
      unfold alphas_known in N. rewrite Forall_forall in N. exact (N _ Hin).
    - apply round_trip_color; auto. exact (@to_rgb_ok Ar (ieee_cast pow32 pow64) c _). }
  rewrite K. reflexivity.
Qed.
End Ieee.
