(** An image remapped on top of itself, in IEEE arithmetic. *)
From Verif Require Import Base BaseFacts Arith Order Ieee IeeeFacts SmallFloat Pal World Attr Hist MedianCut Nearest Kmeans Blur ImageM Quant Remap
  SpecHist SpecImage BlurFacts ImageFacts HistFacts MedianFacts SearchFacts NearFacts TreeFacts QuantFacts RemapFacts AttrFacts Api ApiFacts ResultFacts ReuseFacts
  PalFacts FewImage ContrastLow ContrastIeee MedianIeee DitherZero DitherBg BgTop.
From Flocq Require Import IEEE754.BinarySingleNaN Core.Core.
From Coq Require Import Reals Lra.
Open Scope R_scope.

(** Non-negative and finite, zero with a plus sign. *)
Definition plus (k : b32) : Prop := is_finite k = true /\ Bsign k = false.
Lemma plus_mul j k x y : (-100 <= j + k <= 100)%Z -> small j x -> small k y -> plus x -> plus y ->
  plus (Bmult mode_NE x y) /\ small (j + k) (Bmult mode_NE x y).
Proof.
  intros R Sx Sy [_ Px] [_ Py]. destruct (small_mul j k x y R Sx Sy) as [S' _]. split; auto. split; [apply S'|].
  pose proof (Bmult_correct 24 128 prec32 emax32 mode_NE x y) as H. cbn [round_mode] in H.
  destruct (Rlt_bool _ _).
  - destruct H as (_ & _ & H). rewrite H, Px, Py; auto. destruct S' as [F _]. destruct (Bmult mode_NE x y); auto; discriminate.
  - destruct S' as [F _]. rewrite <- is_finite_SF_B2SF, H in F. cbn in F. discriminate.
Qed.
Lemma minus_self (x : b32) : is_finite x = true -> Bminus mode_NE x x = B754_zero false.
Proof.
  intros F. pose proof (Bminus_correct 24 128 prec32 emax32 mode_NE x x F F) as H. cbn [round_mode] in H.
  rewrite Rminus_diag_eq in H by auto. rewrite round_0 in H by apply valid_rnd_N. rewrite Rabs_R0, Rlt_bool_true in H by apply bpow_gt_0.
  destruct H as (H1 & H2 & H3). rewrite Rcompare_Eq in H3 by auto.
  destruct (Bminus mode_NE x x) as [s|s| |s m e B] eqn:E; try discriminate.
  - cbn in H3. subst s. destruct (Bsign x); reflexivity.
  - exfalso. apply eq_0_F2R in H1. destruct s; cbn in H1; discriminate.
Qed.
Lemma scale_zero k : plus k -> Bmult mode_NE (B754_zero false) k = B754_zero false.
Proof. intros [F S]. destruct k as [s|s| |s m e B]; try discriminate; cbn in *; subst; reflexivity. Qed.
Lemma plus_byte l : byte l -> plus (BofZ 24 128 l) /\ small 8 (BofZ 24 128 l).
Proof.
  intros H.
  assert (C : forallb (fun n => let x := BofZ 24 128 (Z.of_nat n) in (is_finite x && negb (Bsign x))%bool) (seq 0 256) = true) by (vm_compute; reflexivity).
  rewrite forallb_forall in C. unfold byte in H. specialize (C (Z.to_nat l)). rewrite Z2Nat.id in C by lia.
  destruct (proj1 (andb_true_iff _ _) (C ltac:(apply in_seq; lia))) as [C1 C2]. split.
  - split; auto. destruct (Bsign (BofZ 24 128 l)); auto; discriminate.
  - apply small_ofZ; [lia|]. rewrite Rabs_pos_eq by (apply (IZR_le 0); lia). change (bpow radix2 8) with (IZR 256). apply IZR_le. lia.
Qed.

Section I.
Variables (pow32 : b32 -> b32 -> b32) (pow64 : b64 -> b64 -> b64).
Let Ar : Arith := ieee pow32 pow64.
Local Existing Instance Ar.
Notation unit_px := (ContrastIeee.unit_px pow32 pow64).

Lemma f0_eq : @f0 Ar = B754_zero false.
Proof. reflexivity. Qed.
Lemma ieee_zero_laws : zero_laws plus unit_px.
Proof.
  constructor.
  - intros k H. unfold px_scale, px0. cbn [pa pr pg pb]. f_equal; exact (scale_zero k H).
  - reflexivity.
  - intros c (H1 & H2 & H3 & H4). unfold px_sub, px0. f_equal; refine (minus_self _ _); [apply H1|apply H2|apply H3|apply H4].
  - vm_compute. reflexivity.
  - intros k H. cbn in H. destruct H as [<-|[<-|[<-|[<-|[]]]]]; split; vm_compute; reflexivity.
  - split; vm_compute; reflexivity.
Qed.

Lemma one_val : is_finite (@f1 Ar) = true /\ B2R (@f1 Ar) = 1 /\ Bsign (@f1 Ar) = false.
Proof. destruct (BofZ_exact 24 128 1) as [F V]; try lia. split; [exact F|]. split; [exact V|vm_compute; reflexivity]. Qed.
Lemma inv_unit (x : b32) : Bleb (@f0 Ar) x = true -> Bleb x (@f1 Ar) = true ->
  is_finite x = true /\ 0 <= B2R x <= 1.
Proof.
  intros H0 H1. destruct one_val as (F1 & V1 & _). assert (F : is_finite x = true).
  { destruct x as [s|s| |s m e B]; auto; destruct s; try discriminate. }
  split; auto. apply Bleb_fin in H0; auto. apply Bleb_fin in H1; auto. rewrite V1 in H1. exact (conj H0 H1).
Qed.
Lemma ieee_levels q : (f0 <=f q_dither q) = true -> (q_dither q <=f f1) = true -> levels plus q.
Proof.
  intros H0 H1. destruct (inv_unit (q_dither q) H0 H1) as [F D]. destruct one_val as (F1 & V1 & S1).
  set (v := Bminus mode_NE (@f1 Ar : b32) (q_dither q)).
  assert (V : is_finite v = true /\ 0 <= B2R v <= 1).
  { assert (RB : 0 <= rnd32 (1 - B2R (q_dither q)) <= 1).
    { split; [apply rnd32_pos; lra|]. apply round_le_generic; [apply (fexp_correct 24 128 eq_refl)|apply valid_rnd_N|apply (fmt_bpow 0); lia|lra]. }
    destruct (proj1 (Bminus_fin 24 128 (@f1 Ar : b32) (q_dither q) F1 F)) as [F2 V2].
    - rewrite V1. rewrite Rabs_pos_eq by lra. apply Rle_lt_trans with 1; [lra|]. change 1 with (bpow radix2 0). apply bpow_lt. lia.
    - split; auto. unfold v. rewrite V2, V1. exact RB. }
  set (b0 := Bfma mode_NE v (Bopp v) (@f1 Ar : b32)).
  assert (B0 : plus b0 /\ small 0 b0).
  { assert (RB : 0 <= rnd32 (B2R v * B2R (Bopp v) + 1) <= 1).
    { rewrite B2R_Bopp. split; [apply rnd32_pos; nra|]. apply round_le_generic; [apply (fexp_correct 24 128 eq_refl)|apply valid_rnd_N|apply (fmt_bpow 0); lia|nra]. }
    assert (FO : is_finite (Bopp v) = true) by (rewrite is_finite_Bopp; apply V).
    pose proof (Bfma_correct 24 128 prec32 emax32 mode_NE v (Bopp v) (@f1 Ar : b32) (proj1 V) FO F1) as H. cbn [round_mode] in H. rewrite V1 in H.
    rewrite Rlt_bool_true in H.
    2:{ rewrite Rabs_pos_eq by lra. apply Rle_lt_trans with 1; [lra|]. change 1 with (bpow radix2 0). apply bpow_lt. lia. }
    destruct H as (H2 & H3 & H4). split.
    - split; [exact H3|]. unfold b0. rewrite H4. rewrite B2R_Bopp. clear H4 H2 H3.
      destruct (Rcompare_spec (B2R v * - B2R v + 1) 0) as [C|C|C]; auto; [exfalso; nra|]. cbv beta iota. unfold Bfma_szero. change (Bsign (@f1 Ar : b32)) with false. destruct (xorb _ _); reflexivity.
    - split; [exact H3|]. unfold b0. rewrite H2. rewrite Rabs_pos_eq by lra. exact (proj2 RB). }
  assert (C15 : plus (Bdiv mode_NE (BofZ 24 128 15) (BofZ 24 128 16)) /\ small 0 (Bdiv mode_NE (BofZ 24 128 15) (BofZ 24 128 16))).
  { assert (E : B2SF (Bdiv mode_NE (BofZ 24 128 15) (BofZ 24 128 16)) = SpecFloat.S754_finite false 15728640 (-24)) by (vm_compute; reflexivity).
    split; [split; vm_compute; reflexivity|]. split; [vm_compute; reflexivity|]. rewrite <- SF2R_B2SF, E. unfold SF2R, F2R. cbn. rewrite Rabs_pos_eq; lra. }
  assert (C255 : plus (Bdiv mode_NE (@f1 Ar : b32) (BofZ 24 128 255)) /\ small 0 (Bdiv mode_NE (@f1 Ar : b32) (BofZ 24 128 255))).
  { assert (E : B2SF (Bdiv mode_NE (@f1 Ar : b32) (BofZ 24 128 255)) = SpecFloat.S754_finite false 8421505 (-31)) by (vm_compute; reflexivity).
    split; [split; vm_compute; reflexivity|]. split; [vm_compute; reflexivity|]. rewrite <- SF2R_B2SF, E. unfold SF2R, F2R. cbn. rewrite Rabs_pos_eq; lra. }
  destruct B0 as [B1 B2]. destruct C15 as [C1 C2]. destruct C255 as [E1 E2].
  destruct (plus_mul 0 0 b0 _ ltac:(lia) B2 C2 B1 C1) as [L1 L2].
  destruct (plus_mul 0 0 _ _ ltac:(lia) L2 E2 L1 E1) as [M1 M2].
  split; [exact L1|]. split; [exact M1|]. intros l Hl. destruct (plus_byte l Hl) as [N1 N2].
  exact (proj1 (plus_mul 0 8 _ _ ltac:(lia) M2 N2 M1 N1)).
Qed.

(** ** Distances found by the search are not negative *)
Definition nn (x : b32) : Prop := Bleb (B754_zero false) x = true.
Lemma visit_nn v d dsq i : nn (v_dsq v) -> nn dsq -> nn (v_dsq (visit v d dsq i)).
Proof. intros. unfold visit. destruct (_ && _)%bool; auto. Qed.
Lemma diff_nn a b : unit_px a -> unit_px b -> nn (diff a b).
Proof. intros Ha Hb. destruct (diff_ok pow32 pow64 a b Ha Hb) as [[F _] P]. apply Bleb_fin; auto. Qed.
Lemma search_node_nn c : unit_px c -> forall t v, Forall (fun ic => unit_px (snd ic)) (tree_pairs t) -> nn (v_dsq v) -> nn (v_dsq (search_node t c v)).
Proof.
  intros Hc. induction t as [vp i es|vp i r rs l IHl r0 IHr]; intros v T H; cbn [search_node tree_pairs] in *.
  - apply Forall_cons_iff in T as [T1 T2]. cbn [snd] in T1.
    assert (G : forall es v, Forall (fun ic => unit_px (snd ic)) es -> nn (v_dsq v) ->
              nn (v_dsq (fold_left (fun v (e : nat * px) => let d := diff (snd e) c in visit v (fsqrt d) d (fst e)) es v))).
    { clear - Hc. induction es as [|e es0 IH]; intros v F H; cbn [fold_left]; auto. apply Forall_cons_iff in F as [F1 F2]. apply IH; auto. apply visit_nn; auto. apply diff_nn; auto. }
    apply G; auto. apply visit_nn; auto. apply diff_nn; auto.
  - apply Forall_cons_iff in T as [T1 T2]. cbn [snd] in T1. apply Forall_app in T2 as [T2 T3].
    assert (V : nn (v_dsq (visit v (fsqrt (diff vp c)) (diff vp c) i))) by (apply visit_nn; auto; apply diff_nn; auto).
    destruct (flt _ _); cbv zeta; destruct (fle _ _); auto.
Qed.
Lemma search_nn (p : palf) n c g : nearest_new p = Ok n -> Forall unit_px (colors_of p) -> unit_px c -> nn (snd (search n c g)).
Proof.
  intros N F Hc. destruct (nearest_new_tree p n N) as (_ & P & T).
  assert (TC : Forall (fun ic => unit_px (snd ic)) (tree_pairs (n_root n))).
  { eapply Forall_impl; [|exact T]. intros ic H. rewrite Forall_forall in F. apply F. eapply nth_error_In. exact H. }
  unfold search. rewrite P. destruct (nth_error (colors_of p) g) as [pc|] eqn:E.
  - assert (U : unit_px pc) by (rewrite Forall_forall in F; apply F; eapply nth_error_In; eauto).
    cbv zeta. destruct (flt _ _); [apply diff_nn; auto|]. cbn [snd]. apply search_node_nn; auto. apply diff_nn; auto.
  - cbv zeta. cbn [snd]. apply search_node_nn; auto. reflexivity.
Qed.
Lemma diff_same c : unit_px c -> diff c c = B754_zero false.
Proof.
  intros (H1 & H2 & H3 & H4). unfold diff. cbv zeta.
  assert (Z : forall x : f32, is_finite (x : b32) = true -> (x -f x) = f0) by (intros x F; exact (minus_self x F)).
  rewrite !Z; [vm_compute; reflexivity|first [apply H1|apply H2|apply H3|apply H4]..].
Qed.
Lemma ieee_covered (p : palf) n c : nearest_new p = Ok n -> Forall unit_px (colors_of p) -> unit_px c -> covered n c.
Proof. intros N F Hc g. rewrite diff_same by auto. exact (search_nn p n c g N F Hc). Qed.

Hypothesis PU : pow32_unit pow32.
Lemma int_unit (p : palf) (g : b64) post : Bltb (B754_zero false) g = true -> (0 <= post <= 4)%Z ->
  Forall unit_px (colors_of (fst (init_int_palette p (g : f64) post))).
Proof.
  intros G B. unfold init_int_palette, colors_of. cbn [fst]. rewrite map_map. apply Forall_map, Forall_forall. intros e _.
  unfold int_entry. cbn [fst]. apply (pixel_unit pow32 pow64 PU); auto. 
  pose proof (@to_rgb_ok Ar (ieee_cast pow32 pow64) (fst e) g) as (H1 & H2 & H3 & H4).
  unfold rgba_ok, rgba_map. cbn [cr cg cb ca]. repeat split; apply posterize_ok; auto.
Qed.

Lemma self_ieee u rcb m q i b pxs i1 i2 buf w q2 i3 out w' : unspec_ok u -> result_r m q -> image_r i pxs -> image_r b pxs ->
  d_gamma (i_px b) = d_gamma (i_px i) -> (d0 <d q_gamma q) = true -> set_background i b = Ok i1 -> image_later i1 i2 ->
  remap_into u rcb q i2 buf w = (Ok tt, (q2, i3, out, w')) ->
  exists (p : palf) n k s, fst (palette q2) = snd (init_int_palette p (q_gamma q) (q_post q)) /\
    nearest_new (fst (init_int_palette p (q_gamma q) (q_post q))) = Ok n /\ k = fst (search n px0 0) /\
    nth_error (fst (palette q2)) k = Some s /\
    (ca s = 0%Z -> out = repeat k (i_w i * i_h i) ++ skipn (i_w i * i_h i) buf).
Proof.
  intros U Q I B G GQ E L ER. destruct (set_self_bg i b pxs i1 B G E) as (SB & W1 & H1).
  destruct (later_image i1 i2 pxs L (ir_bg i pxs b pxs i1 I B E) SB) as (W2 & H2 & I2 & SB2).
  pose proof (image_gamma_kept _ _ I2 (ieee_default_gamma pow32 pow64)) as GP.
  destruct (dither_unit m q Q) as [D0 D1].
  destruct (@remap_bg Ar plus unit_px ieee_zero_laws u U rcb (ieee_cast pow32 pow64) q i2 pxs buf w q2 i3 out w' (reach_image _ _ I2) SB2 (reach_pal _ _ Q)
    (ieee_levels q D0 D1)) with (2 := ER) as (p & e & n & N & -> & X).
  - intros p n _ N r c Hr Hc. assert (RC : rgba_ok c).
    { pose proof (sh_rows _ _ (im_px _ _ (reach_image _ _ I2))) as SR. rewrite Forall_forall in SR. destruct (SR r Hr) as [_ SR']. rewrite Forall_forall in SR'. auto. }
    assert (UC : unit_px (from_rgba (gamma_lut (d_gamma (i_px i2))) c)) by (apply (pixel_unit pow32 pow64 PU); auto).
    split; auto. refine (ieee_covered _ n _ N (int_unit p (q_gamma q) (q_post q) GQ _) UC). pose proof (post_bound m q Q). lia.
  - rewrite W2, H2, W1, H1 in X.
    change (fst (palette (set_rem q (Some (snd (init_int_palette p (q_gamma q) (q_post q)), e))))) with (snd (init_int_palette p (q_gamma q) (q_post q))).
    destruct (nearest_new_inv _ n N) as (_ & NO & NP). pose proof (search_idx n _ px0 0 NO) as LT.
    destruct (nth_error (snd (init_int_palette p (q_gamma q) (q_post q))) (transparent_idx n)) as [s|] eqn:Es.
    + exists p, n, (transparent_idx n), s. split; auto. split; auto. split; auto. split; auto. intros S0.
      destruct (int_colors p (q_gamma q) (q_post q) _ s Es) as (c' & Ec' & Sc'). apply X. exists (from_rgba (gamma_lut (q_gamma q)) c'). split; [rewrite NP; exact Ec'|].
      unfold from_rgba. cbn [pa]. rewrite <- Sc', S0. split; vm_compute; reflexivity.
    + exfalso. apply nth_error_None in Es. apply (Nat.lt_irrefl (transparent_idx n)). eapply Nat.lt_le_trans; [|exact Es]. rewrite int_length. unfold colors_of. rewrite map_length. exact LT.
Qed.
End I.
