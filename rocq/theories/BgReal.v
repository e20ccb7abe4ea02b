(** An image remapped on top of itself, in exact arithmetic. *)
From Verif Require Import Base BaseFacts Arith Order Pal World Attr Hist MedianCut Nearest Kmeans Blur ImageM Quant Remap
  SpecHist SpecImage BlurFacts ImageFacts HistFacts MedianFacts SearchFacts NearFacts TreeFacts QuantFacts RemapFacts AttrFacts Api ApiFacts ResultFacts ReuseFacts
  PalFacts RealArith NearReal SearchReal DitherZero LosslessReal RoundReal HullReal DitherBg BgTop.
From Coq Require Import Reals Lra.
Open Scope nat_scope.

Section BgReal.
Variable big : R.
Hypothesis Hb : (1 <= big)%R.
Let A : Arith := real big.
Local Existing Instance A.

Lemma real_covered n c : covered n c.
Proof.
  intros g. apply Rleb_le. rewrite (diff_self big). apply (HullReal.search_pos big). lra.
Qed.
Lemma clear_of (p : palf) n k : nearest_new p = Ok n -> nth_error (colors_of p) k = Some px0 ->
  nth_error (n_pal n) (transparent_idx n) = Some px0.
Proof.
  intros N K. destruct (nearest_new_inv p n N) as (L & _ & ->).
  destruct (search_exact big p n px0 0 Hb N) as (pc & E & _ & M); [left; exact (proj1 L)|].
  unfold transparent_idx. etransitivity; [exact E|]. f_equal. symmetry. apply (diff_zero big). specialize (M k px0 K). rewrite (diff_self big) in M.
  apply Rle_antisym; [exact M|apply (diff_pos big)].
Qed.
Lemma clear_alpha g c : from_rgba (gamma_lut (g : f64)) c = px0 -> ca c = 0%Z.
Proof.
  intros E. assert (P : pa (from_rgba (gamma_lut (g : f64)) c) = 0%R) by (rewrite E; reflexivity).
  change (IZR (ca c) / 255 * (625 / 1000) = 0)%R in P. apply eq_IZR. lra.
Qed.

Lemma self_real u rcb m q i b pxs i1 i2 buf w q2 i3 out w' : unspec_ok u -> result_r m q -> image_r i pxs -> image_r b pxs ->
  d_gamma (i_px b) = d_gamma (i_px i) -> set_background i b = Ok i1 -> image_later i1 i2 ->
  remap_into u rcb q i2 buf w = (Ok tt, (q2, i3, out, w')) ->
  (exists s, In s (fst (palette q2)) /\ ca s = 0%Z) ->
  exists k s, nth_error (fst (palette q2)) k = Some s /\ ca s = 0%Z /\
    out = repeat k (i_w i * i_h i) ++ skipn (i_w i * i_h i) buf.
Proof.
  intros U Q I B G E L ER (s & Hs & S0). destruct (set_self_bg i b pxs i1 B G E) as (SB & W1 & H1).
  destruct (later_image i1 i2 pxs L (ir_bg i pxs b pxs i1 I B E) SB) as (W2 & H2 & I2 & SB2).
  destruct (remap_bg (fun _ => True) (fun _ => True) (real_zero_laws big) u U rcb (real_cast big) q i2 pxs buf w q2 i3 out w' (reach_image _ _ I2) SB2 (reach_pal _ _ Q))
    with (3 := ER) as (p & e & n & N & -> & X).
  - split; [exact Logic.I|]. split; [exact Logic.I|]. intros. exact Logic.I.
  - intros p n _ _ r c _ _. split; [exact Logic.I|apply real_covered].
  - change (real big) with A in X, N. rewrite W2, H2, W1, H1 in X. change (fst (palette (set_rem q (Some (snd (init_int_palette p (q_gamma q) (q_post q)), e))))) with (snd (init_int_palette p (q_gamma q) (q_post q))) in *.
    apply In_nth_error in Hs as (j & Hj). destruct (int_colors p (q_gamma q) (q_post q) j s Hj) as (c & Ec & Sc).
    assert (C0 : from_rgba (gamma_lut (q_gamma q)) c = px0) by (apply (from_clear big); congruence).
    change (real big) with A in Ec, C0. rewrite C0 in Ec. pose proof (clear_of _ n j N Ec) as T. destruct (nearest_new_inv _ n N) as (_ & _ & NP).
    assert (T2 : nth_error (colors_of (fst (init_int_palette p (q_gamma q) (q_post q)))) (transparent_idx n) = Some px0) by exact (eq_trans (f_equal (fun l => nth_error l (transparent_idx n)) (eq_sym NP)) T).
    destruct (nth_error (snd (init_int_palette p (q_gamma q) (q_post q))) (transparent_idx n)) as [s'|] eqn:Es.
    + exists (transparent_idx n), s'. split; [exact Es|]. destruct (int_colors p (q_gamma q) (q_post q) _ s' Es) as (c' & Ec' & Sc').
      split.
      * rewrite Sc'. apply (clear_alpha (q_gamma q)). assert (Some (from_rgba (gamma_lut (q_gamma q)) c') = Some px0) as Y by exact (eq_trans (eq_sym Ec') T2). exact (f_equal (fun o => match o with Some x => x | None => px0 end) Y).
      * apply X. exists px0. split; [exact T|]. split; [apply Rltb_lt|apply Rltb_ge]; cbn; lra.
    + exfalso. apply nth_error_None in Es. apply (Nat.lt_irrefl (transparent_idx n)). eapply Nat.lt_le_trans; [|exact Es]. rewrite int_length. apply nth_error_Some. intros Z. pose proof (eq_trans (eq_sym T2) Z). discriminate.
Qed.
End BgReal.
