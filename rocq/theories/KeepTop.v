(** An image made of colours of the palette is remapped without change, in any
    arithmetic that meets the conditions listed in the section. *)
From Verif Require Import Base BaseFacts Arith Order Pal World Attr Hist MedianCut Nearest Kmeans Blur ImageM Quant Remap
  SpecHist SpecImage BlurFacts ImageFacts HistFacts MedianFacts SearchFacts NearFacts TreeFacts QuantFacts RemapFacts AttrFacts Api ApiFacts ResultFacts ReuseFacts
  PalFacts DitherZero LosslessReal FewFacts ContrastLow FewImage LosslessTop FewRemap.
Open Scope nat_scope.

Section KeepTop.
Context {A : Arith} {CL : CastLaws A}.
Variables (good : px -> Prop) (K : f32 -> Prop) (Z0 : zero_laws K good) (ZF : f2d f0 = d0) (ZA : (d0 +d d0) = d0).
Variables (u : unspec) (U : unspec_ok u) (q : qresult) (PQ : 0 < length (q_pal q) <= 256) (PB : (0 <= q_post q <= 4)%Z).
Variables (i : image) (pxs : list (list rgba)) (I : image_ok i pxs) (B : i_bg i = None) (GE : d_gamma (i_px i) = q_gamma q).
Variable OKa : Z -> Prop.
Notation pix c := (from_rgba (gamma_lut (q_gamma q)) c).
Hypothesis GOOD : forall c, rgba_ok c -> good (pix c).
Hypothesis VIS : forall c c', rgba_ok c -> rgba_ok c' -> visible c = visible c' -> pix c = pix c'.
Hypothesis BACK : forall c, rgba_ok c -> to_rgb (pix c) (q_gamma q) = visible c.
Hypothesis HIT : forall (p : palf) n, (forall k, In k (colors_of p) -> exists c, rgba_ok c /\ OKa (ca c) /\ k = pix c) -> nearest_new p = Ok n ->
  forall c, In c (colors_of p) -> finds n c /\ forall g, snd (search n c g) = f0.
Hypothesis DIV : (d0 /d dofZ (wrap32 (Z.of_nat (i_w i) * Z.of_nat (i_h i)))) = d0.

Lemma trivial_avg : avg_laws (fun _ : px => False) (fun _ _ : px => True) (fun _ _ _ => True) 0.
Proof. constructor; auto. Qed.

(** The 8-bit colour of an entry before invisible colours are marked. *)
Definition bare (e : px * f32) : rgba := rgba_map (fun v => posterize_channel v (q_post q)) (to_rgb (fst e) (q_gamma q)).
Definition shown (e : px * f32) : rgba := snd (int_entry (q_gamma q) (q_post q) e).
Lemma bare_ok e : rgba_ok (bare e).
Proof.
  pose proof (to_rgb_ok (fst e) (q_gamma q)) as (H1 & H2 & H3 & H4).
  unfold bare, rgba_ok, rgba_map. cbn [cr cg cb ca]. repeat split; apply posterize_ok; auto.
Qed.
Lemma shown_alpha e : ca (shown e) = ca (bare e).
Proof. unfold shown, int_entry, bare. cbn [snd]. destruct (_ && _)%bool; reflexivity. Qed.
Lemma shown_visible e : visible (shown e) = visible (bare e).
Proof.
  unfold shown, int_entry. cbn [snd]. fold (bare e). destruct (Z.eqb_spec (ca (bare e)) 0) as [H|H]; cbn [andb]; [|reflexivity].
  destruct (negb _); [|reflexivity]. unfold visible. cbn [ca]. rewrite H. reflexivity.
Qed.
Lemma look_visible c s : same_look c s <-> visible c = visible s.
Proof.
  unfold same_look, visible. destruct (Z.eqb_spec (ca c) 0) as [H|H]; destruct (Z.eqb_spec (ca s) 0) as [H'|H']; split; intros E; auto; try congruence.
  - subst s. contradiction H'. reflexivity.
  - subst c. contradiction H. reflexivity.
Qed.

Notation p2 := (fst (init_int_palette (q_pal q) (q_gamma q) (q_post q))).
Notation ip := (snd (init_int_palette (q_pal q) (q_gamma q) (q_post q))).
Hypothesis SEEN : forall s, In s ip -> OKa (ca s).
Hypothesis COV : forall r c, In r pxs -> In c r -> exists s, In s ip /\ same_look c s.

Lemma int_colors k : In k (colors_of p2) -> exists c, rgba_ok c /\ OKa (ca c) /\ k = pix c.
Proof.
  intros H. unfold init_int_palette, colors_of in H. cbn [fst] in H. rewrite map_map in H. apply in_map_iff in H as (e & <- & He).
  exists (bare e). split; [apply bare_ok|]. split; [|reflexivity]. rewrite <- shown_alpha. apply SEEN.
  unfold init_int_palette. cbn [snd]. exact (in_map (fun e => snd (int_entry (q_gamma q) (q_post q) e)) _ _ He).
Qed.
Lemma pxs_ok r c : In r pxs -> In c r -> rgba_ok c.
Proof. intros Hr Hc. pose proof (sh_rows _ _ (im_px _ _ I)) as SR. rewrite Forall_forall in SR. destruct (SR r Hr) as [_ SR']. rewrite Forall_forall in SR'. auto. Qed.
Lemma covered_px r c : In r pxs -> In c r -> In (pix c) (colors_of p2).
Proof.
  intros Hr Hc. destruct (COV r c Hr Hc) as (s & Hs & SL). unfold init_int_palette in Hs. cbn [snd] in Hs. apply in_map_iff in Hs as (e & <- & He).
  apply look_visible in SL. fold (shown e) in SL. rewrite shown_visible in SL. rewrite (VIS c (bare e)); auto; [|eapply pxs_ok; eauto|apply bare_ok].
  unfold init_int_palette, colors_of. cbn [fst]. rewrite map_map. exact (in_map (fun e => fst (fst (int_entry (q_gamma q) (q_post q) e))) _ _ He).
Qed.
Lemma held k c : rgba_ok c -> nth_error (colors_of p2) k = Some (pix c) -> exists s, nth_error ip k = Some s /\ same_look c s.
Proof.
  intros R H. unfold init_int_palette, colors_of in *. cbn [fst snd] in *. rewrite map_map, nth_error_map in H. rewrite nth_error_map.
  destruct (nth_error (q_pal q) k) as [e|]; [|discriminate]. cbn [option_map] in *. exists (shown e). split; [reflexivity|].
  apply look_visible. rewrite shown_visible, <- (BACK c R), <- (visible2 (bare e)).
  assert (E : pix c = pix (bare e)) by (symmetry; exact (f_equal (fun o => match o with Some x => x | None => pix c end) H)). rewrite E, (BACK _ (bare_ok e)). rewrite visible2. reflexivity.
Qed.

Lemma keep_remap rcb buf w q' i' out w' : (q_dither q =f f0) = true \/ ((q_dmap q = DmNone \/ i_dmap i <> None) /\ levels K q) ->
  remap_into u rcb q i buf w = (Ok tt, (q', i', out, w')) ->
  fst (palette q') = ip /\ ((q_dither q =f f0) = true -> option_map snd (q_rem q') = Some (Some d0)) /\
  forall y x r c, nth_error pxs y = Some r -> nth_error r x = Some c ->
  exists k s, nth_error out (y * i_w i + x) = Some k /\ nth_error ip k = Some s /\ same_look c s.
Proof.
  intros DD E.
  assert (FP : Forall (fun r => length r = i_w i) pxs).
  { eapply Forall_impl; [|apply (sh_rows _ _ (im_px _ _ I))]. intros r [? _]. auto. }
  assert (LP : length pxs = i_h i) by apply (sh_len _ _ (im_px _ _ I)).
  destruct (q_dither q =f f0) eqn:D.
  - destruct (plain_remap_eq u rcb q i pxs buf w q' i' out w' U I PQ D E) as (n & e & N & -> & -> & (t & T1 & T2 & ->) & _).
    assert (COV2 : forall r c, In r pxs -> In c r -> In (from_rgba (gamma_lut (d_gamma (i_px i))) c) (colors_of p2)) by (rewrite GE; exact covered_px).
    split; [reflexivity|]. split.
    + intros _. assert (T3 : forall y, In y (stree_leaves t) -> y < i_h i).
      { intros y Hy. eapply Permutation_in in Hy; [|exact T1]. apply in_seq in Hy. lia. }
      rewrite (plain_zero _ _ _ _ trivial_avg p2 n (fun c Hc => proj2 (HIT p2 n int_colors N c Hc)) true i pxs t I B COV2 T3).
      cbn [q_rem set_rem option_map snd]. do 2 f_equal. exact DIV.
    + intros y x r c Y X. destruct (nearest_new_inv p2 n N) as (_ & NO & NP).
      destruct (rows_exact_at n (d_gamma (i_px i)) pxs (plain_out n true i) (i_w i) (i_h i) (skipn (i_w i * i_h i) buf)) with (y := y) (x := x) (r := r) (c := c)
        as (k & K1 & K2); auto.
      * apply plain_found; auto. intros r0 c0 Hr Hc. split; [exact Logic.I|]. apply (HIT p2 n int_colors N). apply (COV2 r0 c0); auto.
      * apply (plain_out_good n (length p2) true i pxs); auto.
      * unfold DitherZero.holds in K2. rewrite NP, GE in K2. destruct (held k c) as (s & S1 & S2); auto.
        { eapply pxs_ok; eapply nth_error_In; eauto. }
        exists k, s. auto.
  - destruct DD as [DD|[DM LV]]; [discriminate|].
    unfold remap_into in E. cbv zeta in E. destruct (Nat.ltb_spec (length buf) (i_w i * i_h i)) as [Hlt|Hge]; [discriminate|].
    assert (Lf : length (firstn (i_w i * i_h i) buf) = i_w i * i_h i) by (rewrite firstn_length; lia).
    pose proof (sh_w _ _ (im_px _ _ I)) as HW. change (0 < i_w i) in HW.
    destruct (chunks_exact_shape (i_w i) (i_h i) (firstn (i_w i * i_h i) buf) HW Lf) as (LR & FR & _).
    destruct (write_remapped u rcb (RSt q i (chunks_exact (i_w i) (firstn (i_w i * i_h i) buf)) w)) as [r0 s'] eqn:WR.
    inversion E; subst. clear E. set (s0 := RSt q i _ w) in *.
    assert (EO : entry_ok q s0 pxs) by exact (conj eq_refl (conj I (conj (conj LR FR) PQ))).
    destruct (write_dithered K good Z0 u U rcb CL q s0 pxs s' EO B D LV) with (2 := WR) as (p & e & n & PP & N & RQ & LO & RX).
    + intros p e n PP N r c Hr Hc. destruct PP as [[-> _]|(e' & _ & _ & DM1 & DM2)]; [|destruct DM; contradiction]. cbn [r_img s0]. rewrite GE. split.
      * apply GOOD. eapply pxs_ok; eauto.
      * apply (HIT p2 n int_colors N). eapply covered_px; eauto.
    + destruct PP as [[-> ->]|(e' & _ & _ & DM1 & DM2)]; [|destruct DM; contradiction]. rewrite RQ. split; [reflexivity|]. split; [discriminate|].
      intros y x r c Y X. cbn [r_img s0] in *.
      destruct (rows_exact_at n (d_gamma (i_px i)) pxs (r_out s') (i_w i) (i_h i) (skipn (i_w i * i_h i) buf) RX LO LP FP y x r c Y X) as (k & K1 & K2).
      destruct (nearest_new_inv _ n N) as (_ & _ & NP). unfold DitherZero.holds in K2. rewrite NP, GE in K2. destruct (held k c) as (s & S1 & S2); auto.
      { eapply pxs_ok; eapply nth_error_In; eauto. }
      exists k, s. auto.
Qed.
End KeepTop.
