(** Floating point: the palette search and undithered remapping pick a colour
    nearest up to 2^-17. *)
From Coq Require Import Reals Lra.
From Verif Require Import Base BaseFacts Arith Order Ieee IeeeFacts Pal World Attr Hist MedianCut Nearest Kmeans Blur ImageM Quant Remap
  SpecHist SpecImage BlurFacts ImageFacts HistFacts MedianFacts SearchFacts NearFacts TreeFacts QuantFacts RemapFacts AttrFacts Api ApiFacts ResultFacts ReuseFacts
  RealArith NearReal SearchReal SmallFloat MedianIeee AvgIeee ContrastIeee BgTop FewImage FiniteRemap MetricIeee NearIeee SpecDist.
From Flocq Require Import IEEE754.BinarySingleNaN Core.Core.
Open Scope nat_scope.

(** * Which searches an undithered remap makes, in any arithmetic *)
Section Gen.
Context {A : Arith} {C : CastLaws A}.
Lemma pure_row_search (p : palf) n tidx : nearest_new p = Ok n -> forall l last x c q, last < length p ->
  nth_error l x = Some (c, q) -> exists hint, hint < length p /\ nth_error (pure_row n [] tidx l last) x = Some (search n q hint).
Proof.
  intros N l. pose proof (nearest_new_inv p n N) as (_ & NO & _).
  induction l as [|[c0 q0] l IH]; intros last x c q L E; [destruct x; discriminate|].
  destruct x as [|x]; cbn [nth_error] in E.
  - inversion E; subst. cbn [pure_row]. unfold bg_choice. replace (nth_error (@nil px) c) with (@None px) by (destruct c; auto).
    exists last. split; auto. cbn [nth_error]. destruct (search n q last); reflexivity.
  - cbn [pure_row nth_error]. eapply IH; eauto. apply search_idx; auto.
Qed.
Lemma remap_searches u rcb m q i pxs buf w q' i' out w' : unspec_ok u -> result_r m q -> image_r i pxs ->
  (q_dither q =f f0)%flt = true -> i_bg i = None -> remap_into u rcb q i buf w = (Ok tt, (q', i', out, w')) ->
  exists n, nearest_new (fst (init_int_palette (q_pal q) (q_gamma q) (q_post q))) = Ok n /\
  forall y x r c, nth_error pxs y = Some r -> nth_error r x = Some c ->
  exists hint, nth_error out (y * i_w i + x) = Some (fst (search n (from_rgba (gamma_lut (d_gamma (i_px i))) c) hint)).
Proof.
  intros U R I D0 B E. pose proof (reach_image i pxs I) as IO. pose proof (reach_pal m q R) as P.
  destruct (plain_remap_eq u rcb q i pxs buf w q' i' out w' U IO P D0 E) as (n & e & N & -> & -> & (t & T1 & T2 & ->) & K).
  pose proof (nearest_new_inv _ n N) as (LP & NO & _).
  destruct (plain_out_good n _ true i pxs NO IO) as [G1 G2].
  exists n. split; auto. intros y x r c Y X.
  assert (RS : exists hint, nth_error (plain_row n true i y) x = Some (search n (from_rgba (gamma_lut (d_gamma (i_px i))) c) hint)).
  { unfold plain_row, row_result, img_bg. rewrite B. cbn [option_map eff_bg bg_row]. rewrite (shows_row _ _ _ _ (im_px _ _ IO) Y).
    match goal with |- exists _, nth_error (pure_row n [] ?t ?l 0) x = _ =>
      destruct (pure_row_search _ n t N l 0 x x (from_rgba (gamma_lut (d_gamma (i_px i))) c)) as (hint & _ & Q); [lia| |eauto] end.
    rewrite nth_error_enumerate, nth_error_map, X. reflexivity. }
  destruct RS as (hint & Q1). exists hint. pose proof (sh_rows _ _ (im_px _ _ IO)) as SR. rewrite Forall_forall in SR.
  destruct (SR r) as [Lr _]; [eapply nth_error_In; eauto|]. change (d_w (i_px i)) with (i_w i) in Lr.
  assert (Hx : x < i_w i) by (rewrite <- Lr; apply nth_error_Some; congruence).
  assert (Hy : y < i_h i) by (change (i_h i) with (d_h (i_px i)); rewrite <- (sh_len _ _ (im_px _ _ IO)); apply nth_error_Some; congruence).
  assert (F : Forall (fun r => length r = i_w i) (plain_out n true i)) by (eapply Forall_impl; [|exact G2]; intros ? [? _]; auto).
  rewrite nth_error_app1.
  - rewrite (nth_error_concat (i_w i)); auto. unfold plain_out. rewrite nth_error_map, nth_error_seq.
    destruct (Nat.ltb_spec y (i_h i)); [|lia]. cbn [option_map Nat.add]. rewrite nth_error_map, Q1. auto.
  - rewrite (concat_rows_length (i_w i)), G1; auto. nia.
Qed.
End Gen.

Open Scope R_scope.
Section I.
Variables (pow32 : b32 -> b32 -> b32) (pow64 : b64 -> b64 -> b64).
Notation Ar := (ieee pow32 pow64).
Local Existing Instance ieee.
Notation box := (box_px pow32 pow64).
Notation exact_dist := (exact_dist pow32 pow64).

Lemma exact_rdist s o : exact_dist s o = rdist pow32 pow64 s o.
Proof. reflexivity. Qed.
Lemma range_box c : in_range pow32 pow64 c -> box c.
Proof.
  assert (K : forall k (x : b32), is_finite x = true /\ 0 <= val x <= bpow radix2 k -> nonneg k x).
  { intros k x [F [H1 H2]]. unfold val in *. split; [split; auto|auto]. rewrite Rabs_pos_eq; auto. }
  intros (H1 & H2 & H3 & H4). split; [apply K; exact H1|]. split; [apply K; exact H2|]. split; [apply K; exact H3|apply K; exact H4].
Qed.
Lemma search_near_ieee (p : @palf Ar) n c hint : Forall (in_range pow32 pow64) (map fst p) -> in_range pow32 pow64 c -> @nearest_new Ar p = Ok n ->
  exists pc w, nth_error p (fst (@search Ar n c hint)) = Some (pc, w) /\ 
  (snd (@search Ar n c hint) = @diff Ar c pc \/ snd (@search Ar n c hint) = @diff Ar pc c) /\
  forall e, In e p -> exact_dist c pc <= exact_dist c (fst e) + / 131072.
Proof.
  intros B BC N. assert (B' : Forall box (colors_of p)) by (eapply Forall_impl; [|exact B]; apply range_box).
  destruct (search_near pow32 pow64 p n c hint B' (range_box c BC) N) as (pc & E & D & M).
  destruct (colors_of_nth _ _ _ E) as (w & Q). exists pc, w. split; [exact Q|]. split; [exact D|].
  intros e I. apply In_nth_error in I as (j & J). apply (M j). exact (map_nth_error fst j p J).
Qed.

Lemma remap_near_ieee (PU : pow32_unit pow32) u rcb m (q : @qresult Ar) i pxs buf w q' i' out w' : unspec_ok u -> result_r m q -> image_r i pxs ->
  @dlt Ar (@d0 Ar) (q_gamma q) = true -> @feq Ar (q_dither q) (@f0 Ar) = true -> i_bg i = None -> @remap_into Ar u rcb q i buf w = (Ok tt, (q', i', out, w')) ->
  forall y x r c, nth_error pxs y = Some r -> nth_error r x = Some c ->
  exists k pc, nth_error out (y * i_w i + x)%nat = Some k /\
    nth_error (map fst (fst (@init_int_palette Ar (q_pal q) (q_gamma q) (q_post q)))) k = Some pc /\
    forall pj, In pj (map fst (fst (@init_int_palette Ar (q_pal q) (q_gamma q) (q_post q)))) ->
    exact_dist (@from_rgba Ar (@gamma_lut Ar (d_gamma (i_px i))) c) pc <= exact_dist (@from_rgba Ar (@gamma_lut Ar (d_gamma (i_px i))) c) pj + / 131072.
Proof.
  intros U R I G D B E y x r c Y X.
  destruct (@remap_searches Ar (ieee_cast pow32 pow64) u rcb m q i pxs buf w q' i' out w' U R I D B E) as (n & N & S). destruct (S y x r c Y X) as (hint & H). clear S.
  pose proof (int_palette_box pow32 pow64 PU (q_pal q) (q_gamma q) (q_post q) G (@post_bound Ar (ieee_cast pow32 pow64) m q R)) as PB.
  assert (CB : box (@from_rgba Ar (@gamma_lut Ar (d_gamma (i_px i))) c)).
  { apply (pixel_box pow32 pow64 PU).
    - exact (@image_gamma_kept Ar (ieee_cast pow32 pow64) i pxs I (ieee_default_gamma pow32 pow64)).
    - pose proof (sh_rows _ _ (im_px _ _ (@reach_image Ar (ieee_cast pow32 pow64) i pxs I))) as SR. rewrite Forall_forall in SR.
      destruct (SR r) as [_ Fr]; [eapply nth_error_In; eauto|]. rewrite Forall_forall in Fr. apply Fr. eapply nth_error_In; eauto. }
  set (p := fst (@init_int_palette Ar (q_pal q) (q_gamma q) (q_post q))) in *. set (cc := @from_rgba Ar _ c) in *. clearbody p cc.
  destruct (search_near pow32 pow64 p n cc hint PB CB N) as (pc & Q & _ & M).
  eexists. exists pc. split; [exact H|]. split; [exact Q|]. intros pj J. apply In_nth_error in J as (j & J). exact (M j pj J).
Qed.
End I.
