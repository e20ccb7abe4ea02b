(** Exact arithmetic: an undithered remap gives every pixel a nearest palette
    colour. *)
From Verif Require Import Base BaseFacts Arith Order Pal World Attr Hist MedianCut Nearest Kmeans Blur ImageM Quant Remap
  SpecHist SpecImage BlurFacts ImageFacts HistFacts MedianFacts SearchFacts NearFacts TreeFacts QuantFacts RemapFacts AttrFacts Api ApiFacts ResultFacts ReuseFacts
  RealArith NearReal.
From Coq Require Import Reals Lra.
Open Scope nat_scope.

Lemma colors_of_nth {A : Arith} (p : palf) i c : nth_error (colors_of p) i = Some c -> exists w, nth_error p i = Some (c, w).
Proof.
  unfold colors_of. rewrite nth_error_map. destruct (nth_error p i) as [[c' w]|]; cbn; intros E; inversion E; subst. eauto.
Qed.

Section SearchReal.
Variable big : R.
Let A : Arith := real big.
Local Existing Instance A.

(** [k] is the index of a palette colour nearest to [c]. *)
Definition nearest_to (p : list px) (c : px) (k : nat) : Prop :=
  exists pc, nth_error p k = Some pc /\ forall j pj, nth_error p j = Some pj -> (diff c pc <= diff c pj)%R.

Lemma pure_row_nearest (p : palf) n tidx : (1 <= big)%R -> nearest_new p = Ok n -> forall l last x c px0, last < length p ->
  nth_error l x = Some (c, px0) ->
  exists m d, nth_error (pure_row n [] tidx l last) x = Some (m, d) /\ nearest_to (colors_of p) px0 m.
Proof.
  intros Hb N l. pose proof (nearest_new_inv p n N) as (_ & NO & _).
  induction l as [|[c0 q0] l IH]; intros last x c q L E; [destruct x; discriminate|].
  destruct x as [|x]; cbn [nth_error] in E.
  - inversion E; subst. cbn [pure_row]. unfold bg_choice. replace (nth_error (@nil px) c) with (@None px) by (destruct c; auto).
    destruct (search_exact big p n q last Hb N (or_introl L)) as (pc & H1 & _ & H2). do 2 eexists. split; [reflexivity|]. exists pc. split; auto.
  - cbn [pure_row nth_error]. eapply IH; eauto. apply search_idx; auto.
Qed.

Lemma plain_row_nearest (p : palf) n i pxs y r x c : (1 <= big)%R -> nearest_new p = Ok n -> image_ok i pxs -> i_bg i = None ->
  nth_error pxs y = Some r -> nth_error r x = Some c ->
  exists m d, nth_error (plain_row n true i y) x = Some (m, d) /\
    nearest_to (colors_of p) (from_rgba (gamma_lut (d_gamma (i_px i))) c) m.
Proof.
  intros Hb N I B Y X. pose proof (nearest_new_inv p n N) as (LP & NO & _). unfold plain_row, row_result, img_bg. rewrite B.
  cbn [option_map eff_bg bg_row].
  rewrite (shows_row _ _ _ _ (im_px _ _ I) Y). eapply (pure_row_nearest p n _ Hb N _ 0 x x); [lia|].
  rewrite nth_error_enumerate, nth_error_map, X. reflexivity.
Qed.

Lemma remap_nearest u rcb m q i pxs buf w q' i' out w' : (1 <= big)%R -> unspec_ok u -> result_r m q -> image_r i pxs ->
  q_dither q = 0%R -> i_bg i = None -> remap_into u rcb q i buf w = (Ok tt, (q', i', out, w')) ->
  forall y x r c, nth_error pxs y = Some r -> nth_error r x = Some c ->
  exists k, nth_error out (y * i_w i + x) = Some k /\
    nearest_to (colors_of (fst (init_int_palette (q_pal q) (q_gamma q) (q_post q)))) (from_rgba (gamma_lut (d_gamma (i_px i))) c) k.
Proof.
  intros Hb U R I D B E. pose proof (reach_image i pxs I) as IO. pose proof (reach_pal m q R) as P.
  assert (D0 : (q_dither q =f f0) = true) by (apply Reqb_eq; exact D).
  destruct (plain_remap_eq u rcb q i pxs buf w q' i' out w' U IO P D0 E) as (n & e & N & -> & -> & (t & T1 & T2 & ->) & K).
  pose proof (nearest_new_inv _ n N) as (LP & NO & _).
  destruct (plain_out_good n _ true i pxs NO IO) as [G1 G2].
  intros y x r c Y X. destruct (plain_row_nearest _ n i pxs y r x c Hb N IO B Y X) as (k & d & Q1 & Q2).
  exists k. pose proof (sh_rows _ _ (im_px _ _ IO)) as SR. rewrite Forall_forall in SR.
  destruct (SR r) as [Lr _]; [eapply nth_error_In; eauto|]. change (d_w (i_px i)) with (i_w i) in Lr.
  assert (Hx : x < i_w i) by (rewrite <- Lr; apply nth_error_Some; congruence).
  assert (Hy : y < i_h i) by (change (i_h i) with (d_h (i_px i)); rewrite <- (sh_len _ _ (im_px _ _ IO)); apply nth_error_Some; congruence).
  assert (F : Forall (fun r => length r = i_w i) (plain_out n true i)) by (eapply Forall_impl; [|exact G2]; intros ? [? _]; auto).
  split; [|exact Q2].
  rewrite nth_error_app1.
  - rewrite (nth_error_concat (i_w i)); auto. unfold plain_out. rewrite nth_error_map, nth_error_seq.
    destruct (Nat.ltb_spec y (i_h i)); [|lia]. cbn [option_map Nat.add]. rewrite nth_error_map, Q1. auto.
  - rewrite (concat_rows_length (i_w i)), G1; auto. nia.
Qed.
(** The same, with palette entries. *)
Lemma search_exact_in (p : palf) n (c : px) g : (1 <= big)%R -> nearest_new p = Ok n ->
  g < length p \/ (exists e, In e p /\ (diff c (fst e) < big)%R) ->
  exists pc w, nth_error p (fst (search n c g)) = Some (pc, w) /\ snd (search n c g) = diff c pc /\
    forall e, In e p -> (diff c pc <= diff c (fst e))%R.
Proof.
  intros Hb N H. destruct (search_exact big p n c g Hb N) as (pc & E & S & M).
  { destruct H as [H|(e & I & L)]; [left; auto|]. right. apply In_nth_error in I as (j & J). exists j, (fst e). split; auto.
    exact (map_nth_error fst j p J). }
  destruct (colors_of_nth _ _ _ E) as (w & Q). exists pc, w. split; auto. split; auto. intros e I. apply In_nth_error in I as (j & J).
  apply (M j). exact (map_nth_error fst j p J).
Qed.
End SearchReal.
