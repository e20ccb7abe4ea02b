(** What the hidden preparation call does to the objects it is given. *)
From Verif Require Import Base BaseFacts Arith Order Pal World Attr Hist Nearest Kmeans Blur ImageM Quant Remap
  SpecHist SpecImage ImageFacts SearchFacts RemapFacts AttrFacts Api ApiFacts ResultFacts PalFacts FixedFacts.
Open Scope nat_scope.
Section Prepare.
Context {A : Arith} {C : CastLaws A}.
Lemma prepare_call u m q i pxs buf w : unspec_ok u -> result_r m q -> image_r i pxs -> length buf = i_w i * i_h i ->
  let '(r, (q', i', out, w')) := prepare_for_dithering u q i buf w in
  r <> Panic /\ (forall e, r = Err e -> e = OutOfMemory /\ q' = q) /\ length out = length buf /\
  image_r i' pxs /\ result_r m q' /\ palette_len q' = palette_len q /\
  (forall c, has_fixed_color q c -> has_fixed_color q' c) /\
  quantization_error q' = quantization_error q /\ remapping_error q' = remapping_error q /\
  output_gamma q' = output_gamma q /\ q_dither q' = q_dither q.
Proof.
  intros U R I B. pose proof (prepare_ok u q i pxs buf w U (reach_image _ _ I) (reach_pal _ _ R) B) as P.
  destruct (prepare_for_dithering u q i buf w) as [r [[[q' i'] out] w']] eqn:E.
  pose proof (ir_prepare u m q i pxs buf w r q' i' out w' U R I B E) as I'.
  pose proof (rr_prepare u m q i pxs buf w r q' i' out w' U R I B E) as R'.
  destruct P as (K & _ & L & P). destruct r as [[]|e|]; [| |contradiction].
  - destruct P as (p & -> & [Lp K']). split; [congruence|]. split; [congruence|]. split; [auto|]. split; [auto|]. split; [auto|].
    split; [exact Lp|]. split; [|repeat split].
    intros c (x & Hin & F). exists x. split; auto. cbn [set_pal q_gamma q_pal]. apply In_nth_error in Hin as (n & Hin).
    apply (nth_error_In _ n). apply K'; auto.
  - destruct P as [-> ->]. split; [congruence|]. split; [intros e H; inversion H; auto|]. repeat (split; auto).
Qed.
Lemma prepare_again u q i buf w : i_dmap i <> None ->
  let '(r, (q', i', _, w')) := prepare_for_dithering u q i buf w in r = Ok tt /\ q' = q /\ i' = i /\ w' = w.
Proof.
  intros D. unfold prepare_for_dithering, optionally_generate_dither_map. cbn [sbind sget r_img]. 
  destruct (i_dmap i) as [x|] eqn:E; [|congruence]. cbn [is_none]. rewrite Bool.andb_false_r. cbn. destruct q; auto.
Qed.

(** The palette that the undithered pass refines depends on the pixels only. *)
Lemma remap_rows_same n d d' pxs imp threads main shape out (p : palf) : shows d pxs -> same_drows d d' -> covers (d_h d) threads ->
  remap_rows n d' None imp threads main shape out p = remap_rows n d None imp threads main shape out p.
Proof.
  intros S D C0. unfold remap_rows. cbn [bind]. cbv zeta.
  match goal with |- bind (foldM ?f ?l ?s) ?k = bind (foldM ?g ?l ?s) ?k => rewrite (foldM_ext f g l s); [reflexivity|] end.
  intros [[o es] ks] kw Hk. unfold remap_worker. cbn [fst snd].
  match goal with |- bind (foldM ?f ?l ?s) ?k = bind (foldM ?g ?l ?s) ?k => rewrite (foldM_ext f g l s); [reflexivity|] end.
  intros [[o2 es2] k2] row Hr. unfold remap_row. rewrite (row_f_same d d' pxs row S D).
  - destruct D as (-> & _). reflexivity.
  - apply in_map_iff in Hk as ([j wk] & <- & Hk). cbn [snd] in Hr.
    pose proof (covers_lt _ _ C0) as Q. rewrite Forall_forall in Q.
    assert (In wk threads). { rewrite <- (map_snd_enumerate threads). apply in_map_iff. exists (j, wk). auto. }
    specialize (Q wk H). rewrite Forall_forall in Q. auto.
Qed.
Section U.
Variable u : unspec.
Variable U : unspec_ok u.
Lemma remap_to_palette_val (p : palf) s pxs r s' : image_ok (r_img s) pxs -> length (r_out s) = i_h (r_img s) ->
  remap_to_palette u false p s = (r, s') ->
  forall x, r = Ok x -> exists n o e, nearest_new p = Ok n /\
    remap_rows n (i_px (r_img s)) None (i_imp (r_img s)) (u_rows u (w_tick (r_w s)) (i_h (r_img s))) (u_main u (w_tick (r_w s)) (i_h (r_img s)))
      (u_sum u (w_tick (r_w s)) (i_h (r_img s))) (r_out s) p = Ok (o, e, snd x).
Proof.
  intros I L E x ->. unfold remap_to_palette in E. unfold sbind at 1, slift at 1 in E.
  destruct (nearest_new p) as [n| |] eqn:N; try discriminate.
  destruct (prepare_image_eq s pxs I) as (d & E1 & S1 & I1). unfold sbind at 1 in E. rewrite E1 in E.
  unfold sbind at 1, sret at 1 in E. unfold sbind at 1, sget at 1 in E. cbv zeta in E. unfold sbind at 1, on_world, tick at 1 in E.
  cbn [r_w upd_img r_q r_img r_out i_px set_px i_imp] in E.
  unfold sbind at 1, slift at 1 in E.
  rewrite (remap_rows_same n (i_px (r_img s)) d pxs) in E; [|apply I|exact S1|].
  2:{ rewrite L. change (d_h (i_px (r_img s))) with (i_h (r_img s)). apply (uo_rows u U). }
  rewrite L in E.
  destruct (remap_rows _ _ _ _ _ _ _ _ _) as [[[o e] p']| |] eqn:RR; try discriminate.
  exists n, o, e. split; auto. rewrite RR.
  unfold sbind, put_out, smod in E. destruct (dis_nan e); [discriminate|]. apply pair_equal_spec in E as [E _]. inversion E; auto.
Qed.
Lemma generate_val dm b (p : palf) s pxs me p' s' : image_ok (r_img s) pxs -> length (r_out s) = i_h (r_img s) ->
  optionally_generate_dither_map u dm b p s = (Ok (me, p'), s') ->
  let gen := (dmode_is_always dm || (negb (2000 * 2000 <? wrap32 (Z.of_nat (i_w (r_img s)) * Z.of_nat (i_h (r_img s))))%Z && negb (dmode_is_none dm)))%bool in
  (gen = false \/ i_dmap (r_img s) <> None) /\ p' = p /\ s' = s \/
  gen = true /\ i_dmap (r_img s) = None /\ exists n o e, nearest_new p = Ok n /\
    remap_rows n (i_px (r_img s)) None (i_imp (r_img s)) (u_rows u (w_tick (r_w s)) (i_h (r_img s))) (u_main u (w_tick (r_w s)) (i_h (r_img s)))
      (u_sum u (w_tick (r_w s)) (i_h (r_img s))) (r_out s) p = Ok (o, e, p').
Proof.
  intros I L E gen. unfold optionally_generate_dither_map in E. unfold sbind at 1, sget at 1 in E. cbv zeta in E. fold gen in E.
  destruct gen eqn:G; cbn [andb negb] in E.
  2:{ left. inversion E; subst. auto. }
  destruct (i_dmap (r_img s)) as [m|] eqn:D; cbn [is_none negb] in E.
  { left. inversion E; subst. split; auto. right. discriminate. }
  right. split; auto. split; auto. unfold sbind at 1 in E. destruct (remap_to_palette u false p s) as [[[e p1]| |] s1] eqn:E1; try discriminate.
  destruct (remap_to_palette_val p s pxs _ _ I L E1 _ eq_refl) as (n & o & e1 & N & RR). cbn [snd] in RR.
  unfold sbind, sget, slift, put_img, smod, sret in E. destruct (update_dither_map _ _ _ _) as [i2| |] eqn:EU; try discriminate.
  apply pair_equal_spec in E as [E <-]. inversion E; subst. eauto.
Qed.

(** What a dithered remap shows. *)
Lemma dithered_val cb q i buf w q' i' out w' pxs : image_ok i pxs -> (q_dither q =f f0) = false -> (0 < length (q_pal q) <= 256) ->
  remap_into u cb q i buf w = (Ok tt, (q', i', out, w')) ->
  exists w1 me (p : palf) s', w_tick w1 = w_tick w /\
    optionally_generate_dither_map u (q_dmap q) (negb (is_none (i_bg i))) (q_pal q)
      (RSt q (set_px i (free_histogram_inputs (i_px i))) (chunks_exact (i_w i) (firstn (i_w i * i_h i) buf)) w1) = (Ok (me, p), s') /\
    fst (palette q') = snd (init_int_palette p (q_gamma q) (q_post q)).
Proof.
  intros I D P E. unfold remap_into in E. destruct (Nat.ltb _ _); [discriminate|].
  set (rows := chunks_exact _ _) in *.
  destruct (write_remapped u cb (RSt q i rows w)) as [r s'] eqn:EW. apply pair_equal_spec in E as [-> E].
  apply pair_equal_spec in E as [E _]. apply pair_equal_spec in E as [E _]. apply pair_equal_spec in E as [EQ _].
  unfold write_remapped in EW. unfold sbind at 1, sget at 1 in EW. cbv zeta in EW. cbn [r_q r_img] in EW.
  unfold sbind at 1, on_world at 1, progress at 1 in EW. cbn [r_w r_q r_img r_out] in EW.
  match type of EW with context [if ?b then _ else _] => destruct b; [discriminate|] end.
  unfold sbind at 1, put_img at 1, smod at 1 in EW. cbn [r_w r_q r_img r_out] in EW. rewrite D in EW.
  match type of EW with context [RSt q (set_px i ?d) rows ?w1] => exists w1 end.
  unfold sbind at 1 in EW.
  match type of EW with match ?g with _ => _ end = _ => destruct g as [[[me p]| |] s1] eqn:EG; try discriminate end.
  exists me, p, s1. split; [reflexivity|]. split; [reflexivity|].
  unfold sbind at 1, on_world at 1, progress at 1 in EW. 
  match type of EW with context [if ?b then _ else _] => destruct b; [discriminate|] end.
  destruct (init_int_palette p (q_gamma q) (q_post q)) as [p2 ip] eqn:IP.
  unfold sbind at 1 in EW.
  match type of EW with match ?g with _ => _ end = _ => destruct g as [[[]| |] s2] eqn:EF; try discriminate end.
  unfold put_q, smod in EW. apply pair_equal_spec in EW as [_ EW]. rewrite <- EQ, <- EW. reflexivity.
Qed.

(** Preparing and remapping shows the palette that remapping alone shows. *)
Lemma prepared_palette cb1 cb2 m q i pxs buf buf2 w q1 i1 o1 w1 q2 i2 o2 w2 q3 i3 o3 w3 : result_r m q -> image_r i pxs ->
  (q_dither q =f f0) = false -> length buf = i_w i * i_h i ->
  prepare_for_dithering u q i buf w = (Ok tt, (q1, i1, o1, w1)) -> i_dmap i1 <> None ->
  remap_into u cb1 q1 i1 buf2 w1 = (Ok tt, (q2, i2, o2, w2)) ->
  remap_into u cb2 q i buf w = (Ok tt, (q3, i3, o3, w3)) ->
  fst (palette q2) = fst (palette q3).
Proof.
  intros R I D B E1 DM E2 E3. pose proof (reach_image _ _ I) as IO. pose proof (reach_pal _ _ R) as PL.
  destruct (free_keeps i pxs IO) as [KF IF].
  pose proof (sh_w _ _ (im_px _ _ IO)) as HW. change (0 < i_w i) in HW.
  destruct (chunks_exact_shape (i_w i) (i_h i) buf HW B) as (L1 & F1 & _).
  pose proof (prepare_call u m q i pxs buf w U R I B) as PC. rewrite E1 in PC. destruct PC as (_ & _ & _ & I1 & R1 & _).
  unfold prepare_for_dithering in E1. cbv zeta in E1.
  destruct (optionally_generate_dither_map u (q_dmap q) true (q_pal q) _) as [[[me p]| |] s1] eqn:EG; try discriminate.
  apply pair_equal_spec in E1 as [_ E1]. apply pair_equal_spec in E1 as [E1 _]. apply pair_equal_spec in E1 as [E1 _]. apply pair_equal_spec in E1 as [Q1 X1].
  destruct (dithered_val cb1 q1 i1 buf2 w1 q2 i2 o2 w2 pxs (reach_image _ _ I1)) as (wa & mea & pa1 & sa & _ & EA & ->); auto.
  { rewrite <- Q1. exact D. } { exact (reach_pal _ _ R1). }
  destruct (dithered_val cb2 q i buf w q3 i3 o3 w3 pxs IO) as (wb & meb & pb1 & sb & TB & EB & ->); auto.
  assert (PA : pa1 = q_pal q1).
  { destruct (free_keeps i1 pxs (reach_image _ _ I1)) as [_ IF1].
    assert (DN : i_dmap (set_px i1 (free_histogram_inputs (i_px i1))) <> None) by exact DM.
    unfold optionally_generate_dither_map in EA. unfold sbind at 1, sget at 1 in EA. cbv zeta in EA. cbn [r_img i_dmap set_px] in EA.
    destruct (i_dmap i1) as [x|]; [|congruence]. cbn [is_none] in EA. rewrite Bool.andb_false_r in EA. cbn [negb] in EA. inversion EA; auto. }
  assert (PB : pb1 = p).
  { assert (FB : firstn (i_w i * i_h i) buf = buf) by (apply firstn_all2; lia). rewrite FB in EB.
    assert (LB : length (chunks_exact (i_w i) buf) = i_h (set_px i (free_histogram_inputs (i_px i)))) by (destruct (keeps_dims _ _ KF) as [_ ->]; exact L1).
    destruct (generate_val (q_dmap q) true (q_pal q) (RSt q i (chunks_exact (i_w i) buf) w) pxs _ _ _ IO L1 EG) as [(G1 & P1 & _)|(G1 & G2 & n & o & e & N & RR)];
    destruct (generate_val (q_dmap q) _ (q_pal q) (RSt q (set_px i (free_histogram_inputs (i_px i))) (chunks_exact (i_w i) buf) wb) pxs _ _ _ IF LB EB) as [(G3 & P3 & _)|(G3 & G4 & n' & o' & e' & N' & RR')].
    - congruence.
    - exfalso. destruct G1 as [G1|G1]; [|apply G1; exact G4]. cbn [r_img] in G1, G3. 
      unfold i_w, i_h in G1, G3. cbn [i_px set_px] in G3. destruct KF as ((KW & KH & _) & _). cbn [i_px set_px] in KW, KH. rewrite KW, KH in G3. congruence.
    - exfalso. destruct G3 as [G3|G3]; [|apply G3; exact G2]. cbn [r_img] in G1, G3.
      unfold i_w, i_h in G1, G3. cbn [i_px set_px] in G3. destruct KF as ((KW & KH & _) & _). cbn [i_px set_px] in KW, KH. rewrite KW, KH in G3. congruence.
    - cbn [r_img r_w r_out i_imp set_px] in *. rewrite TB in RR'. rewrite N in N'. inversion N'; subst n'.
      destruct KF as (KD & _). cbn [i_px set_px] in KD. pose proof KD as (KW & KH & _).
      assert (HH : i_h (set_px i (free_histogram_inputs (i_px i))) = i_h i) by exact KH. rewrite HH in RR'. cbn [i_px set_px] in RR'.
      rewrite (remap_rows_same n (i_px i) _ pxs) in RR'; [|apply IO|exact KD|apply (uo_rows u U)].
      rewrite RR in RR'. inversion RR'; auto. }
  subst pa1 pb1. rewrite <- Q1. reflexivity.
Qed.
End U.
End Prepare.
