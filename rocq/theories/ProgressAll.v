(** Every chunk of rows of a dithered remap is reported; any arithmetic. *)
From Verif Require Import Base BaseFacts Arith Order Pal World Attr Hist Nearest Kmeans Blur ImageM Quant Remap
  AttrFacts SpecHist SpecImage ImageFacts QuantFacts RemapFacts Api ApiFacts PalFacts ProgressFacts.
Open Scope nat_scope.

Section All.
Context {A : Arith}.
Variable u : unspec.
Variable U : unspec_ok u.
Variable rcb : callback.
(** The number reported for the chunk that starts at row [start]. *)
Definition row_pct (st1 : Z) (start h : nat) : f32 :=
  fofZ st1 +f fofZ (Z.of_nat start) *f (fofZ 100 -f fofZ st1) /f fofZ (Z.of_nat h).
Lemma chunks_told E d bg dm st1 h size out : 0 < size -> forall start done s s',
  floyd_chunks u rcb E d bg dm st1 h start done (chunks size out) s = (Ok tt, s') ->
  (forall p, In p (w_trace (r_w s)) -> In p (w_trace (r_w s'))) /\
  forall j, j * size < length out -> In (row_pct st1 (start + j * size) h) (w_trace (r_w s')).
Proof.
  intros HS. induction out as [|l Hl IH] using (chunks_ind size HS); intros start done s s' H.
  - rewrite chunks_nil in H. cbn [floyd_chunks] in H. unfold put_out, smod in H. inversion H; subst. cbn. split; auto. intros; lia.
  - rewrite chunks_cons in H by auto. cbn [floyd_chunks] in H.
    apply sbind_ok in H as (k & s1 & H1 & H). unfold on_world, tick in H1. inversion H1; subst k s1. clear H1.
    apply sbind_ok in H as (dif & s2 & H2 & H). unfold slift in H2. inversion H2. subst s2. clear H2 H1.
    apply sbind_ok in H as (stop & s3 & H5 & H). unfold on_world, progress in H5. inversion H5. subst s3. clear H5 H1. destruct stop.
    + apply sbind_ok in H as (x & s4 & _ & H). discriminate.
    + apply sbind_ok in H as (o & s4 & H6 & H). unfold slift in H6. inversion H6. subst s4. clear H6 H1.
      apply IH in H as [Hk Hc]. cbn [r_w w_trace] in Hk. split.
      * intros p Hp. apply Hk. cbn. auto.
      * intros j Hj. destruct j as [|j].
        -- cbn [Nat.mul]. rewrite Nat.add_0_r. apply Hk. left. reflexivity.
        -- destruct (Nat.le_gt_cases (length l) size) as [X|X]; [cbn in Hj; lia|].
           rewrite firstn_length_le in Hc by lia. specialize (Hc j). rewrite skipn_length in Hc. cbn in Hj.
           replace (start + S j * size) with (start + size + j * size) by (cbn; lia). apply Hc. lia.
Qed.
Lemma floyd_told (p : palf) me rm s pxs s' : image_ok (r_img s) pxs -> shaped (r_img s) (r_out s) -> floyd u rcb p me rm s = (Ok tt, s') ->
  forall j, let nc := num_chunks u (q_single (r_q s)) (i_w (r_img s)) (i_h (r_img s)) in
  let size := (i_h (r_img s) + nc - 1) / nc in j * size < i_h (r_img s) ->
  In (row_pct (if dmode_is_none (q_dmap (r_q s)) then 0 else 20)%Z (j * size) (i_h (r_img s))) (w_trace (r_w s')).
Proof.
  intros I [L F] H j. cbv zeta. intros Hj. unfold floyd in H.
  apply sbind_ok in H as (s1 & s2 & E & H). unfold sget in E. inversion E; subst s1 s2. clear E. cbv zeta in H.
  apply sbind_ok in H as (n & s3 & E & H). unfold slift in E. inversion E; subst s3. clear E.
  apply sbind_ok in H as ([] & s4 & E4 & H).
  apply sbind_ok in H as (tc & s5 & E & H). unfold slift in E. inversion E; subst s5. clear E.
  apply sbind_ok in H as ([] & s6 & E6 & H).
  apply sbind_ok in H as (s7 & s8 & E & H). unfold sget in E. inversion E; subst s7 s8. clear E.
  destruct (prepare_bg_eq s pxs I) as (ob & X1 & K1 & I1). rewrite X1 in E4. inversion E4; subst s4. clear E4.
  set (s4 := upd_img s (set_bg (r_img s) ob)) in *.
  destruct (prepare_image_eq s4 pxs I1) as (d & X2 & S2 & I2). rewrite X2 in E6. inversion E6; subst s6. clear E6.
  set (s6 := upd_img s4 _) in *.
  assert (K2 : keeps (r_img s) (r_img s6)).
  { eapply keeps_trans; [exact K1|]. split; [exact S2|]. split; auto. cbn. destruct ob as [g|]; auto.
    exists g. auto using same_drows_refl. }
  destruct (keeps_dims _ _ K2) as [W2 HH2]. rewrite W2, HH2 in H. change (r_out s6) with (r_out s) in H.
  pose proof (sh_h _ _ (im_px _ _ I)) as HP. change (0 < i_h (r_img s)) in HP.
  pose proof (num_chunks_pos u (q_single (r_q s)) (i_w (r_img s)) (i_h (r_img s)) U) as NC.
  apply chunks_told in H as [_ H].
  - apply (H j). rewrite L. exact Hj.
  - apply Nat.div_str_pos. lia.
Qed.
(** A dithered remap that succeeds has reported every chunk. *)
Lemma remap_all_told (C : CastLaws A) m q i pxs buf w out : result_r m q -> image_r i pxs -> (q_dither q =f f0) = false ->
  remap_into u rcb q i buf w = (Ok tt, out) ->
  forall j, let nc := num_chunks u (q_single q) (i_w i) (i_h i) in
  let size := (i_h i + nc - 1) / nc in j * size < i_h i ->
  In (row_pct (if dmode_is_none (q_dmap q) then 0 else 20)%Z (j * size) (i_h i)) (w_trace (snd out)).
Proof.
  intros R I D H. destruct objects_ok as (_ & OI & OR). pose proof (OI _ _ I) as I'. pose proof (OR _ _ R) as (L & M & _).
  unfold remap_into in H. destruct (Nat.ltb_spec (length buf) (i_w i * i_h i)) as [HB|HB]; [discriminate|]. cbv zeta in H.
  assert (Lf : length (firstn (i_w i * i_h i) buf) = i_w i * i_h i) by (rewrite firstn_length; lia).
  pose proof (sh_w _ _ (im_px _ _ I')) as HW. change (0 < i_w i) in HW.
  destruct (chunks_exact_shape (i_w i) (i_h i) (firstn (i_w i * i_h i) buf) HW Lf) as (L1 & F1 & _).
  set (s := RSt q i (chunks_exact (i_w i) (firstn (i_w i * i_h i) buf)) w) in *.
  assert (SH : shaped (r_img s) (r_out s)) by (split; auto).
  destruct (write_remapped u rcb s) as [r s'] eqn:E. inversion H; subst r out. clear H. cbn [snd].
  unfold write_remapped in E.
  apply sbind_ok in E as (s1 & s2 & X & E). unfold sget in X. inversion X; subst s1 s2. clear X. cbv zeta in E.
  apply sbind_ok in E as ([] & s1 & X & E); [discriminate|]. unfold on_world, progress in X. inversion X; subst s1. clear X H0.
  apply sbind_ok in E as ([] & s1 & X & E). unfold put_img, smod in X. inversion X; subst s1. clear X.
  change (r_q s) with q in E. rewrite D in E.
  destruct (free_keeps _ _ I') as [K0 I0]. set (s4 := RSt _ _ _ _) in E.
  assert (SH4 : shaped (r_img s4) (r_out s4)) by (apply (shaped_keeps (r_img s)); auto).
  apply sbind_ok in E as ([me p] & s5 & X & E).
  assert (P : 0 < length (q_pal q) <= 256) by lia.
  pose proof (generate_dither_map_ok u U C (q_dmap q) (negb (is_none (i_bg (r_img s)))) (q_pal q) s4 pxs I0 SH4 P) as G. unfold runs in G.
  rewrite X in G. destruct G as (G1 & G2 & G3 & G4 & _).
  assert (K : keeps (r_img s) (r_img s5)) by (eapply keeps_trans; eauto).
  apply sbind_ok in E as ([] & s6 & X6 & E); [discriminate|]. unfold on_world, progress in X6. inversion X6; subst s6. clear X6 H0.
  cbv zeta in E. destruct (init_int_palette _ _ _) as [p' ip].
  apply sbind_ok in E as ([] & s7 & X7 & E). unfold put_q, smod in E. inversion E; subst s'. clear E. cbn [r_w].
  set (s6 := RSt _ _ _ _) in X7.
  destruct (keeps_dims _ _ K) as [WW HH]. change (i_w (r_img s)) with (i_w i) in WW. change (i_h (r_img s)) with (i_h i) in HH.
  intros j. assert (SH6 : shaped (r_img s6) (r_out s6)).
  { apply (shaped_keeps (r_img s)); auto. apply (shaped_back _ _ _ K0 G4). }
  pose proof (floyd_told _ _ _ s6 pxs s7 G3 SH6 X7 j) as Z. assert (RQ : r_q s6 = q) by exact G1. rewrite RQ in Z.
  change (r_img s6) with (r_img s5) in Z. rewrite WW, HH in Z. exact Z.
Qed.
(** Without a dither map and a callback that never breaks, it succeeds. *)
Lemma no_draft_succeeds (C : CastLaws A) m q i pxs buf w : result_r m q -> image_r i pxs -> (q_dither q =f f0) = false ->
  q_dmap q = DmNone -> (forall t p, rcb t p = false) -> i_w i * i_h i <= length buf ->
  exists out, remap_into u rcb q i buf w = (Ok tt, out).
Proof.
  intros R I D N CB HB. destruct objects_ok as (_ & OI & OR). pose proof (OI _ _ I) as I'. pose proof (OR _ _ R) as (L & M & _).
  unfold remap_into. destruct (Nat.ltb_spec (length buf) (i_w i * i_h i)) as [HB'|_]; [lia|]. cbv zeta.
  assert (Lf : length (firstn (i_w i * i_h i) buf) = i_w i * i_h i) by (rewrite firstn_length; lia).
  pose proof (sh_w _ _ (im_px _ _ I')) as HW. change (0 < i_w i) in HW.
  destruct (chunks_exact_shape (i_w i) (i_h i) (firstn (i_w i * i_h i) buf) HW Lf) as (L1 & F1 & _).
  set (s := RSt q i (chunks_exact (i_w i) (firstn (i_w i * i_h i) buf)) w) in *.
  assert (SH : shaped (r_img s) (r_out s)) by (split; auto).
  assert (X : runs (write_remapped u rcb) s (fun _ _ => True) (fun _ _ => False)).
  { unfold write_remapped. apply runs_bind. unfold sget at 1, runs at 1. cbv zeta.
    apply runs_bind. unfold on_world at 1, progress at 1, runs at 1. rewrite CB.
    apply runs_bind. unfold put_img at 1, smod at 1, runs at 1. change (r_q s) with q. rewrite D.
    destruct (free_keeps _ _ I') as [K0 I0]. set (s4 := RSt _ _ _ _).
    assert (SH4 : shaped (r_img s4) (r_out s4)) by (apply (shaped_keeps (r_img s)); auto).
    apply runs_bind. unfold optionally_generate_dither_map. apply runs_bind. unfold sget at 1, runs at 1. cbv zeta. rewrite N.
    cbn [dmode_is_always dmode_is_none negb orb andb]. rewrite Bool.andb_false_r. cbn [orb andb negb]. unfold runs at 1, sret at 1.
    apply runs_bind. unfold on_world at 1, progress at 1, runs at 1. rewrite CB.
    cbv zeta. destruct (init_int_palette _ _ _) as [p' ip] eqn:IP. apply runs_bind.
    assert (Lp : length p' = length (q_pal q)) by (unfold init_int_palette in IP; inversion IP; rewrite !map_length; auto).
    eapply runs_weaken; [apply floyd_ok with (pxs := pxs)| |]; auto; try lia.
    - intros. exact Logic.I.
    - cbn beta. intros e s' ((_ & t & p & X) & _). rewrite CB in X. discriminate. }
  unfold runs in X. destruct (write_remapped u rcb s) as [[[]|e|] s']; try contradiction. eauto.
Qed.
End All.
