(** Consequences of [ApiFacts] for remapping calls and for the settings of a
    result. *)
From Verif Require Import Base BaseFacts Arith Order Pal World Attr Hist MedianCut Nearest Kmeans Blur ImageM Quant Remap
  SpecHist SpecImage AttrFacts BlurFacts ImageFacts HistFacts MedianFacts SearchFacts QuantFacts RemapFacts Api ApiFacts.
Open Scope nat_scope.

Section ResultFacts.
Context {A : Arith} {C : CastLaws A}.

Lemma reach_hist h : hist_r h -> hist_wf h.
Proof. apply objects_ok. Qed.
Lemma reach_image i pxs : image_r i pxs -> image_ok i pxs.
Proof. apply objects_ok. Qed.
Lemma reach_result m q : result_r m q -> res_ok m q.
Proof. apply objects_ok. Qed.
Lemma reach_pal m q : result_r m q -> 0 < length (q_pal q) <= 256.
Proof. intros R. destruct (reach_result m q R) as (R1 & R2 & _). lia. Qed.

(** * Outcome of [remap_into] *)
Lemma remap_reach u rcb m q i pxs buf w : unspec_ok u -> result_r m q -> image_r i pxs ->
  remap_post rcb q i pxs buf w (remap_into u rcb q i buf w).
Proof. intros U R I. apply remap_into_ok; auto; [apply reach_image; auto|eapply reach_pal; eauto]. Qed.

Lemma remap_complete u rcb m q i pxs buf w q' i' out w' : unspec_ok u -> result_r m q -> image_r i pxs ->
  remap_into u rcb q i buf w = (Ok tt, (q', i', out, w')) ->
  i_w i * i_h i <= length buf /\ length out = length buf /\
  (forall k, k < i_w i * i_h i -> exists v, nth_error out k = Some v /\ v < palette_len q) /\
  (forall k, i_w i * i_h i <= k -> nth_error out k = nth_error buf k).
Proof.
  intros U R I E. pose proof (remap_reach u rcb m q i pxs buf w U R I) as P. rewrite E in P.
  destruct P as (_ & _ & L & S & N & F & _). split; auto. split; auto. split.
  - intros k Hk. destruct (nth_error out k) as [v|] eqn:V.
    + exists v. split; auto. rewrite Forall_forall in F. apply F. eapply nth_error_In with (n := k).
      rewrite nth_error_firstn. apply Nat.ltb_lt in Hk. rewrite Hk. exact V.
    + apply nth_error_None in V. lia.
  - intros k Hk. replace k with (i_w i * i_h i + (k - i_w i * i_h i)) by lia. rewrite <- !nth_error_skipn, S. auto.
Qed.

Lemma remap_buffer u rcb m q i pxs buf w : unspec_ok u -> result_r m q -> image_r i pxs ->
  (length buf < i_w i * i_h i -> remap_into u rcb q i buf w = (Err BufferTooSmall, (q, i, buf, w))) /\
  (i_w i * i_h i <= length buf ->
     fst (remap_into u rcb q i buf w) <> Err BufferTooSmall /\
     forall k, i_w i * i_h i <= k -> nth_error (snd (fst (snd (remap_into u rcb q i buf w)))) k = nth_error buf k).
Proof.
  intros U R I. split.
  - intros H. unfold remap_into. cbv zeta. apply Nat.ltb_lt in H. rewrite H. auto.
  - intros H. pose proof (remap_reach u rcb m q i pxs buf w U R I) as P.
    destruct (remap_into u rcb q i buf w) as [r [[[q' i'] out] w']]. destruct P as (_ & _ & L & S & P). cbn [fst snd]. split.
    + intros ->. destruct P as (_ & [(_ & H1 & _)|(_ & [[? _]|?])]); [lia|discriminate..].
    + intros k Hk. replace k with (i_w i * i_h i + (k - i_w i * i_h i)) by lia. rewrite <- !nth_error_skipn, S. auto.
Qed.

Lemma remap_failure u rcb m q i pxs buf w e q' i' out w' : unspec_ok u -> result_r m q -> image_r i pxs ->
  remap_into u rcb q i buf w = (Err e, (q', i', out, w')) ->
  q' = q /\ ((e = Aborted /\ exists told pct, rcb told pct = true) \/ e = OutOfMemory \/ e = BufferTooSmall).
Proof.
  intros U R I E. pose proof (remap_reach u rcb m q i pxs buf w U R I) as P. rewrite E in P.
  destruct P as (_ & _ & _ & _ & -> & P). split; auto. destruct P as [(-> & _)|(_ & [[-> B]| ->])]; auto.
Qed.

(** * No call panics *)
Lemma calls_ok u cb a m h i pxs q w buf scratch : unspec_ok u -> usable a -> hist_r h -> image_r i pxs -> result_r m q ->
  (forall told pct, fst (add_image u cb a (h, i, w)) <> Panic /\ fst (hist_quantize u cb a (h, w)) <> Panic /\
     fst (quantize u cb a (i, w)) <> Panic /\ fst (remap_into u told q i buf w) <> Panic /\
     fst (remapped u pct q i scratch w) <> Panic).
Proof.
  intros U Ha H I R told pct. pose proof (reach_hist h H) as HW. pose proof (reach_image i pxs I) as IO.
  split; [|split; [|split; [|split]]].
  - pose proof (add_image_ok u cb a h i w pxs U IO HW) as P. destruct (add_image u cb a (h, i, w)) as [r [[h' i'] w']]. tauto.
  - pose proof (hist_quantize_ok u cb a h w U Ha HW) as P. destruct (hist_quantize u cb a (h, w)) as [r [h' w']]. tauto.
  - pose proof (quantize_ok u cb a i w pxs U Ha IO) as P. destruct (quantize u cb a (i, w)) as [r [i' w']]. tauto.
  - pose proof (remap_reach u told m q i pxs buf w U R I) as P. destruct (remap_into u told q i buf w) as [r [[[q' i'] out] w']].
    cbn [fst]. intros ->. apply P.
  - unfold remapped. set (b := map scratch _). pose proof (remap_reach u pct m q i pxs b w U R I) as P.
    destruct (remap_into u pct q i b w) as [[[]|e|] [[[q' i'] out] w']]; [|discriminate|destruct P as (_ & _ & _ & _ & [])].
    destruct (palette q'). discriminate.
Qed.

(** Errors of [quantize] and their causes. *)
Lemma quantize_errors u cb a i pxs w e s' : unspec_ok u -> usable a -> image_r i pxs ->
  quantize u cb a (i, w) = (Err e, s') ->
  e = Unsupported \/ (e = Aborted /\ exists told pct, cb told pct = true) \/ (e = QualityTooLow /\ a_max_mse a <> None).
Proof.
  intros U Ha I E. pose proof (quantize_ok u cb a i w pxs U Ha (reach_image i pxs I)) as P. rewrite E in P. destruct s' as [i' w'].
  destruct P as (_ & _ & _ & P). destruct (P e eq_refl) as [|[[-> B]|]]; auto.
Qed.

(** * Palette length *)
Lemma palette_len_bounds m q : result_r m q ->
  1 <= palette_len q <= m /\ m <= 256 /\ length (fst (palette q)) = palette_len q /\ palette_len (snd (palette q)) = palette_len q.
Proof.
  intros R. pose proof (reach_result m q R) as Q. destruct (palette_ok m q Q) as [_ L]. destruct Q as (Q1 & Q2 & _).
  split; auto. split; auto. split; auto. apply palette_keeps.
Qed.
Lemma palette_len_calls u rcb m q i pxs buf w r q' i' out w' : unspec_ok u -> result_r m q -> image_r i pxs ->
  remap_into u rcb q i buf w = (r, (q', i', out, w')) -> palette_len q' = palette_len q.
Proof.
  intros U R I E. pose proof (remap_reach u rcb m q i pxs buf w U R I) as P. rewrite E in P.
  destruct P as (_ & _ & _ & _ & P). destruct r as [[]|e|]; [|destruct P as [-> _]; auto|contradiction].
  destruct P as (_ & _ & ip & e & -> & _). auto.
Qed.
Lemma palette_len_setters q q' : (exists v, set_dithering_level q v = Ok q') \/ (exists v, set_output_gamma q v = Ok q') ->
  palette_len q' = palette_len q.
Proof.
  intros [[v E]|[v E]].
  - unfold set_dithering_level in E. destruct (negb _); [discriminate|]. inversion E; auto.
  - unfold set_output_gamma in E. destruct (_ || _)%bool; [discriminate|]. inversion E; auto.
Qed.

(** * Undithered remapping does not depend on the schedule *)
Lemma plain_remap_eq u rcb q i pxs buf w q' i' out w' : unspec_ok u -> image_ok i pxs -> 0 < length (q_pal q) <= 256 ->
  (q_dither q =f f0) = true -> remap_into u rcb q i buf w = (Ok tt, (q', i', out, w')) ->
  exists n err, nearest_new (fst (init_int_palette (q_pal q) (q_gamma q) (q_post q))) = Ok n /\
    out = concat (plain_out n true i) ++ skipn (i_w i * i_h i) buf /\
    q' = set_rem q (Some (snd (init_int_palette (q_pal q) (q_gamma q) (q_post q)), Some err)) /\
    (exists t, Permutation (stree_leaves t) (seq 0 (i_h i)) /\ dis_nan (plain_sum n true i t) = false /\
       err = plain_sum n true i t /d dofZ (wrap32 (Z.of_nat (i_w i) * Z.of_nat (i_h i)))) /\ keeps i i'.
Proof.
  intros U I P D E. pose proof (remap_into_ok u rcb q i pxs buf w U I P) as PP. rewrite E in PP.
  destruct PP as (K & _ & _ & _ & NB & _). unfold remap_into in E. cbv zeta in E.
  destruct (Nat.ltb_spec (length buf) (i_w i * i_h i)) as [H|_]; [discriminate|].
  assert (Lf : length (firstn (i_w i * i_h i) buf) = i_w i * i_h i) by (rewrite firstn_length; lia).
  pose proof (sh_w _ _ (im_px _ _ I)) as HW. change (0 < i_w i) in HW.
  destruct (chunks_exact_shape (i_w i) (i_h i) (firstn (i_w i * i_h i) buf) HW Lf) as (L1 & F1 & _).
  set (rows := chunks_exact (i_w i) (firstn (i_w i * i_h i) buf)) in *.
  unfold write_remapped in E. unfold sbind at 1 in E. unfold sget at 1 in E. cbn [r_q r_img r_out r_w] in E.
  unfold sbind at 1 in E. unfold on_world at 1, progress at 1 in E. cbn [r_q r_img r_out r_w] in E.
  match type of E with context [if rcb ?t ?p then _ else _] => destruct (rcb t p) eqn:CB end; [discriminate|].
  unfold sbind at 1 in E. unfold put_img at 1, smod at 1 in E. cbn [r_q r_img r_out r_w] in E.
  rewrite D in E.
  destruct (init_int_palette (q_pal q) (q_gamma q) (q_post q)) as [p ip] eqn:IP. cbn [fst snd].
  assert (LP : length p = length (q_pal q)).
  { unfold init_int_palette in IP. inversion IP. rewrite map_length. auto. }
  rewrite <- LP in P.
  destruct (nearest_new_ok p P) as (n & EN & NO & _).
  destruct (free_keeps _ _ I) as [K0 I0]. set (i0 := set_px _ _) in *.
  set (s2 := RSt q i0 rows _) in E.
  destruct (keeps_dims _ _ K0) as [W0 H0].
  destruct (remap_to_palette_eq u U true p s2 pxs n I0) as (i2 & p' & E2 & _); [cbn [r_out s2 r_img]; congruence|auto|].
  unfold sbind at 1 in E. rewrite E2 in E. cbn [r_img s2] in E.
  destruct (dis_nan _) eqn:NN; [discriminate|]. cbn in E. inversion E; subst. exists n. eexists. split; [exact EN|].
  split; [rewrite (plain_out_same n true i i0 pxs I K0); reflexivity|]. split; [reflexivity|]. split; [|exact K].
  cbn [r_w s2 r_img w_tick] in NN |- *. change (i_w i0) with (i_w (set_px i (free_histogram_inputs (i_px i)))). fold i0.
  rewrite H0 in NN |- *. rewrite W0.
  exists (u_sum u (w_tick w) (i_h i)). rewrite (plain_sum_same n true i i0 pxs) in NN |- * by (auto; intros y; apply (sum_leaves_lt u U)).
  split; [apply (uo_sum _ U)|]. split; [exact NN|reflexivity].
Qed.

Lemma plain_remap_schedule_free u1 u2 cb1 cb2 m q i pxs buf1 buf2 w1 w2 q1 i1 out1 w1' q2 i2 out2 w2' :
  unspec_ok u1 -> unspec_ok u2 -> result_r m q -> image_r i pxs -> (q_dither q =f f0) = true ->
  remap_into u1 cb1 q i buf1 w1 = (Ok tt, (q1, i1, out1, w1')) ->
  remap_into u2 cb2 q i buf2 w2 = (Ok tt, (q2, i2, out2, w2')) ->
  firstn (i_w i * i_h i) out1 = firstn (i_w i * i_h i) out2 /\ fst (palette q1) = fst (palette q2).
Proof.
  intros U1 U2 R I D E1 E2. pose proof (reach_image i pxs I) as IO. pose proof (reach_pal m q R) as P.
  destruct (plain_remap_eq u1 cb1 q i pxs buf1 w1 q1 i1 out1 w1' U1 IO P D E1) as (n & e1 & N1 & -> & -> & _).
  destruct (plain_remap_eq u2 cb2 q i pxs buf2 w2 q2 i2 out2 w2' U2 IO P D E2) as (n2 & e2 & N2 & -> & -> & _).
  rewrite N1 in N2. inversion N2; subst n2.
  assert (NO : near_ok n (length (q_pal q))).
  { assert (L : length (fst (init_int_palette (q_pal q) (q_gamma q) (q_post q))) = length (q_pal q)) by (cbn; apply map_length).
    rewrite <- L. destruct (nearest_new_inv _ _ N1) as (_ & NO & _). exact NO. }
  destruct (plain_out_good n (length (q_pal q)) true i pxs NO IO) as [G1 G2].
  assert (L : length (concat (plain_out n true i)) = i_w i * i_h i).
  { rewrite (concat_rows_length (i_w i)); [lia|]. eapply Forall_impl; [|exact G2]. intros r [? _]; auto. }
  split; auto. rewrite !firstn_app, !L, !Nat.sub_diag. auto.
Qed.

(** Remapping the same image again gives the same result. *)
Lemma plain_remap_repeat u1 u2 cb1 cb2 m q i pxs buf1 buf2 w1 w2 q1 i1 out1 w1' q2 i2 out2 w2' :
  unspec_ok u1 -> unspec_ok u2 -> result_r m q -> image_r i pxs -> (q_dither q =f f0) = true ->
  remap_into u1 cb1 q i buf1 w1 = (Ok tt, (q1, i1, out1, w1')) ->
  remap_into u2 cb2 q1 i1 buf2 w2 = (Ok tt, (q2, i2, out2, w2')) ->
  firstn (i_w i * i_h i) out1 = firstn (i_w i * i_h i) out2 /\ fst (palette q1) = fst (palette q2).
Proof.
  intros U1 U2 R I D E1 E2. pose proof (reach_image i pxs I) as IO. pose proof (reach_pal m q R) as P.
  pose proof (ir_remap _ _ _ _ _ _ _ _ _ _ _ _ _ U1 R I E1) as I1. pose proof (reach_image i1 pxs I1) as IO1.
  destruct (plain_remap_eq u1 cb1 q i pxs buf1 w1 q1 i1 out1 w1' U1 IO P D E1) as (n & e1 & N1 & -> & Q1 & _ & K).
  assert (P1 : 0 < length (q_pal q1) <= 256) by (rewrite Q1; exact P). assert (D1 : (q_dither q1 =f f0) = true) by (rewrite Q1; exact D).
  destruct (plain_remap_eq u2 cb2 q1 i1 pxs buf2 w2 q2 i2 out2 w2' U2 IO1 P1 D1 E2) as (n2 & e2 & N2 & -> & -> & _).
  subst q1. cbn [q_pal q_gamma q_post set_rem] in N2 |- *. destruct (keeps_dims _ _ K) as [KW KH]. rewrite N1 in N2. inversion N2; subst n2.
  assert (NO : near_ok n (length (q_pal q))).
  { assert (L : length (fst (init_int_palette (q_pal q) (q_gamma q) (q_post q))) = length (q_pal q)) by (cbn; apply map_length).
    rewrite <- L. destruct (nearest_new_inv _ _ N1) as (_ & NO & _). exact NO. }
  destruct (plain_out_good n (length (q_pal q)) true i pxs NO IO) as [G1 G2].
  assert (L : length (concat (plain_out n true i)) = i_w i * i_h i).
  { rewrite (concat_rows_length (i_w i)); [lia|]. eapply Forall_impl; [|exact G2]. intros r [? _]; auto. }
  rewrite (plain_out_same n true i i1 pxs IO K).
  split; auto. rewrite !firstn_app, !L, !Nat.sub_diag. auto.
Qed.

(** * Settings *)
Lemma setters_reset u rcb m q0 i pxs buf w q1 i' out w' q2 : unspec_ok u -> result_r m q0 -> image_r i pxs -> q_rem q0 = None ->
  remap_into u rcb q0 i buf w = (Ok tt, (q1, i', out, w')) ->
  (exists v, set_dithering_level q1 v = Ok q2) \/ (exists v, set_output_gamma q1 v = Ok q2) ->
  remapping_error q2 = quantization_error q0 /\ remapping_quality q2 = quantization_quality q0 /\
  quantization_error q2 = quantization_error q0 /\ quantization_quality q2 = quantization_quality q0 /\
  palette_len q2 = palette_len q0 /\
  ((exists v, set_dithering_level q1 v = Ok q2) -> fst (palette q2) = fst (palette q0) /\ output_gamma q2 = output_gamma q0) /\
  (forall v, set_output_gamma q1 v = Ok q2 -> output_gamma q2 = v /\ q_dither q2 = q_dither q0 /\
     (q_int q0 = [] -> fst (palette q2) = snd (init_int_palette (q_pal q0) v (q_post q0)))).
Proof.
  intros U R I N E S. pose proof (remap_reach u rcb m q0 i pxs buf w U R I) as P. rewrite E in P.
  destruct P as (_ & _ & _ & _ & _ & _ & ip & er & -> & _).
  assert (Q : q_rem q2 = None /\ q_err q2 = q_err q0 /\ q_pal q2 = q_pal q0).
  { destruct S as [[v S]|[v S]].
    - unfold set_dithering_level in S. destruct (negb _); [discriminate|]. inversion S; subst. auto.
    - unfold set_output_gamma in S. destruct (_ || _)%bool; [discriminate|]. inversion S; subst. auto. }
  destruct Q as (Q1 & Q2 & Q3). unfold remapping_error, remapping_quality, quantization_error, quantization_quality, remap_err, palette_len.
  rewrite Q1, Q2, Q3. do 5 (split; [reflexivity|]). split.
  - intros [v D]. unfold set_dithering_level in D. destruct (negb _); [discriminate|]. inversion D; subst. split; [|reflexivity].
    unfold palette. cbn [q_rem q_int q_pal q_gamma q_post q_dither q_err q_dmap q_single set_rem]. rewrite N. destruct (q_int q0); auto.
    
  - intros v D. unfold set_output_gamma in D. destruct (_ || _)%bool; [discriminate|]. inversion D; subst. split; auto. split; auto.
    unfold palette. cbn [q_rem q_int q_pal q_gamma q_post q_dither q_err q_dmap q_single set_rem]. intros ->. reflexivity.
Qed.

Lemma clone_same q : clone_result q = q.
Proof. destruct q; reflexivity. Qed.
Lemma clone_observes u cb q i buf w : let q' := clone_result q in
  palette q' = palette q /\ palette_len q' = palette_len q /\ output_gamma q' = output_gamma q /\
  quantization_error q' = quantization_error q /\ quantization_quality q' = quantization_quality q /\
  remapping_error q' = remapping_error q /\ remapping_quality q' = remapping_quality q /\
  remap_into u cb q' i buf w = remap_into u cb q i buf w.
Proof. cbv zeta. rewrite clone_same. repeat split. Qed.
End ResultFacts.
