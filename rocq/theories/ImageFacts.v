(** Proofs about pixel sources, images and their maps. *)
From Verif Require Import Base BaseFacts Arith Order Pal World Attr Blur ImageM SpecImage BlurFacts.
Open Scope nat_scope.

Section ImageFacts.
Context {A : Arith}.

(** The image shows the pixels [pxs] (rows, top to bottom): its source
    delivers them, or has been released after they were converted; a cache of
    converted pixels holds exactly their conversion. *)
Record shows (d : drows) (pxs : list (list rgba)) : Prop := {
  sh_w : 0 < d_w d;
  sh_h : 0 < d_h d;
  sh_len : length pxs = d_h d;
  sh_rows : Forall (fun r => length r = d_w d /\ Forall rgba_ok r) pxs;
  sh_src : (d_src d = SrcPixels [] [] /\ d_f d <> None) \/
           (forall y r, nth_error pxs y = Some r -> row_rgba d y = Ok r);
  sh_f : d_f d = None \/ d_f d = Some (map (map (from_rgba (gamma_lut (d_gamma d)))) pxs)
}.
Definition released (d : drows) : Prop := d_src d = SrcPixels [] [].

(** The two states agree on everything but the cache. *)
Definition same_px (d d' : drows) : Prop :=
  d_w d' = d_w d /\ d_h d' = d_h d /\ d_src d' = d_src d /\ d_gamma d' = d_gamma d.

Lemma row_rgba_same d d' y : same_px d d' -> row_rgba d' y = row_rgba d y.
Proof. intros (H1 & H2 & H3 & H4). unfold row_rgba. rewrite H3, H1. auto. Qed.

Lemma shows_row d pxs y r : shows d pxs -> nth_error pxs y = Some r ->
  row_f d y = Ok (map (from_rgba (gamma_lut (d_gamma d))) r).
Proof.
  intros S E. unfold row_f. destruct (sh_f _ _ S) as [F|F]; rewrite F.
  - destruct (sh_src _ _ S) as [[_ ?]|R]; [congruence|]. rewrite (R y r E). cbn [bind]. unfold convert_row.
    pose proof (sh_rows _ _ S) as Q. rewrite Forall_forall in Q. destruct (Q r) as [L _]; [eapply nth_error_In; eauto|].
    rewrite L, Nat.eqb_refl. auto.
  - apply idx_ok. rewrite nth_error_map, E. auto.
Qed.
Lemma shows_row_ex d pxs y : shows d pxs -> y < d_h d -> exists r, nth_error pxs y = Some r /\ length r = d_w d /\
  Forall rgba_ok r /\ row_f d y = Ok (map (from_rgba (gamma_lut (d_gamma d))) r).
Proof.
  intros S Hy. rewrite <- (sh_len _ _ S) in Hy. apply nth_error_Some in Hy. destruct (nth_error pxs y) as [r|] eqn:E; [|congruence].
  exists r. pose proof (sh_rows _ _ S) as Q. rewrite Forall_forall in Q. destruct (Q r) as [L B]; [eapply nth_error_In; eauto|].
  repeat split; auto. eapply shows_row; eauto.
Qed.

Lemma list_as_nth {T} (l : list T) : map (fun i => nth_error l i) (seq 0 (length l)) = map Some l.
Proof.
  apply list_eq_nth_error. intros i. rewrite !nth_error_map, nth_error_seq. destruct (Nat.ltb_spec i (length l)).
  - cbn. apply nth_error_Some in H. destruct (nth_error l i); auto; congruence.
  - apply nth_error_None in H. rewrite H. auto.
Qed.
Lemma mapM_seq_nth {T U} (f : nat -> res U) (g : T -> U) (l : list T) :
  (forall i x, nth_error l i = Some x -> f i = Ok (g x)) -> mapM f (seq 0 (length l)) = Ok (map g l).
Proof.
  intros H. apply mapM_ok. revert f H. induction l as [|x l IH]; intros f H; [constructor|].
  cbn [length seq map]. constructor; [apply (H 0); auto|].
  rewrite <- seq_shift. specialize (IH (fun i => f (S i))). cbn in IH.
  assert (Q : Forall2 (fun a b => f (S a) = Ok b) (seq 0 (length l)) (map g l)).
  { apply IH. intros i y Hy. apply (H (S i)). auto. }
  clear IH H. induction Q; cbn; constructor; auto.
Qed.

Lemma prepare_iter_shows d pxs b : shows d pxs -> exists d', prepare_iter d b = Ok d' /\ shows d' pxs /\ same_px d d' /\
  (b = false -> d_f d' <> None).
Proof.
  intros S. unfold prepare_iter. destruct (d_f d) as [f|] eqn:F.
  - exists d. unfold same_px. split; auto. split; auto. split; auto. congruence.
  - destruct (b && low_memory d)%bool eqn:E.
    { exists d. unfold same_px. split; auto. split; auto. split; auto. intros ->. discriminate. }
    assert (M : mapM (fun r => p <- row_rgba d r ;; convert_row d p) (seq 0 (d_h d)) =
                Ok (map (map (from_rgba (gamma_lut (d_gamma d)))) pxs)).
    { rewrite <- (sh_len _ _ S). apply mapM_seq_nth. intros i r Hr. pose proof (shows_row d pxs i r S Hr) as Q.
      unfold row_f in Q. rewrite F in Q. exact Q. }
    rewrite M. cbn [bind]. eexists; split; [reflexivity|]. split; [|split; [repeat split|cbn; congruence]].
    constructor; cbn; try apply S; auto.
    destruct (sh_src _ _ S) as [[_ ?]|R]; [congruence|]. auto.
Qed.

Lemma all_rgba_rows_shows d pxs : shows d pxs -> 
  all_rgba_rows d = Ok pxs \/ (all_rgba_rows d = Err Unsupported /\ released d).
Proof.
  intros S. unfold all_rgba_rows, released. destruct (sh_src _ _ S) as [[R _]|R].
  - rewrite R. auto.
  - left. assert (M : mapM (row_rgba d) (seq 0 (d_h d)) = Ok pxs).
    { rewrite <- (sh_len _ _ S). rewrite (mapM_seq_nth _ (fun r => r) pxs), map_id; auto. }
    destruct (d_src d) as [buf [|o os]|cb] eqn:E; auto.
    exfalso. pose proof (sh_h _ _ S) as H. rewrite <- (sh_len _ _ S) in H.
    destruct pxs as [|r pxs]; [cbn in H; lia|]. specialize (R 0 r eq_refl). unfold row_rgba in R. rewrite E in R. discriminate.
Qed.
Lemma all_rgba_rows_live d pxs : shows d pxs -> ~ released d -> all_rgba_rows d = Ok pxs.
Proof. intros S H. destruct (all_rgba_rows_shows d pxs S) as [?|[_ ?]]; auto; contradiction. Qed.

Lemma all_rows_f_shows d pxs : shows d pxs -> exists d', all_rows_f d = Ok (d', map (map (from_rgba (gamma_lut (d_gamma d)))) pxs) /\
  shows d' pxs /\ same_px d d' /\ d_f d' <> None.
Proof.
  intros S. unfold all_rows_f. destruct (prepare_iter_shows d pxs false S) as (d' & E & S' & P & F).
  rewrite E. cbn [bind]. specialize (F eq_refl). destruct (sh_f _ _ S') as [?|G]; [congruence|].
  rewrite G. destruct P as (P1 & P2 & P3 & P4). rewrite P4. exists d'. unfold same_px. auto 10.
Qed.

Lemma free_shows d pxs : shows d pxs -> shows (free_histogram_inputs d) pxs /\
  d_w (free_histogram_inputs d) = d_w d /\ d_h (free_histogram_inputs d) = d_h d /\ d_gamma (free_histogram_inputs d) = d_gamma d.
Proof.
  intros S. unfold free_histogram_inputs. destruct (d_f d) as [f|] eqn:F; auto.
  split; [|auto]. constructor; cbn; try apply S; auto.
  - left. split; auto. congruence.
  - pose proof (sh_f _ _ S). rewrite F in H. auto.
Qed.

(** * Whole images *)
Definition map_ok (i : image) (m : option (list Z)) : Prop :=
  forall l, m = Some l -> length l = i_w i * i_h i /\ Forall byte l.
Record image_ok (i : image) (pxs : list (list rgba)) : Prop := {
  im_px : shows (i_px i) pxs;
  im_imp : map_ok i (i_imp i);
  im_edges : map_ok i (i_edges i);
  im_dmap : map_ok i (i_dmap i);
  im_bg : forall b, i_bg i = Some b ->
            i_bg b = None /\ i_w b = i_w i /\ i_h b = i_h i /\ exists bp, shows (i_px b) bp;
  im_fixed : length (i_fixed i) <= 256 /\ Forall rgba_ok (i_fixed i)
}.

(** ** Contrast maps *)
Lemma contrast_row_total w a b c : 0 < w -> length a = w -> length b = w -> length c = w ->
  exists o, contrast_row w a b c = Ok o /\ length o = w.
Proof.
  intros Hw La Lb Lc. unfold contrast_row. rewrite (idx_nth b 0 px0) by lia. cbn [bind].
  match goal with |- context [foldM ?F (seq 0 w) ?s0] => set (f := F);
    destruct (foldM_seq_total (fun i (st : px * px * list (Z * Z)) => length (snd st) = i) f w 0 s0) as (st & E & P) end.
  - intros i [[c0 n0] o] Hi Q. cbn [snd] in Q. unfold f.
    rewrite (idx_nth b _ px0), (idx_nth a _ px0), (idx_nth c _ px0) by lia. cbn [bind].
    eexists; split; [reflexivity|]. cbn [snd]. rewrite app_length, Q. reflexivity.
  - reflexivity.
  - rewrite E. destruct st as [[c0 n0] o]. cbn [bind snd] in *. eauto.
Qed.
Lemma contrast_row_bytes {C : CastLaws A} w a b c o : contrast_row w a b c = Ok o ->
  Forall (fun ne => byte (fst ne) /\ byte (snd ne)) o.
Proof.
  intros E. unfold contrast_row in E. apply bind_ok in E as (c1 & _ & E). apply bind_ok in E as ([[c0 n0] oo] & H0 & E).
  inversion E; subst oo. clear E.
  eapply (foldM_inv _ (fun st => Forall (fun ne => byte (fst ne) /\ byte (snd ne)) (snd st))) in H0; cbn; auto.
  intros [[c3 n1] o1] i [[c2 n2] o2] _ Q E. cbn [snd] in *. binv E. binv E. binv E. inversion E; subst.
  apply Forall_app. split; auto. repeat constructor; apply fto_u8_range.
Qed.

Lemma contrast_rows_total w n a b rest : 0 < w -> length a = w -> length b = w -> Forall (fun r => length r = w) rest ->
  exists o, contrast_rows w n a b rest = Ok o /\ length o = w * n.
Proof.
  intros Hw. revert a b rest. induction n as [|n IH]; intros a b rest La Lb Lr; cbn [contrast_rows].
  - eexists; split; [reflexivity|]. cbn. lia.
  - destruct rest as [|r rest].
    + destruct (contrast_row_total w a b b) as (o & E & L); auto. rewrite E. cbn [bind].
      destruct (IH b b []) as (m & E' & L'); auto. rewrite E'. cbn [bind]. eexists; split; [reflexivity|]. rewrite app_length. lia.
    + apply Forall_cons_iff in Lr as [Lr1 Lr2]. destruct (contrast_row_total w a b r) as (o & E & L); auto. rewrite E. cbn [bind].
      destruct (IH b r rest) as (m & E' & L'); auto. rewrite E'. cbn [bind]. eexists; split; [reflexivity|]. rewrite app_length. lia.
Qed.
Lemma contrast_rows_bytes {C : CastLaws A} w n a b rest o : contrast_rows w n a b rest = Ok o ->
  Forall (fun ne => byte (fst ne) /\ byte (snd ne)) o.
Proof.
  revert a b rest o. induction n as [|n IH]; intros a b rest o E; cbn [contrast_rows] in E.
  - inversion E. constructor.
  - destruct (match rest with [] => (b, []) | r :: t => (r, t) end) as [nx rs]. binv E. binv E. inversion E; subst.
    apply Forall_app. split; [eapply contrast_row_bytes; eauto|eauto].
Qed.

Lemma splice_all (d x : list Z) : length d = length x -> splice d 0 x = Ok x.
Proof.
  intros H. rewrite splice_ok by lia. f_equal. cbn [firstn app]. rewrite skipn_all2 by lia. apply app_nil_r.
Qed.

Lemma max3_total w h src dst : 0 < w -> 0 < h -> length src = w * h -> length dst = w * h ->
  exists o, liq_max3 src dst w h = Ok o /\ length o = w * h.
Proof. intros. destruct (max3_spec w h src dst) as (o & E & L & _); eauto. Qed.
Lemma min3_total w h src dst : 0 < w -> 0 < h -> length src = w * h -> length dst = w * h ->
  exists o, liq_min3 src dst w h = Ok o /\ length o = w * h.
Proof. intros. destruct (min3_spec w h src dst) as (o & E & L & _); eauto. Qed.

Lemma byte_range l : Forall byte l <-> Forall (in_range 0 255) l.
Proof. split; intros H; (eapply Forall_impl; [|exact H]); unfold byte, in_range; cbn; intros; lia. Qed.

(** The filter chain applied to fresh noise and edge maps. *)
Definition filter_chain (w h : nat) (noise edges : list Z) : res (list Z * list Z) :=
  let zero := repeat 0%Z (w * h) in
  tmp <- liq_max3 noise zero w h ;;
  noise <- liq_max3 tmp noise w h ;;
  ' (noise, tmp) <- liq_blur noise tmp w h 3 ;;
  tmp <- liq_max3 noise tmp w h ;;
  noise <- liq_min3 tmp noise w h ;;
  tmp <- liq_min3 noise tmp w h ;;
  noise <- liq_min3 tmp noise w h ;;
  tmp <- liq_min3 edges tmp w h ;;
  edges <- liq_max3 tmp edges w h ;;
  Ok (noise, map (fun en => Z.min (snd en) (fst en)) (combine edges noise) ++ skipn (length noise) edges).

Lemma filter_chain_spec w h noise edges lo hi : 0 < w -> 0 < h -> length noise = w * h -> length edges = w * h ->
  Forall byte noise -> Forall byte edges -> Forall (in_range lo hi) noise ->
  exists n e, filter_chain w h noise edges = Ok (n, e) /\ length n = w * h /\ length e = w * h /\
    Forall byte n /\ Forall byte e /\ Forall (in_range lo hi) n.
Proof.
  intros Hw Hh Ln Le Bn Be Rn. unfold filter_chain. cbv zeta.
  assert (Lz : length (repeat 0%Z (w * h)) = w * h) by apply repeat_length.
  destruct (max3_total w h noise (repeat 0%Z (w * h))) as (t1 & E1 & L1); auto. rewrite E1. cbn [bind].
  destruct (max3_range lo hi _ _ _ _ _ Hw Hh Ln Lz Rn E1) as [_ R1].
  apply byte_range in Bn. destruct (max3_range 0 255 _ _ _ _ _ Hw Hh Ln Lz Bn E1) as [_ B1].
  destruct (max3_total w h t1 noise) as (n2 & E2 & L2); auto. rewrite E2. cbn [bind].
  destruct (max3_range lo hi _ _ _ _ _ Hw Hh L1 Ln R1 E2) as [_ R2].
  destruct (max3_range 0 255 _ _ _ _ _ Hw Hh L1 Ln B1 E2) as [_ B2].
  apply byte_range in B2.
  destruct (blur_spec n2 t1 w h 3) as (n3 & t3 & E3 & _); auto; [lia|]. rewrite E3. cbn [bind].
  destruct (blur_range lo hi n2 t1 w h 3 n3 t3) as (L3 & Lt3 & R3); auto; [lia|].
  destruct (blur_range 0 255 n2 t1 w h 3 n3 t3) as (_ & _ & B3); auto; [lia|apply byte_range; auto|].
  destruct (max3_total w h n3 t3) as (t4 & E4 & L4); auto. rewrite E4. cbn [bind].
  destruct (max3_range lo hi _ _ _ _ _ Hw Hh L3 Lt3 R3 E4) as [_ R4].
  destruct (max3_range 0 255 _ _ _ _ _ Hw Hh L3 Lt3 B3 E4) as [_ B4].
  destruct (min3_total w h t4 n3) as (n5 & E5 & L5); auto. rewrite E5. cbn [bind].
  destruct (min3_range lo hi _ _ _ _ _ Hw Hh L4 L3 R4 E5) as [_ R5].
  destruct (min3_range 0 255 _ _ _ _ _ Hw Hh L4 L3 B4 E5) as [_ B5].
  destruct (min3_total w h n5 t4) as (t6 & E6 & L6); auto. rewrite E6. cbn [bind].
  destruct (min3_range lo hi _ _ _ _ _ Hw Hh L5 L4 R5 E6) as [_ R6].
  destruct (min3_range 0 255 _ _ _ _ _ Hw Hh L5 L4 B5 E6) as [_ B6].
  destruct (min3_total w h t6 n5) as (n7 & E7 & L7); auto. rewrite E7. cbn [bind].
  destruct (min3_range lo hi _ _ _ _ _ Hw Hh L6 L5 R6 E7) as [_ R7].
  destruct (min3_range 0 255 _ _ _ _ _ Hw Hh L6 L5 B6 E7) as [_ B7].
  destruct (min3_total w h edges t6) as (t8 & E8 & L8); auto. rewrite E8. cbn [bind].
  apply byte_range in Be.
  destruct (min3_range 0 255 _ _ _ _ _ Hw Hh Le L6 Be E8) as [_ B8].
  destruct (max3_total w h t8 edges) as (e9 & E9 & L9); auto. rewrite E9. cbn [bind].
  destruct (max3_range 0 255 _ _ _ _ _ Hw Hh L8 Le B8 E9) as [_ B9].
  eexists _, _. split; [reflexivity|]. split; auto. split.
  { rewrite app_length, map_length, combine_length, skipn_length. lia. }
  split; [apply byte_range; auto|]. split; auto.
  rewrite skipn_all2 by lia. rewrite app_nil_r. apply Forall_forall. intros v Hv.
  apply in_map_iff in Hv as ([e n] & <- & Hin). pose proof (in_combine_l _ _ _ _ Hin) as I1.
  pose proof (in_combine_r _ _ _ _ Hin) as I2. rewrite Forall_forall in B9, B7. apply B9 in I1. apply B7 in I2.
  unfold in_range, byte in *. cbn [fst snd]. lia.
Qed.

Definition too_small_or_big (i : image) : bool :=
  (Nat.ltb (i_w i) 4 || Nat.ltb (i_h i) 4 || (LIQ_HIGH_MEMORY_LIMIT <? 3 * Z.of_nat (i_w i) * Z.of_nat (i_h i))%Z)%bool.

(** Fresh noise/edge values of the image [pxs]. *)
Definition fresh_maps (w h : nat) (gamma : f64) (pxs : list (list rgba)) : res (list (Z * Z)) :=
  match map (map (from_rgba (gamma_lut gamma))) pxs with
  | [] => Err InvalidPointer
  | first :: rest => contrast_rows w h first first rest
  end.

Lemma contrast_maps_spec {C : CastLaws A} i pxs : image_ok i pxs ->
  (too_small_or_big i = true /\ contrast_maps i = Ok i) \/
  (too_small_or_big i = false /\ exists ne n e d,
     fresh_maps (i_w i) (i_h i) (d_gamma (i_px i)) pxs = Ok ne /\
     Forall (fun ne => byte (fst ne) /\ byte (snd ne)) ne /\ length ne = i_w i * i_h i /\
     filter_chain (i_w i) (i_h i) (map fst ne) (map snd ne) = Ok (n, e) /\
     contrast_maps i = Ok (set_edges (set_imp (set_px i d) (Some n)) (Some e)) /\
     shows d pxs /\ same_px (i_px i) d /\ d_f d <> None /\
     length n = (i_w i * i_h i)%nat /\ length e = (i_w i * i_h i)%nat /\ Forall byte n /\ Forall byte e).
Proof.
  intros I. pose proof (im_px _ _ I) as S. unfold contrast_maps. fold (too_small_or_big i).
  destruct (too_small_or_big i) eqn:T; [left; auto|right]. split; auto.
  destruct (all_rows_f_shows _ _ S) as (d & E & S' & P & F). rewrite E. cbn [bind].
  unfold fresh_maps. set (cv := from_rgba (gamma_lut (d_gamma (i_px i)))).
  pose proof (sh_w _ _ S) as Hw. pose proof (sh_h _ _ S) as Hh. fold (i_w i) in Hw. fold (i_h i) in Hh.
  assert (RL : Forall (fun r => length r = i_w i) (map (map cv) pxs)).
  { apply Forall_forall. intros r Hr. apply in_map_iff in Hr as (r0 & <- & Hr0). rewrite map_length.
    pose proof (sh_rows _ _ S) as Q. rewrite Forall_forall in Q. apply (Q r0 Hr0). }
  assert (NE : map (map cv) pxs <> []).
  { pose proof (sh_len _ _ S). destruct pxs; [cbn in H; unfold i_h in Hh; lia|discriminate]. }
  destruct (map (map cv) pxs) as [|first rest] eqn:M; [congruence|]. apply Forall_cons_iff in RL as [Lf Lr].
  destruct (contrast_rows_total (i_w i) (i_h i) first first rest) as (ne & E1 & L1); auto.
  pose proof (contrast_rows_bytes _ _ _ _ _ _ E1) as B1.
  assert (Bn : Forall byte (map fst ne)).
  { apply Forall_forall. intros v Hv. apply in_map_iff in Hv as (x & <- & Hx). rewrite Forall_forall in B1. apply B1; auto. }
  assert (Be : Forall byte (map snd ne)).
  { apply Forall_forall. intros v Hv. apply in_map_iff in Hv as (x & <- & Hx). rewrite Forall_forall in B1. apply B1; auto. }
  destruct (filter_chain_spec (i_w i) (i_h i) (map fst ne) (map snd ne) 0 255) as (n & e & E2 & Ln & Le & Bn' & Be' & _);
    rewrite ?map_length; auto; [apply byte_range; auto|].
  exists ne, n, e, d. split; auto. split; auto. split; auto. split; auto. split; [|auto 10].
  rewrite E1. cbn [bind].
  rewrite splice_all.
  2:{ rewrite map_length, L1. destruct (i_imp i) as [m|] eqn:Q; [apply (im_imp _ _ I m Q)|apply repeat_length]. }
  cbn [bind]. rewrite splice_all.
  2:{ rewrite map_length, L1. destruct (i_edges i) as [m|] eqn:Q; [apply (im_edges _ _ I m Q)|apply repeat_length]. }
  cbn [bind]. unfold filter_chain in E2. cbv zeta in E2.
  apply bind_ok in E2 as (t1 & -> & E2). cbn [bind].
  apply bind_ok in E2 as (n2 & -> & E2). cbn [bind].
  apply bind_ok in E2 as ([n3 t3] & -> & E2). cbn [bind].
  apply bind_ok in E2 as (t4 & -> & E2). cbn [bind].
  apply bind_ok in E2 as (n5 & -> & E2). cbn [bind].
  apply bind_ok in E2 as (t6 & -> & E2). cbn [bind].
  apply bind_ok in E2 as (n7 & -> & E2). cbn [bind].
  apply bind_ok in E2 as (t8 & -> & E2). cbn [bind].
  apply bind_ok in E2 as (e9 & -> & E2). cbn [bind].
  inversion E2. auto.
Qed.

Lemma contrast_maps_ok {C : CastLaws A} i pxs : image_ok i pxs ->
  exists i', contrast_maps i = Ok i' /\ image_ok i' pxs /\ i_w i' = i_w i /\ i_h i' = i_h i /\
    i_bg i' = i_bg i /\ i_fixed i' = i_fixed i /\ i_dmap i' = i_dmap i /\
    same_px (i_px i) (i_px i').
Proof.
  intros I. destruct (contrast_maps_spec i pxs I) as [[_ E]|(_ & ne & n & e & d & _ & _ & _ & _ & E & S & P & _ & Ln & Le & Bn & Be)].
  - exists i. unfold same_px. repeat (split; auto).
  - pose proof P as (P1 & P2 & P3 & P4).
    assert (W : d_w d = i_w i) by auto. assert (H : d_h d = i_h i) by auto.
    eexists; split; [exact E|]. split; [|cbn; unfold same_px; repeat (split; auto)].
    constructor; cbn; auto.
    + intros l El. inversion El; subst. unfold i_w, i_h in *. cbn. rewrite W, H. auto.
    + intros l El. inversion El; subst. unfold i_w, i_h in *. cbn. rewrite W, H. auto.
    + intros l El. unfold i_w at 1, i_h at 1. cbn. rewrite W, H. apply (im_dmap _ _ I l El).
    + intros b Hb. destruct (im_bg _ _ I b Hb) as (b1 & b2 & b3 & b4). unfold i_w at 2, i_h at 2. cbn. rewrite W, H. auto.
    + apply (im_fixed _ _ I).
Qed.

(** * Constructors and setters *)
Open Scope Z_scope.
Lemma check_image_size_spec w h : 0 <= w -> 0 <= h -> (check_image_size w h = true <-> dims_ok w h).
Proof.
  intros Hw Hh. unfold check_image_size, dims_ok, I32_MAX, ISIZE_MAX.
  destruct (Z.eqb_spec w 0); cbn [orb]; [split; [discriminate|lia]|].
  destruct (Z.eqb_spec h 0); cbn [orb]; [split; [discriminate|lia]|].
  assert (D : w <= 9223372036854775807 / 16 / h <-> 16 * (w * h) <= 2 ^ 63 - 1).
  { rewrite Z.div_div by lia. split; intros H.
    - apply Z.mul_le_mono_nonneg_l with (p := 16 * h) in H; [|lia].
      pose proof (Z.mul_div_le 9223372036854775807 (16 * h) ltac:(lia)). lia.
    - apply Z.div_le_lower_bound; lia. }
  rewrite negb_true_iff, orb_false_iff, !Z.ltb_ge, D. lia.
Qed.

Definition gamma_ok (g : f64) : Prop := (d0 <=d g) = true /\ (g <=d d1) = true.
Definition fresh_image (src : source) (w h : Z) (g : f64) : image :=
  Image (DRows (Z.to_nat w) (Z.to_nat h) None src (if d0 <d g then g else dlit 45455 100000)) None None None None [].
Lemma image_new_internal_spec src w h g : 0 <= w -> 0 <= h ->
  (dims_ok w h /\ gamma_ok g /\ image_new_internal src w h g = Ok (fresh_image src w h g)) \/
  (~ (dims_ok w h /\ gamma_ok g) /\ image_new_internal src w h g = Err ValueOutOfRange).
Proof.
  intros Hw Hh. unfold image_new_internal. pose proof (check_image_size_spec w h Hw Hh) as S.
  destruct (check_image_size w h); cbn [negb].
  2:{ right. split; auto. intros [D _]. apply S in D. discriminate. }
  unfold gamma_ok. destruct (d0 <=d g); cbn [andb negb].
  2:{ right. split; auto. intros [_ [H _]]. discriminate. }
  destruct (g <=d d1); cbn [negb].
  2:{ right. split; auto. intros [_ [_ H]]. discriminate. }
  left. repeat split; auto; apply S; auto.
Qed.

Lemma for_pixels_spec buf w h s : 0 <= w -> 0 <= h -> 0 <= s ->
  if ((s <? w) || (h =? 0) || (w =? 0))%bool then for_pixels buf w h s = Err ValueOutOfRange
  else if Z.of_nat (length buf) <? s * (h - 1) + w then for_pixels buf w h s = Err BufferTooSmall
  else for_pixels buf w h s = Ok (SrcPixels buf (map (fun y => (y * Z.to_nat s)%nat) (seq 0 (Z.to_nat h)))).
Proof.
  intros Hw Hh Hs. unfold for_pixels. destruct ((s <? w) || (h =? 0) || (w =? 0))%bool eqn:C; auto.
  apply orb_false_iff in C as [C C3]. apply orb_false_iff in C as [C1 C2].
  apply Z.ltb_ge in C1. apply Z.eqb_neq in C2, C3.
  replace (s * h + w - s) with (s * (h - 1) + w) by lia.
  destruct (Z.ltb_spec (Z.of_nat (length buf)) (s * (h - 1) + w)) as [|L]; auto.
  f_equal. f_equal. set (sn := Z.to_nat s). set (hn := Z.to_nat h).
  assert (Hsn : (0 < sn)%nat) by lia.
  assert (LC : (hn <= length (chunks sn buf))%nat).
  { rewrite chunks_length by auto. apply Nat.div_le_lower_bound; [lia|]. nia. }
  rewrite <- (map_map fst (fun k => (k * sn)%nat)). rewrite map_fst_enumerate, firstn_length, Nat.min_l by auto. auto.
Qed.

Lemma image_new_stride_spec buf w h s g : 0 <= w -> 0 <= h -> 0 <= s ->
  match image_new_stride buf w h s g with
  | Ok i => dims_ok w h /\ gamma_ok g /\ buffer_ok (Z.of_nat (length buf)) w h s /\
            i = fresh_image (SrcPixels buf (map (fun y => (y * Z.to_nat s)%nat) (seq 0 (Z.to_nat h)))) w h g
  | Err BufferTooSmall => 1 <= w <= U32_MAX /\ 1 <= h <= U32_MAX /\ w <= s <= U32_MAX /\ Z.of_nat (length buf) < s * (h - 1) + w
  | Err ValueOutOfRange => ~ (dims_ok w h /\ gamma_ok g /\ w <= s <= U32_MAX)
  | _ => False
  end.
Proof.
  intros Hw Hh Hs. unfold image_new_stride, u32_ok.
  destruct (Z.leb_spec w U32_MAX); cbn [andb negb].
  2:{ unfold dims_ok, U32_MAX in *. lia. }
  destruct (Z.leb_spec h U32_MAX); cbn [andb negb].
  2:{ unfold dims_ok, U32_MAX in *. lia. }
  destruct (Z.leb_spec s U32_MAX); cbn [andb negb].
  2:{ lia. }
  pose proof (for_pixels_spec buf w h s Hw Hh Hs) as F.
  destruct ((s <? w) || (h =? 0) || (w =? 0))%bool eqn:C.
  { rewrite F. cbn [bind]. intros (D & _ & E). unfold dims_ok in D. lia. }
  destruct (Z.ltb_spec (Z.of_nat (length buf)) (s * (h - 1) + w)).
  { rewrite F. cbn [bind]. lia. }
  rewrite F. cbn [bind].
  destruct (image_new_internal_spec (SrcPixels buf (map (fun y => (y * Z.to_nat s)%nat) (seq 0 (Z.to_nat h)))) w h g Hw Hh) as [(D & G & E)|(N & E)]; rewrite E.
  - unfold buffer_ok, U32_MAX in *. repeat (split; auto); lia.
  - tauto.
Qed.

Lemma image_new_stride_iff buf w h s g : 0 <= w -> 0 <= h -> 0 <= s ->
  ((exists i, image_new_stride buf w h s g = Ok i) <->
   dims_ok w h /\ gamma_ok g /\ buffer_ok (Z.of_nat (length buf)) w h s).
Proof.
  intros Hw Hh Hs. pose proof (image_new_stride_spec buf w h s g Hw Hh Hs) as S.
  destruct (image_new_stride buf w h s g) as [i|e|].
  - split; [intros _|eauto]. destruct S as (S1 & S2 & S3 & _). auto.
  - split; [intros [i H]; discriminate|]. intros (D & G & B). exfalso. unfold buffer_ok, U32_MAX in *.
    destruct e; try contradiction.
    + apply S. split; [|split]; auto; lia.
    + lia.
  - contradiction.
Qed.

Lemma nth_error_strided {T} (d : T) buf w h s y : nth_error (strided d buf w h s) y =
  if Nat.ltb y h then Some (map (fun x => nth (y * s + x)%nat buf d) (seq 0 w)) else None.
Proof. unfold strided. rewrite nth_error_map, nth_error_seq. destruct (Nat.ltb y h); auto. Qed.

Lemma strided_slice {T} (d : T) buf w h s y : (y < h)%nat -> (s * (h - 1) + w <= length buf)%nat ->
  slice buf (y * s) w = Ok (map (fun x => nth (y * s + x)%nat buf d) (seq 0 w)).
Proof.
  intros Hy L. assert (y * s + w <= length buf)%nat by nia. rewrite slice_ok by auto. f_equal.
  apply list_eq_nth_error. intros x. rewrite nth_error_firstn, nth_error_map, nth_error_seq, nth_error_skipn.
  destruct (Nat.ltb_spec x w); auto. cbn. apply nth_error_nth'. lia.
Qed.

Lemma new_stride_ok buf w h s g i : 0 <= w -> 0 <= h -> 0 <= s -> Forall rgba_ok buf ->
  image_new_stride buf w h s g = Ok i ->
  image_ok i (strided rgba_default buf (Z.to_nat w) (Z.to_nat h) (Z.to_nat s)) /\
  i_w i = Z.to_nat w /\ i_h i = Z.to_nat h /\ ~ released (i_px i).
Proof.
  intros Hw Hh Hs B E. pose proof (image_new_stride_spec buf w h s g Hw Hh Hs) as S. rewrite E in S.
  destruct S as ((D1 & D2 & D3) & G & (B1 & B2) & ->). unfold i_w, i_h. cbn.
  split; [|split; [auto|split; [auto|]]].
  2:{ unfold released. cbn. replace (Z.to_nat h) with (S (Z.to_nat h - 1)) by lia. cbn. congruence. }
  assert (Hlen : (Z.to_nat s * (Z.to_nat h - 1) + Z.to_nat w <= length buf)%nat) by nia.
  assert (R : forall y, (y < Z.to_nat h)%nat -> Forall rgba_ok (map (fun x => nth (y * Z.to_nat s + x)%nat buf rgba_default) (seq 0 (Z.to_nat w)))).
  { intros y Hy. apply Forall_forall. intros c Hc. apply in_map_iff in Hc as (x & <- & Hx). apply in_seq in Hx.
    rewrite Forall_forall in B. apply B. apply nth_In. nia. }
  constructor; cbn; try discriminate; try (intros ? ?; discriminate); auto with arith.
  constructor; cbn; auto; try lia.
  - unfold strided. rewrite map_length, seq_length. auto.
  - unfold strided. apply Forall_forall. intros r Hr. apply in_map_iff in Hr as (y & <- & Hy). apply in_seq in Hy.
    rewrite map_length, seq_length. split; auto. apply R. lia.
  - right. intros y r Hr. rewrite nth_error_strided in Hr. destruct (Nat.ltb_spec y (Z.to_nat h)); [|discriminate].
    inversion Hr; subst. unfold row_rgba. cbn.
    unfold idx. rewrite nth_error_map, nth_error_seq. destruct (Nat.ltb_spec y (Z.to_nat h)); [|lia]. cbn.
    apply (strided_slice rgba_default buf _ (Z.to_nat h)); auto.
Qed.

Definition callback_rows (cb : nat -> list rgba) (h : nat) : list (list rgba) := map cb (seq 0 h).
Lemma new_fn_ok cb w h g i : 0 <= w -> 0 <= h ->
  (forall y, (y < Z.to_nat h)%nat -> length (cb y) = Z.to_nat w /\ Forall rgba_ok (cb y)) ->
  image_new_fn cb w h g = Ok i ->
  image_ok i (callback_rows cb (Z.to_nat h)) /\ i_w i = Z.to_nat w /\ i_h i = Z.to_nat h /\ ~ released (i_px i).
Proof.
  intros Hw Hh Hcb E. unfold image_new_fn in E. destruct (negb (u32_ok w && u32_ok h)); [discriminate|].
  destruct (image_new_internal_spec (SrcCallback cb) w h g Hw Hh) as [((D1 & D2 & D3) & G & E')|(N & E')]; rewrite E' in E; [|discriminate].
  inversion E; subst. unfold i_w, i_h. cbn. split; [|split; [auto|split; [auto|unfold released; cbn; congruence]]].
  constructor; cbn; try discriminate; try (intros ? ?; discriminate); auto with arith.
  unfold callback_rows. constructor; cbn; auto; try lia.
  - rewrite map_length, seq_length; auto.
  - apply Forall_forall. intros r Hr. apply in_map_iff in Hr as (y & <- & Hy). apply in_seq in Hy. apply Hcb. lia.
  - right. intros y r Hr. rewrite nth_error_map, nth_error_seq in Hr. destruct (Nat.ltb_spec y (Z.to_nat h)); [|discriminate].
    cbn in Hr. inversion Hr; subst. reflexivity.
Qed.

Lemma set_imp_ok i pxs m i' : image_ok i pxs -> Forall byte m -> set_importance_map i m = Ok i' ->
  image_ok i' pxs /\ i_imp i' = Some m.
Proof.
  intros I B E. unfold set_importance_map in E. destruct (Nat.eqb_spec (length m) (i_w i * i_h i)); [|discriminate].
  cbn in E. inversion E; subst. split; auto. destruct I. constructor; auto.
  intros l Hl. cbn in Hl. inversion Hl; subst. auto.
Qed.
Lemma set_background_spec i b : 
  (i_bg b = None /\ i_w b = i_w i /\ i_h b = i_h i /\ set_background i b = Ok (set_bg i (Some b))) \/
  (~ (i_bg b = None /\ i_w b = i_w i /\ i_h b = i_h i) /\ exists e, set_background i b = Err e).
Proof.
  unfold set_background. destruct (i_bg b) as [b'|] eqn:E.
  - right. split; [|eauto]. intros [H _]; discriminate.
  - destruct (Nat.eqb_spec (i_w i) (i_w b)); cbn.
    + destruct (Nat.eqb_spec (i_h i) (i_h b)); cbn.
      * left; auto.
      * right. split; [|eauto]. intros (_ & _ & H). congruence.
    + right. split; [|eauto]. intros (_ & H & _). congruence.
Qed.
Lemma set_background_ok i pxs b bp i' : image_ok i pxs -> image_ok b bp -> set_background i b = Ok i' ->
  image_ok i' pxs.
Proof.
  intros I J E. destruct (set_background_spec i b) as [(N & W & H & E')|(N & e & E')]; rewrite E' in E; [|discriminate].
  inversion E; subst. destruct I. constructor; auto.
  intros b0 Hb. cbn in Hb. inversion Hb; subst b0. repeat split; auto. exists bp. apply J.
Qed.
Lemma add_fixed_ok i pxs c i' : image_ok i pxs -> rgba_ok c -> image_add_fixed_color i c = Ok i' ->
  image_ok i' pxs /\ i_fixed i' = i_fixed i ++ [c].
Proof.
  intros I B E. unfold image_add_fixed_color, MAX_COLORS in E. destruct (Nat.leb_spec 256 (length (i_fixed i))); [discriminate|].
  inversion E; subst. split; auto. destruct I. constructor; auto. cbn. rewrite app_length. cbn. split; [lia|].
  apply Forall_app. split; [apply im_fixed0|auto].
Qed.

(** * Dither map *)
Open Scope nat_scope.
Definition orow_ok (w : nat) (r : option (list nat)) : Prop := forall l, r = Some l -> length l = w.
Lemma count_row_total w r last i : orow_ok w r -> i < w -> exists n, count_row r last i = Ok n.
Proof.
  intros H Hi. destruct r as [l|]; cbn; eauto. specialize (H l eq_refl).
  rewrite (idx_nth l i 0) by lia. cbn. eauto.
Qed.
Lemma count_neighbors_total w prev next last from to : orow_ok w prev -> orow_ok w next -> from <= to -> to <= w ->
  exists n, count_neighbors prev next last from to = Ok n.
Proof.
  intros Hp Hn Hf Ht. unfold count_neighbors. destruct (Nat.ltb_spec to from); [lia|].
  edestruct (foldM_total (fun n i => a <- count_row prev last i ;; b <- count_row next last i ;; Ok (n + a + b)) (fun _ => True)) as (n & E & _); [|exact I|rewrite E; eauto].
  intros n i Hi _. apply in_seq in Hi. destruct (count_row_total w prev last i Hp) as (a & ->); [lia|]. cbn [bind].
  destruct (count_row_total w next last i Hn) as (b & ->); [lia|]. cbn [bind]. eauto.
Qed.

(** [new] is [old] with some cells replaced by their darkened value. *)
Definition darkened (old new : list Z) : Prop :=
  length new = length old /\
  forall k v, nth_error old k = Some v -> exists v', nth_error new k = Some v' /\ (v' = v \/ exists n, v' = edge_value v n).

Lemma darken_range (es : list Z) n from to : from <= to -> to <= length es ->
  exists es', foldM (fun es k => x <- idx es k ;; set_idx es k (edge_value x n)) (seq from (to - from)) es = Ok es' /\
    length es' = length es /\
    forall k, nth_error es' k = if (Nat.leb from k && Nat.ltb k to)%bool then option_map (fun v => edge_value v n) (nth_error es k) else nth_error es k.
Proof.
  intros Hf Ht.
  destruct (foldM_seq_total (fun j l => length l = length es /\
    forall k, nth_error l k = if (Nat.leb from k && Nat.ltb k j)%bool then option_map (fun v => edge_value v n) (nth_error es k) else nth_error es k)
    (fun es k => x <- idx es k ;; set_idx es k (edge_value x n)) (to - from) from es) as (l & E & L & P).
  - intros j l Hj (L & P). assert (Hjl : j < length l) by lia.
    destruct (idx_lt l j Hjl) as (x & Ex & Nx). rewrite Ex. cbn [bind]. rewrite set_idx_lt by auto.
    eexists; split; [reflexivity|]. rewrite upd_length. split; auto. intros k. rewrite nth_error_upd.
    destruct (Nat.eqb_spec j k) as [->|].
    + replace (Nat.leb from k && Nat.ltb k (k + 1))%bool with true by (symmetry; apply andb_true_iff; split; [apply Nat.leb_le|apply Nat.ltb_lt]; lia).
      apply Nat.ltb_lt in Hjl. try rewrite Hjl. rewrite P in Nx.
      replace (Nat.leb from k && Nat.ltb k k)%bool with false in Nx by (rewrite Nat.ltb_irrefl, andb_false_r; auto).
      rewrite Nx. auto.
    + rewrite P. replace (Nat.ltb k (j + 1)) with (Nat.ltb k j); auto.
      destruct (Nat.ltb_spec k j), (Nat.ltb_spec k (j + 1)); auto; lia.
  - split; auto. intros k. replace (Nat.leb from k && Nat.ltb k from)%bool with false; auto.
    symmetry. apply andb_false_iff. destruct (Nat.leb_spec from k); auto. right. apply Nat.ltb_ge. lia.
  - replace (from + (to - from)) with to in P by lia. eauto.
Qed.

Lemma skip1_enumerate {T} (l : list T) k p : nth_error (skipn 1 (enumerate l)) k = Some p -> fst p = k + 1 /\ nth_error l (k + 1) = Some (snd p).
Proof.
  rewrite nth_error_skipn, nth_error_enumerate. replace (1 + k) with (k + 1) by lia.
  destruct (nth_error l (k + 1)); cbn; intros H; inversion H; auto.
Qed.

Lemma foldM_index {T St} (P : nat -> St -> Prop) (f : St -> T -> res St) l s :
  (forall i a s, nth_error l i = Some a -> P i s -> exists s', f s a = Ok s' /\ P (i + 1) s') ->
  P 0 s -> exists s', foldM f l s = Ok s' /\ P (length l) s'.
Proof.
  assert (G : forall l b s, (forall i a s, nth_error l i = Some a -> P (b + i) s -> exists s', f s a = Ok s' /\ P (b + i + 1) s') ->
    P b s -> exists s', foldM f l s = Ok s' /\ P (b + length l) s').
  { clear. induction l as [|a l IH]; intros b s H HP; cbn [foldM length].
    - rewrite Nat.add_0_r. eauto.
    - destruct (H 0 a s eq_refl) as (s1 & -> & H1); [rewrite Nat.add_0_r; auto|]. cbn [bind].
      destruct (IH (b + 1) s1) as (s2 & -> & H2).
      + intros i x s' Hi Hp. replace (b + 1 + i) with (b + S i) in * by lia. apply (H (S i)); auto.
      + rewrite Nat.add_0_r in H1. auto.
      + exists s2. split; auto. replace (b + S (length l)) with (b + 1 + length l) by lia. auto. }
  intros H HP. apply (G l 0 s); auto.
Qed.

Lemma dmap_row_ok colors bg w this prev next edges : 0 < w -> length this = w -> length edges = w ->
  Forall (fun p => p < length colors) this -> orow_ok w prev -> orow_ok w next ->
  exists e, dmap_row colors bg w this prev next edges = Ok e /\ darkened edges e.
Proof.
  intros Hw Lt Le Hc Hp Hn. unfold dmap_row. rewrite (idx_nth this 0 0) by lia. cbn [bind].
  match goal with |- context [foldM ?F ?L ?s0] => set (f := F);
   destruct (foldM_index (fun k (st : nat * nat * list Z) =>
     snd (fst st) <= k + 1 /\ length (snd st) = w /\
     (forall j, snd (fst st) <= j -> nth_error (snd st) j = nth_error edges j) /\
     darkened edges (snd st)) f L s0) as (st & E & _ & _ & _ & D) end.
  - intros k [col p] [[last lc] es] Hk (Q1 & Q2 & Q3 & Q4). cbn [fst snd] in *. unfold f.
    apply skip1_enumerate in Hk as [Hcol Hpx]. cbn [fst snd] in *. subst col.
    assert (Hlt : k + 1 < w) by (rewrite <- Lt; apply nth_error_Some; congruence).
    assert (Hpc : p < length colors) by (rewrite Forall_forall in Hc; apply Hc; eapply nth_error_In; eauto).
    assert (SK : exists b, (if bg then c <- idx colors p ;; Ok (pa c <f MIN_OPAQUE_A) else Ok false) = Ok b).
    { destruct bg; eauto. rewrite (idx_nth colors p px0) by auto. cbn. eauto. }
    destruct SK as (b & ->). cbn [bind]. destruct b.
    { eexists; split; [reflexivity|]. cbn [fst snd]. repeat split; auto; try lia; apply Q4. }
    destruct (negb (Nat.eqb p last) || Nat.eqb (k + 1) (w - 1))%bool.
    2:{ eexists; split; [reflexivity|]. cbn [fst snd]. repeat split; auto; try lia; apply Q4. }
    destruct (count_neighbors_total w prev next last lc (k + 1)) as (n & ->); auto; [lia|]. cbn [bind].
    destruct (darken_range es n lc (k + 1 + 1)) as (es' & -> & L' & N'); [lia|lia|]. cbn [bind].
    eexists; split; [reflexivity|]. cbn [fst snd]. split; [lia|]. split; [lia|]. split.
    + intros j Hj. rewrite N'. destruct (Nat.leb_spec lc j), (Nat.ltb_spec j (k + 1 + 1)); cbn; try lia; apply Q3; lia.
    + split; [lia|]. intros j v Hv. rewrite N'. destruct (Nat.leb_spec lc j), (Nat.ltb_spec j (k + 1 + 1)); cbn.
      * rewrite Q3, Hv by lia. cbn. eauto.
      * rewrite Q3, Hv by lia. eauto.
      * apply Q4; auto.
      * apply Q4; auto.
  - cbn [fst snd]. repeat split; auto; try lia. intros k v Hv. eauto.
  - rewrite E. destruct st as [[l0 lc] e]. cbn [bind snd] in *. eauto.
Qed.

Lemma darkened_refl l : darkened l l.
Proof. split; auto. intros k v H. eauto. Qed.
Lemma darkened_app a b c d : darkened a b -> darkened c d -> darkened (a ++ c) (b ++ d).
Proof.
  intros [L1 P1] [L2 P2]. split; [rewrite !app_length; lia|]. intros k v Hk.
  destruct (Nat.ltb_spec k (length a)).
  - rewrite nth_error_app1 in * by lia. auto.
  - rewrite nth_error_app2 in * by lia. rewrite L1. auto.
Qed.

Lemma dmap_rows_ok colors bg w : 0 < w -> forall rows edges prev,
  Forall (fun r => length r = w /\ Forall (fun p => p < length colors) r) rows ->
  Forall (fun e => length e = w) edges -> orow_ok w prev ->
  exists m, dmap_rows colors bg w prev rows edges = Ok m /\ darkened (concat edges) m.
Proof.
  intros Hw. induction rows as [|r rows IH]; intros edges prev Hr He Hp; cbn [dmap_rows].
  - destruct edges; eexists; (split; [reflexivity|apply darkened_refl]).
  - destruct edges as [|e edges]; [eexists; split; [reflexivity|apply darkened_refl]|].
    apply Forall_cons_iff in Hr as [[Hr1 Hr2] Hr3]. apply Forall_cons_iff in He as [He1 He2].
    set (next := match edges with [] => None | _ :: _ => match rows with [] => None | r0 :: _ => Some r0 end end).
    assert (Hn : orow_ok w next).
    { unfold next. intros l Hl. destruct edges; [discriminate|]. destruct rows; [discriminate|]. inversion Hl; subst.
      apply Forall_cons_iff in Hr3 as [[? ?] ?]. auto. }
    destruct (dmap_row_ok colors bg w r prev next e) as (e' & E1 & D1); auto. rewrite E1. cbn [bind].
    destruct (IH edges (Some r)) as (m & E2 & D2); auto; [intros l Hl; inversion Hl; subst; auto|].
    rewrite E2. cbn [bind]. eexists; split; [reflexivity|]. cbn [concat]. apply darkened_app; auto.
Qed.

Lemma edge_value_byte {C : CastLaws A} v n : byte (edge_value v n).
Proof. apply fto_u8_range. Qed.

Lemma darkened_byte {C : CastLaws A} a b : darkened a b -> Forall byte a -> Forall byte b.
Proof.
  intros [L P] F. apply Forall_forall. intros v Hv. apply In_nth_error in Hv as (k & Hk).
  assert (k < length a) by (rewrite <- L; apply nth_error_Some; congruence).
  destruct (nth_error a k) as [u|] eqn:E; [|apply nth_error_None in E; lia].
  destruct (P k u E) as (v' & Hv' & O). rewrite Hk in Hv'. inversion Hv'; subst v'.
  destruct O as [->|[n ->]]; [|apply edge_value_byte]. rewrite Forall_forall in F. apply F. eapply nth_error_In; eauto.
Qed.

Lemma Forall_chunks_exact {T} w (l : list T) : Forall (fun c => length c = w) (chunks_exact w l).
Proof. unfold chunks_exact. apply Forall_forall. intros c H. apply filter_In in H as [_ H]. apply Nat.eqb_eq; auto. Qed.

Lemma update_dither_map_ok {C : CastLaws A} i pxs remapped p bg : image_ok i pxs ->
  Forall (fun r => length r = i_w i /\ Forall (fun x => x < length p) r) remapped ->
  exists i', update_dither_map i remapped p bg = Ok i' /\ image_ok i' pxs /\ i_w i' = i_w i /\ i_h i' = i_h i /\
    i_bg i' = i_bg i /\ i_fixed i' = i_fixed i /\ same_px (i_px i) (i_px i') /\
    (forall e, i_edges i = Some e -> exists m, i_dmap i' = Some m /\ darkened e m /\ i_edges i' = None).
Proof.
  intros I R. unfold update_dither_map.
  assert (G : exists i1, match i_edges i with None => contrast_maps i | Some _ => Ok i end = Ok i1 /\ image_ok i1 pxs /\
     i_w i1 = i_w i /\ i_h i1 = i_h i /\ i_bg i1 = i_bg i /\ i_fixed i1 = i_fixed i /\ same_px (i_px i) (i_px i1) /\
     (forall e, i_edges i = Some e -> i1 = i)).
  { destruct (i_edges i) as [e|] eqn:E.
    - exists i. unfold same_px. repeat (split; auto).
    - destruct (contrast_maps_ok i pxs I) as (i1 & E1 & I1 & H1 & H2 & H3 & H4 & H5 & H6).
      exists i1. repeat (split; auto). intros; discriminate. }
  destruct G as (i1 & -> & I1 & H1 & H2 & H3 & H4 & H5 & H6). cbn [bind].
  destruct (i_edges i1) as [e|] eqn:E.
  2:{ exists i1. repeat (split; auto). intros e He. rewrite (H6 e He) in E. congruence. }
  destruct (im_edges _ _ I1 e E) as [Le Be].
  pose proof (sh_w _ _ (im_px _ _ I1)) as Hw. fold (i_w i1) in Hw.
  destruct (dmap_rows_ok (colors_of p) bg (i_w i1) Hw remapped (chunks_exact (i_w i1) e) None) as (m & E2 & D).
  - rewrite H1. unfold colors_of. rewrite map_length. auto.
  - apply Forall_chunks_exact.
  - intros l Hl; discriminate.
  - rewrite E2. cbn [bind].
    rewrite (chunks_exact_eq _ (i_h i1)) in D by auto. rewrite chunks_concat in D by auto.
    eexists; split; [reflexivity|]. split.
    + destruct I1. constructor; auto.
      * intros l Hl; discriminate.
      * intros l Hl. cbn in Hl. inversion Hl; subst l. destruct D as [L D]. split; [unfold i_w, i_h in *; cbn; lia|].
        eapply darkened_byte; eauto. split; auto.
    + cbn. repeat (split; auto); try apply H5.
      intros e0 He0. rewrite (H6 e0 He0) in E. rewrite He0 in E. inversion E; subst. eauto.
Qed.

(** * Histories of one image: constructors, setters, and the functions that
    change an image during quantization and remapping. *)
Inductive built : image -> Prop :=
| bl_stride buf w h s g i : image_new_stride buf w h s g = Ok i -> built i
| bl_fn cb w h g i : image_new_fn cb w h g = Ok i -> built i
| bl_imp i m i' : built i -> set_importance_map i m = Ok i' -> built i'
| bl_bg i b i' : built i -> built b -> set_background i b = Ok i' -> built i'
| bl_fixed i c i' : built i -> image_add_fixed_color i c = Ok i' -> built i'
| bl_contrast i i' : built i -> contrast_maps i = Ok i' -> built i'
| bl_dither i rm p bg i' : built i -> update_dither_map i rm p bg = Ok i' -> built i'
| bl_prepare i s d : built i -> prepare_iter (i_px i) s = Ok d -> built (set_px i d)
| bl_free i : built i -> built (set_px i (free_histogram_inputs (i_px i))).

Definition bg_fits (i : image) : Prop :=
  forall b, i_bg i = Some b -> i_bg b = None /\ i_w b = i_w i /\ i_h b = i_h i.
Lemma prepare_iter_dims d s d' : prepare_iter d s = Ok d' -> d_w d' = d_w d /\ d_h d' = d_h d.
Proof.
  unfold prepare_iter. destruct (d_f d); [intros H; inversion H; auto|]. destruct (_ && _)%bool; [intros H; inversion H; auto|].
  intros H. apply bind_ok in H as (rows & _ & H). inversion H. auto.
Qed.
Lemma contrast_maps_keeps i i' : contrast_maps i = Ok i' -> i_bg i' = i_bg i /\ i_w i' = i_w i /\ i_h i' = i_h i.
Proof.
  unfold contrast_maps. cbv zeta. destruct (_ || _)%bool; [intros H; inversion H; auto|]. intros H.
  apply bind_ok in H as ([d rows] & D & H). unfold all_rows_f in D. apply bind_ok in D as (d' & D & D').
  apply prepare_iter_dims in D. destruct (d_f d'); inversion D'; subst.
  destruct rows as [|f rest]; [discriminate|].
  repeat match type of H with bind _ _ = Ok _ => apply bind_ok in H as (? & _ & H) | (let '(_, _) := ?x in _) = Ok _ => destruct x end.
  inversion H. cbn. unfold i_w, i_h. cbn. auto.
Qed.
Lemma built_bg i : built i -> bg_fits i.
Proof.
  assert (K : forall i i', i_bg i' = i_bg i /\ i_w i' = i_w i /\ i_h i' = i_h i -> bg_fits i -> bg_fits i').
  { intros i0 i1 (H1 & H2 & H3) F b Hb. rewrite H1 in Hb. rewrite H2, H3. auto. }
  induction 1.
  - unfold image_new_stride in H. destruct (negb _); [discriminate|]. apply bind_ok in H as (src & _ & H).
    unfold image_new_internal in H. destruct (negb _); [discriminate|]. destruct (negb _); [discriminate|]. inversion H. intros b Hb. discriminate.
  - unfold image_new_fn in H. destruct (negb _); [discriminate|].
    unfold image_new_internal in H. destruct (negb _); [discriminate|]. destruct (negb _); [discriminate|]. inversion H. intros b Hb. discriminate.
  - unfold set_importance_map in H0. destruct (negb _); inversion H0; subst. eapply K; [|exact IHbuilt]; auto.
  - destruct (set_background_spec i b) as [(B1 & B2 & B3 & E)|(_ & e & E)]; rewrite E in H1; [|discriminate].
    inversion H1; subst. intros b' Hb. cbn in Hb. inversion Hb; subst. auto.
  - unfold image_add_fixed_color in H0. destruct (Nat.leb _ _); inversion H0; subst. eapply K; [|exact IHbuilt]; auto.
  - apply contrast_maps_keeps in H0. eapply K; eauto.
  - unfold update_dither_map in H0. apply bind_ok in H0 as (i1 & E & H0).
    assert (Q : i_bg i1 = i_bg i /\ i_w i1 = i_w i /\ i_h i1 = i_h i).
    { destruct (i_edges i); [inversion E; auto|]. apply contrast_maps_keeps; auto. }
    eapply K; [|exact IHbuilt]. destruct Q as (Q1 & Q2 & Q3).
    destruct (i_edges i1); [|inversion H0; subst; auto]. apply bind_ok in H0 as (m & _ & H0). inversion H0; subst. auto.
  - apply prepare_iter_dims in H0. eapply K; [|exact IHbuilt]. auto.
  - eapply K; [|exact IHbuilt]. unfold free_histogram_inputs. unfold i_w, i_h. cbn. destruct (d_f (i_px i)); auto.
Qed.

Open Scope Z_scope.
Lemma constructor_accepts buf w h s g : 0 <= w -> 0 <= h -> 0 <= s ->
  ((exists i, image_new_stride buf w h s g = Ok i) <->
     dims_ok w h /\ gamma_ok g /\ buffer_ok (Z.of_nat (length buf)) w h s) /\
  match image_new_stride buf w h s g with
  | Ok i => True
  | Err BufferTooSmall => 1 <= w <= U32_MAX /\ 1 <= h <= U32_MAX /\ w <= s <= U32_MAX /\
                          Z.of_nat (length buf) < s * (h - 1) + w
  | Err ValueOutOfRange => ~ (dims_ok w h /\ gamma_ok g /\ w <= s <= U32_MAX)
  | _ => False
  end.
Proof.
  intros Hw Hh Hs. split; [apply image_new_stride_iff; auto|].
  pose proof (image_new_stride_spec buf w h s g Hw Hh Hs) as S. destruct (image_new_stride buf w h s g) as [i|[]|]; auto.
Qed.
Lemma pixels_are_the_buffer buf w h s g i : 0 <= w -> 0 <= h -> 0 <= s -> image_new_stride buf w h s g = Ok i ->
  i_w i = Z.to_nat w /\ i_h i = Z.to_nat h /\
  forall y, (y < i_h i)%nat ->
    row_rgba (i_px i) y = Ok (map (fun x => nth (y * Z.to_nat s + x) buf rgba_default) (seq 0 (i_w i))) /\
    (y * Z.to_nat s + i_w i <= length buf)%nat.
Proof.
  intros Hw Hh Hs E. pose proof (image_new_stride_spec buf w h s g Hw Hh Hs) as S. rewrite E in S.
  destruct S as ((D1 & D2 & D3) & G & (B1 & B2) & ->). split; [auto|]. split; [auto|].
  unfold fresh_image, i_w, i_h, row_rgba. cbn [i_px d_w d_h d_src]. intros y Hy.
  assert (L : (Z.to_nat s * (Z.to_nat h - 1) + Z.to_nat w <= length buf)%nat).
  { apply Nat2Z.inj_le. rewrite Nat2Z.inj_add, Nat2Z.inj_mul, Nat2Z.inj_sub, !Z2Nat.id by lia. cbn. lia. }
  split.
  - rewrite (proj2 (idx_ok _ y (y * Z.to_nat s)%nat)).
    + cbn [bind]. apply (strided_slice rgba_default _ _ (Z.to_nat h)); auto.
    + rewrite nth_error_map, nth_error_seq. destruct (Nat.ltb_spec y (Z.to_nat h)); [reflexivity|lia].
  - nia.
Qed.
End ImageFacts.
