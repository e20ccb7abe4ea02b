(** An image remapped on top of itself: every pixel of the background matches
    the pixel exactly, so the transparent entry is used everywhere and there is
    no error to diffuse.  For any arithmetic in which zero behaves as it should
    ([zero_laws]) and in which a colour is at least as close to itself as to
    the palette ([covered]). *)
From Verif Require Import Base BaseFacts Arith Order Pal World Attr Hist MedianCut Nearest Kmeans Blur ImageM Quant Remap
  SpecImage BlurFacts ImageFacts MedianFacts SearchFacts QuantFacts RemapFacts PalFacts ApiFacts ResultFacts DitherZero.
Open Scope nat_scope.

Section DitherBg.
Context {A : Arith}.
(** No palette entry the search returns is closer to [c] than [c] itself. *)
Definition covered (n : nearest) (c : px) : Prop := forall g, (diff c c <=f snd (search n c g)) = true.

Section Env.
Variables (K : f32 -> Prop) (C : px -> Prop) (Z0 : zero_laws K C) (E : dither_env).
Definition dst_bg (even : bool) (x : nat) (st : dstate) : Prop :=
  zeros (s_this st) /\ zeros (s_next st) /\ length (s_out st) = e_w E /\
  (forall c, c < e_w E -> seen even (e_w E) x c -> nth_error (s_out st) c = Some (e_tidx E)).

Lemma dither_px_bg row dmap even x st st' : env_zero K E dmap -> length row = e_w E ->
  (forall c, In c row -> C c /\ covered (e_n E) c) -> x < e_w E -> dst_bg even x st ->
  dither_px E row dmap row even st x = Ok st' -> dst_bg even (S x) st'.
Proof.
  intros [B1 B2] LR F X (Z1 & Z2 & LO & O) H. unfold dither_px in H. cbv zeta in H.
  set (w := e_w E) in *. set (col := if even then x else w - 1 - x) in *.
  assert (HC : col < w) by (unfold col; destruct even; lia).
  apply bind_ok in H as (input & HI & H). apply bind_ok in H as (te & HT & H). rewrite (zeros_nth _ _ _ Z1 HT) in H.
  rewrite (dithered_zero K C Z0) in H.
  2:{ destruct (nth_error dmap col) as [l|] eqn:El; [apply B2; eapply nth_error_In; eauto|exact B1]. }
  apply bind_ok in H as (g & _ & H). apply idx_ok in HI.
  destruct (F input) as [Ci Fi]; [eapply nth_error_In; eauto|]. pose proof (Fi g) as FG.
  destruct (search (e_n E) input g) as [m dd]. cbn [snd] in FG. apply bind_ok in H as (op & HO & H).
  rewrite HI, FG in H. cbn [bind] in H.
  apply bind_ok in H as (out' & HS & H). apply set_idx_ok in HS as [_ ->].
  rewrite (zl_sub _ _ Z0) in H by auto. rewrite (zl_scale _ _ Z0 _ (zl_75 _ _ Z0)) in H.
  replace (if e_max E <f err_energy px0 then px0 else px0) with px0 in H by (destruct (_ <f _); auto).
  assert (O' : forall c, c < w -> seen even w (S x) c -> nth_error (upd (s_out st) col (e_tidx E)) c = Some (e_tidx E)).
  { intros c Hc Hs. destruct (Nat.eq_dec col c) as [<-|NE].
    - apply nth_error_upd_eq. lia.
    - rewrite nth_error_upd_neq by auto. apply O; auto. unfold seen, col in *. destruct even; lia. }
  pose proof (zl_16 _ _ Z0) as K16.
  assert (K1 : K (sixteenths 1)) by (apply K16; cbn; auto). assert (K3 : K (sixteenths 3)) by (apply K16; cbn; auto).
  assert (K5 : K (sixteenths 5)) by (apply K16; cbn; auto). assert (K7 : K (sixteenths 7)) by (apply K16; cbn; auto).
  destruct even; apply bind_ok in H as (t' & H1 & H); apply bind_ok in H as (n1 & H2 & H); apply bind_ok in H as (n2 & H3 & H);
    apply bind_ok in H as (n3 & H4 & H); inversion H; subst st'; unfold dst_bg; cbn [s_this s_next s_out]; rewrite upd_length.
  - apply (err_add_zero K C Z0) in H1; auto. apply (err_add_zero K C Z0) in H2; auto. apply (err_add_zero K C Z0) in H3; auto. apply (err_set_zero K C Z0) in H4; auto.
  - apply (err_add_zero K C Z0) in H1; auto. apply (err_set_zero K C Z0) in H2; auto. apply (err_add_zero K C Z0) in H3; auto. apply (err_add_zero K C Z0) in H4; auto.
Qed.

Definition all_tidx (o : list nat) : Prop := length o = e_w E /\ Forall (fun k => k = e_tidx E) o.
Lemma dither_row_bg row dmap even dif out dif' out' : env_zero K E dmap -> length row = e_w E ->
  (forall c, In c row -> C c /\ covered (e_n E) c) -> halves_zero dif -> length out = e_w E ->
  dither_row E row dmap row even dif out = Ok (dif', out') -> halves_zero dif' /\ all_tidx out'.
Proof.
  intros V LR F [D1 D2] LO H. unfold dither_row in H. rewrite LR, LO, Nat.eqb_refl in H. cbn [andb negb] in H.
  apply bind_ok in H as (st & H1 & H).
  assert (I : dst_bg even (0 + e_w E) st).
  { eapply (foldM_seq_inv (dst_bg even)); [|  |exact H1].
    - intros i s s1 Hi Pi Ei. eapply dither_px_bg; eauto. lia.
    - unfold dst_bg. cbn [s_this s_next s_out]. split; [destruct even; auto|]. split; [apply zeros_repeat|]. split; auto.
      intros c Hc Hs. unfold seen in Hs. destruct even; lia. }
  destruct I as (Z1 & Z2 & L & O). inversion H; subst. split; [destruct even; split; auto|].
  cbn [plus] in O. split; auto. apply Forall_forall. intros k Hk. apply In_nth_error in Hk as (c & Hc).
  assert (c < e_w E) by (rewrite <- L; apply nth_error_Some; congruence).
  rewrite O in Hc; auto; [congruence|]. unfold seen. destruct even; lia.
Qed.

Section Rows.
Variables (d b : drows) (pxs : list (list rgba)) (dm : list Z).
Hypotheses (S : shows d pxs) (Sb : shows b pxs) (Gb : d_gamma b = d_gamma d) (W : d_w d = e_w E) (V : env_zero K E dm).
Hypothesis F : forall r c, In r pxs -> In c (prow d r) -> C c /\ covered (e_n E) c.

Lemma dither_image_row_bg row dif out dif' out' : row < d_h d -> halves_zero dif -> length out = e_w E ->
  dither_image_row E d (Some b) dm row dif out = Ok (dif', out') -> halves_zero dif' /\ all_tidx out'.
Proof.
  intros Y D L H. destruct (nth_error pxs row) as [r|] eqn:R; [|apply nth_error_None in R; rewrite (sh_len _ _ S) in R; lia].
  unfold dither_image_row in H. rewrite (shows_row d pxs row r S R) in H. cbn [bind] in H.
  rewrite (shows_row b pxs row r Sb R) in H. cbn [bind] in H. rewrite Gb in H.
  pose proof (sh_rows _ _ S) as SR. rewrite Forall_forall in SR. destruct (SR r) as [Lr _]; [eapply nth_error_In; eauto|].
  change (map _ r) with (prow d r) in H. apply (dither_row_bg (prow d r)) in H; auto.
  - apply env_zero_slice. auto.
  - unfold prow. rewrite map_length. lia.
  - intros c Hc. apply (F r c); auto. eapply nth_error_In; eauto.
Qed.
Lemma warm_up_bg start scratch dif : start <= d_h d -> length scratch = e_w E ->
  warm_up E d (Some b) dm start scratch = Ok dif -> halves_zero dif.
Proof.
  intros H L Hw. unfold warm_up in Hw. cbv zeta in Hw. destruct (Nat.ltb_spec 2 start) as [H2|H2].
  - apply bind_ok in Hw as ([dif0 sc] & H1 & Hw). inversion Hw; subst dif0.
    assert (I : halves_zero (fst (dif, sc)) /\ length (snd (dif, sc)) = e_w E).
    { eapply (foldM_seq_inv (fun _ st => halves_zero (fst st) /\ length (snd st) = e_w E)); [| |exact H1].
      - intros i [df s] [df1 s1] Hi [I1 I2] Ei. cbn [fst snd] in *.
        destruct (dither_image_row_bg i df s df1 s1) as [J1 [J2 _]]; auto. lia.
      - cbn [fst snd]. split; auto. split; apply zeros_repeat. }
    apply I.
  - inversion Hw; subst. split; apply zeros_repeat.
Qed.
Lemma dither_chunk_bg start dif rows outs : start + length rows <= d_h d -> halves_zero dif -> Forall (fun r => length r = e_w E) rows ->
  dither_chunk E d (Some b) dm start dif rows = Ok outs -> length outs = length rows /\ Forall all_tidx outs.
Proof.
  intros H D Fr Hc. unfold dither_chunk in Hc. apply bind_ok in Hc as ([dif1 outs1] & H1 & Hc). inversion Hc; subst outs1.
  assert (I : halves_zero dif1 /\ length outs = 0 + length (enumerate rows) /\ Forall all_tidx outs).
  { eapply (foldM_index_inv (fun n st => halves_zero (fst st) /\ length (snd st) = n /\ Forall all_tidx (snd st))) in H1; [exact H1| |].
    - intros n [i r0] [df os] [df1 os1] Hn (I1 & I2 & I3) Ei. cbn [fst snd] in *. rewrite nth_error_enumerate in Hn.
      destruct (nth_error rows n) as [r'|] eqn:Er; [|discriminate]. inversion Hn; subst i r'.
      assert (Hl : n < length rows) by (apply nth_error_Some; congruence).
      apply bind_ok in Ei as ([df2 o] & E1 & Ei). inversion Ei; subst df2 os1.
      destruct (dither_image_row_bg (start + n) df r0 df1 o) as [J1 J2]; auto; [lia| |].
      { rewrite Forall_forall in Fr. apply Fr. eapply nth_error_In; eauto. }
      split; auto. rewrite app_length. cbn [length]. split; [lia|]. apply Forall_app. auto.
    - cbn [fst snd]. split; auto. }
  rewrite enumerate_length in I. destruct I as (_ & I1 & I2). auto.
Qed.
Variables (u : unspec) (rcb : callback).
Lemma floyd_chunks_bg stage1 cs : forall start done s s',
  Forall all_tidx done -> length done = start -> start + length (concat cs) = d_h d ->
  Forall (fun c => Forall (fun r => length r = e_w E) c) cs ->
  floyd_chunks u rcb E d (Some b) dm stage1 (d_h d) start done cs s = (Ok tt, s') ->
  length (r_out s') = d_h d /\ Forall all_tidx (r_out s').
Proof.
  induction cs as [|c cs IH]; intros start done s s' FD LD T FC H; cbn [floyd_chunks] in H.
  - unfold put_out, smod in H. inversion H; subst. cbn [r_out]. cbn in T. split; [lia|auto].
  - cbn [concat] in T. rewrite app_length in T. apply Forall_cons_iff in FC as [Fc FC].
    apply sbind_ok in H as (k & s1 & H1 & H). apply sbind_ok in H as (dif & s2 & H2 & H).
    unfold slift in H2. inversion H2 as [[H3 H4]]. subst s2.
    apply warm_up_bg in H3; [|lia|rewrite map_length, seq_length; auto].
    apply sbind_ok in H as (stop & s3 & H5 & H). destruct stop.
    + apply sbind_ok in H as (x & s4 & _ & H). discriminate.
    + apply sbind_ok in H as (o & s4 & H6 & H). unfold slift in H6. inversion H6 as [[H7 H8]]. subst s4.
      apply dither_chunk_bg in H7; auto; [|lia]. destruct H7 as [L7 X7].
      apply IH in H; auto.
      * apply Forall_app. auto.
      * rewrite app_length. lia.
      * lia.
Qed.
End Rows.
End Env.

(** * The whole remap *)
(** The background shows the picture itself, with the same gamma. *)
Definition self_bg (i : image) (pxs : list (list rgba)) : Prop :=
  exists b, i_bg i = Some b /\ shows (i_px b) pxs /\ d_gamma (i_px b) = d_gamma (i_px i).
Lemma self_bg_keeps i i' pxs : keeps i i' -> self_bg i pxs -> self_bg i' pxs.
Proof.
  intros ((_ & _ & G & _) & _ & B) (b & Eb & S & Gb). rewrite Eb in B. destruct B as (b' & Eb' & _ & (_ & _ & G' & S')).
  exists b'. split; auto. split; auto. congruence.
Qed.
(** The entry nearest to transparent black is (almost) transparent. *)
Definition clear_entry (n : nearest) : Prop :=
  exists c, nth_error (n_pal n) (transparent_idx n) = Some c /\ (pa c <f MIN_OPAQUE_A) = true /\ (MIN_OPAQUE_A <f pa c) = false.
Definition uniform (w k : nat) (outs : list (list nat)) : Prop := Forall (fun o => o = repeat k w) outs.
Lemma all_repeat {T} (k : T) l : Forall (fun x => x = k) l -> l = repeat k (length l).
Proof. induction 1 as [|x l -> _ IH]; cbn; f_equal; auto. Qed.

Section Remap.
Variables (K : f32 -> Prop) (C : px -> Prop) (Z0 : zero_laws K C) (u : unspec) (U : unspec_ok u) (rcb : callback).
Definition all_covered (g : f64) (pxs : list (list rgba)) (n : nearest) : Prop :=
  forall r c, In r pxs -> In c r -> C (from_rgba (gamma_lut g) c) /\ covered n (from_rgba (gamma_lut g) c).

Lemma floyd_bg (p : palf) max_err rm s pxs n s' : image_ok (r_img s) pxs -> shaped (r_img s) (r_out s) -> self_bg (r_img s) pxs ->
  clear_entry n -> levels K (r_q s) -> nearest_new p = Ok n -> all_covered (d_gamma (i_px (r_img s))) pxs n ->
  floyd u rcb p max_err rm s = (Ok tt, s') ->
  length (r_out s') = i_h (r_img s) /\ uniform (i_w (r_img s)) (transparent_idx n) (r_out s').
Proof.
  intros I [LO FO] SB (tc & TC & TL & TG) (K1 & K2 & K3) N F H. unfold floyd in H.
  apply sbind_ok in H as (s0 & sx & H0 & H). unfold sget in H0. inversion H0; subst s0 sx. clear H0. cbv zeta in H.
  rewrite N in H. apply sbind_ok in H as (n0 & sx & H0 & H). unfold slift in H0. inversion H0; subst n0 sx. clear H0.
  destruct SB as (b & B & Sb & Gb). rewrite B in H.
  apply sbind_ok in H as (x0 & s1 & H0 & H). destruct (prepare_bg_eq s pxs I) as (ob & E0 & KB & I0). rewrite E0 in H0.
  inversion H0; subst s1. clear H0.
  apply sbind_ok in H as (tc' & sx & H0 & H). unfold slift in H0. apply pair_equal_spec in H0 as [H1 <-]. apply idx_ok in H1.
  assert (tc' = tc) by congruence. subst tc'. rewrite TG in H. cbn [negb andb] in H.
  apply sbind_ok in H as (x1 & s1 & H0 & H). set (s0 := upd_img s (set_bg (r_img s) ob)) in *.
  destruct (prepare_image_eq s0 pxs I0) as (d & E1 & S1 & I1). rewrite E1 in H0.
  inversion H0; subst s1. clear H0. apply sbind_ok in H as (s2 & sx & H0 & H). unfold sget in H0. inversion H0; subst s2 sx. clear H0.
  set (s1 := upd_img s0 (set_px (r_img s0) d)) in *.
  change (r_out s1) with (r_out s) in H. set (i1 := r_img s1) in *. change (i_h i1) with (d_h (i_px i1)) in H.
  set (dm := if dmode_is_none (q_dmap (r_q s)) then [] else _) in H.
  assert (DM : Forall byte dm).
  { unfold dm. destruct (dmode_is_none _); [constructor|].
    destruct (i_dmap (r_img s)) as [m|] eqn:D; [apply (proj2 (im_dmap _ _ I m D))|].
    destruct (i_edges (r_img s)) as [m|] eqn:D2; [apply (proj2 (im_edges _ _ I m D2))|constructor]. }
  match type of H with context [DEnv ?w ?n ?b ?e ?t ?g] => set (E := DEnv w n b e t g) in H end.
  destruct (self_bg_keeps _ _ pxs KB) as (b1 & B1 & Sb1 & Gb1); [exists b; auto|]. cbn [set_bg i_bg i_px] in B1, Gb1. subst ob.
  change (option_map i_px (i_bg i1)) with (Some (i_px b1)) in H.
  destruct S1 as (W1 & Hh1 & G1 & _).
  pose proof (sh_h _ _ (im_px _ _ I1)) as HH. change (0 < d_h (i_px i1)) in HH.
  set (nc := num_chunks u _ _ _) in *.
  assert (NC : 1 <= nc) by (apply num_chunks_pos; auto).
  set (size := (d_h (i_px i1) + nc - 1) / nc) in *.
  assert (SZ : 0 < size). { unfold size. apply Nat.div_str_pos. lia. }
  apply (floyd_chunks_bg K C Z0 E (i_px i1) (i_px b1) pxs dm) in H.
  - destruct H as [Q1 Q2]. change (d_h (i_px i1)) with (d_h d) in Q1. rewrite Hh1 in Q1. split; [exact Q1|].
    eapply Forall_impl; [|exact Q2]. intros o [L T]. rewrite (all_repeat _ _ T), L. change (e_w E) with (d_w d). rewrite W1. reflexivity.
  - apply I1.
  - exact Sb1.
  - change (d_gamma (i_px i1)) with (d_gamma d). rewrite G1. exact Gb1.
  - reflexivity.
  - unfold E, env_zero. cbn [e_base]. fold (base_level (r_q s)). destruct dm as [|l0 dm']; [split; [exact K1|intros l []]|].
    split; [exact K2|]. intros l Hl. apply K3. rewrite Forall_forall in DM. auto.
  - intros r c Hr Hc. unfold prow in Hc. apply in_map_iff in Hc as (c8 & <- & Hc). change (d_gamma (i_px i1)) with (d_gamma d). rewrite G1.
    apply (F r c8); auto.
  - constructor.
  - reflexivity.
  - cbn [plus]. rewrite chunks_concat by auto. change (length (r_out s) = d_h d). rewrite LO, Hh1. reflexivity.
  - apply chunks_rows; auto. change (e_w E) with (d_w d). rewrite W1. exact FO.
Qed.

Lemma write_bg (CL : CastLaws A) q s pxs s' : entry_ok q s pxs -> self_bg (r_img s) pxs -> (q_dither q =f f0) = false ->
  levels K q ->
  (forall p n, length p = length (q_pal q) -> nearest_new (fst (init_int_palette p (q_gamma q) (q_post q))) = Ok n ->
     all_covered (d_gamma (i_px (r_img s))) pxs n) ->
  write_remapped u rcb s = (Ok tt, s') ->
  exists (p : palf) e n, nearest_new (fst (init_int_palette p (q_gamma q) (q_post q))) = Ok n /\
    r_q s' = set_rem q (Some (snd (init_int_palette p (q_gamma q) (q_post q)), e)) /\
    (clear_entry n -> length (r_out s') = i_h (r_img s) /\ uniform (i_w (r_img s)) (transparent_idx n) (r_out s')).
Proof.
  intros (EQ & I & SH & P) B D KL HF H. unfold write_remapped in H.
  apply sbind_ok in H as (s0 & sx & H0 & H). unfold sget in H0. inversion H0; subst s0 sx. clear H0. cbv zeta in H. rewrite EQ in H.
  apply sbind_ok in H as (stop & s1 & H0 & H). destruct stop; [discriminate|].
  assert (S1 : r_q s1 = r_q s /\ r_img s1 = r_img s /\ r_out s1 = r_out s) by (unfold on_world, progress in H0; inversion H0; auto).
  destruct S1 as (S1a & S1b & S1c). apply sbind_ok in H as (x0 & s2 & H1 & H).
  unfold put_img, smod in H1. inversion H1; subst s2. clear H1 H0.
  destruct (free_keeps _ _ I) as [K0 I0]. set (i0 := set_px _ _) in *. set (s2 := RSt _ i0 _ _) in *.
  assert (SH2 : shaped (r_img s2) (r_out s2)) by (cbn; rewrite S1c; apply (shaped_keeps (r_img s)); auto).
  rewrite D in H. apply sbind_ok in H as ([me p] & s3 & H1 & H).
  pose proof (generate_dither_map_ok u U CL (q_dmap q) (negb (is_none (i_bg (r_img s)))) (q_pal q) s2 pxs I0 SH2 P) as R1.
  unfold runs in R1. rewrite H1 in R1. destruct R1 as (R1 & R2 & R3 & R4 & R5 & R6). cbn [fst snd] in *.
  apply sbind_ok in H as (stop2 & s4 & H2 & H). destruct stop2; [discriminate|].
  assert (S4 : r_q s4 = r_q s3 /\ r_img s4 = r_img s3 /\ r_out s4 = r_out s3) by (unfold on_world, progress in H2; inversion H2; auto).
  destruct S4 as (S4a & S4b & S4c).
  destruct (init_int_palette p (q_gamma q) (q_post q)) as [p2 ip] eqn:IP.
  apply sbind_ok in H as ([] & s5 & HF5 & H). unfold put_q, smod in H. inversion H; subst s'. cbn [r_q r_out].
  assert (KP : keeps (r_img s) (r_img s3)) by (eapply keeps_trans; eauto).
  assert (Lp : length p2 = length (q_pal q)).
  { unfold init_int_palette in IP. inversion IP. rewrite map_length. apply R5. }
  destruct (nearest_new_ok p2) as (n & N & _); [lia|].
  exists p. eexists. exists n. rewrite IP. cbn [fst snd]. split; auto. split; [reflexivity|]. intros CE.
  assert (G : d_gamma (i_px (r_img s4)) = d_gamma (i_px (r_img s))) by (rewrite S4b; apply KP).
  assert (B4 : self_bg (r_img s4) pxs) by (rewrite S4b; eapply self_bg_keeps; eauto).
  destruct (keeps_dims _ _ KP) as [DW DH]. rewrite <- S4b in DW, DH.
  rewrite <- DW, <- DH. eapply floyd_bg; [| |exact B4|exact CE| |exact N| |exact HF5].
  - rewrite S4b. auto.
  - rewrite S4b, S4c. apply (shaped_keeps (r_img s)); auto. apply (shaped_back _ _ _ K0 R4).
  - rewrite S4a, R1. cbn. rewrite S1a, EQ. auto.
  - rewrite G. eapply (HF p); [apply R5|]. rewrite IP. auto.
Qed.

Lemma pure_row_bg n bg tidx l : forall last, (forall col c, In (col, c) l -> nth_error bg col = Some c /\ covered n c) ->
  map fst (pure_row n bg tidx l last) = repeat tidx (length l).
Proof.
  induction l as [|[col c] l IH]; intros last F; cbn [pure_row map length repeat]; [reflexivity|]. f_equal.
  - destruct (F col c) as [E X]; [left; auto|]. unfold bg_choice. rewrite E, (X last). reflexivity.
  - apply IH. intros col' c' H. apply F. right. auto.
Qed.
Lemma plain_bg n i pxs : image_ok i pxs -> self_bg i pxs -> clear_entry n -> all_covered (d_gamma (i_px i)) pxs n ->
  uniform (i_w i) (transparent_idx n) (plain_out n true i).
Proof.
  intros I (b & B & Sb & Gb) (tc & TC & TL & TG) F. apply Forall_forall. intros o Ho. unfold plain_out in Ho. apply in_map_iff in Ho as (y & <- & Hy).
  apply in_seq in Hy. destruct (shows_row_ex _ _ y (im_px _ _ I)) as (r & R & Lr & _ & ER); [apply Hy|].
  unfold plain_row, row_result, img_bg, eff_tidx. rewrite B. cbn [option_map]. unfold eff_bg. rewrite (nth_error_nth _ _ px0 TC), TL.
  rewrite ER. cbn [bg_row]. rewrite (shows_row _ _ _ _ Sb R), Gb. rewrite pure_row_bg.
  - rewrite enumerate_length, map_length, Lr. reflexivity.
  - intros col c H. apply In_enumerate in H. split; auto. rewrite nth_error_map in H. destruct (nth_error r col) as [c8|] eqn:Ec; [|discriminate].
    inversion H; subst. apply (F r c8); eapply nth_error_In; eauto.
Qed.

Lemma concat_uniform w k outs : uniform w k outs -> concat outs = repeat k (length outs * w).
Proof. induction 1 as [|o l -> _ IH]; cbn; auto. rewrite repeat_app. f_equal. exact IH. Qed.

(** The result of remapping an image on top of itself. *)
Lemma remap_bg (CL : CastLaws A) q i pxs buf w q' i' out w' : image_ok i pxs -> self_bg i pxs -> 0 < length (q_pal q) <= 256 ->
  levels K q ->
  (forall p n, length p = length (q_pal q) -> nearest_new (fst (init_int_palette p (q_gamma q) (q_post q))) = Ok n -> all_covered (d_gamma (i_px i)) pxs n) ->
  remap_into u rcb q i buf w = (Ok tt, (q', i', out, w')) ->
  exists (p : palf) e n, nearest_new (fst (init_int_palette p (q_gamma q) (q_post q))) = Ok n /\
    q' = set_rem q (Some (snd (init_int_palette p (q_gamma q) (q_post q)), e)) /\
    (clear_entry n -> out = repeat (transparent_idx n) (i_w i * i_h i) ++ skipn (i_w i * i_h i) buf).
Proof.
  intros I B P KL HF E. destruct (q_dither q =f f0) eqn:D.
  - destruct (plain_remap_eq u rcb q i pxs buf w q' i' out w' U I P D E) as (n & e & N & -> & -> & _).
    exists (q_pal q), (Some e), n. split; auto. split; auto. intros CE. f_equal.
    rewrite (concat_uniform (i_w i) (transparent_idx n)) by (eapply plain_bg; eauto). unfold plain_out. rewrite map_length, seq_length. f_equal. lia.
  - unfold remap_into in E. cbv zeta in E. destruct (Nat.ltb_spec (length buf) (i_w i * i_h i)) as [Hlt|Hge]; [discriminate|].
    assert (Lf : length (firstn (i_w i * i_h i) buf) = i_w i * i_h i) by (rewrite firstn_length; lia).
    pose proof (sh_w _ _ (im_px _ _ I)) as HW. change (0 < i_w i) in HW.
    destruct (chunks_exact_shape (i_w i) (i_h i) (firstn (i_w i * i_h i) buf) HW Lf) as (LR & FR & _).
    destruct (write_remapped u rcb (RSt q i (chunks_exact (i_w i) (firstn (i_w i * i_h i) buf)) w)) as [r0 s'] eqn:WR.
    inversion E; subst. clear E. set (s0 := RSt q i _ w) in *.
    assert (EO : entry_ok q s0 pxs) by exact (conj eq_refl (conj I (conj (conj LR FR) P))).
    destruct (write_bg CL q s0 pxs s' EO B D KL HF WR) as (p & e & n & N & RQ & RX).
    exists p, e, n. split; auto. split; auto. intros CE. destruct (RX CE) as [L X]. f_equal.
    rewrite (concat_uniform _ _ _ X), L. change (r_img s0) with i. f_equal. lia.
Qed.
End Remap.
End DitherBg.
