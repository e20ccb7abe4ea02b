(** Remapping: no panics, complete and valid output, independence of the
    thread schedule; for any arithmetic. *)
From Verif Require Import Base BaseFacts Arith Order Pal World Attr Hist MedianCut Nearest Kmeans Blur ImageM Quant Remap
  SpecImage BlurFacts ImageFacts MedianFacts SearchFacts QuantFacts.
Open Scope nat_scope.

Section RemapFacts.
Context {A : Arith}.

(** * One row without dithering, as a function of the row only *)
(** Per pixel: chosen index and squared distance added to the error. *)
Definition bg_choice (bg : list px) (col : nat) (inp : px) (df : f32) : option f32 :=
  match nth_error bg col with
  | Some b => if diff b inp <=f df then Some (diff b inp) else None
  | None => None
  end.
Fixpoint pure_row (n : nearest) (bg : list px) (tidx : nat) (l : list (nat * px)) (last : nat) : list (nat * f32) :=
  match l with
  | [] => []
  | (col, inp) :: t =>
      let m := fst (search n inp last) in
      let df := snd (search n inp last) in
      match bg_choice bg col inp df with
      | Some bd => (tidx, bd)
      | None => (m, df)
      end :: pure_row n bg tidx t m
  end.
Definition row_error (l : list (nat * f32)) (e : f64) : f64 := fold_left (fun e x => e +d f2d (snd x)) l e.

Lemma pure_row_length n bg tidx l : forall last, length (pure_row n bg tidx l last) = length l.
Proof. induction l as [|[c p] l IH]; intros last; cbn; auto. Qed.
Lemma pure_row_idx n k bg tidx l : near_ok n k -> tidx < k -> forall last, Forall (fun x => fst x < k) (pure_row n bg tidx l last).
Proof.
  intros N T. induction l as [|[c p] l IH]; intros last; cbn [pure_row]; constructor; auto.
  destruct (bg_choice _ _ _ _); cbn [fst]; auto. apply search_idx; auto.
Qed.

Lemma remap_px_pure n k bg tidx imp row w l : near_ok n k -> forall km last outs err, length (k_avg km) = k ->
  exists km' last', foldM (remap_px n bg tidx imp row w) l (km, last, outs, err) =
     Ok (km', last', outs ++ map fst (pure_row n bg tidx l last), row_error (pure_row n bg tidx l last) err) /\ length (k_avg km') = k.
Proof.
  intros N. induction l as [|[col inp] l IH]; intros km last outs err L; cbn [foldM pure_row map].
  - eexists _, _. rewrite app_nil_r. split; [reflexivity|auto].
  - unfold remap_px at 1. unfold bg_choice. pose proof (search_idx n k inp last N) as HI.
    destruct (search n inp last) as [m df]. cbn [fst snd] in *.
    match goal with |- context [match ?b with Some bd => (tidx, bd) | None => _ end] => set (b' := b) end.
    cbv zeta; fold b'. destruct b' as [bd|].
    + cbn [bind]. destruct (IH km m (outs ++ [tidx]) (err +d f2d bd) L) as (km' & last' & E & L').
      eexists _, _. split; [rewrite E|exact L']. rewrite <- app_assoc. reflexivity.
    + destruct (update_color_ok km inp (fofZ (match imp with Some m0 => match nth_error m0 (row * w + col) with Some v => v | None => 1%Z end | None => 1%Z end)) m) as (km1 & -> & L1); [lia|]. cbn [bind].
      destruct (IH km1 m (outs ++ [m]) (err +d f2d df)) as (km' & last' & E & L'); [lia|].
      eexists _, _. split; [rewrite E|exact L']. rewrite <- app_assoc. reflexivity.
Qed.

(** Background rows exist. *)
Definition bg_shows (bg : option drows) (w h : nat) : Prop :=
  forall b, bg = Some b -> d_w b = w /\ d_h b = h /\ exists bp, shows b bp.
Definition bg_row (bg : option drows) (row : nat) : res (list px) :=
  match bg with Some b => row_f b row | None => Ok [] end.
Lemma bg_row_ok bg w h row : bg_shows bg w h -> row < h -> exists r, bg_row bg row = Ok r /\ (r = [] \/ length r = w).
Proof.
  intros B H. destruct bg as [b|]; [|exists []; cbn; auto]. destruct (B b eq_refl) as (W & Hh & bp & S).
  destruct (shows_row_ex b bp row S) as (r & _ & L & _ & E); [lia|]. cbn. eexists; split; [exact E|]. right. rewrite map_length. lia.
Qed.

Definition row_result (n : nearest) (d : drows) (bg : option drows) (tidx row : nat) : list (nat * f32) :=
  match row_f d row, bg_row bg row with
  | Ok r, Ok b => pure_row n b tidx (enumerate r) 0
  | _, _ => []
  end.

Lemma remap_row_pure n k d pxs bg tidx imp row : near_ok n k -> shows d pxs -> bg_shows bg (d_w d) (d_h d) -> row < d_h d -> tidx < k ->
  forall km, length (k_avg km) = k -> exists km',
    remap_row n d bg tidx imp row km = Ok (km', map fst (row_result n d bg tidx row), row_error (row_result n d bg tidx row) d0) /\
    length (k_avg km') = k.
Proof.
  intros N S B H T km L. unfold remap_row, row_result.
  destruct (shows_row_ex d pxs row S H) as (r & _ & Lr & _ & E). rewrite E. cbn [bind].
  destruct (bg_row_ok bg _ _ row B H) as (b & Eb & _). rewrite Eb. unfold bg_row in Eb. rewrite Eb. cbn [bind].
  destruct (remap_px_pure n k b tidx imp row (d_w d) (enumerate (map (from_rgba (gamma_lut (d_gamma d))) r)) N km 0 [] d0 L) as (km' & last' & E' & L').
  rewrite E'. cbn [bind app]. eauto.
Qed.
Lemma row_result_ok n k d pxs bg tidx row : near_ok n k -> shows d pxs -> bg_shows bg (d_w d) (d_h d) -> row < d_h d -> tidx < k ->
  length (row_result n d bg tidx row) = d_w d /\ Forall (fun x => fst x < k) (row_result n d bg tidx row).
Proof.
  intros N S B H T. unfold row_result.
  destruct (shows_row_ex d pxs row S H) as (r & _ & Lr & _ & E). rewrite E.
  destruct (bg_row_ok bg _ _ row B H) as (b & Eb & _). rewrite Eb.
  split; [|apply pure_row_idx; auto]. rewrite pure_row_length, enumerate_length, map_length. auto.
Qed.

(** * All rows, on any schedule *)
(** After the rows [done] have been processed they hold their result. *)
Definition rows_done (f : nat -> list nat) (e : nat -> f64) (done : list nat) (out : list (list nat)) (errs : list f64) (h : nat) : Prop :=
  length out = h /\ length errs = h /\
  forall r, In r done -> nth_error out r = Some (f r) /\ nth_error errs r = Some (e r).
Lemma rows_done_step f e done out errs h r : rows_done f e done out errs h -> r < h ->
  rows_done f e (r :: done) (upd out r (f r)) (upd errs r (e r)) h.
Proof.
  intros (L1 & L2 & D) H. split; [rewrite upd_length; auto|]. split; [rewrite upd_length; auto|].
  intros x Hx. destruct (Nat.eq_dec x r) as [->|N].
  - split; apply nth_error_upd_eq; lia.
  - destruct Hx as [|Hx]; [congruence|]. rewrite !nth_error_upd_neq by auto. auto.
Qed.

Lemma remap_worker_ok n k d pxs bg tidx imp work : near_ok n k -> shows d pxs -> bg_shows bg (d_w d) (d_h d) -> tidx < k ->
  let f r := map fst (row_result n d bg tidx r) in
  let e r := row_error (row_result n d bg tidx r) d0 in
  forall out errs km done, Forall (fun r => r < d_h d) work -> length (k_avg km) = k -> rows_done f e done out errs (d_h d) ->
  exists out' errs' km' done', remap_worker n d bg tidx imp (out, errs) (km, work) = Ok (out', errs', km') /\ length (k_avg km') = k /\
    rows_done f e done' out' errs' (d_h d) /\ (forall r, In r work \/ In r done -> In r done').
Proof.
  intros N S B T f e. unfold remap_worker. cbn [fst snd]. induction work as [|r work IH]; intros out errs km done F L D; cbn [foldM].
  - eexists _, _, _, done. split; [reflexivity|]. split; auto. split; auto. intros r [[]|]; auto.
  - apply Forall_cons_iff in F as [F1 F2].
    destruct (remap_row_pure n k d pxs bg tidx imp r N S B F1 T km L) as (km1 & -> & L1). cbn [bind].
    rewrite set_idx_lt by (destruct D; lia). cbn [bind].
    destruct (IH (upd out r (f r)) (upd errs r (e r)) km1 (r :: done)) as (out' & errs' & km' & done' & E & L' & D' & I); auto.
    { apply rows_done_step; auto. }
    eexists _, _, _, done'. split; [exact E|]. split; auto. split; auto.
    intros x Hx. apply I. cbn in Hx |- *. tauto.
Qed.

Lemma remap_workers_ok n k d pxs bg tidx imp kws : near_ok n k -> shows d pxs -> bg_shows bg (d_w d) (d_h d) -> tidx < k ->
  let f r := map fst (row_result n d bg tidx r) in
  let e r := row_error (row_result n d bg tidx r) d0 in
  forall out errs ks done, Forall (fun kw => length (k_avg (fst kw)) = k /\ Forall (fun r => r < d_h d) (snd kw)) kws ->
  Forall (fun km => length (k_avg km) = k) ks -> rows_done f e done out errs (d_h d) ->
  exists out' errs' ks' done',
    foldM (fun '(out, errs, ks) kw => ' (o, e, k) <- remap_worker n d bg tidx imp (out, errs) kw ;; Ok (o, e, ks ++ [k])) kws (out, errs, ks)
      = Ok (out', errs', ks') /\ Forall (fun km => length (k_avg km) = k) ks' /\
    rows_done f e done' out' errs' (d_h d) /\ (forall r, In r (concat (map snd kws)) \/ In r done -> In r done').
Proof.
  intros N S B T f e. induction kws as [|[km work] kws IH]; intros out errs ks done F L D; cbn [foldM map concat].
  - eexists _, _, _, done. split; [reflexivity|]. split; auto. split; auto. intros r [[]|]; auto.
  - apply Forall_cons_iff in F as [[F1 F2] F3]. cbn [fst snd] in *.
    destruct (remap_worker_ok n k d pxs bg tidx imp work N S B T out errs km done F2 F1 D) as (o1 & e1 & km1 & done1 & -> & L1 & D1 & I1). cbn [bind].
    destruct (IH o1 e1 (ks ++ [km1]) done1) as (out' & errs' & ks' & done' & E & L' & D' & I); auto.
    { apply Forall_app; auto. }
    eexists _, _, _, done'. split; [exact E|]. split; auto. split; auto.
    intros x Hx. apply I. rewrite in_app_iff in Hx. destruct Hx as [[Hx|Hx]|Hx]; auto.
Qed.

Lemma rows_done_all f e done out errs h : rows_done f e done out errs h -> (forall r, r < h -> In r done) ->
  out = map f (seq 0 h) /\ (forall r, r < h -> nth r errs d0 = e r).
Proof.
  intros (L1 & L2 & D) C. split.
  - apply list_eq_nth_error. intros i. rewrite nth_error_map, nth_error_seq. destruct (Nat.ltb_spec i h) as [H|H].
    + cbn. apply D. apply C. auto.
    + cbn. apply nth_error_None. lia.
  - intros r H. apply nth_error_nth. apply D. auto.
Qed.

Lemma stree_sum_ext f g t : (forall r, In r (stree_leaves t) -> f r = g r) -> stree_sum f t = stree_sum g t.
Proof.
  induction t as [|r|l IHl r IHr]; cbn; intros H; auto. rewrite IHl, IHr; auto; intros x Hx; apply H; apply in_app_iff; auto.
Qed.

(** The background actually used and the index standing for it. *)
Definition eff_bg (n : nearest) (bg : option drows) : option drows :=
  match bg with
  | Some b => if pa (nth (transparent_idx n) (n_pal n) px0) <f MIN_OPAQUE_A then Some b else None
  | None => None
  end.
Definition eff_tidx (n : nearest) (bg : option drows) : nat :=
  match eff_bg n bg with Some _ => transparent_idx n | None => 0 end.

Lemma remap_rows_ok n (p : palf) d pxs bg imp threads main shape (out : list (list nat)) : near_ok n (length p) -> shows d pxs ->
  bg_shows bg (d_w d) (d_h d) -> length out = d_h d -> covers (d_h d) threads -> Permutation (stree_leaves shape) (seq 0 (d_h d)) ->
  exists p', remap_rows n d bg imp threads main shape out p =
    Ok (map (fun r => map fst (row_result n d (eff_bg n bg) (eff_tidx n bg) r)) (seq 0 (d_h d)),
        stree_sum (fun r => row_error (row_result n d (eff_bg n bg) (eff_tidx n bg) r) d0) shape, p') /\ keeps_fixed p p'.
Proof.
  intros N S B L C P. unfold remap_rows. cbv zeta.
  assert (TI : transparent_idx n < length p) by (apply search_idx; auto).
  assert (TC : exists tc, match bg with Some _ => idx (n_pal n) (transparent_idx n) | None => Ok px0 end = Ok tc /\
     (match bg with Some b => if pa tc <f MIN_OPAQUE_A then (Some b, transparent_idx n) else (None, 0) | None => (None, 0) end) = (eff_bg n bg, eff_tidx n bg)).
  { unfold eff_tidx, eff_bg. destruct bg as [b|]; [|eexists; split; reflexivity].
    destruct (idx_lt (n_pal n) (transparent_idx n)) as (tc & E & Nt); [destruct N; lia|]. exists tc. split; auto.
    rewrite (nth_error_nth _ _ _ Nt). destruct (pa tc <f MIN_OPAQUE_A); auto. }
  destruct TC as (tc & -> & E2). cbn [bind]. rewrite E2. clear E2 tc.
  assert (B' : bg_shows (eff_bg n bg) (d_w d) (d_h d)).
  { unfold eff_bg. destruct bg as [b|]; [|auto]. destruct (_ <f _); [auto|intros ? Q; discriminate]. }
  assert (T' : eff_tidx n bg < length p).
  { unfold eff_tidx. destruct (eff_bg n bg); auto. destruct N as (_ & ? & _). auto. }
  generalize dependent (eff_bg n bg). generalize dependent (eff_tidx n bg). intros tidx T' ebg B'.
  assert (K0 : length (k_avg (km_new (length p))) = length p) by (cbn; apply repeat_length).
  assert (KM : exists km, match ebg with Some _ => update_color (km_new (length p)) px0 f1 tidx | None => Ok (km_new (length p)) end = Ok km /\ length (k_avg km) = length p).
  { destruct ebg; [|eauto]. destruct (update_color_ok (km_new (length p)) px0 f1 tidx) as (km & -> & ?); [lia|]. eexists; split; [reflexivity|lia]. }
  destruct KM as (km & -> & LK). cbn [bind].
  set (kws := map _ (enumerate threads)).
  assert (MS : map snd kws = threads).
  { unfold kws. rewrite map_map. cbn [snd]. apply map_snd_enumerate. }
  assert (FK : Forall (fun kw : kmeans * list nat => length (k_avg (fst kw)) = length p /\ Forall (fun r => r < d_h d) (snd kw)) kws).
  { apply Forall_forall. intros kw Hk. split.
    - unfold kws in Hk. apply in_map_iff in Hk as ([i w] & <- & _). cbn [fst]. destruct (Nat.eqb _ _); auto.
    - pose proof (covers_lt _ _ C) as Q. rewrite Forall_forall in Q. apply Q. rewrite <- MS. apply in_map. auto. }
  destruct (remap_workers_ok n (length p) d pxs ebg tidx imp kws N S B' T' out (repeat d0 (length out)) [] []) as (o & es & ks & done & E & LKs & D & I); auto.
  { split; [auto|]. split; [rewrite repeat_length; auto|]. intros r []. }
  rewrite E. cbn [bind]. rewrite MS in I.
  destruct (rows_done_all _ _ _ _ _ _ D) as [-> Es].
  { intros r Hr. apply I. left. eapply Permutation_in; [apply Permutation_sym; exact C|]. apply in_seq. lia. }
  eexists. split; [f_equal; f_equal; f_equal|].
  - apply stree_sum_ext. intros r Hr. apply Es. eapply Permutation_in in Hr; [|exact P]. apply in_seq in Hr. lia.
  - destruct (km_reduce ks) as [k|] eqn:R; [|apply keeps_fixed_refl]. apply km_finalize_fixed. eapply km_reduce_length; eauto.
Qed.

(** * Dithering *)
Definition env_ok (E : dither_env) (k : nat) : Prop := near_ok (e_n E) k /\ e_tidx E < k.
(** Columns already processed after [x] steps. *)
Definition seen (even : bool) (w x c : nat) : Prop := if even then c < x else w - x <= c.
Definition dst_ok (even : bool) (w k x : nat) (st : dstate) : Prop :=
  length (s_this st) = w + 2 /\ length (s_next st) = w + 2 /\ length (s_out st) = w /\ s_last st < k /\
  (forall c, c < w -> seen even w x c -> exists v, nth_error (s_out st) c = Some v /\ v < k).

Lemma err_add_ok l i e k : i < length l -> exists l', err_add l i e k = Ok l' /\ length l' = length l.
Proof.
  intros H. unfold err_add. destruct (idx_lt l i H) as (x & -> & _). cbn [bind]. rewrite set_idx_lt by auto.
  eexists; split; [reflexivity|apply upd_length].
Qed.
Lemma err_set_ok l i e k : i < length l -> exists l', err_set l i e k = Ok l' /\ length l' = length l.
Proof. intros H. unfold err_set. rewrite set_idx_lt by auto. eexists; split; [reflexivity|apply upd_length]. Qed.

Lemma dither_px_ok E k row dmap bgp even x st : env_ok E k -> length row = e_w E -> (e_guess E = true -> bgp = []) ->
  x < e_w E -> dst_ok even (e_w E) k x st ->
  exists st', dither_px E row dmap bgp even st x = Ok st' /\ dst_ok even (e_w E) k (S x) st'.
Proof.
  intros [N T] LR G X (L1 & L2 & L3 & LL & O). unfold dither_px. cbv zeta.
  set (w := e_w E) in *. set (col := if even then x else w - 1 - x).
  assert (HC : col < w) by (unfold col; destruct even; lia).
  destruct (idx_lt row col) as (input & -> & _); [lia|]. cbn [bind].
  destruct (idx_lt (s_this st) (col + 1)) as (te & -> & _); [lia|]. cbn [bind].
  set (spx := get_dithered_pixel _ _ _ _). clearbody spx.
  assert (HG : exists g, (if e_guess E then idx (s_out st) col else Ok (s_last st)) = Ok g /\ (bgp = [] \/ g < k)).
  { destruct (e_guess E); [|eauto]. destruct (idx_lt (s_out st) col) as (g & -> & _); [lia|]. eauto. }
  destruct HG as (g & -> & HG). cbn [bind]. pose proof (search_idx (e_n E) k spx g N) as HI.
  destruct (search (e_n E) spx g) as [m dd]. cbn [fst] in HI.
  destruct (idx_lt (n_pal (e_n E)) m) as (op & -> & _); [destruct N; lia|]. cbn [bind].
  match goal with |- exists st', bind ?m _ = Ok _ /\ _ => assert (HM : exists mt o us, m = Ok (mt, o, us) /\ mt < k) end.
  { destruct (nth_error bgp col) as [b|] eqn:EB; [|eauto 6]. destruct HG as [->|HG]; [destruct col; discriminate|].
    destruct (_ <=f _); [eauto 6|]. destruct (Nat.ltb _ _); [eauto 6|]. destruct (_ <f _); [|eauto 6].
    destruct (idx_lt (n_pal (e_n E)) g) as (gp & -> & _); [destruct N; lia|]. cbn [bind]. destruct (_ <f _); eauto 6. }
  destruct HM as (mt & o & us & -> & Hmt). cbn [bind]. rewrite set_idx_lt by lia. cbn [bind].
  set (err := if _ <f _ then _ else _). clearbody err.
  assert (O' : forall c, c < w -> seen even w (S x) c -> exists v, nth_error (upd (s_out st) col mt) c = Some v /\ v < k).
  { intros c Hc Hs. destruct (Nat.eq_dec col c) as [->|NE].
    - exists mt. split; auto. apply nth_error_upd_eq. lia.
    - rewrite nth_error_upd_neq by auto. apply O; auto. unfold seen, col in *. destruct even; lia. }
  destruct even.
  - destruct (err_add_ok (s_this st) (col + 2) err (sixteenths 7)) as (t' & -> & Lt); [lia|]. cbn [bind].
    destruct (err_add_ok (s_next st) col err (sixteenths 3)) as (n1 & -> & Ln1); [lia|]. cbn [bind].
    destruct (err_add_ok n1 (col + 1) err (sixteenths 5)) as (n2 & -> & Ln2); [lia|]. cbn [bind].
    destruct (err_set_ok n2 (col + 2) err (sixteenths 1)) as (n3 & -> & Ln3); [lia|]. cbn [bind].
    eexists. split; [reflexivity|]. unfold dst_ok. cbn. rewrite upd_length. repeat (split; [lia|]). exact O'.
  - destruct (err_add_ok (s_this st) col err (sixteenths 7)) as (t' & -> & Lt); [lia|]. cbn [bind].
    destruct (err_set_ok (s_next st) col err (sixteenths 1)) as (n1 & -> & Ln1); [lia|]. cbn [bind].
    destruct (err_add_ok n1 (col + 1) err (sixteenths 5)) as (n2 & -> & Ln2); [lia|]. cbn [bind].
    destruct (err_add_ok n2 (col + 2) err (sixteenths 3)) as (n3 & -> & Ln3); [lia|]. cbn [bind].
    eexists. split; [reflexivity|]. unfold dst_ok. cbn. rewrite upd_length. repeat (split; [lia|]). exact O'.
Qed.

(** A row of the output that is complete. *)
Definition row_good (k w : nat) (r : list nat) : Prop := length r = w /\ Forall (fun v => v < k) r.
Definition halves_ok (w : nat) (dif : list px * list px) : Prop := length (fst dif) = w + 2 /\ length (snd dif) = w + 2.

Lemma dither_row_ok E k row dmap bgp even dif out : env_ok E k -> length row = e_w E -> (e_guess E = true -> bgp = []) ->
  halves_ok (e_w E) dif -> length out = e_w E ->
  exists dif' out', dither_row E row dmap bgp even dif out = Ok (dif', out') /\ halves_ok (e_w E) dif' /\ row_good k (e_w E) out'.
Proof.
  intros V LR G [H1 H2] LO. unfold dither_row. rewrite LR, LO, Nat.eqb_refl. cbn [andb negb].
  destruct (foldM_seq_total (dst_ok even (e_w E) k) (dither_px E row dmap bgp even) (e_w E) 0
              (DSt (if even then fst dif else snd dif) (repeat px0 (e_w E + 2)) out 0 0)) as (st & E1 & I1).
  - intros x st [_ X] I. replace (x + 1) with (S x) by lia. apply dither_px_ok; auto.
  - unfold dst_ok. cbn. rewrite repeat_length. split; [destruct even; auto|]. split; auto. split; auto.
    split; [destruct V as [(_ & ? & _) _]; lia|]. intros c Hc Hs. unfold seen in Hs. destruct even; lia.
  - rewrite E1. cbn [bind]. destruct I1 as (L1 & L2 & L3 & _ & O). eexists _, _. split; [reflexivity|].
    split; [destruct even; split; auto|]. split; auto.
    apply Forall_forall. intros v Hv. apply In_nth_error in Hv as (c & Hc).
    assert (c < e_w E). { rewrite <- L3. apply nth_error_Some. congruence. }
    destruct (O c) as (v' & E' & ?); auto. { unfold seen. destruct even; lia. } congruence.
Qed.

Lemma dither_image_row_ok E k d pxs bg dm row dif out : env_ok E k -> shows d pxs -> d_w d = e_w E -> bg_shows bg (d_w d) (d_h d) ->
  (e_guess E = true -> bg = None) -> row < d_h d -> halves_ok (e_w E) dif -> length out = e_w E ->
  exists dif' out', dither_image_row E d bg dm row dif out = Ok (dif', out') /\ halves_ok (e_w E) dif' /\ row_good k (e_w E) out'.
Proof.
  intros V S W B G H D L. unfold dither_image_row. destruct (shows_row_ex d pxs row S H) as (r & _ & Lr & _ & ->). cbn [bind].
  destruct (bg_row_ok bg _ _ row B H) as (b & Eb & _). unfold bg_row in Eb. rewrite Eb. cbn [bind].
  apply dither_row_ok; auto.
  - rewrite map_length. lia.
  - intros Hg. rewrite (G Hg) in Eb. inversion Eb. auto.
Qed.

Section Chunks.
Variables (E : dither_env) (k : nat) (d : drows) (pxs : list (list rgba)) (bg : option drows) (dm : list Z).
Hypotheses (V : env_ok E k) (S : shows d pxs) (W : d_w d = e_w E) (B : bg_shows bg (d_w d) (d_h d)) (G : e_guess E = true -> bg = None).

Lemma warm_up_ok start scratch : start <= d_h d -> length scratch = e_w E ->
  exists dif, warm_up E d bg dm start scratch = Ok dif /\ halves_ok (e_w E) dif.
Proof.
  intros H L. unfold warm_up. destruct (Nat.ltb_spec 2 start) as [H2|H2].
  - destruct (foldM_seq_total (fun _ st => halves_ok (e_w E) (fst st) /\ length (snd st) = e_w E)
       (fun '(dif, sc) row => dither_image_row E d bg dm row dif sc) 2 (start - 2)
       ((repeat px0 (e_w E + 2), repeat px0 (e_w E + 2)), scratch)) as ([dif sc] & -> & I & _).
    + intros x [dif sc] [X1 X2] [I1 I2]. cbn [fst snd] in *.
      destruct (dither_image_row_ok E k d pxs bg dm x dif sc) as (dif' & o & E1 & D1 & [L1 _]); auto; [lia|].
      exists (dif', o). auto.
    + unfold halves_ok. cbn [fst snd]. rewrite repeat_length. auto.
    + cbn [bind]. eauto.
  - eexists; split; [reflexivity|]. unfold halves_ok. cbn. rewrite repeat_length. auto.
Qed.

Lemma dither_chunk_ok start dif rows : start + length rows <= d_h d -> halves_ok (e_w E) dif -> Forall (fun r => length r = e_w E) rows ->
  exists outs, dither_chunk E d bg dm start dif rows = Ok outs /\ length outs = length rows /\ Forall (row_good k (e_w E)) outs.
Proof.
  intros H D F. unfold dither_chunk.
  destruct (foldM_index (fun n st => halves_ok (e_w E) (fst st) /\ length (snd st) = n /\ Forall (row_good k (e_w E)) (snd st))
     (fun '(dif, outs) ir => ' (dif', o) <- dither_image_row E d bg dm (start + fst ir) dif (snd ir) ;; Ok (dif', outs ++ [o]))
     (enumerate rows) (dif, [])) as ([dif' outs] & -> & I).
  - intros n [i r] [dif1 outs] Hn (I1 & I2 & I3). cbn in I1, I2, I3. rewrite nth_error_enumerate in Hn.
    destruct (nth_error rows n) as [r'|] eqn:Er; [|discriminate]. inversion Hn; subst i r'. cbn [fst snd].
    assert (n < length rows) by (apply nth_error_Some; congruence).
    destruct (dither_image_row_ok E k d pxs bg dm (start + n) dif1 r) as (dif' & o & -> & D1 & G1); auto; [lia| |].
    { rewrite Forall_forall in F. apply F. eapply nth_error_In; eauto. }
    cbn [bind]. eexists; split; [reflexivity|]. cbn. rewrite app_length. cbn. split; auto. split; [lia|]. apply Forall_app; auto.
  - cbn. auto.
  - cbn [bind]. rewrite enumerate_length in I. cbn in I. eexists; split; [reflexivity|]. tauto.
Qed.

Variable u : unspec.
Variable rcb : callback.
(** Errors of a chunk loop: only Aborted; rows keep their width. *)
Lemma floyd_chunks_ok stage1 cs : forall start done s,
  Forall (row_good k (e_w E)) done -> length done = start -> start + length (concat cs) = d_h d ->
  Forall (fun c => Forall (fun r => length r = e_w E) c) cs ->
  runs (floyd_chunks u rcb E d bg dm stage1 (d_h d) start done cs) s
    (fun _ s' => r_q s' = r_q s /\ r_img s' = r_img s /\ length (r_out s') = d_h d /\ Forall (row_good k (e_w E)) (r_out s'))
    (fun e s' => aborted rcb e /\ r_q s' = r_q s /\ r_img s' = r_img s /\ length (r_out s') = d_h d /\ Forall (fun r => length r = e_w E) (r_out s')).
Proof.
  induction cs as [|c cs IH]; intros start done s FD LD T FC; cbn [floyd_chunks].
  - cbn in *. unfold runs. cbn. repeat split; auto. lia.
  - cbn [concat] in T. rewrite app_length in T. apply Forall_cons_iff in FC as [Fc FC].
    apply runs_bind. unfold runs at 1. cbn. apply runs_bind.
    destruct (warm_up_ok start (map (u_scratch u (w_tick (r_w s))) (seq 0 (e_w E)))) as (dif & Ew & Hd); [lia|rewrite map_length, seq_length; auto|].
    eapply runs_lift; [exact Ew|]. apply runs_bind. unfold on_world, progress, runs at 1. cbn.
    match goal with |- context [if rcb ?t ?p then _ else _] => destruct (rcb t p) eqn:CB end.
    + apply runs_bind. unfold runs. cbn. split; [eauto|]. repeat split; auto.
      * rewrite app_length. cbn [concat]. rewrite app_length. lia.
      * apply Forall_app. split; [eapply Forall_impl; [|exact FD]; intros r [? _]; auto|].
        apply Forall_app. split; auto. apply Forall_concat. auto.
    + apply runs_bind. destruct (dither_chunk_ok start dif c) as (o & Eo & Lo & Go); [lia|auto|auto|].
      eapply runs_lift; [exact Eo|]. eapply runs_weaken.
      * apply IH; auto; [apply Forall_app; auto|rewrite app_length; lia|lia].
      * cbn. auto.
      * cbn. auto.
Qed.
End Chunks.

Lemma num_chunks_pos u single w h : unspec_ok u -> 1 <= num_chunks u single w h.
Proof. intros U. pose proof (uo_cpus _ U). unfold num_chunks. destruct single; [lia|]. destruct (Nat.ltb 128 h); lia. Qed.

(** * What a remap does to the image *)
Definition same_drows (d d' : drows) : Prop :=
  d_w d' = d_w d /\ d_h d' = d_h d /\ d_gamma d' = d_gamma d /\ forall pxs, shows d pxs -> shows d' pxs.
(** Same size, pixels, gamma, fixed colours and background. *)
Definition keeps (i i' : image) : Prop :=
  same_drows (i_px i) (i_px i') /\ i_fixed i' = i_fixed i /\
  match i_bg i with
  | None => i_bg i' = None
  | Some b => exists b', i_bg i' = Some b' /\ i_bg b' = i_bg b /\ same_drows (i_px b) (i_px b')
  end.
Lemma same_drows_refl d : same_drows d d.
Proof. unfold same_drows. auto. Qed.
Lemma same_drows_trans a b c : same_drows a b -> same_drows b c -> same_drows a c.
Proof. intros (H1 & H2 & H3 & H4) (G1 & G2 & G3 & G4). unfold same_drows. repeat (split; [congruence|]). auto. Qed.
Lemma keeps_refl i : keeps i i.
Proof. split; [apply same_drows_refl|]. split; auto. destruct (i_bg i) as [b|]; auto. exists b. auto using same_drows_refl. Qed.
Lemma keeps_trans a b c : keeps a b -> keeps b c -> keeps a c.
Proof.
  intros (P & F & B) (P' & F' & B'). split; [eapply same_drows_trans; eauto|]. split; [congruence|].
  destruct (i_bg a) as [x|].
  - destruct B as (y & E & N & S). rewrite E in B'. destruct B' as (z & E' & N' & S'). exists z. split; auto. split; [congruence|].
    eapply same_drows_trans; eauto.
  - rewrite B in B'. auto.
Qed.
Lemma keeps_dims i i' : keeps i i' -> i_w i' = i_w i /\ i_h i' = i_h i.
Proof. intros ((H1 & H2 & _) & _). auto. Qed.

Lemma image_ok_px i pxs d : image_ok i pxs -> shows d pxs -> d_w d = i_w i -> d_h d = i_h i -> image_ok (set_px i d) pxs.
Proof.
  intros [] S W H. constructor; cbn; auto.
  - intros l Hl. unfold i_w, i_h. cbn. rewrite W, H. auto.
  - intros l Hl. unfold i_w, i_h. cbn. rewrite W, H. auto.
  - intros l Hl. unfold i_w, i_h. cbn. rewrite W, H. auto.
  - intros b Hb. unfold i_w at 2, i_h at 2. cbn. rewrite W, H. auto.
Qed.
Lemma image_ok_bg i pxs b b' : image_ok i pxs -> i_bg i = Some b -> i_bg b' = i_bg b -> same_drows (i_px b) (i_px b') ->
  image_ok (set_bg i (Some b')) pxs.
Proof.
  intros I Hb N (W & H & _ & S). constructor; cbn; try apply I. intros x Hx. inversion Hx; subst x.
  destruct (im_bg _ _ I b Hb) as (B1 & B2 & B3 & bp & B4). unfold i_w, i_h in *. cbn. rewrite N, W, H. eauto 10.
Qed.
Lemma prepare_same d pxs b : shows d pxs -> exists d', prepare_iter d b = Ok d' /\ same_drows d d'.
Proof.
  intros S. destruct (prepare_iter_shows d pxs b S) as (d' & E & _ & (H1 & H2 & H3 & H4) & _).
  exists d'. split; auto. unfold same_drows. repeat (split; [assumption|]). intros p2 Q.
  destruct (prepare_iter_shows d p2 b Q) as (d2 & E2 & S2 & _). rewrite E in E2. inversion E2; subst. exact S2.
Qed.

Definition upd_img (s : rst) (i : image) : rst := RSt (r_q s) i (r_out s) (r_w s).
Lemma prepare_image_eq s pxs : image_ok (r_img s) pxs -> exists d, prepare_image s = (Ok tt, upd_img s (set_px (r_img s) d)) /\
  same_drows (i_px (r_img s)) d /\ image_ok (set_px (r_img s) d) pxs.
Proof.
  intros I. destruct (prepare_same _ pxs true (im_px _ _ I)) as (d & E & S). exists d. unfold prepare_image, sbind, sget, slift, put_img, smod.
  rewrite E. split; [reflexivity|]. split; auto. destruct S as (W & H & _ & S). apply image_ok_px; auto. apply S. apply I.
Qed.
Lemma prepare_bg_eq s pxs : image_ok (r_img s) pxs -> exists ob, prepare_bg s = (Ok tt, upd_img s (set_bg (r_img s) ob)) /\
  keeps (r_img s) (set_bg (r_img s) ob) /\ image_ok (set_bg (r_img s) ob) pxs.
Proof.
  intros I. unfold prepare_bg, sbind, sget, slift, put_img, smod, sret. destruct (i_bg (r_img s)) as [b|] eqn:B.
  - destruct (im_bg _ _ I b B) as (B1 & B2 & B3 & bp & B4).
    destruct (prepare_same _ bp true B4) as (d & E & S). rewrite E. eexists. split; [reflexivity|]. split.
    + split; [apply same_drows_refl|]. split; auto. rewrite B. cbn. eexists. split; [reflexivity|]. auto.
    + eapply image_ok_bg; eauto.
  - exists None. assert (Q : set_bg (r_img s) None = r_img s) by (revert B; generalize (r_img s); intros [a1 a2 a3 a4 a5 a6] B; cbn in B; subst a5; reflexivity).
    rewrite Q. split; [destruct s; reflexivity|]. split; [apply keeps_refl|auto].
Qed.

Lemma row_f_same d d' pxs y : shows d pxs -> same_drows d d' -> y < d_h d -> row_f d' y = row_f d y.
Proof.
  intros S (W & H & G & S') Y. specialize (S' _ S). destruct (shows_row_ex d pxs y S Y) as (r & E & _ & _ & ->).
  rewrite (shows_row d' pxs y r S' E), G. auto.
Qed.
Definition same_bg (bg bg' : option drows) : Prop :=
  match bg, bg' with None, None => True | Some b, Some b' => same_drows b b' | _, _ => False end.
Lemma row_result_same n d d' pxs bg bg' tidx y : shows d pxs -> same_drows d d' -> bg_shows bg (d_w d) (d_h d) -> same_bg bg bg' -> y < d_h d ->
  row_result n d' bg' tidx y = row_result n d bg tidx y.
Proof.
  intros S D B B' Y. unfold row_result. rewrite (row_f_same d d' pxs y) by auto. destruct bg as [b|], bg' as [b'|]; try contradiction; auto.
  cbn [bg_row]. destruct (B b eq_refl) as (W & H & bp & Sb). rewrite (row_f_same b b' bp y); auto. lia.
Qed.

(** The background passed to the remapper. *)
Definition img_bg (use_bg : bool) (i : image) : option drows := if use_bg then option_map i_px (i_bg i) else None.
Lemma img_bg_shows b i pxs : image_ok i pxs -> bg_shows (img_bg b i) (i_w i) (i_h i).
Proof.
  intros I x Hx. unfold img_bg in Hx. destruct b; [|discriminate]. destruct (i_bg i) as [g|] eqn:G; inversion Hx; subst x.
  destruct (im_bg _ _ I g G) as (_ & W & H & S). auto.
Qed.
Lemma keeps_img_bg b i i' : keeps i i' -> same_bg (img_bg b i) (img_bg b i').
Proof.
  intros (_ & _ & B). unfold img_bg. destruct b; [|cbn; auto]. destruct (i_bg i) as [g|]; cbn.
  - destruct B as (b' & -> & _ & S). exact S.
  - rewrite B. cbn. auto.
Qed.
Lemma eff_bg_shows n bg w h : bg_shows bg w h -> bg_shows (eff_bg n bg) w h.
Proof. intros B. unfold eff_bg. destruct bg as [b|]; [|auto]. destruct (_ <f _); [auto|]. intros x Hx; discriminate. Qed.
Lemma eff_bg_same n bg bg' : same_bg bg bg' -> same_bg (eff_bg n bg) (eff_bg n bg') /\ eff_tidx n bg' = eff_tidx n bg.
Proof.
  unfold eff_tidx, eff_bg. destruct bg as [b|], bg' as [b'|]; cbn; try tauto.
  destruct (_ <f _); cbn; tauto.
Qed.

(** Result of an undithered pass, as a function of the image and palette. *)
Definition plain_row (n : nearest) (use_bg : bool) (i : image) (y : nat) : list (nat * f32) :=
  row_result n (i_px i) (eff_bg n (img_bg use_bg i)) (eff_tidx n (img_bg use_bg i)) y.
Definition plain_out (n : nearest) (use_bg : bool) (i : image) : list (list nat) :=
  map (fun y => map fst (plain_row n use_bg i y)) (seq 0 (i_h i)).
Definition plain_sum (n : nearest) (use_bg : bool) (i : image) (t : stree) : f64 :=
  stree_sum (fun y => row_error (plain_row n use_bg i y) d0) t.

Lemma plain_row_same n b i i' pxs y : image_ok i pxs -> keeps i i' -> y < i_h i -> plain_row n b i' y = plain_row n b i y.
Proof.
  intros I K Y. unfold plain_row. destruct (eff_bg_same n _ _ (keeps_img_bg b i i' K)) as [E ->].
  apply (row_result_same n _ _ pxs); auto; [apply I|apply K|]. apply eff_bg_shows. eapply img_bg_shows; eauto.
Qed.
Lemma plain_out_same n b i i' pxs : image_ok i pxs -> keeps i i' -> plain_out n b i' = plain_out n b i.
Proof.
  intros I K. unfold plain_out. destruct (keeps_dims _ _ K) as [_ ->]. apply map_ext_in. intros y Hy. apply in_seq in Hy.
  rewrite (plain_row_same n b i i' pxs); auto. lia.
Qed.
Lemma plain_sum_same n b i i' pxs t : image_ok i pxs -> keeps i i' -> (forall y, In y (stree_leaves t) -> y < i_h i) ->
  plain_sum n b i' t = plain_sum n b i t.
Proof. intros I K H. apply stree_sum_ext. intros y Hy. rewrite (plain_row_same n b i i' pxs); auto. Qed.

Lemma eff_tidx_lt n k bg : near_ok n k -> eff_tidx n bg < k.
Proof. intros N. unfold eff_tidx. destruct (eff_bg n bg); [apply search_idx; auto|]. destruct N as (_ & ? & _). auto. Qed.
Lemma plain_row_good n k b i pxs y : near_ok n k -> image_ok i pxs -> y < i_h i -> row_good k (i_w i) (map fst (plain_row n b i y)).
Proof.
  intros N I Y. destruct (row_result_ok n k (i_px i) pxs (eff_bg n (img_bg b i)) (eff_tidx n (img_bg b i)) y) as [L F]; auto; [apply I| |apply eff_tidx_lt; auto|].
  - apply eff_bg_shows. eapply img_bg_shows; eauto.
  - split; [rewrite map_length; exact L|]. apply Forall_map. exact F.
Qed.
Lemma plain_out_good n k b i pxs : near_ok n k -> image_ok i pxs ->
  length (plain_out n b i) = i_h i /\ Forall (row_good k (i_w i)) (plain_out n b i).
Proof.
  intros N I. unfold plain_out. rewrite map_length, seq_length. split; auto. apply Forall_forall. intros r Hr.
  apply in_map_iff in Hr as (y & <- & Hy). apply in_seq in Hy. eapply plain_row_good; eauto. lia.
Qed.

Section Whole.
Variable u : unspec.
Variable U : unspec_ok u.
Variable rcb : callback.

Lemma sum_leaves_lt t h y : In y (stree_leaves (u_sum u t h)) -> y < h.
Proof. intros H. eapply Permutation_in in H; [|apply (uo_sum _ U)]. apply in_seq in H. lia. Qed.

(** ** An undithered pass *)
Lemma remap_to_palette_eq b (p : palf) s pxs n : image_ok (r_img s) pxs -> length (r_out s) = i_h (r_img s) -> nearest_new p = Ok n ->
  let i := r_img s in
  let err := plain_sum n b i (u_sum u (w_tick (r_w s)) (i_h i)) in
  exists i' p', remap_to_palette u b p s =
     (if dis_nan err then Err OutOfMemory else Ok (err /d dofZ (wrap32 (Z.of_nat (i_w i) * Z.of_nat (i_h i))), p'),
      RSt (r_q s) i' (plain_out n b i) (World (w_trace (r_w s)) (S (w_tick (r_w s))))) /\
     keeps i i' /\ image_ok i' pxs /\ i_imp i' = i_imp i /\ i_edges i' = i_edges i /\ i_dmap i' = i_dmap i /\ keeps_fixed p p'.
Proof.
  intros I L N i err. destruct (nearest_new_inv p n N) as (P & NO & _).
  destruct (prepare_image_eq s pxs I) as (d & E1 & S1 & I1). set (s1 := upd_img s (set_px (r_img s) d)) in *.
  assert (K1 : keeps i (r_img s1)).
  { split; [exact S1|]. split; auto. cbn. fold i. destruct (i_bg i) as [g|]; auto. exists g. auto using same_drows_refl. }
  assert (S2 : exists i', (if b then prepare_bg else sret tt) s1 = (Ok tt, upd_img s i') /\ keeps i i' /\ image_ok i' pxs /\
            i_imp i' = i_imp i /\ i_edges i' = i_edges i /\ i_dmap i' = i_dmap i).
  { destruct b.
    - destruct (prepare_bg_eq s1 pxs I1) as (ob & E2 & K2 & I2). exists (set_bg (r_img s1) ob). rewrite E2.
      split; [reflexivity|]. split; [eapply keeps_trans; eauto|]. auto.
    - exists (r_img s1). auto 10. }
  destruct S2 as (i' & E2 & K & I' & M1 & M2 & M3). destruct (keeps_dims _ _ K) as [Kw Kh].
  destruct (remap_rows_ok n p (i_px i') pxs (img_bg b i') (i_imp i') (u_rows u (w_tick (r_w s)) (length (r_out s)))
      (u_main u (w_tick (r_w s)) (length (r_out s))) (u_sum u (w_tick (r_w s)) (length (r_out s))) (r_out s)) as (p' & E3 & F); auto.
  { apply I'. } { eapply img_bg_shows; eauto. } { rewrite L. fold i. auto. }
  { rewrite L. fold i. change (d_h (i_px i')) with (i_h i'). rewrite Kh. apply (uo_rows _ U). }
  { rewrite L. fold i. change (d_h (i_px i')) with (i_h i'). rewrite Kh. apply (uo_sum _ U). }
  change (d_h (i_px i')) with (i_h i') in E3. rewrite L in E3. fold i in E3.
  change (map _ (seq 0 (i_h i'))) with (plain_out n b i') in E3. rewrite (plain_out_same n b i i' pxs I K) in E3.
  change (stree_sum _ _) with (plain_sum n b i' (u_sum u (w_tick (r_w s)) (i_h i))) in E3.
  rewrite (plain_sum_same n b i i' pxs _ I K) in E3 by (intros y; apply sum_leaves_lt). fold err in E3.
  exists i', p'. split; [|auto 10]. unfold remap_to_palette. unfold sbind at 1. unfold slift at 1. rewrite N.
  unfold sbind at 1. rewrite E1. unfold sbind at 1. rewrite E2. unfold sbind, sget, on_world, tick, slift, put_out, smod. cbn [r_img r_out r_w r_q upd_img].
  rewrite L. fold i. unfold img_bg in E3. rewrite E3. cbn [r_img r_out r_w r_q]. rewrite Kw, Kh.
  destruct (dis_nan err); reflexivity.
Qed.

(** Shapes of the output rows. *)
Definition shaped (i : image) (out : list (list nat)) : Prop := length out = i_h i /\ Forall (fun r => length r = i_w i) out.
Definition filled (k : nat) (i : image) (out : list (list nat)) : Prop := length out = i_h i /\ Forall (row_good k (i_w i)) out.
Lemma filled_shaped k i out : filled k i out -> shaped i out.
Proof. intros [L F]. split; auto. eapply Forall_impl; [|exact F]. intros r [? _]; auto. Qed.
Lemma shaped_keeps i i' out : keeps i i' -> shaped i out -> shaped i' out.
Proof. intros K [L F]. destruct (keeps_dims _ _ K) as [W H]. split; [congruence|]. rewrite W. auto. Qed.
Lemma filled_keeps k i i' out : keeps i i' -> filled k i out -> filled k i' out.
Proof. intros K [L F]. destruct (keeps_dims _ _ K) as [W H]. split; [congruence|]. rewrite W. auto. Qed.

Lemma shaped_back i i' out : keeps i i' -> shaped i' out -> shaped i out.
Proof. intros K [L F]. destruct (keeps_dims _ _ K) as [W H]. split; [congruence|]. rewrite <- W. auto. Qed.
Lemma filled_back k i i' out : keeps i i' -> filled k i' out -> filled k i out.
Proof. intros K [L F]. destruct (keeps_dims _ _ K) as [W H]. split; [congruence|]. rewrite <- W. auto. Qed.

(** Maps and pixels of the image untouched. *)
Definition same_maps (i i' : image) : Prop := i_imp i' = i_imp i /\ i_edges i' = i_edges i /\ i_dmap i' = i_dmap i.

(** ** A dithered pass *)
Lemma chunks_rows {T} (P : T -> Prop) n (l : list T) : 0 < n -> Forall P l -> Forall (Forall P) (chunks n l).
Proof.
  intros Hn F. apply Forall_forall. intros c Hc. rewrite <- (chunks_concat n l) in F by auto.
  rewrite Forall_forall in F |- *. intros x Hx. apply F. apply in_concat. eauto.
Qed.
Lemma floyd_ok (p : palf) max_err rm s pxs : image_ok (r_img s) pxs -> shaped (r_img s) (r_out s) -> 0 < length p <= 256 ->
  runs (floyd u rcb p max_err rm) s
    (fun _ s' => r_q s' = r_q s /\ keeps (r_img s) (r_img s') /\ image_ok (r_img s') pxs /\ same_maps (r_img s) (r_img s') /\
                 filled (length p) (r_img s) (r_out s'))
    (fun e s' => aborted rcb e /\ r_q s' = r_q s /\ keeps (r_img s) (r_img s') /\ image_ok (r_img s') pxs /\
                 shaped (r_img s) (r_out s')).
Proof.
  intros I [LO FO] P. unfold floyd. apply runs_bind. unfold sget at 1, runs at 1. cbv zeta.
  destruct (nearest_new_ok p P) as (n & EN & NO & _). apply runs_bind. eapply runs_lift; [exact EN|].
  apply runs_bind. destruct (prepare_bg_eq s pxs I) as (ob & E1 & K1 & I1). unfold runs at 1. rewrite E1.
  set (s1 := upd_img s (set_bg (r_img s) ob)) in *.
  set (i := r_img s) in *. assert (TI : transparent_idx n < length p) by (apply search_idx; auto).
  apply runs_bind.
  set (tidx := match i_bg i with Some _ => transparent_idx n | None => 0 end).
  assert (TT : tidx < length p) by (unfold tidx; destruct (i_bg i); lia).
  assert (TC : exists tc, match i_bg i with Some _ => idx (n_pal n) tidx | None => Ok px0 end = Ok tc).
  { destruct (i_bg i); [|eauto]. destruct (idx_lt (n_pal n) tidx) as (tc & -> & _); [destruct NO; lia|]. eauto. }
  destruct TC as (tc & ET). eapply runs_lift; [exact ET|].
  set (ub := match i_bg i with Some _ => negb _ | None => false end).
  apply runs_bind. destruct (prepare_image_eq s1 pxs I1) as (d & E2 & S2 & I2). unfold runs at 1. rewrite E2.
  set (s2 := upd_img s1 _) in *. apply runs_bind. unfold sget, runs at 1. cbv zeta.
  set (i2 := r_img s2) in *.
  assert (K2 : keeps i i2).
  { eapply keeps_trans; [exact K1|]. split; [exact S2|]. split; auto. cbn. destruct ob as [g|]; auto.
    exists g. auto using same_drows_refl. }
  assert (MM : same_maps i i2) by (repeat split).
  destruct (keeps_dims _ _ K2) as [W2 H2].
  pose proof (sh_h _ _ (im_px _ _ I2)) as HH. change (0 < i_h i2) in HH.
  set (nc := num_chunks u (q_single (r_q s)) (i_w i2) (i_h i2)).
  assert (NC : 1 <= nc) by (apply num_chunks_pos; auto).
  set (size := (i_h i2 + nc - 1) / nc).
  assert (SZ : 0 < size). { unfold size. apply Nat.div_str_pos. lia. }
  set (E := DEnv _ _ _ _ _ _). set (bg := if ub then _ else None).
  assert (EQ1 : r_q s2 = r_q s) by reflexivity. assert (EO : r_out s2 = r_out s) by reflexivity.
  eapply runs_weaken.
  - apply (floyd_chunks_ok E (length p) (i_px i2) pxs bg).
    + split; [exact NO|exact TT].
    + apply I2.
    + reflexivity.
    + change bg with (img_bg ub i2). eapply img_bg_shows; eauto.
    + unfold bg. cbn. destruct ub; auto. rewrite Bool.andb_false_r. discriminate.
    + constructor.
    + reflexivity.
    + cbn [plus]. rewrite chunks_concat by auto. rewrite EO. change (d_h (i_px i2)) with (i_h i2). lia.
    + apply chunks_rows; auto. rewrite EO. change (e_w E) with (i_w i2). rewrite W2. auto.
  - cbn beta. intros _ s' (Q1 & Q2 & Q3 & Q4). rewrite Q1, Q2. fold i2. repeat (split; [assumption|reflexivity|..]).
    split; auto. split; auto. split; auto. split; auto. split.
    + change (d_h (i_px i2)) with (i_h i2) in Q3. lia.
    + change (e_w E) with (i_w i2) in Q4. rewrite W2 in Q4. auto.
  - cbn beta. intros e s' (Q0 & Q1 & Q2 & Q3 & Q4). rewrite Q1, Q2. fold i2. split; auto. split; auto. split; auto. split; auto. split.
    + change (d_h (i_px i2)) with (i_h i2) in Q3. lia.
    + change (e_w E) with (i_w i2) in Q4. rewrite W2 in Q4. auto.
Qed.

(** ** The pass that computes the dither map *)
Lemma same_px_drows (C : CastLaws A) i pxs rm p b i' : image_ok i pxs ->
  Forall (fun r => length r = i_w i /\ Forall (fun x => x < length p) r) rm ->
  update_dither_map i rm p b = Ok i' -> keeps i i' /\ image_ok i' pxs.
Proof.
  intros I F E. destruct (update_dither_map_ok i pxs rm p b I F) as (i2 & E2 & I2 & W & H & B & X & S & _).
  rewrite E in E2. inversion E2; subst i2. split; auto. split; [|split; auto].
  - destruct S as (S1 & S2 & S3 & S4). unfold same_drows. repeat (split; [assumption|]). intros p2 Q.
    assert (I3 : image_ok i p2) by (destruct I; constructor; auto).
    destruct (update_dither_map_ok i p2 rm p b I3 F) as (i3 & E3 & I4 & _). rewrite E in E3. inversion E3; subst i3. apply I4.
  - rewrite B. destruct (i_bg i) as [g|]; auto. exists g. auto using same_drows_refl.
Qed.
Lemma generate_dither_map_ok (C : CastLaws A) dm b (p : palf) s pxs : image_ok (r_img s) pxs -> shaped (r_img s) (r_out s) -> 0 < length p <= 256 ->
  runs (optionally_generate_dither_map u dm b p) s
    (fun mp s' => r_q s' = r_q s /\ keeps (r_img s) (r_img s') /\ image_ok (r_img s') pxs /\ shaped (r_img s) (r_out s') /\ keeps_fixed p (snd mp) /\
                  (fst mp = None -> snd mp = p /\ s' = s))
    (fun e s' => e = OutOfMemory /\ r_q s' = r_q s /\ keeps (r_img s) (r_img s') /\ image_ok (r_img s') pxs /\ shaped (r_img s) (r_out s')).
Proof.
  intros I [LO FO] P. unfold optionally_generate_dither_map. apply runs_bind. unfold sget at 1, runs at 1. cbv zeta.
  destruct (negb _).
  { unfold runs. cbn. repeat (split; auto using keeps_refl, keeps_fixed_refl). }
  apply runs_bind. destruct (nearest_new_ok p P) as (n & EN & NO & _).
  destruct (remap_to_palette_eq false p s pxs n I LO EN) as (i' & p' & E & K & I' & M1 & M2 & M3 & F).
  unfold runs at 1. rewrite E. destruct (plain_out_good n (length p) false (r_img s) pxs NO I) as [G1 G2].
  assert (SH : shaped (r_img s) (plain_out n false (r_img s))).
  { apply (filled_shaped (length p)). split; auto. }
  destruct (dis_nan _).
  { cbn. auto. }
  apply runs_bind. unfold sget at 1, runs at 1. cbn [r_img r_out]. apply runs_bind.
  destruct (keeps_dims _ _ K) as [W H].
  assert (R : Forall (fun r => length r = i_w i' /\ Forall (fun x => x < length p') r) (plain_out n false (r_img s))).
  { destruct F as [-> _]. rewrite W. exact G2. }
  destruct (update_dither_map_ok i' pxs _ p' b I' R) as (i2 & E2 & _). eapply runs_lift; [exact E2|].
  destruct (same_px_drows C i' pxs _ p' b i2 I' R E2) as [K2 I2].
  apply runs_bind. unfold runs. cbn. split; auto. split; [eapply keeps_trans; eauto|]. repeat (split; auto). discriminate. discriminate.
Qed.

(** ** The whole remap *)
Definition entry_ok (q : qresult) (s : rst) (pxs : list (list rgba)) : Prop :=
  r_q s = q /\ image_ok (r_img s) pxs /\ shaped (r_img s) (r_out s) /\ 0 < length (q_pal q) <= 256.

Lemma free_keeps i pxs : image_ok i pxs ->
  keeps i (set_px i (free_histogram_inputs (i_px i))) /\ image_ok (set_px i (free_histogram_inputs (i_px i))) pxs.
Proof.
  intros I. destruct (free_shows _ _ (im_px _ _ I)) as (S & W & H & G). split.
  - split; [|split; auto].
    + cbn. unfold same_drows. repeat (split; [assumption|]). intros p2 Q. apply (free_shows _ _ Q).
    + cbn. destruct (i_bg i) as [g|]; auto. exists g. auto using same_drows_refl.
  - apply image_ok_px; auto.
Qed.

Lemma write_remapped_ok (C : CastLaws A) q s pxs : entry_ok q s pxs ->
  runs (write_remapped u rcb) s
    (fun _ s' => (exists ip e, r_q s' = set_rem q (Some (ip, e)) /\ length ip = length (q_pal q) /\
                    exists p : palf, keeps_fixed (q_pal q) p /\ ip = snd (init_int_palette p (q_gamma q) (q_post q)) /\
                                     ((q_dither q =f f0) = true -> p = q_pal q)) /\
                 keeps (r_img s) (r_img s') /\ image_ok (r_img s') pxs /\ filled (length (q_pal q)) (r_img s) (r_out s'))
    (fun e s' => (aborted rcb e \/ e = OutOfMemory) /\ r_q s' = q /\
                 keeps (r_img s) (r_img s') /\ image_ok (r_img s') pxs /\ shaped (r_img s) (r_out s')).
Proof.
  intros (EQ & I & SH & P). unfold write_remapped. apply runs_bind. unfold sget at 1, runs at 1. cbv zeta. rewrite EQ.
  apply runs_bind. unfold on_world at 1, progress at 1, runs at 1. cbn [r_q r_img r_out r_w].
  match goal with |- context [if rcb ?t ?p then _ else _] => destruct (rcb t p) eqn:CB end.
  { cbn. eauto 10 using keeps_refl. }
  destruct (free_keeps _ _ I) as [K0 I0]. set (i0 := set_px _ _) in *.
  set (w1 := World _ _). set (s1 := RSt (r_q s) (r_img s) (r_out s) w1).
  apply runs_bind. unfold put_img at 1, smod, runs at 1. set (s2 := RSt _ i0 _ _).
  assert (SH2 : shaped (r_img s2) (r_out s2)) by (apply (shaped_keeps (r_img s)); auto).
  assert (I2 : image_ok (r_img s2) pxs) by exact I0.
  assert (EQ2 : r_q s2 = q) by exact EQ.
  destruct (q_dither q =f f0) eqn:DI.
  - destruct (init_int_palette (q_pal q) (q_gamma q) (q_post q)) as [p ip] eqn:IP.
    assert (LP : length p = length (q_pal q) /\ length ip = length (q_pal q)).
    { unfold init_int_palette in IP. inversion IP. rewrite !map_length. auto. }
    destruct LP as [Lp Li]. rewrite <- Lp in P.
    destruct (nearest_new_ok p P) as (n & EN & NO & _). destruct SH2 as [LO2 _].
    destruct (remap_to_palette_eq true p s2 pxs n I2 LO2 EN) as (i' & p' & E & K & I' & _).
    destruct (plain_out_good n (length p) true (r_img s2) pxs NO I2) as [G1 G2].
    assert (FL : filled (length p) (r_img s2) (plain_out n true (r_img s2))) by (split; auto).
    assert (FL0 : filled (length p) (r_img s) (plain_out n true (r_img s2))).
    { apply (filled_back _ _ _ _ K0 FL). }
    apply runs_bind. unfold runs at 1. rewrite E. destruct (dis_nan _).
    + cbn [r_q r_img r_out]. split; auto. split; auto. split; [eapply keeps_trans; [exact K0|exact K]|]. split; auto.
      eapply filled_shaped; eauto.
    + unfold put_q, smod, runs. cbn [r_q r_img r_out]. split.
      { do 2 eexists. split; [reflexivity|]. split; [exact Li|]. exists (q_pal q). rewrite IP. auto using keeps_fixed_refl. }
      split; [eapply keeps_trans; [exact K0|exact K]|]. split; auto.
      rewrite <- Lp. auto.
  - apply runs_bind. eapply runs_weaken.
    { apply (generate_dither_map_ok C (q_dmap q) (negb (is_none (i_bg (r_img s)))) (q_pal q) s2 pxs I2 SH2 P). }
    2:{ cbn beta. intros e s' (H0 & H1 & H2 & H3 & H4). split; auto. split; [congruence|]. split; [eapply keeps_trans; eauto|]. split; auto.
        apply (shaped_back _ _ _ K0 H4). }
    cbn beta. intros [me p] s3 (H1 & H2 & H3 & H4 & H5 & _). cbn [fst snd] in H5.
    assert (K3 : keeps (r_img s) (r_img s3)) by (eapply keeps_trans; eauto).
    assert (SH3 : shaped (r_img s) (r_out s3)).
    { apply (shaped_back _ _ _ K0 H4). }
    apply runs_bind. unfold on_world at 1, progress at 1, runs at 1. cbn [r_q r_img r_out r_w].
    match goal with |- context [if rcb ?t ?p then _ else _] => destruct (rcb t p) eqn:CB2 end.
    { cbn. split; [eauto|]. split; [congruence|]. auto. }
    destruct (init_int_palette p (q_gamma q) (q_post q)) as [p2 ip] eqn:IP.
    assert (LP : length p2 = length p /\ length ip = length p).
    { unfold init_int_palette in IP. inversion IP. rewrite !map_length. auto. }
    destruct LP as [Lp Li]. pose proof (proj1 H5) as Lf.
    apply runs_bind. set (s4 := RSt (r_q s3) (r_img s3) (r_out s3) _).
    eapply runs_weaken.
    { apply (floyd_ok p2 (d2f (dmax (unwrap_or (match me with Some e => Some e | None => q_err q end) (quality_to_mse 80) *d dlit 24 10) (quality_to_mse 35)))
               (negb (is_none me)) s4 pxs); [exact H3| |lia].
      apply (shaped_keeps (r_img s)); auto. }
    + cbn beta. intros _ s5 (G1 & G2 & G3 & G4 & G5). unfold put_q, smod, runs. cbn [r_q r_img r_out].
      split.
      { exists ip, (match me with Some e => Some e | None => q_err q end). split; auto. split; [lia|]. exists p. rewrite IP.
        split; auto. split; auto. discriminate. }
      split; [eapply keeps_trans; [exact K3|exact G2]|]. split; auto.
      replace (length (q_pal q)) with (length p2) by lia. apply (filled_back _ _ _ _ K3 G5).
    + cbn beta. intros e s5 (G0 & G1 & G2 & G3 & G5). split; auto. split; [change (r_q s4) with (r_q s3) in G1; congruence|].
      split; [eapply keeps_trans; [exact K3|exact G2]|]. split; auto.
      apply (shaped_back _ _ _ K3 G5).
Qed.
End Whole.
End RemapFacts.
