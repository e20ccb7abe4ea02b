(** [dither_row] diffuses errors as specified, in any arithmetic. *)
From Verif Require Import Base BaseFacts Arith Order Pal World Attr Hist MedianCut Nearest Kmeans Blur ImageM Quant Remap
  SpecImage SpecDither BlurFacts ImageFacts MedianFacts SearchFacts QuantFacts RemapFacts PalFacts ApiFacts ResultFacts DitherZero.
Open Scope nat_scope.

Section DitherSpec.
Context {A : Arith}.
Lemma unnoticed (level max_err : f32) (e p : px) : (err_energy (px_scale e level) <f (fofZ 2 /f fofZ 256 /f fofZ 256)) = true ->
  get_dithered_pixel level max_err e p = p.
Proof. intros H. unfold get_dithered_pixel. cbv zeta. rewrite H. reflexivity. Qed.
Lemma err_at_old errs e x back : x < length errs + back -> err_at (errs ++ [e]) x back = err_at errs x back.
Proof. intros H. unfold err_at. destruct (Nat.leb_spec back x); auto. apply nth_error_app1. lia. Qed.
Lemma err_at_new errs e back : err_at (errs ++ [e]) (length errs + back) back = Some e.
Proof.
  unfold err_at. rewrite (proj2 (Nat.leb_le _ _)) by lia. rewrite nth_error_app2 by lia.
  replace (length errs + back - back - length errs) with 0 by lia. reflexivity.
Qed.
Lemma err_at_none errs x back : length errs + back <= x -> err_at errs x back = None.
Proof. intros H. unfold err_at. destruct (Nat.leb_spec back x); auto. apply nth_error_None. lia. Qed.
Lemma err_at_beyond errs e x back : length errs + back < x -> err_at (errs ++ [e]) x back = None.
Proof. intros H. apply err_at_none. rewrite app_length. cbn. lia. Qed.

Lemma owed_old errs e x : x < length errs -> owed (errs ++ [e]) x = owed errs x.
Proof. intros. unfold owed. rewrite !err_at_old by lia. reflexivity. Qed.
Lemma owed_0 errs e : owed (errs ++ [e]) (length errs) = px_add (owed errs (length errs)) (px_scale e (sixteenths 3)).
Proof.
  unfold owed. rewrite (err_at_old errs e (length errs) 2), (err_at_old errs e (length errs) 1) by lia.
  rewrite <- (Nat.add_0_r (length errs)) at 3. rewrite err_at_new. rewrite (err_at_none errs (length errs) 0) by lia. reflexivity.
Qed.
Lemma owed_1 errs e : owed (errs ++ [e]) (length errs + 1) = px_add (owed errs (length errs + 1)) (px_scale e (sixteenths 5)).
Proof.
  unfold owed. rewrite (err_at_old errs e (length errs + 1) 2) by lia. rewrite err_at_new.
  rewrite (err_at_beyond errs e (length errs + 1) 0) by lia. rewrite (err_at_none errs (length errs + 1) 1), (err_at_none errs (length errs + 1) 0) by lia. reflexivity.
Qed.
Lemma owed_2 errs e : owed (errs ++ [e]) (length errs + 2) = px_scale e (sixteenths 1).
Proof.
  unfold owed. rewrite err_at_new. rewrite (err_at_beyond errs e (length errs + 2) 1), (err_at_beyond errs e (length errs + 2) 0) by lia. reflexivity.
Qed.
Lemma owed_beyond errs e x : length errs + 2 < x -> owed (errs ++ [e]) x = owed errs x.
Proof.
  intros H. unfold owed. rewrite !err_at_beyond by lia. rewrite !err_at_none by lia. reflexivity.
Qed.

Section Row.
Variables (E : dither_env) (row : list px) (dmap : list Z) (bgp : list px) (even : bool) (this0 : list px).
Let w := e_w E.
Definition px_done (out : list nat) (errs : list px) (x : nat) : Prop :=
  exists input acc shown k,
    let col := scan even w x in
    let want := get_dithered_pixel (level_at E dmap col) (e_max E) (contrib acc (err_at errs x 1) 7) input in
    nth_error row col = Some input /\ nth_error this0 (cell even w (x + 1)) = Some acc /\ nth_error out col = Some k /\
    (nth_error (n_pal (e_n E)) k = Some shown \/ (k = e_tidx E /\ nth_error bgp col = Some shown)) /\
    (nth_error bgp col = None -> exists g, k = fst (search (e_n E) want g)) /\
    nth_error errs x = Some (damped (e_max E) (px_sub want shown)).
Definition row_inv (x : nat) (st : dstate) : Prop :=
  exists errs, length errs = x /\ length (s_this st) = w + 2 /\ length (s_next st) = w + 2 /\ length (s_out st) = w /\
    (forall j, j < w + 2 -> nth_error (s_next st) (cell even w j) = Some (owed errs j)) /\
    (forall j acc, x < j < w + 2 -> nth_error this0 (cell even w j) = Some acc ->
       nth_error (s_this st) (cell even w j) = Some (contrib acc (err_at errs j 2) 7)) /\
    (forall j, j < x -> px_done (s_out st) errs j).

Lemma cell_inj j k : j < w + 2 -> k < w + 2 -> cell even w j = cell even w k -> j = k.
Proof. unfold cell. destruct even; lia. Qed.
Lemma scan_inj j k : j < w -> k < w -> scan even w j = scan even w k -> j = k.
Proof. unfold scan. destruct even; lia. Qed.
Lemma cell_lt j : j < w + 2 -> cell even w j < w + 2.
Proof. unfold cell. destruct even; lia. Qed.

Lemma px_done_keep out errs e m x j : j < x -> x < w -> length errs = x -> px_done out errs j -> px_done (upd out (scan even w x) m) (errs ++ [e]) j.
Proof.
  intros J X L (input & acc & shown & k & H). cbv zeta in H. exists input, acc, shown, k. cbv zeta.
  rewrite err_at_old by lia. rewrite nth_error_upd_neq by (intros Q; apply scan_inj in Q; lia). rewrite nth_error_app1 by lia. exact H.
Qed.

Lemma dither_px_spec x st st' : length this0 = w + 2 -> x < w -> row_inv x st -> dither_px E row dmap bgp even st x = Ok st' -> row_inv (S x) st'.
Proof.
  intros LT X (errs & LE & L1 & L2 & L3 & N & T & D) H. unfold dither_px in H. cbv zeta in H.
  change (if even then x else e_w E - 1 - x) with (scan even w x) in H. set (col := scan even w x) in *.
  apply bind_ok in H as (input & HI & H). apply idx_ok in HI.
  apply bind_ok in H as (te & HT & H). apply idx_ok in HT.
  assert (C1 : col + 1 = cell even w (x + 1)) by (unfold col, scan, cell; destruct even; lia).
  assert (C3 : (if even then col else col + 2) = cell even w x) by (unfold col, scan, cell; destruct even; lia).
  assert (C2 : (if even then col + 2 else col) = cell even w (x + 2)) by (unfold col, scan, cell; destruct even; lia).
  destruct (nth_error this0 (cell even w (x + 1))) as [acc|] eqn:EA.
  2:{ apply nth_error_None in EA. pose proof (cell_lt (x + 1)). lia. }
  rewrite C1, (T (x + 1) acc) in HT by (auto; lia).
  assert (TE : te = contrib acc (err_at errs x 1) 7).
  { inversion HT. replace (err_at errs (x + 1) 2) with (err_at errs x 1); auto. unfold err_at.
    destruct (Nat.leb_spec 1 x), (Nat.leb_spec 2 (x + 1)); try lia; auto. f_equal. lia. }
  fold (level_at E dmap col) in H.
  set (want := get_dithered_pixel (level_at E dmap col) (e_max E) te input) in *.
  apply bind_ok in H as (g & _ & H). destruct (search (e_n E) want g) as [m dd] eqn:ES.
  apply bind_ok in H as (op & HO & H). apply idx_ok in HO.
  apply bind_ok in H as ([[k shown] used] & HM & H).
  assert (MK : (nth_error (n_pal (e_n E)) k = Some shown \/ (k = e_tidx E /\ nth_error bgp col = Some shown)) /\
               (nth_error bgp col = None -> exists g, k = fst (search (e_n E) want g))).
  { destruct (nth_error bgp col) as [b|].
    - split; [|discriminate]. destruct (_ <=f _); [inversion HM; subst; auto|].
      destruct (Nat.ltb _ _); [inversion HM; subst; auto|]. destruct (_ <f _); [|inversion HM; subst; auto].
      apply bind_ok in HM as (gp & HG & HM). apply idx_ok in HG. destruct (_ <f _); inversion HM; subst; auto.
    - inversion HM; subst. split; auto. intros _. exists g. rewrite ES. reflexivity. }
  clear HM. apply bind_ok in H as (out' & HS & H). apply set_idx_ok in HS as [HC ->].
  set (e0 := px_sub want shown) in *.
  fold (damped (e_max E) e0) in H. set (e := damped (e_max E) e0) in *.
  assert (Q : exists this' next', st' = DSt this' next' (upd (s_out st) col k) used m /\
    length this' = w + 2 /\ length next' = w + 2 /\
    (forall v, nth_error (s_this st) (cell even w (x + 2)) = Some v -> nth_error this' (cell even w (x + 2)) = Some (px_add v (px_scale e (sixteenths 7)))) /\
    (forall j, j < w + 2 -> j <> x + 2 -> nth_error this' (cell even w j) = nth_error (s_this st) (cell even w j)) /\
    (forall v, nth_error (s_next st) (cell even w x) = Some v -> nth_error next' (cell even w x) = Some (px_add v (px_scale e (sixteenths 3)))) /\
    (forall v, nth_error (s_next st) (cell even w (x + 1)) = Some v -> nth_error next' (cell even w (x + 1)) = Some (px_add v (px_scale e (sixteenths 5)))) /\
    nth_error next' (cell even w (x + 2)) = Some (px_scale e (sixteenths 1)) /\
    (forall j, j < w + 2 -> j <> x -> j <> x + 1 -> j <> x + 2 -> nth_error next' (cell even w j) = nth_error (s_next st) (cell even w j))).
  { assert (I01 : cell even w x <> cell even w (x + 1)) by (intros Q; apply cell_inj in Q; lia).
    assert (I02 : cell even w x <> cell even w (x + 2)) by (intros Q; apply cell_inj in Q; lia).
    assert (I12 : cell even w (x + 1) <> cell even w (x + 2)) by (intros Q; apply cell_inj in Q; lia).
    assert (X0 : cell even w x < w + 2) by (apply cell_lt; lia).
    assert (X1 : cell even w (x + 1) < w + 2) by (apply cell_lt; lia).
    assert (X2 : cell even w (x + 2) < w + 2) by (apply cell_lt; lia).
    assert (NE : forall j k, j < w + 2 -> k < w + 2 -> j <> k -> cell even w k <> cell even w j) by (intros j k0 ? ? ? Q; apply cell_inj in Q; lia).
    destruct even; cbv iota in C2, C3; rewrite C1 in H;
      [rewrite C2 in H; replace (err_add (s_next st) col) with (err_add (s_next st) (cell true w x)) in H by (rewrite <- C3; reflexivity)
      |rewrite C3 in H; replace (err_add (s_this st) col) with (err_add (s_this st) (cell false w (x + 2))) in H by (rewrite <- C2; reflexivity);
       replace (err_set (s_next st) col) with (err_set (s_next st) (cell false w (x + 2))) in H by (rewrite <- C2; reflexivity)];
      unfold err_add, err_set in H;
      apply bind_ok in H as (t' & H1 & H); apply bind_ok in H as (n1 & H2 & H); apply bind_ok in H as (n2 & H3 & H); apply bind_ok in H as (n3 & H4 & H);
      inversion H; subst st'; exists t', n3; (split; [reflexivity|]);
      repeat match goal with
      | Q : bind (idx _ _) _ = Ok _ |- _ => let v := fresh "v" in let Hv := fresh "Hv" in apply bind_ok in Q as (v & Hv & Q); apply idx_ok in Hv
      | Q : set_idx _ _ _ = Ok _ |- _ => apply set_idx_ok in Q as [? ->]
      end; rewrite ?upd_length in *; rewrite ?nth_error_upd_neq in * by congruence.
    all: split; [auto|]; split; [auto|].
    all: split; [intros v' Hv'; rewrite nth_error_upd_eq by lia; congruence|].
    all: split; [intros j ? ?; apply nth_error_upd_neq, NE; lia|].
    all: split; [intros v' Hv'; rewrite ?(nth_error_upd_neq _ _ _ _ (not_eq_sym I02)), ?(nth_error_upd_neq _ _ _ _ (not_eq_sym I01)), nth_error_upd_eq by (rewrite ?upd_length; lia); congruence|].
    all: split; [intros v' Hv'; rewrite ?(nth_error_upd_neq _ _ _ _ (not_eq_sym I12)), ?(nth_error_upd_neq _ _ _ _ I01), nth_error_upd_eq by (rewrite ?upd_length; lia); congruence|].
    all: split; [rewrite ?(nth_error_upd_neq _ _ _ _ I02), ?(nth_error_upd_neq _ _ _ _ I12), nth_error_upd_eq by (rewrite ?upd_length; lia); reflexivity|].
    all: intros j ? ? ? ?; rewrite !nth_error_upd_neq by (apply NE; lia); reflexivity. }
  destruct Q as (this' & next' & -> & Q1 & Q2 & Q3 & Q4 & Q5 & Q6 & Q7 & Q8).
  exists (errs ++ [e]). cbn [s_this s_next s_out]. rewrite app_length, upd_length. cbn [length].
  split; [lia|]. split; auto. split; auto. split; auto. split; [|split].
  - intros j Hj. destruct (Nat.eq_dec j x) as [->|J0]; [|destruct (Nat.eq_dec j (x + 1)) as [->|J1]; [|destruct (Nat.eq_dec j (x + 2)) as [->|J2]]].
    + rewrite (Q5 _ (N x Hj)). rewrite <- LE, owed_0. reflexivity.
    + rewrite (Q6 _ (N _ Hj)). rewrite <- LE, owed_1. reflexivity.
    + rewrite Q7, <- LE, owed_2. reflexivity.
    + rewrite Q8, N by auto. destruct (Nat.lt_ge_cases j x); [rewrite owed_old by lia|rewrite owed_beyond by lia]; reflexivity.
  - intros j a Hj Ha. destruct (Nat.eq_dec j (x + 2)) as [->|J2].
    + rewrite (Q3 _ (T (x + 2) a ltac:(lia) Ha)). rewrite (err_at_none errs) by lia. rewrite <- LE, err_at_new. reflexivity.
    + rewrite Q4, (T j a) by (auto; lia). rewrite (err_at_none errs), err_at_beyond by lia. reflexivity.
  - intros j Hj. destruct (Nat.eq_dec j x) as [->|J].
    + exists input, acc, shown, k. cbv zeta. fold col. rewrite err_at_old by lia. rewrite <- TE. fold want. fold e0. fold e.
      rewrite nth_error_upd_eq by auto. rewrite nth_error_app2 by lia. replace (x - length errs) with 0 by lia. destruct MK. auto 8.
    + apply px_done_keep; auto; [lia|]. apply D. lia.
Qed.
End Row.

Lemma owed_nil x : owed [] x = px0.
Proof. unfold owed, err_at. destruct (Nat.leb 2 x), (Nat.leb 1 x), (Nat.leb 0 x); cbn; auto; destruct (x - 2), (x - 1), (x - 0); reflexivity. Qed.
Definition incoming (even : bool) (dif : list px * list px) : list px := if even then fst dif else snd dif.
Lemma dither_row_spec E row dmap bgp even dif out dif' out' : length (incoming even dif) = e_w E + 2 ->
  dither_row E row dmap bgp even dif out = Ok (dif', out') ->
  exists errs, row_diffused E row dmap bgp even (incoming even dif) out' errs /\
    length (incoming (negb even) dif') = e_w E + 2 /\
    (forall x, x < e_w E + 2 -> nth_error (incoming (negb even) dif') (cell even (e_w E) x) = Some (owed errs x)).
Proof.
  intros L H. unfold dither_row in H. destruct (Nat.eqb_spec (length row) (e_w E)) as [LR|]; [|discriminate].
  destruct (Nat.eqb_spec (length out) (e_w E)) as [LO|]; [|discriminate]. cbn [andb negb] in H.
  apply bind_ok in H as (st & H1 & H). fold (incoming even dif) in H1.
  assert (I : row_inv E row dmap bgp even (incoming even dif) (0 + e_w E) st).
  { eapply (foldM_seq_inv (row_inv E row dmap bgp even (incoming even dif))); [| |exact H1].
    - intros i s s1 Hi Pi Ei. eapply dither_px_spec; eauto. lia.
    - exists []. cbn [s_this s_next s_out length]. split; auto. split; auto. split; [apply repeat_length|]. split; auto. split; [|split].
      + intros j Hj. rewrite owed_nil. apply nth_error_repeat. apply cell_lt. auto.
      + intros j acc Hj Ha. replace (err_at [] j 2) with (@None px); [exact Ha|]. unfold err_at. destruct (Nat.leb 2 j), (j - 2); reflexivity.
      + intros j Hj. lia. }
  destruct I as (errs & LE & L1 & L2 & L3 & N & _ & D). cbn [plus] in *. inversion H; subst. exists errs.
  assert (IN : incoming (negb even) (if even then (s_this st, s_next st) else (s_next st, s_this st)) = s_next st) by (destruct even; reflexivity).
  rewrite IN. split; [|auto]. unfold row_diffused. split; auto.
Qed.

Section Chunk.
Variables (E : dither_env) (d : drows) (bg : option drows) (dm : list Z) (rows bgs : nat -> list px) (h : nat).
Hypothesis R : forall y, y < h -> row_f d y = Ok (rows y).
Hypothesis B : forall y, y < h -> match bg with Some b => row_f b y | None => Ok [] end = Ok (bgs y).
Lemma image_row_spec y dif out dif' out' : y < h -> length (incoming (Nat.even y) dif) = e_w E + 2 ->
  dither_image_row E d bg dm y dif out = Ok (dif', out') ->
  exists errs, row_diffused E (rows y) (dmap_slice dm y (e_w E)) (bgs y) (Nat.even y) (incoming (Nat.even y) dif) out' errs /\
    length (incoming (Nat.even (S y)) dif') = e_w E + 2 /\
    (forall x, x < e_w E + 2 -> nth_error (incoming (Nat.even (S y)) dif') (cell (Nat.even y) (e_w E) x) = Some (owed errs x)).
Proof.
  intros Y L H. unfold dither_image_row in H. rewrite R in H by auto. cbn [bind] in H. rewrite B in H by auto. cbn [bind] in H.
  rewrite Nat.even_succ, <- Nat.negb_even. apply dither_row_spec in H; auto.
Qed.
Lemma chunk_fold_spec l : forall y dif acc dif' outs, y + length l <= h -> length (incoming (Nat.even y) dif) = e_w E + 2 ->
  foldM (fun '(dif, outs) (ir : nat * list nat) => ' (dif', o) <- dither_image_row E d bg dm (fst ir) dif (snd ir) ;; Ok (dif', outs ++ [o]))
    (combine (seq y (length l)) l) (dif, acc) = Ok (dif', outs) ->
  exists os last, outs = acc ++ os /\ length os = length l /\ rows_diffused E rows bgs dm y (incoming (Nat.even y) dif) os last.
Proof.
  induction l as [|o l IH]; intros y dif acc dif' outs Y L H; cbn [length seq combine foldM] in H.
  - inversion H; subst. exists []. eexists. rewrite app_nil_r. split; auto. split; auto. constructor.
  - cbn [length] in Y. apply bind_ok in H as ([dif1 acc1] & H1 & H). cbn [fst snd] in H1. apply bind_ok in H1 as ([dif2 o2] & H1 & H2).
    inversion H2; subst. destruct (image_row_spec y dif o dif1 o2) as (errs & RD & L' & N); auto; [lia|].
    apply IH in H as (os & last & -> & LO & RS); auto; [|lia]. exists (o2 :: os), last. rewrite <- app_assoc. split; auto. split; [cbn; lia|].
    econstructor; eauto.
Qed.
Lemma chunk_spec start dif l outs : start + length l <= h -> length (incoming (Nat.even start) dif) = e_w E + 2 ->
  dither_chunk E d bg dm start dif l = Ok outs ->
  length outs = length l /\ exists last, rows_diffused E rows bgs dm start (incoming (Nat.even start) dif) outs last.
Proof.
  intros Y L H. unfold dither_chunk in H. apply bind_ok in H as ([dif' os] & H1 & H). inversion H; subst os.
  assert (G : forall (m : list (list nat)) k dif acc, foldM (fun '(dif, outs) ir => ' (dif', o) <- dither_image_row E d bg dm (start + fst ir) dif (snd ir) ;; Ok (dif', outs ++ [o])) (combine (seq k (length m)) m) (dif, acc)
     = foldM (fun '(dif, outs) (ir : nat * list nat) => ' (dif', o) <- dither_image_row E d bg dm (fst ir) dif (snd ir) ;; Ok (dif', outs ++ [o])) (combine (seq (start + k) (length m)) m) (dif, acc)).
  { clear. induction m as [|o m IH]; intros k dif acc; cbn [length seq combine foldM]; auto. cbn [fst snd].
    destruct (dither_image_row E d bg dm (start + k) dif o) as [[dif1 o1]| |]; cbn [bind]; auto. rewrite IH, Nat.add_succ_r. reflexivity. }
  unfold enumerate in H1. rewrite G, Nat.add_0_r in H1. apply chunk_fold_spec in H1 as (os & last & -> & LO & RS); auto. split; [exact LO|]. exists last. exact RS.
Qed.
Lemma warm_up_spec start scratch dif : start <= h -> warm_up E d bg dm start scratch = Ok dif ->
  length (incoming (Nat.even start) dif) = e_w E + 2 /\
  (start <= 2 /\ incoming (Nat.even start) dif = repeat px0 (e_w E + 2) \/
   2 < start /\ exists o1 o2, rows_diffused E rows bgs dm (start - 2) (repeat px0 (e_w E + 2)) [o1; o2] (incoming (Nat.even start) dif)).
Proof.
  intros Y H. unfold warm_up in H. cbv zeta in H. destruct (Nat.ltb_spec 2 start) as [H2|H2].
  - set (zero := repeat px0 (e_w E + 2)) in *. assert (LZ : length zero = e_w E + 2) by apply repeat_length.
    apply bind_ok in H as ([dif2 sc] & H1 & H). inversion H; subst dif2. cbn [seq foldM] in H1.
    apply bind_ok in H1 as ([da oa] & Ha & H1). apply bind_ok in H1 as ([db ob] & Hb & H1). inversion H1; subst.
    assert (IZ : incoming (Nat.even (start - 2)) (zero, zero) = zero) by (unfold incoming; destruct (Nat.even _); reflexivity).
    destruct (image_row_spec (start - 2) (zero, zero) scratch da oa) as (ea & Ra & La & Na); auto; [lia|rewrite IZ; auto|].
    destruct (image_row_spec (S (start - 2)) da oa dif sc) as (eb & Rb & Lb & Nb); auto; [lia|].
    rewrite IZ in Ra. assert (ES : S (S (start - 2)) = start) by lia. rewrite ES in Lb, Nb.
    split; auto. right. split; auto. exists oa, sc. econstructor; [exact Ra|exact La|exact Na|]. econstructor; [exact Rb|exact Lb|exact Nb|]. constructor.
  - inversion H; subst. assert (I : incoming (Nat.even start) (repeat (px0 : px) (e_w E + 2), repeat px0 (e_w E + 2)) = repeat px0 (e_w E + 2)) by (unfold incoming; destruct (Nat.even _); reflexivity).
    rewrite I. split; [apply repeat_length|]. left. auto.
Qed.
Variables (u : unspec) (rcb : callback).
Lemma floyd_chunks_spec stage1 cs : forall start done s s', start + length (concat cs) = h ->
  floyd_chunks u rcb E d bg dm stage1 h start done cs s = (Ok tt, s') ->
  exists os, r_out s' = done ++ concat os /\ length os = length cs /\ chunks_diffused E rows bgs dm start os.
Proof.
  induction cs as [|c cs IH]; intros start done s s' T H; cbn [floyd_chunks] in H.
  - unfold put_out, smod in H. inversion H; subst. cbn [r_out]. exists []. cbn. rewrite app_nil_r. split; auto. split; auto. constructor.
  - cbn [concat] in T. rewrite app_length in T.
    apply sbind_ok in H as (k & s1 & H1 & H). apply sbind_ok in H as (dif & s2 & H2 & H).
    unfold slift in H2. apply pair_equal_spec in H2 as [H3 <-].
    apply warm_up_spec in H3 as [L3 W3]; [|lia].
    apply sbind_ok in H as (stop & s3 & H5 & H). destruct stop.
    + apply sbind_ok in H as (x & s4 & _ & H). discriminate.
    + apply sbind_ok in H as (o & s4 & H6 & H). unfold slift in H6. apply pair_equal_spec in H6 as [H7 <-].
      apply chunk_spec in H7 as [L7 (last & X7)]; auto; [|lia].
      apply IH in H; [|lia]. destruct H as (os & -> & LO & CD). exists (o :: os). cbn [concat length]. rewrite app_assoc. split; auto. split; [lia|].
      econstructor; eauto. rewrite L7. exact CD.
Qed.
End Chunk.

(** * The whole dithered remap *)
Section Whole.
Variables (u : unspec) (U : unspec_ok u) (rcb : callback).
(** The pixels of row [y] in the space colours are compared in. *)
Definition pixel_rows (g : f64) (pxs : list (list rgba)) (y : nat) : list px := map (from_rgba (gamma_lut g)) (nth y pxs []).
Definition full_level (q : qresult) (dm : list Z) : f32 := match dm with [] => base_level q | _ => base_level q *f (f1 /f fofZ 255) end.

Lemma floyd_spec (p : palf) max_err rm s pxs n s' : image_ok (r_img s) pxs -> shaped (r_img s) (r_out s) -> nearest_new p = Ok n ->
  floyd u rcb p max_err rm s = (Ok tt, s') ->
  exists E dm bgs os, e_w E = i_w (r_img s) /\ e_n E = n /\ e_max E = max_err /\ e_base E = full_level (r_q s) dm /\ Forall byte dm /\
    (i_bg (r_img s) = None -> forall y, bgs y = []) /\ (forall b, i_bg (r_img s) = Some b -> e_tidx E = transparent_idx n) /\
    r_out s' = concat os /\ (q_single (r_q s) = true -> length os <= 1) /\
    chunks_diffused E (pixel_rows (d_gamma (i_px (r_img s))) pxs) bgs dm 0 os.
Proof.
  intros I [LO FO] N H. unfold floyd in H.
  apply sbind_ok in H as (s0 & sx & H0 & H). unfold sget in H0. inversion H0; subst s0 sx. clear H0. cbv zeta in H.
  rewrite N in H. apply sbind_ok in H as (n0 & sx & H0 & H). unfold slift in H0. inversion H0; subst n0 sx. clear H0.
  apply sbind_ok in H as (x0 & s1 & H0 & H). destruct (prepare_bg_eq s pxs I) as (ob & E0 & KB & I0). rewrite E0 in H0.
  inversion H0; subst s1. clear H0.
  apply sbind_ok in H as (tc' & sx & H0 & H). unfold slift in H0. apply pair_equal_spec in H0 as [H1 <-].
  apply sbind_ok in H as (x1 & s1 & H0 & H). set (s0 := upd_img s (set_bg (r_img s) ob)) in *.
  destruct (prepare_image_eq s0 pxs I0) as (d & E1 & S1 & I1). rewrite E1 in H0.
  inversion H0; subst s1. clear H0. apply sbind_ok in H as (s2 & sx & H0 & H). unfold sget in H0. inversion H0; subst s2 sx. clear H0.
  set (s1 := upd_img s0 (set_px (r_img s0) d)) in *.
  change (r_out s1) with (r_out s) in H. set (i1 := r_img s1) in *. change (i_h i1) with (d_h (i_px i1)) in H.
  set (dm := if dmode_is_none (q_dmap (r_q s)) then [] else _) in H.
  assert (DM : Forall byte dm).
  { unfold dm. destruct (dmode_is_none _); [constructor|].
    destruct (i_dmap (r_img s)) as [m|] eqn:D; [apply (proj2 (im_dmap _ _ I m D))|].
    destruct (i_edges (r_img s)) as [m|] eqn:D2; [apply (proj2 (im_edges _ _ I m D2))|constructor]. }
  set (ub := match i_bg (r_img s) with Some _ => _ | None => false end) in *.
  match type of H with context [DEnv ?w ?n ?b ?e ?t ?g] => set (E := DEnv w n b e t g) in H end.
  destruct S1 as (W1 & Hh1 & G1 & _).
  pose proof (sh_h _ _ (im_px _ _ I1)) as HH. change (0 < d_h (i_px i1)) in HH.
  set (nc := num_chunks u _ _ _) in *.
  assert (NC : 1 <= nc) by (apply num_chunks_pos; auto).
  set (size := (d_h (i_px i1) + nc - 1) / nc) in *.
  assert (SZ : 0 < size). { unfold size. apply Nat.div_str_pos. lia. }
  assert (LC : length (concat (chunks size (r_out s))) = d_h (i_px i1)).
  { rewrite chunks_concat by auto. rewrite LO. change (d_h (i_px i1)) with (d_h d). rewrite Hh1. reflexivity. }
  set (bgs := fun y => match (if ub then option_map i_px (i_bg i1) else None) with Some b => match row_f b y with Ok r => r | _ => [] end | None => [] end).
  apply (floyd_chunks_spec E (i_px i1) _ dm (pixel_rows (d_gamma (i_px (r_img s))) pxs) bgs (d_h (i_px i1))) in H; auto.
  - destruct H as (os & RO & LN & CD). cbn [app] in RO. exists E, dm, bgs, os. split; [exact W1|]. split; [reflexivity|]. split; [reflexivity|]. split.
    { unfold E, full_level. cbn [e_base]. destruct dm; reflexivity. }
    split; auto. split.
    { intros B y. unfold bgs, ub. rewrite B. reflexivity. }
    split. { intros b B. unfold E. cbn [e_tidx]. rewrite B. reflexivity. }
    split; auto. split; [|exact CD]. intros SG. rewrite LN.
    assert (N1 : nc = 1) by (unfold nc, num_chunks; change (q_single (r_q s1)) with (q_single (r_q s)); rewrite SG; reflexivity).
    assert (SE : size = d_h d) by (unfold size; rewrite N1, Nat.div_1_r; change (d_h (i_px i1)) with (d_h d); lia).
    assert (CL : length (chunks size (r_out s)) <= 1); [|exact CL]. rewrite chunks_length by auto. rewrite LO. change (i_h (r_img s)) with (d_h (i_px (r_img s0))). rewrite <- Hh1, SE.
    assert (0 < d_h d) by exact HH. assert (d_h d + d_h d - 1 < 2 * d_h d) by lia. apply Nat.lt_succ_r. apply Nat.div_lt_upper_bound; lia.
  - intros y Hy. destruct (shows_row_ex _ _ y (im_px _ _ I1) Hy) as (r & R & _ & _ & ER). etransitivity; [exact ER|].
    change (i_px (set_px (r_img s0) d)) with d. rewrite G1. unfold pixel_rows. rewrite (nth_error_nth _ _ [] R). reflexivity.
  - intros y Hy.
    assert (G : match (if ub then option_map i_px (i_bg i1) else None) with Some b => row_f b y | None => Ok [] end = Ok (bgs y)); [|exact G].
    unfold bgs. destruct ub; cbn [option_map]; [|reflexivity]. destruct (i_bg i1) as [b|] eqn:B; [|reflexivity]. cbn [option_map].
    destruct (im_bg _ _ I1 b B) as (_ & _ & BH & bp & SB). destruct (shows_row_ex _ _ y SB) as (r & _ & _ & _ & ER).
    { change (d_h (i_px b)) with (i_h b). rewrite BH. exact Hy. }
    rewrite ER. reflexivity.
Qed.

Lemma remap_diffused (CL : CastLaws A) q i pxs buf w q' i' out w' : image_ok i pxs -> 0 < length (q_pal q) <= 256 -> (q_dither q =f f0) = false ->
  remap_into u rcb q i buf w = (Ok tt, (q', i', out, w')) ->
  exists (p : palf) e n E dm bgs os, nearest_new (fst (init_int_palette p (q_gamma q) (q_post q))) = Ok n /\
    q' = set_rem q (Some (snd (init_int_palette p (q_gamma q) (q_post q)), e)) /\
    e_w E = i_w i /\ e_n E = n /\ e_base E = full_level q dm /\ Forall byte dm /\
    (i_bg i = None -> forall y, bgs y = []) /\ (forall b, i_bg i = Some b -> e_tidx E = transparent_idx n) /\
    out = concat (concat os) ++ skipn (i_w i * i_h i) buf /\ length (concat os) = i_h i /\ (q_single q = true -> length os <= 1) /\
    chunks_diffused E (pixel_rows (d_gamma (i_px i)) pxs) bgs dm 0 os.
Proof.
  intros I P D E. pose proof (remap_into_ok u rcb q i pxs buf w U I P) as RO. rewrite E in RO.
  unfold remap_into in E. cbv zeta in E. destruct (Nat.ltb_spec (length buf) (i_w i * i_h i)) as [Hlt|Hge]; [discriminate|].
  assert (Lf : length (firstn (i_w i * i_h i) buf) = i_w i * i_h i) by (rewrite firstn_length; lia).
  pose proof (sh_w _ _ (im_px _ _ I)) as HW. change (0 < i_w i) in HW.
  destruct (chunks_exact_shape (i_w i) (i_h i) (firstn (i_w i * i_h i) buf) HW Lf) as (LR & FR & _).
  destruct (write_remapped u rcb (RSt q i (chunks_exact (i_w i) (firstn (i_w i * i_h i) buf)) w)) as [r0 sf] eqn:H.
  inversion E; subst. clear E. set (s := RSt q i _ w) in *.
  assert (SH : shaped (r_img s) (r_out s)) by exact (conj LR FR).
  assert (LEN : length (r_out sf) = i_h i).
  { pose proof (write_remapped_ok u U rcb CL q s pxs (conj eq_refl (conj I (conj SH P)))) as W. unfold runs in W. rewrite H in W. apply W. }
  unfold write_remapped in H.
  apply sbind_ok in H as (s0 & sx & H0 & H). unfold sget in H0. inversion H0; subst s0 sx. clear H0. cbv zeta in H.
  change (r_q s) with q in H.
  apply sbind_ok in H as (stop & s1 & H0 & H). destruct stop; [discriminate|].
  assert (S1 : r_q s1 = r_q s /\ r_img s1 = r_img s /\ r_out s1 = r_out s) by (unfold on_world, progress in H0; inversion H0; auto).
  destruct S1 as (S1a & S1b & S1c). apply sbind_ok in H as (x0 & s2 & H1 & H).
  unfold put_img, smod in H1. inversion H1; subst s2. clear H1 H0.
  destruct (free_keeps _ _ I) as [K0 I0]. change (r_img s) with i in *. set (i0 := set_px _ _) in *. set (s2 := RSt _ i0 _ _) in *.
  assert (SH2 : shaped (r_img s2) (r_out s2)) by (cbn [r_img r_out s2]; rewrite S1c; apply (shaped_keeps i); auto).
  rewrite D in H. apply sbind_ok in H as ([me p] & s3 & H1 & H).
  pose proof (generate_dither_map_ok u U CL (q_dmap q) (negb (is_none (i_bg i))) (q_pal q) s2 pxs I0 SH2 P) as R1.
  unfold runs in R1. rewrite H1 in R1. destruct R1 as (R1 & R2 & R3 & R4 & R5 & R6). cbn [fst snd] in *.
  apply sbind_ok in H as (stop2 & s4 & H2 & H). destruct stop2; [discriminate|].
  assert (S4 : r_q s4 = r_q s3 /\ r_img s4 = r_img s3 /\ r_out s4 = r_out s3) by (unfold on_world, progress in H2; inversion H2; auto).
  destruct S4 as (S4a & S4b & S4c).
  destruct (init_int_palette p (q_gamma q) (q_post q)) as [p2 ip] eqn:IP.
  apply sbind_ok in H as ([] & s5 & HF5 & H). unfold put_q, smod in H. inversion H; subst sf. cbn [r_q r_out] in *.
  assert (KP : keeps i (r_img s3)) by (eapply keeps_trans; eauto).
  assert (Lp : length p2 = length (q_pal q)).
  { unfold init_int_palette in IP. inversion IP. rewrite map_length. apply R5. }
  destruct (nearest_new_ok p2) as (n & N & _); [lia|].
  destruct (keeps_dims _ _ KP) as [DW DH].
  apply (floyd_spec _ _ _ s4 pxs n) in HF5; auto.
  - destruct HF5 as (E & dm & bgs & os & E1 & E2 & E3 & E4 & E5 & E6 & E7 & E8 & E9 & E10).
    rewrite S4b in E1, E6, E7, E10. rewrite S4a, R1 in E4, E9. change (r_q s2) with (r_q s1) in E4, E9. rewrite S1a in E4, E9. change (r_q s) with q in E4, E9.
    exists p. eexists. exists n, E, dm, bgs, os. rewrite IP. cbn [fst snd]. split; [exact N|]. split; [reflexivity|].
    split; [congruence|]. split; [exact E2|]. split; [exact E4|]. split; [exact E5|].
    destruct KP as ((_ & _ & KG & _) & _ & KB). rewrite KG in E10. split.
    { intros B. apply E6. rewrite B in KB. exact KB. }
    split. { intros b B. rewrite B in KB. destruct KB as (b' & B' & _). apply (E7 b' B'). }
    rewrite E8 in *. split; [reflexivity|]. split; [exact LEN|]. split; [exact E9|exact E10].
  - rewrite S4b. exact R3.
  - rewrite S4b, S4c. apply (shaped_keeps i); auto. apply (shaped_back _ _ _ K0 R4).
Qed.
End Whole.
End DitherSpec.
