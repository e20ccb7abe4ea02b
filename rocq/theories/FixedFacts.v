(** Fixed colours in the results. *)
From Coq Require Import Sorted.
From Verif Require Import Base BaseFacts Arith Order Pal World Attr Hist MedianCut Nearest Kmeans Blur ImageM Quant Remap
  SpecHist SpecImage SpecAttr AttrFacts ImageFacts HistFacts MedianFacts SearchFacts QuantFacts RemapFacts Api ApiFacts ResultFacts SpecPal PalFacts.
Open Scope nat_scope.

(** How many of the fixed colours [l] come no later than number [k]. *)
Definition rank_of (l : list (rgba * Z)) (k : Z) : nat := length (filter (fun f => Z.leb (snd f) k) l).

Lemma rank_perm l l' k : Permutation l l' -> rank_of l k = rank_of l' k.
Proof.
  unfold rank_of. induction 1; cbn [filter]; auto.
  - destruct (Z.leb (snd x) k); cbn; auto.
  - destruct (Z.leb (snd x) k), (Z.leb (snd y) k); cbn; auto.
  - congruence.
Qed.
Lemma filter_all_true {T} (f : T -> bool) l : Forall (fun x => f x = true) l -> filter f l = l.
Proof. induction 1; cbn; auto. rewrite H. congruence. Qed.
Lemma filter_all_false {T} (f : T -> bool) l : Forall (fun x => f x = false) l -> filter f l = [].
Proof. induction 1; cbn; auto. rewrite H. auto. Qed.
Lemma filter_length_le {T} (f : T -> bool) l : length (filter f l) <= length l.
Proof. induction l; cbn; auto. destruct (f a); cbn; lia. Qed.
Lemma strongly_nth {T} (R : T -> T -> Prop) l i j x y : StronglySorted R l -> i < j -> nth_error l i = Some x -> nth_error l j = Some y -> R x y.
Proof.
  intros S. revert i j. induction S as [|z l S IH F]; intros [|i] [|j] Hij Nx Ny; try lia; cbn in *; try discriminate.
  - inversion Nx; subst. rewrite Forall_forall in F. apply F. eapply nth_error_In; eauto.
  - apply (IH i j); auto. lia.
Qed.
(** Position of a fixed colour after sorting by number. *)
Lemma sorted_rank l i c k : StronglySorted (fun x y : rgba * Z => (snd x <= snd y)%Z) l -> nth_error l i = Some (c, k) -> i < rank_of l k.
Proof.
  intros St N. assert (Li : i < length l) by (apply nth_error_Some; congruence).
  unfold rank_of. rewrite <- (firstn_skipn (S i) l), filter_app, app_length.
  rewrite filter_all_true; [rewrite firstn_length; lia|].
  apply Forall_forall. intros x Hx. apply In_nth_error in Hx as (j & Nj).
  assert (Lj : j < S i). { assert (j < length (firstn (S i) l)) by (apply nth_error_Some; congruence). rewrite firstn_length in H. lia. }
  rewrite nth_error_firstn in Nj. destruct (Nat.ltb_spec j (S i)); [|discriminate].
  apply Z.leb_le. destruct (Nat.eq_dec j i) as [->|D]; [rewrite N in Nj; inversion Nj; subst; cbn; lia|].
  apply (strongly_nth _ l j i x (c, k)) in St; auto; lia.
Qed.

Section Fixed.
Context {A : Arith} {C : CastLaws A}.

Definition has_fixed_color (q : qresult) (c : rgba) : Prop :=
  exists w, In (from_rgba (gamma_lut (q_gamma q)) c, w) (q_pal q) /\ pop_is_fixed w = true.

Lemma fixed_sorted l : StronglySorted (fun x y : rgba * Z => (snd x <= snd y)%Z) (sort_by (fun x y => Z.compare (snd x) (snd y)) l).
Proof.
  assert (S := sort_by_on (fun x y : rgba * Z => Z.compare (snd x) (snd y)) (fun _ => True)).
  assert (F : Forall (fun _ : rgba * Z => True) l) by (apply Forall_forall; auto).
  assert (G : StronglySorted (fun a b : rgba * Z => Z.compare (snd a) (snd b) <> Gt) (sort_by (fun x y => Z.compare (snd x) (snd y)) l)).
  { apply S; auto; [intros a b c _ _ _ H1 H2 H3|intros a b _ _ H1]; rewrite ?Z.compare_gt_iff, ?Z.compare_lt_iff, ?Z.compare_antisym in *; rewrite ?Z.compare_gt_iff in *; try lia. }
  clear S. induction G as [|x l' G IH H]; constructor; auto.
Qed.
Lemma quantized_fixed u cb a freeze h w q s' c k : fix_law -> unspec_ok u -> usable a -> hist_wf h ->
  quantize_internal u cb a freeze (h, w) = (Ok q, s') -> In (c, k) (hg_fixed h) -> rank_of (hg_fixed h) k <= a_max_colors a ->
  has_fixed_color q c.
Proof.
  intros law U Ha H E Hin Rk. pose proof (quantize_internal_ok u U cb a freeze h w (usable_colors a Ha) H) as P. unfold runs in P.
  rewrite E in P. destruct P as (_ & _ & P). cbv zeta in P. destruct P as ((_ & M & F) & _ & _ & _ & _ & G & _).
  set (g := unwrap_or (hg_gamma h) (dlit 45455 100000)) in *.
  set (srt := sort_by (fun x y : rgba * Z => Z.compare (snd x) (snd y)) (u_set u (hg_fixed h))).
  assert (EF : hi_fixed (fst (finalize_builder u h g)) = map (fun fc => from_rgba (gamma_lut g) (fst fc)) srt) by reflexivity.
  assert (PS : Permutation (hg_fixed h) srt).
  { etransitivity; [apply (uo_set u U)|apply sort_by_perm]. }
  assert (I2 : In (c, k) srt) by (eapply Permutation_in; eauto). apply In_nth_error in I2 as (i & N).
  assert (Li : i < length srt) by (apply nth_error_Some; congruence).
  assert (Hi : i < rank_of (hg_fixed h) k). { rewrite (rank_perm _ _ _ PS). eapply sorted_rank; eauto. apply fixed_sorted. }
  rewrite EF in M, F. rewrite map_length in M. destruct (F law i (from_rgba (gamma_lut g) c)) as (w0 & I3).
  - lia.
  - rewrite nth_error_map, N. reflexivity.
  - exists (pop_to_fixed w0). rewrite G. split; auto.
Qed.
Lemma hist_fixed u cb a h w q s' c k : fix_law -> unspec_ok u -> usable a -> hist_r h ->
  hist_quantize u cb a (h, w) = (Ok q, s') -> In (c, k) (hg_fixed h) -> rank_of (hg_fixed h) k <= a_max_colors a ->
  has_fixed_color q c.
Proof. intros law U Ha H. apply quantized_fixed; auto. apply reach_hist; auto. Qed.

(** The fixed colours of an image are numbered in the order they were added. *)
Definition numbered (l : list rgba) : list (rgba * Z) := map (fun ic => (snd ic, Z.of_nat (fst ic))) (enumerate l).
Lemma image_numbers l : length l <= 256 ->
  fold_left (fun s ic => hs_insert s (snd ic, wrap8 (Z.of_nat (fst ic)))) (enumerate l) [] = numbered l.
Proof.
  assert (G : forall (m : list rgba) b s, b + length m <= 256 -> Forall (fun f : rgba * Z => (snd f < Z.of_nat b)%Z) s ->
     fold_left (fun s ic => hs_insert s (snd ic, wrap8 (Z.of_nat (fst ic)))) (combine (seq b (length m)) m) s =
     s ++ map (fun ic : nat * rgba => (snd ic, Z.of_nat (fst ic))) (combine (seq b (length m)) m)).
  { induction m as [|c m IH]; intros b s B F; cbn [length seq combine fold_left map]; [rewrite app_nil_r; auto|]. cbn [length] in B.
    cbn [fst snd]. assert (W : wrap8 (Z.of_nat b) = Z.of_nat b) by (unfold wrap8; apply Z.mod_small; lia). rewrite W.
    assert (E : hs_insert s (c, Z.of_nat b) = s ++ [(c, Z.of_nat b)]).
    { unfold hs_insert. destruct (existsb _ s) eqn:X; auto. exfalso. apply existsb_exists in X as ([c' k] & Hin & X).
      unfold hc_eqb in X. cbn [fst snd] in X. apply andb_true_iff in X as [_ X]. apply Z.eqb_eq in X.
      rewrite Forall_forall in F. specialize (F _ Hin). cbn in F. lia. }
    rewrite E, IH; [rewrite <- app_assoc; reflexivity|lia|]. apply Forall_app. split; [|constructor; [cbn; lia|constructor]].
    eapply Forall_impl; [|exact F]. cbn. intros; lia. }
  intros L. unfold numbered, enumerate. rewrite G; auto; lia.
Qed.
Lemma rank_numbered l j : rank_of (numbered l) (Z.of_nat j) <= S j.
Proof.
  unfold rank_of, numbered. rewrite <- (firstn_skipn (S j) (enumerate l)), map_app, filter_app, app_length.
  rewrite (filter_all_false _ (map _ (skipn _ _))).
  - cbn [length]. rewrite Nat.add_0_r. etransitivity; [apply filter_length_le|]. rewrite map_length, firstn_length. lia.
  - apply Forall_map. apply Forall_forall. intros [i c] Hi. cbn [fst snd]. apply Z.leb_gt.
    apply In_nth_error in Hi as (n & Hi). rewrite nth_error_skipn in Hi. rewrite nth_error_enumerate in Hi.
    destruct (nth_error l (S j + n)); [|discriminate]. cbn in Hi. inversion Hi. lia.
Qed.
Lemma image_fixed u cb a i pxs w q s' j c : fix_law -> unspec_ok u -> usable a -> image_r i pxs ->
  quantize u cb a (i, w) = (Ok q, s') -> nth_error (i_fixed i) j = Some c -> j < a_max_colors a -> has_fixed_color q c.
Proof.
  intros law U Ha I E N Hj. pose proof (reach_image _ _ I) as IO. unfold quantize in E.
  destruct (add_image_spec u cb a (hist_new a) i w pxs IO) as (i' & _ & _ & I' & _ & _ & _ & _ & _ & EA). cbv zeta in EA.
  pose proof (add_image_ok u cb a (hist_new a) i w pxs U IO (hist_new_wf a)) as P0. rewrite EA in P0, E.
  destruct (cb (w_trace w) _); [discriminate|]. destruct (all_rgba_rows (i_px i)); try discriminate.
  set (h := settle u _ _) in *. destruct P0 as (W & _).
  match type of E with context [quantize_internal u cb a false ?s] => destruct (quantize_internal u cb a false s) as [r [h2 w2]] eqn:EQ end.
  injection E as -> _.
  assert (HF : hg_fixed h = numbered (i_fixed i)).
  { unfold h. rewrite settle_fixed, add_all_fixed. unfold add_image_fixed. cbn [hg_fixed with_fixed with_gamma hist_new]. apply image_numbers. apply (im_fixed _ _ IO). }
  eapply (quantized_fixed u cb a false h _ q _ c (Z.of_nat j)); eauto.
  - rewrite HF. apply in_map_iff. exists (j, c). split; auto. apply In_enumerate. auto.
  - rewrite HF. etransitivity; [apply rank_numbered|]. lia.
Qed.

(** A fixed colour that converts back exactly is shown in every palette. *)
Lemma fixed_shown m q q' c : result_r m q -> q_rem q = None -> q_int q = [] -> q_post q = 0%Z -> has_fixed_color q c ->
  to_rgb (from_rgba (gamma_lut (q_gamma q)) c) (q_gamma q) = c -> later false true q q' ->
  has_fixed_color q' c /\ In c (fst (palette q')).
Proof.
  intros R R0 I0 P0 (w & Hin & Fw) RT L. set (g := q_gamma q) in *. set (e := (from_rgba (gamma_lut g) c, w)) in *.
  assert (RM : forall k, rgba_map (fun v : Z => posterize_channel v 0) k = k) by (intros []; reflexivity).
  assert (IE : int_entry g 0 e = (e, c)).
  { unfold int_entry, e. cbn [fst snd]. rewrite RT, RM, Fw. cbn [negb]. rewrite Bool.andb_false_r. auto. }
  assert (II : forall p : palf, In e p -> In e (fst (init_int_palette p g 0)) /\ In c (snd (init_int_palette p g 0))).
  { intros p Hp. cbn [init_int_palette fst snd]. split; apply in_map_iff; exists e; rewrite IE; auto. }
  assert (S : q_gamma q' = g /\ q_post q' = 0%Z /\ In e (q_pal q') /\ (q_int q' = [] \/ In c (q_int q')) /\
              (forall ip x, q_rem q' = Some (ip, x) -> In c ip)).
  { revert q' L. apply (later_invariant false true m); auto; try discriminate.
    - rewrite R0. repeat (split; auto). discriminate.
    - intros q1 v (G & B & Q & N & S) _. repeat (split; auto). cbn. discriminate.
    - intros _ q1 (G & B & Q & N & S) _. unfold palette. destruct (q_rem q1) as [[ip x]|] eqn:E1.
      { cbn [snd]. rewrite E1. auto. }
      destruct (q_int q1) eqn:EI.
      + rewrite G, B. destruct (II _ Q) as [Q1 Q2]. destruct (init_int_palette (q_pal q1) g 0). cbn in *. repeat (split; auto); discriminate.
      + cbn [snd]. rewrite EI, E1. auto.
    - intros q1 p x (G & B & Q & N & S) _ K _. repeat (split; auto). intros ip x' H. cbn in H. injection H as <- _.
      rewrite G, B. apply II. apply In_nth_error in Q as (n & Q). unfold e in Q. destruct K as [_ K]. apply (nth_error_In _ n). apply K; auto.
    - intros q1 p (G & B & Q & N & S) _ K. repeat (split; auto).
      apply In_nth_error in Q as (n & Q). unfold e in Q. destruct K as [_ K]. apply (nth_error_In _ n). apply K; auto. }
  destruct S as (G & B & Q & N & S). split.
  - exists w. rewrite G. auto.
  - unfold palette. destruct (q_rem q') as [[ip x]|] eqn:E1; [cbn [fst]; eauto|]. destruct (q_int q') eqn:EI.
    + rewrite G, B. destruct (II _ Q) as [Q1 Q2]. destruct (init_int_palette (q_pal q') g 0). auto.
    + cbn [fst]. destruct N as [N|N]; [discriminate|auto].
Qed.
End Fixed.
