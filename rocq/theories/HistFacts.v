(** Proofs about the histogram builder. *)
From Verif Require Import Base BaseFacts Arith Pal World Attr Hist Blur ImageM Quant SpecHist.
From Coq Require Import ZifyBool.
Open Scope Z_scope.

Lemma rgba_eqb_eq x y : rgba_eqb x y = true <-> x = y.
Proof.
  unfold rgba_eqb. destruct x, y; cbn. rewrite !andb_true_iff, !Z.eqb_eq. split.
  - intros [[[-> ->] ->] ->]; auto.
  - intros H; inversion H; auto.
Qed.
Lemma rgba_eqb_refl x : rgba_eqb x x = true.
Proof. apply rgba_eqb_eq; auto. Qed.
Lemma rgba_eqb_neq x y : rgba_eqb x y = false <-> x <> y.
Proof. rewrite <- rgba_eqb_eq. destruct (rgba_eqb x y); split; congruence. Qed.
Lemma rgba_eqb_sym x y : rgba_eqb x y = rgba_eqb y x.
Proof.
  destruct (rgba_eqb x y) eqn:E.
  - apply rgba_eqb_eq in E; subst; symmetry; apply rgba_eqb_refl.
  - symmetry. apply rgba_eqb_neq. apply rgba_eqb_neq in E. congruence.
Qed.
Lemma rgba_dec (x y : rgba) : {x = y} + {x <> y}.
Proof. destruct (rgba_eqb x y) eqn:E; [left; apply rgba_eqb_eq; auto|right; apply rgba_eqb_neq; auto]. Qed.

(** * Association lists *)
Lemma hm_get_in m k v : hm_get m k = Some v -> In (k, v) m.
Proof.
  induction m as [|[k' v'] t IH]; cbn; [discriminate|].
  destruct (rgba_eqb k k') eqn:E; [|auto]. intros H; inversion H; subst. apply rgba_eqb_eq in E; subst; auto.
Qed.
Lemma hm_get_none m k : hm_get m k = None <-> ~ In k (map fst m).
Proof.
  induction m as [|[k' v'] t IH]; cbn; [tauto|].
  destruct (rgba_eqb k k') eqn:E.
  - apply rgba_eqb_eq in E; subst. split; [discriminate|tauto].
  - apply rgba_eqb_neq in E. rewrite IH. intuition congruence.
Qed.
Lemma in_hm_get m k v : NoDup (map fst m) -> In (k, v) m -> hm_get m k = Some v.
Proof.
  induction m as [|[k' v'] t IH]; cbn; [tauto|]. intros N [H|H].
  - inversion H; subst. rewrite rgba_eqb_refl. auto.
  - inversion N; subst. destruct (rgba_eqb k k') eqn:E; auto.
    apply rgba_eqb_eq in E; subst. exfalso. apply H2. apply in_map_iff. exists (k', v); auto.
Qed.

Lemma hm_get_bump m k b c k' :
  hm_get (hm_bump m k b c) k' =
  if rgba_eqb k' k then Some (match hm_get m k with Some (n, c') => (sat_add32 n b, c') | None => (b, c) end)
  else hm_get m k'.
Proof.
  induction m as [|[k1 [n1 c1]] t IH]; cbn.
  - destruct (rgba_eqb k' k); auto.
  - destruct (rgba_eqb k k1) eqn:E.
    + apply rgba_eqb_eq in E; subst. cbn. destruct (rgba_eqb k' k1); auto.
    + cbn. destruct (rgba_eqb k' k1) eqn:E1.
      * apply rgba_eqb_eq in E1; subst. rewrite rgba_eqb_sym, E. auto.
      * rewrite IH. auto.
Qed.
Lemma hm_bump_keys m k b c : NoDup (map fst m) -> NoDup (map fst (hm_bump m k b c)) /\
  (forall x, In x (map fst (hm_bump m k b c)) <-> x = k \/ In x (map fst m)).
Proof.
  induction m as [|[k1 [n1 c1]] t IH]; cbn; intros N.
  - split; [repeat constructor; auto|]. intros x; intuition congruence.
  - destruct (rgba_eqb k k1) eqn:E.
    + apply rgba_eqb_eq in E; subst. cbn. split; auto. intros x; intuition congruence.
    + cbn. inversion N; subst. destruct (IH H2) as [I1 I2]. split.
      * constructor; auto. rewrite I2. intros [->|?]; auto. rewrite rgba_eqb_refl in E; discriminate.
      * intros x. rewrite I2. intuition congruence.
Qed.

Lemma hm_get_insert m k v k' :
  hm_get (hm_insert m k v) k' = if rgba_eqb k' k then Some v else hm_get m k'.
Proof.
  induction m as [|[k1 v1] t IH]; cbn.
  - destruct (rgba_eqb k' k); auto.
  - destruct (rgba_eqb k k1) eqn:E.
    + apply rgba_eqb_eq in E; subst. cbn. destruct (rgba_eqb k' k1); auto.
    + cbn. destruct (rgba_eqb k' k1) eqn:E1.
      * apply rgba_eqb_eq in E1; subst. rewrite rgba_eqb_sym, E. auto.
      * rewrite IH. auto.
Qed.
Lemma hm_insert_keys m k v : NoDup (map fst m) -> NoDup (map fst (hm_insert m k v)) /\
  (forall x, In x (map fst (hm_insert m k v)) <-> x = k \/ In x (map fst m)).
Proof.
  induction m as [|[k1 v1] t IH]; cbn; intros N.
  - split; [repeat constructor; auto|]. intros x; intuition congruence.
  - destruct (rgba_eqb k k1) eqn:E.
    + apply rgba_eqb_eq in E; subst. cbn. split; auto. intros x; intuition congruence.
    + cbn. inversion N; subst. destruct (IH H2) as [I1 I2]. split.
      * constructor; auto. rewrite I2. intros [->|?]; auto. rewrite rgba_eqb_refl in E; discriminate.
      * intros x. rewrite I2. intuition congruence.
Qed.

(** * Masks *)
Definition bits_range : list Z := map Z.of_nat (seq 0 9).
Definition bytes : list Z := map Z.of_nat (seq 0 256).
Lemma in_bytes v : byte v -> In v bytes.
Proof. intros [H1 H2]. apply in_map_iff. exists (Z.to_nat v). split; [lia|]. apply in_seq. lia. Qed.
Lemma in_bits b : 0 <= b <= 8 -> In b bits_range.
Proof. intros H. apply in_map_iff. exists (Z.to_nat b). split; [lia|]. apply in_seq. lia. Qed.

Lemma mask_sweep : forallb (fun b => forallb (fun v => Z.land v (channel_mask b) =? drop_low b v) bytes) bits_range = true.
Proof. vm_compute. reflexivity. Qed.
Lemma mask_drop_low b v : 0 <= b <= 8 -> byte v -> Z.land v (channel_mask b) = drop_low b v.
Proof.
  intros Hb Hv. pose proof mask_sweep as S. rewrite forallb_forall in S.
  specialize (S b (in_bits b Hb)). rewrite forallb_forall in S.
  apply Z.eqb_eq. exact (S v (in_bytes v Hv)).
Qed.
Lemma color_key_posterized b c : 0 <= b <= 8 -> rgba_ok c -> color_key b c = posterized b c.
Proof.
  intros Hb (H1 & H2 & H3 & H4). unfold color_key, posterized. destruct (ca c =? 0); cbn [negb]; auto.
  unfold mask_rgba, rgba_map. rewrite !mask_drop_low by auto. auto.
Qed.

(** * Counting *)
Section Count.
Context {A : Arith}.

Definition represents (h : hist) (l : additions) : Prop :=
  NoDup (map fst (hg_map h)) /\ forall k, hm_get (hg_map h) k = expected (hg_bits h) l k.

Lemma zsum_app a b : zsum (a ++ b) = zsum a + zsum b.
Proof. induction a; cbn [zsum app]; lia. Qed.
Lemma zsum_nonneg l : Forall (fun z => 0 <= z) l -> 0 <= zsum l.
Proof. induction 1; cbn; lia. Qed.

Lemma falling_nonneg b l k : Forall addition_ok l -> 0 <= zsum (map snd (falling_on b l k)).
Proof.
  intros H. apply zsum_nonneg. rewrite Forall_forall in *. intros z Hz. apply in_map_iff in Hz as (e & <- & He).
  apply filter_In in He as [He _]. apply H in He. destruct He; lia.
Qed.

Lemma expected_snoc b l e k : Forall addition_ok l -> addition_ok e ->
  expected b (l ++ [e]) k =
  if (negb (snd e =? 0) && rgba_eqb (posterized b (fst e)) k)%bool
  then Some (match expected b l k with
             | Some (n, c) => (sat_add32 n (snd e), c)
             | None => (snd e, fst e)
             end)
  else expected b l k.
Proof.
  intros Hl He. unfold expected, falling_on. rewrite filter_app. cbn [filter].
  fold (falling_on b l k). pose proof (falling_nonneg b l k Hl) as P.
  destruct (negb (snd e =? 0) && rgba_eqb (posterized b (fst e)) k)%bool; [|rewrite app_nil_r; auto].
  destruct (falling_on b l k) as [|f t]; cbn [app].
  - cbn [map zsum]. destruct He. f_equal. f_equal. lia.
  - f_equal. f_equal. cbn [map] in *. rewrite map_app. cbn [zsum] in *. rewrite zsum_app. cbn [map zsum].
    unfold sat_add32, addition_ok in *. destruct He. lia.
Qed.

Lemma add_color_bits h c b : hg_bits (add_color h c b) = hg_bits h.
Proof. unfold add_color. destruct (b =? 0); auto. Qed.
Lemma add_color_other h c b : hg_gamma (add_color h c b) = hg_gamma h /\ hg_fixed (add_color h c b) = hg_fixed h /\ hg_max (add_color h c b) = hg_max h.
Proof. unfold add_color. destruct (b =? 0); auto. Qed.

Lemma add_color_represents h l c b : 0 <= hg_bits h <= 8 -> Forall addition_ok l -> addition_ok (c, b) ->
  represents h l -> represents (add_color h c b) (l ++ [(c, b)]).
Proof.
  intros Hb Hl He [N G]. unfold add_color. destruct (b =? 0) eqn:E.
  - split; auto. intros k. rewrite G. rewrite expected_snoc by auto. cbn [snd]. rewrite E. auto.
  - split; [apply hm_bump_keys; auto|]. intros k. cbn [hg_map with_map hg_bits].
    rewrite hm_get_bump, expected_snoc by auto. cbn [snd fst]. rewrite E. cbn [negb andb].
    rewrite (color_key_posterized (hg_bits h) c Hb (proj1 He)). rewrite (rgba_eqb_sym k).
    destruct (rgba_eqb (posterized (hg_bits h) c) k) eqn:E1; auto.
    apply rgba_eqb_eq in E1. subst k. rewrite G. auto.
Qed.

Definition add_all (h : hist) (es : additions) : hist := fold_left (fun h e => add_color h (fst e) (snd e)) es h.

Lemma add_all_represents es h l : 0 <= hg_bits h <= 8 -> Forall addition_ok l -> Forall addition_ok es ->
  represents h l -> represents (add_all h es) (l ++ es) /\ hg_bits (add_all h es) = hg_bits h /\
  hg_gamma (add_all h es) = hg_gamma h /\ hg_fixed (add_all h es) = hg_fixed h /\ hg_max (add_all h es) = hg_max h.
Proof.
  revert h l. induction es as [|[c b] es IH]; intros h l Hb Hl Hes R; cbn [add_all fold_left].
  - rewrite app_nil_r. auto.
  - inversion Hes; subst. cbn [fst snd]. pose proof (add_color_represents h l c b Hb Hl H1 R) as R'.
    destruct (add_color_other h c b) as (O1 & O2 & O3).
    destruct (IH (add_color h c b) (l ++ [(c, b)])) as (I1 & I2 & I3 & I4 & I5); auto.
    + rewrite add_color_bits; auto.
    + apply Forall_app; auto.
    + unfold add_all in *. rewrite <- app_assoc in I1. cbn in I1.
      rewrite I2, I3, I4, I5, add_color_bits, O1, O2, O3. auto.
Qed.

Lemma add_all_app h a b : add_all h (a ++ b) = add_all (add_all h a) b.
Proof. apply fold_left_app. Qed.

(** Rows of an image. *)
Lemma add_row_all h row imp :
  add_row h row imp = add_all h (map (fun ic => (snd ic, nth (fst ic) imp 255)) (enumerate row)).
Proof.
  unfold add_row, add_all. generalize (enumerate row). intros l. revert h.
  induction l as [|[i c] l IH]; intros h; cbn; auto.
Qed.

Lemma enum_nth_combine {T} (d : T) (row : list rgba) (imp : list T) : length imp = length row ->
  map (fun ic => (snd ic, nth (fst ic) imp d)) (enumerate row) = combine row imp.
Proof.
  intros H. apply list_eq_nth_error. intros i. rewrite nth_error_map, nth_error_enumerate, nth_error_combine.
  destruct (nth_error row i) as [c|] eqn:E; cbn; auto.
  assert (i < length imp)%nat by (rewrite H; apply nth_error_Some; congruence).
  rewrite (nth_error_nth' imp d H0). auto.
Qed.
Lemma enum_nth_default (row : list rgba) :
  map (fun ic => (snd ic, nth (fst ic) [] 255)) (enumerate row) = combine row (repeat 255 (length row)).
Proof.
  apply list_eq_nth_error. intros i. rewrite nth_error_map, nth_error_enumerate, nth_error_combine.
  destruct (nth_error row i) as [c|] eqn:E; cbn; auto.
  assert (i < length row)%nat by (apply nth_error_Some; congruence).
  rewrite nth_error_repeat by auto. destruct i; auto.
Qed.

Lemma combine_app {X Y} (a b : list X) (c d : list Y) : length a = length c ->
  combine (a ++ b) (c ++ d) = combine a c ++ combine b d.
Proof. revert c. induction a as [|x a IH]; intros [|y c]; cbn; intros H; try discriminate; auto. f_equal; auto. Qed.

Lemma concat_combine_rows {X Y} (rows : list (list X)) (ims : list (list Y)) :
  Forall2 (fun r m => length r = length m) rows ims ->
  concat (map (fun rm => combine (fst rm) (snd rm)) (combine rows ims)) = combine (concat rows) (concat ims).
Proof. induction 1; cbn; auto. rewrite IHForall2. symmetry. apply combine_app; auto. Qed.

Definition rows_adds (rows : list (list rgba)) (imps : list (list Z)) : additions :=
  concat (map (fun ir => map (fun ic => (snd ic, nth (fst ic) (nth (fst ir) imps []) 255)) (enumerate (snd ir))) (enumerate rows)).

Lemma add_rows_all h rows imps :
  fold_left (fun h ir => add_row h (snd ir) (nth (fst ir) imps [])) (enumerate rows) h = add_all h (rows_adds rows imps).
Proof.
  unfold rows_adds. generalize (enumerate rows). intros l. revert h.
  induction l as [|[i r] l IH]; intros h; cbn [fold_left map concat fst snd]; auto. rewrite add_all_app, IH, add_row_all. auto.
Qed.

Lemma rows_adds_image width rows imp : (0 < width)%nat -> Forall (fun r => length r = width) rows ->
  (forall m, imp = Some m -> length m = (width * length rows)%nat) ->
  rows_adds rows (match imp with None => [] | Some m => chunks_exact width m end) = image_additions width rows imp.
Proof.
  intros Hw Hr Hm. unfold rows_adds, image_additions. destruct imp as [m|].
  - specialize (Hm m eq_refl). rewrite (chunks_exact_eq width (length rows) m Hw Hm).
    assert (Hl : length (chunks width m) = length rows).
    { rewrite chunks_length, Hm by auto. replace (width * length rows + width - 1)%nat with (length rows * width + (width - 1))%nat by lia.
      rewrite Nat.div_add_l by lia. rewrite (Nat.div_small (width - 1)) by lia. lia. }
    assert (Hc : Forall (fun c => length c = width) (chunks width m)).
    {
      pose proof (chunks_exact_eq width (length rows) m Hw Hm) as E. unfold chunks_exact in E.
      rewrite <- E. apply Forall_forall. intros c Hc. apply filter_In in Hc as [_ Hc]. apply Nat.eqb_eq; auto. }
    replace (combine (concat rows) m) with (combine (concat rows) (concat (chunks width m)))
      by (rewrite chunks_concat; auto).
    rewrite <- concat_combine_rows.
    2:{ clear Hm. revert Hl Hc. generalize (chunks width m). induction rows as [|r rows IH]; intros [|c cs] Hl Hc; try discriminate; constructor.
        - inversion Hr; inversion Hc; congruence.
        - apply IH; [inversion Hr; auto | cbn in Hl; lia | inversion Hc; auto]. }
    f_equal. apply list_eq_nth_error. intros i. rewrite !nth_error_map, nth_error_enumerate, nth_error_combine.
    destruct (nth_error rows i) as [r|] eqn:E; cbn; auto.
    assert (i < length (chunks width m))%nat by (rewrite Hl; apply nth_error_Some; congruence).
    destruct (nth_error (chunks width m) i) as [c|] eqn:E1; [|apply nth_error_None in E1; lia].
    cbn. f_equal. rewrite (nth_error_nth _ _ _ E1). apply enum_nth_combine.
    rewrite Forall_forall in Hr, Hc. rewrite (Hr r), (Hc c); eauto using nth_error_In.
  - replace (repeat 255 (length (concat rows))) with (concat (map (fun r : list rgba => repeat 255 (length r)) rows)).
    2:{ clear. induction rows; cbn; auto. rewrite app_length, repeat_app. f_equal. auto. }
    rewrite <- concat_combine_rows.
    2:{ clear. induction rows; cbn; constructor; auto. rewrite repeat_length; auto. }
    f_equal. apply list_eq_nth_error. intros i. rewrite !nth_error_map, nth_error_enumerate, nth_error_combine, nth_error_map.
    destruct (nth_error rows i) as [r|] eqn:E; cbn; auto. f_equal.
    replace (match i with O | _ => @nil Z end) with (@nil Z) by (destruct i; auto). apply enum_nth_default.
Qed.
End Count.

(** * Sequences of calls on a histogram *)
From Verif Require Import Order ImageFacts.
Local Open Scope Z_scope.

Lemma hm_insert_NoDup m k v : NoDup (map fst m) -> NoDup (map fst (hm_insert m k v)).
Proof. apply hm_insert_keys. Qed.
Lemma fold_insert_NoDup (g : rgba -> rgba) l m : NoDup (map fst m) ->
  NoDup (map fst (fold_left (fun m e => hm_insert m (g (fst e)) (snd e)) l m)).
Proof. revert m. induction l as [|e l IH]; intros m H; cbn [fold_left]; auto. apply IH. apply hm_insert_NoDup; auto. Qed.

Section Calls.
Context {A : Arith} {C : CastLaws A}.
Variable u : unspec.

Lemma init_bits_mono h b : hg_bits h <= hg_bits (init_posterize_bits u h b).
Proof. unfold init_posterize_bits. destruct (Z.leb_spec b (hg_bits h)); cbn; lia. Qed.
Lemma init_bits_same h b : hg_bits (init_posterize_bits u h b) = hg_bits h -> init_posterize_bits u h b = h.
Proof. unfold init_posterize_bits. destruct (Z.leb_spec b (hg_bits h)); cbn; auto. intros; lia. Qed.
Lemma init_bits_other h b : hg_gamma (init_posterize_bits u h b) = hg_gamma h /\
  hg_fixed (init_posterize_bits u h b) = hg_fixed h /\ hg_max (init_posterize_bits u h b) = hg_max h.
Proof. unfold init_posterize_bits. destruct (b <=? hg_bits h); auto. Qed.

(** What [add_pixel_rows] does after the pixels have been counted. *)
Definition settle (h : hist) (bits : Z) : hist :=
  let h := init_posterize_bits u h bits in
  if ((hg_max h <? Z.of_nat (length (hg_map h))) && (hg_bits h <? 3))%bool
  then init_posterize_bits u h (hg_bits h + 1) else h.
Lemma settle_mono h b : hg_bits h <= hg_bits (settle h b).
Proof.
  unfold settle. cbv zeta. pose proof (init_bits_mono h b).
  destruct (_ && _)%bool; auto. pose proof (init_bits_mono (init_posterize_bits u h b) (hg_bits (init_posterize_bits u h b) + 1)). lia.
Qed.
Lemma settle_same h b : hg_bits (settle h b) = hg_bits h -> settle h b = h.
Proof.
  unfold settle. cbv zeta. pose proof (init_bits_mono h b).
  destruct (_ && _)%bool; intros E.
  - exfalso. unfold init_posterize_bits at 1 in E.
    destruct (Z.leb_spec (hg_bits (init_posterize_bits u h b) + 1) (hg_bits (init_posterize_bits u h b))); [lia|].
    cbn [hg_bits with_map with_bits] in E. lia.
  - apply init_bits_same; auto.
Qed.

Lemma add_pixel_rows_eq h width rows imp bits : (0 < width)%nat -> Forall (fun r => length r = width) rows ->
  (forall m, imp = Some m -> length m = (width * length rows)%nat) ->
  add_pixel_rows u h width rows imp bits = settle (add_all h (image_additions width rows imp)) bits.
Proof.
  intros Hw Hr Hm. unfold add_pixel_rows. cbv zeta. rewrite add_rows_all.
  rewrite (rows_adds_image width rows imp Hw Hr Hm). reflexivity.
Qed.

(** The calls that put colours into a histogram.  [CImage] carries the pixels
    the image shows, the attributes, callback and world of the call. *)
Inductive hcall :=
| HColors (es : additions) (g : f64)
| HImage (a : attrs) (cb : callback) (i : image) (pxs : list (list rgba)) (w : world)
| HFixed (c : rgba) (g : f64).

Definition hcall_ok (c : hcall) : Prop :=
  match c with
  | HColors es _ => Forall addition_ok es
  | HImage _ _ i pxs _ => image_ok i pxs
  | HFixed c _ => rgba_ok c
  end.

(** The histogram after a call, whether it succeeds or not. *)
Definition hstep (h : hist) (c : hcall) : hist :=
  match c with
  | HColors es g => match add_colors h es g with Ok h' => h' | _ => h end
  | HImage a cb i _ w => let '(_, (h', _, _)) := add_image u cb a (h, i, w) in h'
  | HFixed c g => match hist_add_fixed_color h c g with Ok h' => h' | _ => h end
  end.
(** The additions a call is supposed to make: those of an accepted call; for
    an image, its pixels weighed by the importance map it has after the call
    (the user's, or the generated one). *)
Definition hmade (h : hist) (c : hcall) : additions :=
  match c with
  | HColors es g => match add_colors h es g with Ok _ => es | _ => [] end
  | HImage a cb i pxs w =>
      match add_image u cb a (h, i, w) with
      | (Ok _, (_, i', _)) => image_additions (i_w i) pxs (i_imp i')
      | _ => []
      end
  | HFixed _ _ => []
  end.
Fixpoint hrun (h : hist) (cs : list hcall) : hist * additions :=
  match cs with
  | [] => (h, [])
  | c :: t => let '(h', l) := hrun (hstep h c) t in (h', hmade h c ++ l)
  end.

Lemma represents_map h h' l : hg_map h' = hg_map h -> hg_bits h' = hg_bits h -> represents h l -> represents h' l.
Proof. intros M B [N G]. split; [rewrite M; auto|]. intros k. rewrite M, B. auto. Qed.

Lemma image_additions_ok w pxs imp : Forall (fun r => Forall rgba_ok r) pxs -> (forall m, imp = Some m -> Forall byte m) ->
  Forall addition_ok (image_additions w pxs imp).
Proof.
  intros P M. unfold image_additions. apply Forall_forall. intros [c n] Hin.
  pose proof (in_combine_l _ _ _ _ Hin) as H1. pose proof (in_combine_r _ _ _ _ Hin) as H2. split; cbn [fst snd].
  - apply in_concat in H1 as (r & Hr & Hc). rewrite Forall_forall in P. specialize (P r Hr). rewrite Forall_forall in P. auto.
  - unfold U32_MAX. destruct imp as [m|].
    + specialize (M m eq_refl). rewrite Forall_forall in M. apply M in H2. unfold byte in H2. lia.
    + apply repeat_spec in H2. lia.
Qed.

(** [add_image] taken apart. *)
Lemma add_image_spec cb a h i w pxs : image_ok i pxs ->
  exists i', i_w i' = i_w i /\ i_h i' = i_h i /\ image_ok i' pxs /\ same_px (i_px i) (i_px i') /\
    i_fixed i' = i_fixed i /\ i_bg i' = i_bg i /\
    (forall m, i_imp i = Some m -> i' = i) /\ (a_contrast a = false -> i' = i) /\
    let h1 := add_image_fixed (with_gamma h (image_gamma i)) (i_fixed i) in
    let w1 := World (fofZ (a_st1 a) *f flit 40 100 :: w_trace w) (w_tick w) in
    add_image u cb a (h, i, w) =
      if cb (w_trace w) (fofZ (a_st1 a) *f flit 40 100) then (Err Aborted, (h1, i', w1))
      else match all_rgba_rows (i_px i) with
           | Ok _ => (Ok tt, (settle (add_all h1 (image_additions (i_w i) pxs (i_imp i'))) (posterize_bits a), i', w1))
           | _ => (Err Unsupported, (h1, i', w1))
           end.
Proof.
  intros I.
  assert (G : exists i', match i_imp i with None => if a_contrast a then contrast_maps i else Ok i | Some _ => Ok i end = Ok i' /\
     i_w i' = i_w i /\ i_h i' = i_h i /\ image_ok i' pxs /\ same_px (i_px i) (i_px i') /\ i_fixed i' = i_fixed i /\ i_bg i' = i_bg i /\
     (forall m, i_imp i = Some m -> i' = i) /\ (a_contrast a = false -> i' = i)).
  { destruct (i_imp i) as [m|] eqn:E.
    - exists i. unfold same_px. repeat (split; auto).
    - destruct (a_contrast a).
      + destruct (contrast_maps_ok i pxs I) as (i' & E1 & I1 & H1 & H2 & H3 & H4 & H5 & H6).
        exists i'. repeat (split; auto); intros; discriminate.
      + exists i. unfold same_px. repeat (split; auto). }
  destruct G as (i' & E & H1 & H2 & H3 & H4 & H5 & H6 & H7 & H8). exists i'.
  do 8 (split; auto). cbv zeta. unfold add_image. rewrite E. unfold progress.
  assert (GM : image_gamma i' = image_gamma i). { unfold image_gamma. destruct H4 as (_ & _ & _ & ->). auto. }
  assert (AR : all_rgba_rows (i_px i') = all_rgba_rows (i_px i)).
  { unfold all_rgba_rows. destruct H4 as (Q1 & Q2 & Q3 & Q4). rewrite Q3, Q2.
    assert (R : mapM (row_rgba (i_px i')) (seq 0 (d_h (i_px i))) = mapM (row_rgba (i_px i)) (seq 0 (d_h (i_px i)))).
    { apply mapM_ext. intros y _. unfold row_rgba. rewrite Q3, Q1. auto. }
    destruct (d_src (i_px i)) as [bf [|? ?]|]; auto. }
  rewrite GM, H5. destruct (cb (w_trace w) (fofZ (a_st1 a) *f flit 40 100)); auto.
  rewrite AR. destruct (all_rgba_rows_shows (i_px i) pxs (im_px _ _ I)) as [R|[R _]]; rewrite R; auto.
  f_equal. f_equal. f_equal. rewrite H1. apply add_pixel_rows_eq.
  - apply (sh_w _ _ (im_px _ _ I)).
  - eapply Forall_impl; [|apply (sh_rows _ _ (im_px _ _ I))]. cbn. tauto.
  - intros m Hm. rewrite (sh_len _ _ (im_px _ _ I)). destruct (im_imp _ _ H3 m Hm) as [L _]. rewrite L, H1, H2. reflexivity.
Qed.

Lemma add_image_fixed_other h f : hg_map (add_image_fixed h f) = hg_map h /\ hg_bits (add_image_fixed h f) = hg_bits h /\
  hg_gamma (add_image_fixed h f) = hg_gamma h /\ hg_max (add_image_fixed h f) = hg_max h.
Proof. unfold add_image_fixed, with_fixed. auto. Qed.

Lemma hstep_mono h c : hcall_ok c -> hg_bits h <= hg_bits (hstep h c).
Proof.
  intros K. destruct c as [es g|a cb i pxs w|c g]; cbn [hstep].
  - unfold add_colors. destruct (_ || _)%bool; [lia|]. destruct (negb _); [lia|].
    set (h0 := match hg_gamma h with None => _ | Some _ => _ end).
    assert (B : hg_bits h0 = hg_bits h) by (unfold h0; destruct (hg_gamma h); auto; destruct (d0 <d g); auto).
    rewrite <- B. clear B. generalize h0. induction es as [|e es IH]; intros h1; cbn [fold_left]; [lia|].
    inversion K; subst. specialize (IH H2 (add_color h1 (fst e) (snd e))). rewrite add_color_bits in IH. auto.
  - destruct (add_image_spec cb a h i w pxs K) as (i' & _ & _ & _ & _ & _ & _ & _ & _ & E). cbv zeta in E. rewrite E. clear E.
    destruct (add_image_fixed_other (with_gamma h (image_gamma i)) (i_fixed i)) as (_ & B & _).
    destruct (cb _ _); [rewrite B; cbn; lia|]. destruct (all_rgba_rows (i_px i)); try (rewrite B; cbn; lia).
    eapply Z.le_trans; [|apply settle_mono].
    generalize (image_additions (i_w i) pxs (i_imp i')). intros l.
    assert (G : forall h, hg_bits (add_all h l) = hg_bits h).
    { clear. induction l as [|e l IH]; intros h; cbn [add_all fold_left]; auto. unfold add_all in IH. rewrite IH. apply add_color_bits. }
    rewrite G, B. cbn. lia.
  - unfold hist_add_fixed_color. destruct (Nat.leb _ _); [lia|]. destruct (hg_gamma h); [|destruct (d0 <d g)]; cbn; lia.
Qed.
Lemma hrun_mono cs : forall h, Forall hcall_ok cs -> hg_bits h <= hg_bits (fst (hrun h cs)).
Proof.
  induction cs as [|c cs IH]; intros h K; cbn [hrun]; [cbn; lia|]. inversion K; subst.
  specialize (IH (hstep h c) H2). destruct (hrun (hstep h c) cs) as [h' l]. cbn [fst] in *.
  pose proof (hstep_mono h c H1). lia.
Qed.

Lemma hmade_ok h c : hcall_ok c -> Forall addition_ok (hmade h c).
Proof.
  intros K. destruct c as [es g|a cb i pxs w|c g]; cbn [hmade]; [destruct (add_colors h es g); auto| |constructor].
  destruct (add_image_spec cb a h i w pxs K) as (i' & _ & _ & I' & _ & _ & _ & _ & _ & E). cbv zeta in E. rewrite E. clear E.
  destruct (cb _ _); [constructor|]. destruct (all_rgba_rows (i_px i)); try constructor.
  apply image_additions_ok.
  - eapply Forall_impl; [|apply (sh_rows _ _ (im_px _ _ K))]. cbn. tauto.
  - intros m Hm. apply (im_imp _ _ I' m Hm).
Qed.

Lemma hstep_represents h c l : 0 <= hg_bits h <= 8 -> Forall addition_ok l -> hcall_ok c ->
  hg_bits (hstep h c) = hg_bits h -> represents h l -> represents (hstep h c) (l ++ hmade h c).
Proof.
  intros B L K E R. destruct c as [es g|a cb i pxs w|c g]; cbn [hstep hmade] in *.
  - unfold add_colors in *. destruct (_ || _)%bool; [rewrite app_nil_r; auto|]. destruct (negb _); [rewrite app_nil_r; auto|].
    set (h0 := match hg_gamma h with None => _ | Some _ => _ end) in *.
    assert (M0 : hg_map h0 = hg_map h /\ hg_bits h0 = hg_bits h) by (unfold h0; destruct (hg_gamma h); auto; destruct (d0 <d g); auto).
    destruct M0 as [M0 B0]. apply (add_all_represents es h0 l); auto; [lia|]. eapply represents_map; eauto.
  - destruct (add_image_spec cb a h i w pxs K) as (i' & _ & _ & I' & _ & _ & _ & _ & _ & E'). cbv zeta in E'. rewrite E' in *. clear E'.
    destruct (add_image_fixed_other (with_gamma h (image_gamma i)) (i_fixed i)) as (M1 & B1 & _).
    set (h1 := add_image_fixed (with_gamma h (image_gamma i)) (i_fixed i)) in *.
    assert (R1 : represents h1 l) by (eapply represents_map; eauto).
    destruct (cb _ _); [rewrite app_nil_r; auto|]. destruct (all_rgba_rows (i_px i)); try (rewrite app_nil_r; exact R1).
    assert (OK : Forall addition_ok (image_additions (i_w i) pxs (i_imp i'))).
    { apply image_additions_ok.
      - eapply Forall_impl; [|apply (sh_rows _ _ (im_px _ _ K))]. cbn. tauto.
      - intros m Hm. apply (im_imp _ _ I' m Hm). }
    change (hg_bits h1 = hg_bits h) in B1. destruct (add_all_represents (image_additions (i_w i) pxs (i_imp i')) h1 l) as (R2 & B2 & _); auto; try lia.
    rewrite settle_same; auto. rewrite E, B2; auto.
  - unfold hist_add_fixed_color in *. rewrite app_nil_r. destruct (Nat.leb _ _); auto.
    destruct (hg_gamma h); [|destruct (d0 <d g)]; (eapply represents_map; [| |exact R]); auto.
Qed.

Lemma hrun_represents cs : forall h l, 0 <= hg_bits h <= 8 -> Forall addition_ok l -> Forall hcall_ok cs ->
  hg_bits (fst (hrun h cs)) = hg_bits h -> represents h l ->
  represents (fst (hrun h cs)) (l ++ snd (hrun h cs)).
Proof.
  induction cs as [|c cs IH]; intros h l B L K E R; cbn [hrun] in *; [rewrite app_nil_r; auto|].
  inversion K; subst. pose proof (hstep_mono h c H1) as M1. pose proof (hrun_mono cs (hstep h c) H2) as M2.
  destruct (hrun (hstep h c) cs) as [h' l'] eqn:Q. cbn [fst snd] in *.
  rewrite app_assoc. specialize (IH (hstep h c) (l ++ hmade h c)). rewrite Q in IH. cbn [fst snd] in IH. apply IH; auto; try lia.
  - apply Forall_app; split; auto. apply hmade_ok; auto.
  - apply hstep_represents; auto. lia.
Qed.

(** C22 *)
Lemma histogram_counts a cs : 0 <= posterize_bits a <= 8 -> Forall hcall_ok cs ->
  let '(h, made) := hrun (hist_new a) cs in
  hg_bits h = posterize_bits a ->
  NoDup (map fst (hg_map h)) /\
  (forall k, hm_get (hg_map h) k = expected (posterize_bits a) made k).
Proof.
  intros B K. pose proof (hrun_represents cs (hist_new a) []) as R. destruct (hrun (hist_new a) cs) as [h made]. cbn [fst snd] in R.
  intros E. assert (R0 : represents (hist_new a) []) by (split; [constructor|intros k; reflexivity]).
  destruct (R B (Forall_nil _) K E R0) as [N G].
  split; auto. intros k. rewrite G, E. auto.
Qed.

Lemma zsum_perm l l' : Permutation l l' -> zsum l = zsum l'.
Proof. induction 1; cbn [zsum]; lia. Qed.
Lemma filter_perm {T} (f : T -> bool) l l' : Permutation l l' -> Permutation (filter f l) (filter f l').
Proof.
  induction 1; cbn; auto.
  - destruct (f x); auto.
  - destruct (f x), (f y); auto. constructor.
  - etransitivity; eauto.
Qed.
Lemma expected_perm b l l' k : Permutation l l' -> option_map fst (expected b l k) = option_map fst (expected b l' k).
Proof.
  intros P. unfold expected. pose proof (filter_perm (fun e => negb (snd e =? 0) && rgba_eqb (posterized b (fst e)) k)%bool l l' P) as Q.
  fold (falling_on b l k) in Q. fold (falling_on b l' k) in Q.
  destruct (falling_on b l k) as [|e t]; destruct (falling_on b l' k) as [|e' t'].
  - auto.
  - apply Permutation_nil_cons in Q; contradiction.
  - apply Permutation_sym in Q. apply Permutation_nil_cons in Q; contradiction.
  - cbn [option_map fst]. rewrite (zsum_perm (map snd (e :: t)) (map snd (e' :: t'))); auto. apply Permutation_map; auto.
Qed.

(** C25: what a zero weight does. *)
Definition weighed (e : rgba * Z) : bool := negb (snd e =? 0).
Lemma add_all_ignores_zero es : forall h, add_all h es = add_all h (filter weighed es).
Proof.
  induction es as [|[c n] es IH]; intros h; cbn [filter]; auto. unfold weighed at 1. cbn [snd].
  destruct (Z.eqb_spec n 0) as [->|]; cbn [negb].
  - cbn [add_all fold_left fst snd]. change (add_color h c 0) with h. apply IH.
  - cbn [add_all fold_left fst snd]. apply IH.
Qed.

Lemma zero_importance_ignored cb a h i j w pxs pys mi mj :
  image_ok i pxs -> image_ok j pys -> i_imp i = Some mi -> i_imp j = Some mj ->
  i_fixed i = i_fixed j -> d_gamma (i_px i) = d_gamma (i_px j) -> ~ released (i_px i) -> ~ released (i_px j) ->
  filter weighed (combine (concat pxs) mi) = filter weighed (combine (concat pys) mj) ->
  fst (add_image u cb a (h, i, w)) = fst (add_image u cb a (h, j, w)) /\
  hstep h (HImage a cb i pxs w) = hstep h (HImage a cb j pys w).
Proof.
  intros I J Mi Mj F G Ri Rj E. cbn [hstep].
  destruct (add_image_spec cb a h i w pxs I) as (i' & _ & _ & _ & _ & _ & _ & Ei & _ & Si). specialize (Ei mi Mi). subst i'.
  destruct (add_image_spec cb a h j w pys J) as (j' & _ & _ & _ & _ & _ & _ & Ej & _ & Sj). specialize (Ej mj Mj). subst j'.
  cbv zeta in Si, Sj. rewrite Si, Sj. clear Si Sj.
  rewrite (all_rgba_rows_live _ _ (im_px _ _ I) Ri), (all_rgba_rows_live _ _ (im_px _ _ J) Rj).
  rewrite F. replace (image_gamma i) with (image_gamma j) by (unfold image_gamma; rewrite G; auto).
  destruct (cb _ _); auto. split; auto.
  f_equal. unfold image_additions. rewrite Mi, Mj, add_all_ignores_zero, E, <- add_all_ignores_zero. auto.
Qed.

(** C23, what does hold when the histogram is coarsened. *)
Definition total_weight (h : hist) : Z := zsum (map (fun e => fst (snd e)) (hg_map h)).
Definition weights_ok (h : hist) : Prop := NoDup (map fst (hg_map h)) /\ Forall (fun e => 0 <= fst (snd e) <= U32_MAX) (hg_map h).

Definition wt (m : hmap) : Z := zsum (map (fun e => fst (snd e)) m).
Lemma wt_insert m k v : NoDup (map fst m) -> wt (hm_insert m k v) = wt m + fst v - match hm_get m k with Some v0 => fst v0 | None => 0 end.
Proof.
  intros N. unfold wt. induction m as [|[k1 v1] m IH]; cbn [hm_insert hm_get].
  - cbn. lia.
  - inversion N; subst. destruct (rgba_eqb k k1); cbn [map zsum snd]; [lia|]. rewrite IH by auto. lia.
Qed.
Lemma wt_nonneg m : Forall (fun e : rgba * (Z * rgba) => 0 <= fst (snd e) <= U32_MAX) m -> 0 <= wt m.
Proof. unfold wt. induction 1; cbn; lia. Qed.
Lemma wt_perm m m' : Permutation m m' -> wt m = wt m'.
Proof. intros P. apply zsum_perm. apply Permutation_map; auto. Qed.

Lemma fold_insert_props (g : rgba -> rgba) l : forall m, NoDup (map fst m) ->
  Forall (fun e : rgba * (Z * rgba) => 0 <= fst (snd e) <= U32_MAX) m ->
  Forall (fun e : rgba * (Z * rgba) => 0 <= fst (snd e) <= U32_MAX) l ->
  let m' := fold_left (fun m e => hm_insert m (g (fst e)) (snd e)) l m in
  wt m' <= wt m + wt l /\
  Forall (fun e : rgba * (Z * rgba) => 0 <= fst (snd e) <= U32_MAX) m' /\
  (forall k, In k (map fst m') <-> In k (map fst m) \/ In k (map (fun e => g (fst e)) l)) /\
  (forall k v, In (k, v) m' -> In (k, v) m \/ exists k0, In (k0, v) l /\ g k0 = k) /\
  (NoDup (map (fun e => g (fst e)) l) -> (forall k, In k (map fst m) -> ~ In k (map (fun e => g (fst e)) l)) -> wt m' = wt m + wt l).
Proof.
  induction l as [|[k0 v0] l IH]; intros m N F L; cbn [fold_left fst snd].
  - cbv zeta. repeat split; auto; try (unfold wt at 3; cbn; lia); try (cbn; tauto).
  - inversion L; subst. cbn [snd] in H1.
    assert (F' : Forall (fun e : rgba * (Z * rgba) => 0 <= fst (snd e) <= U32_MAX) (hm_insert m (g k0) v0)).
    { clear - F H1. induction F as [|[k1 v1] m H F IH]; cbn; [repeat constructor; cbn; lia|]. destruct (rgba_eqb (g k0) k1); constructor; auto. }
    destruct (hm_insert_keys m (g k0) v0 N) as [N' KS].
    destruct (IH (hm_insert m (g k0) v0) N' F' H2) as (I1 & I2 & I3 & I4 & I5). cbv zeta in *.
    pose proof (wt_insert m (g k0) v0 N) as WI.
    assert (WL : wt ((k0, v0) :: l) = fst v0 + wt l) by reflexivity.
    assert (GP : 0 <= match hm_get m (g k0) with Some v => fst v | None => 0 end).
    { destruct (hm_get m (g k0)) as [v|] eqn:E; [|lia]. apply hm_get_in in E. rewrite Forall_forall in F. apply F in E. cbn in E. lia. }
    split; [lia|]. split; auto. split; [|split].
    + intros k. rewrite I3, KS. cbn [map In fst]. intuition congruence.
    + intros k v Hin. apply I4 in Hin as [Hin|(k1 & Hin & Hg)].
      * assert (Q : hm_get (hm_insert m (g k0) v0) k = Some v) by (apply in_hm_get; auto).
        rewrite hm_get_insert in Q. destruct (rgba_eqb k (g k0)) eqn:E.
        -- inversion Q; subst. apply rgba_eqb_eq in E. right. exists k0. split; [left; auto|auto].
        -- left. apply hm_get_in; auto.
      * right. exists k1. split; [right; auto|auto].
    + intros ND DJ. cbn [map fst] in ND, DJ. inversion ND; subst. rewrite I5; auto.
      * rewrite WI. destruct (hm_get m (g k0)) as [v|] eqn:E; [|lia].
        exfalso. apply hm_get_in in E. apply (DJ (g k0)); [apply in_map_iff; eexists; split; [|exact E]; auto|left; auto].
      * intros k Hk Hk'. apply KS in Hk as [->|Hk]; [auto|]. apply (DJ k Hk). right; auto.
Qed.

Lemma coarsen_spec h bits : unspec_ok u -> weights_ok h -> hg_bits h < bits ->
  let h' := init_posterize_bits u h bits in
  weights_ok h' /\ hg_bits h' = bits /\
  (forall k, In k (map fst (hg_map h')) <-> exists k0, In k0 (map fst (hg_map h)) /\ mask_rgba bits k0 = k) /\
  (forall k v, In (k, v) (hg_map h') -> exists k0, In (k0, v) (hg_map h) /\ mask_rgba bits k0 = k) /\
  total_weight h' <= total_weight h /\
  ((forall k1 k2, In k1 (map fst (hg_map h)) -> In k2 (map fst (hg_map h)) -> mask_rgba bits k1 = mask_rgba bits k2 -> k1 = k2) ->
   total_weight h' = total_weight h).
Proof.
  intros U [N F] B. unfold init_posterize_bits. destruct (Z.leb_spec bits (hg_bits h)); [lia|]. cbv zeta. unfold weights_ok, total_weight. cbn [hg_map with_map with_bits hg_bits].
  pose proof (uo_map u U (hg_map h)) as P.
  assert (F' : Forall (fun e : rgba * (Z * rgba) => 0 <= fst (snd e) <= U32_MAX) (u_map u (hg_map h))).
  { apply Forall_forall. intros e He. rewrite Forall_forall in F. apply F. eapply Permutation_in; [apply Permutation_sym; exact P|auto]. }
  destruct (fold_insert_props (mask_rgba bits) (u_map u (hg_map h)) [] (NoDup_nil _) (Forall_nil _) F') as (I1 & I2 & I3 & I4 & I5). cbv zeta in *.
  fold (wt (hg_map h)). match type of I2 with Forall _ ?m => set (m' := m) in * end. fold (wt m'). rewrite (wt_perm _ _ P).
  assert (PF : Permutation (map fst (hg_map h)) (map fst (u_map u (hg_map h)))) by (apply Permutation_map; auto).
  split; [split; auto; apply fold_insert_NoDup; constructor|]. split; auto. split; [|split; [|split]].
  - intros k. rewrite I3. cbn [map In]. rewrite in_map_iff. split.
    + intros [[]|(e & <- & He)]. exists (fst e). split; auto. apply Permutation_sym in P. apply (Permutation_in _ P) in He. apply in_map; auto.
    + intros (k0 & Hk & <-). right. apply (Permutation_in _ PF) in Hk. apply in_map_iff in Hk as (e & <- & He). exists e; auto.
  - intros k v Hin. apply I4 in Hin as [[]|(k0 & Hin & Hg)]. exists k0. split; auto. apply Permutation_sym in P. eapply Permutation_in; eauto.
  - unfold wt at 2 in I1. cbn [map zsum] in I1. lia.
  - intros Inj. rewrite I5; [unfold wt at 1; cbn [map zsum]; lia| |cbn; tauto].
    rewrite <- map_map. assert (NN : NoDup (map fst (u_map u (hg_map h)))) by (eapply Permutation_NoDup; eauto).
    assert (Inj' : forall k1 k2, In k1 (map fst (u_map u (hg_map h))) -> In k2 (map fst (u_map u (hg_map h))) -> mask_rgba bits k1 = mask_rgba bits k2 -> k1 = k2).
    { intros k1 k2 H1 H2. apply Inj; (eapply Permutation_in; [apply Permutation_sym; exact PF|]); auto. }
    revert NN Inj'. generalize (map fst (u_map u (hg_map h))). clear. induction l as [|k l IH]; intros NN Inj; cbn; constructor.
    + inversion NN; subst. intros Hin. apply in_map_iff in Hin as (k2 & E & Hin). apply Inj in E; [subst; auto|right; auto|left; auto].
    + inversion NN; subst. apply IH; auto. intros; apply Inj; auto; right; auto.
Qed.

(** C24: fixed colours. *)
Lemma hs_insert_length s x : (length (hs_insert s x) <= S (length s))%nat.
Proof. unfold hs_insert. destruct (existsb (hc_eqb x) s); [lia|]. rewrite app_length. cbn. lia. Qed.
Lemma hist_add_fixed_spec h c g :
  ((256 <= length (hg_fixed h))%nat /\ hist_add_fixed_color h c g = Err Unsupported) \/
  ((length (hg_fixed h) < 256)%nat /\ exists h', hist_add_fixed_color h c g = Ok h' /\ (length (hg_fixed h') <= 256)%nat /\
     hg_map h' = hg_map h /\ hg_bits h' = hg_bits h).
Proof.
  unfold hist_add_fixed_color, MAX_COLORS. destruct (Nat.leb_spec 256 (length (hg_fixed h))); [left; auto|right]. split; auto.
  eexists; split; [reflexivity|]. set (h0 := match hg_gamma h with None => _ | Some _ => _ end).
  assert (E : hg_fixed h0 = hg_fixed h /\ hg_map h0 = hg_map h /\ hg_bits h0 = hg_bits h) by (unfold h0; destruct (hg_gamma h); auto; destruct (d0 <d g); auto).
  destruct E as (E1 & E2 & E3). cbn [hg_fixed with_fixed hg_map hg_bits]. rewrite E1, E2, E3. split; auto.
  pose proof (hs_insert_length (hg_fixed h) (c, wrap8 (Z.of_nat (length (hg_fixed h))))). lia.
Qed.
Lemma image_add_fixed_spec i c :
  ((256 <= length (i_fixed i))%nat /\ image_add_fixed_color i c = Err Unsupported) \/
  ((length (i_fixed i) < 256)%nat /\ exists i', image_add_fixed_color i c = Ok i' /\ i_fixed i' = i_fixed i ++ [c]).
Proof.
  unfold image_add_fixed_color, MAX_COLORS. destruct (Nat.leb_spec 256 (length (i_fixed i))); [left; auto|right]. split; auto.
  eexists; split; [reflexivity|]. reflexivity.
Qed.

(** Fixed colours not present yet are all added. *)
Lemma fixed_all_new l : forall s b, NoDup l -> (forall c, In c l -> ~ In c (map fst s)) ->
  length (fold_left (fun s ic => hs_insert s (snd ic, wrap8 (Z.of_nat (fst ic)))) (combine (seq b (length l)) l) s)
    = (length s + length l)%nat /\
  (forall c, In c (map fst (fold_left (fun s ic => hs_insert s (snd ic, wrap8 (Z.of_nat (fst ic)))) (combine (seq b (length l)) l) s)) ->
     In c (map fst s) \/ In c l).
Proof.
  induction l as [|c l IH]; intros s b N D; cbn [length seq combine fold_left fst snd].
  - split; [lia|auto].
  - inversion N; subst.
    assert (E : hs_insert s (c, wrap8 (Z.of_nat b)) = s ++ [(c, wrap8 (Z.of_nat b))]).
    { unfold hs_insert. destruct (existsb _ s) eqn:X; auto. exfalso. apply existsb_exists in X as ([c' k] & Hin & X).
      unfold hc_eqb in X. cbn [fst snd] in X. apply andb_true_iff in X as [X _]. apply rgba_eqb_eq in X. subst c'.
      apply (D c); [left; auto|]. apply in_map_iff. exists (c, k). auto. }
    rewrite E. destruct (IH (s ++ [(c, wrap8 (Z.of_nat b))]) (S b) H2) as [I1 I2].
    + intros c' Hc Hin. rewrite map_app in Hin. apply in_app_iff in Hin as [Hin|[Hin|[]]]; [apply (D c'); [right; auto|auto]|].
      cbn in Hin. subst c'. auto.
    + split; [rewrite I1, app_length; cbn; lia|]. intros c' Hc. apply I2 in Hc as [Hc|Hc]; [|right; right; auto].
      rewrite map_app in Hc. apply in_app_iff in Hc as [Hc|[Hc|[]]]; [auto|right; left; auto].
Qed.
Lemma add_image_fixed_new h l : NoDup l -> (forall c, In c l -> ~ In c (map fst (hg_fixed h))) ->
  length (hg_fixed (add_image_fixed h l)) = (length (hg_fixed h) + length l)%nat /\
  (forall c, In c (map fst (hg_fixed (add_image_fixed h l))) -> In c (map fst (hg_fixed h)) \/ In c l).
Proof. intros N D. unfold add_image_fixed, enumerate. cbn [hg_fixed with_fixed]. apply fixed_all_new; auto. Qed.

Lemma foldM_add_fixed l : forall i, (length (i_fixed i) + length l <= 256)%nat ->
  foldM image_add_fixed_color l i = Ok (set_fixed i (i_fixed i ++ l)).
Proof.
  induction l as [|c l IH]; intros i H; cbn [foldM].
  - rewrite app_nil_r. destruct i; auto.
  - unfold image_add_fixed_color at 1. cbn [length] in H. unfold MAX_COLORS. destruct (Nat.leb_spec 256 (length (i_fixed i))); [lia|].
    cbn [bind]. rewrite IH; cbn [i_fixed set_fixed].
    + rewrite <- app_assoc. destruct i; auto.
    + rewrite app_length. cbn. lia.
Qed.

Lemma add_all_fixed l : forall h, hg_fixed (add_all h l) = hg_fixed h.
Proof.
  induction l as [|e l IH]; intros h; cbn [add_all fold_left]; auto. unfold add_all in IH. rewrite IH. apply add_color_other.
Qed.
Lemma settle_fixed h b : hg_fixed (settle h b) = hg_fixed h.
Proof.
  unfold settle. cbv zeta. destruct (init_bits_other h b) as (_ & F & _).
  destruct (_ && _)%bool; auto. destruct (init_bits_other (init_posterize_bits u h b) (hg_bits (init_posterize_bits u h b) + 1)) as (_ & F2 & _).
  congruence.
Qed.
(** An image added completely adds all its new fixed colours. *)
Lemma add_image_adds_fixed cb a h i w pxs : image_ok i pxs -> ~ released (i_px i) ->
  cb (w_trace w) (fofZ (a_st1 a) *f flit 40 100) = false -> NoDup (i_fixed i) ->
  (forall c, In c (i_fixed i) -> ~ In c (map fst (hg_fixed h))) ->
  let h' := hstep h (HImage a cb i pxs w) in
  fst (add_image u cb a (h, i, w)) = Ok tt /\ 
  length (hg_fixed h') = (length (hg_fixed h) + length (i_fixed i))%nat /\
  (forall c, In c (map fst (hg_fixed h')) -> In c (map fst (hg_fixed h)) \/ In c (i_fixed i)).
Proof.
  intros I R CB N D. cbv zeta. cbn [hstep].
  destruct (add_image_spec cb a h i w pxs I) as (i' & _ & _ & _ & _ & _ & _ & _ & _ & S). cbv zeta in S. rewrite S. clear S.
  rewrite CB, (all_rgba_rows_live _ _ (im_px _ _ I) R). split; auto. rewrite settle_fixed, add_all_fixed.
  apply (add_image_fixed_new (with_gamma h (image_gamma i))); auto.
Qed.
End Calls.
