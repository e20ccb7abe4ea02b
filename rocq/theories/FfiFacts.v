(** Facts about the C interface model [Ffi.v]. *)
From Verif Require Import Base BaseFacts Arith Pal World Attr Hist Nearest Kmeans Blur ImageM Quant Remap Ffi.
Section FfiFacts.
Context {A : Arith}.
Variable u : unspec.
Variable cb : callback.
Open Scope Z_scope.

(** * What the header promises *)
(** The object arguments of a call, with the type they must have. *)
Definition args (c : ccall) : list (handle * tag) :=
  match c with
  | liq_version | liq_attr_create => []
  | liq_attr_copy a | liq_attr_destroy a | liq_set_min_opacity a _ | liq_get_min_opacity a
  | liq_set_last_index_transparent a _ | liq_attr_set_progress_callback a | liq_set_log_callback a | liq_set_log_flush_callback a
  | liq_set_max_colors a _ | liq_get_max_colors a | liq_set_min_posterization a _ | liq_get_min_posterization a
  | liq_set_speed a _ | liq_get_speed a | liq_set_quality a _ _ | liq_get_min_quality a | liq_get_max_quality a
  | liq_image_create_custom a _ _ _ _ | liq_image_create_rgba_rows a _ _ _ _ | liq_image_create_rgba a _ _ _ _
  | liq_histogram_create a => [(a, TAttr)]
  | liq_quantize_image a i | liq_image_quantize i a => [(a, TAttr); (i, TImage)]
  | liq_write_remapped_image q i _ | liq_write_remapped_image_rows q i _ => [(q, TResult); (i, TImage)]
  | liq_image_add_fixed_color i _ | liq_image_get_width i | liq_image_get_height i | liq_image_destroy i
  | liq_image_set_importance_map i _ _ | liq_image_set_memory_ownership i _ => [(i, TImage)]
  | liq_image_set_background i b => [(i, TImage); (b, TImage)]
  | liq_histogram_destroy h | liq_histogram_add_fixed_color h _ _ => [(h, THist)]
  | liq_histogram_add_colors h a _ _ _ | liq_histogram_quantize h a => [(h, THist); (a, TAttr)]
  | liq_histogram_add_image h a i => [(h, THist); (a, TAttr); (i, TImage)]
  | liq_get_palette q | liq_result_set_progress_callback q | liq_set_output_gamma q _ | liq_set_dithering_level q _
  | liq_get_output_gamma q | liq_get_quantization_error q | liq_get_remapping_error q
  | liq_get_quantization_quality q | liq_get_remapping_quality q | liq_result_destroy q => [(q, TResult)]
  end.
(** How a call reports failure: an error code, NULL, -1, or (getters of
    unsigned settings) the largest value; procedures have no way to report. *)
Definition failure (c : ccall) : cret :=
  match c with
  | liq_set_min_opacity _ _ | liq_set_max_colors _ _ | liq_set_min_posterization _ _ | liq_set_speed _ _ | liq_set_quality _ _ _
  | liq_image_quantize _ _ | liq_write_remapped_image _ _ _ | liq_write_remapped_image_rows _ _ _
  | liq_image_add_fixed_color _ _ | liq_image_set_importance_map _ _ _ | liq_image_set_memory_ownership _ _
  | liq_image_set_background _ _ | liq_histogram_add_fixed_color _ _ _ | liq_histogram_add_colors _ _ _ _ _
  | liq_histogram_quantize _ _ | liq_histogram_add_image _ _ _ | liq_set_output_gamma _ _ | liq_set_dithering_level _ _ =>
      RErr (Some InvalidPointer)
  | liq_attr_create | liq_attr_copy _ | liq_quantize_image _ _ | liq_image_create_custom _ _ _ _ _ | liq_image_create_rgba_rows _ _ _ _ _
  | liq_image_create_rgba _ _ _ _ _ | liq_histogram_create _ => RPtr None
  | liq_get_palette _ => RPal None
  | liq_get_min_opacity _ | liq_get_max_colors _ | liq_get_min_posterization _ | liq_get_speed _ | liq_get_min_quality _
  | liq_get_max_quality _ | liq_image_get_width _ | liq_image_get_height _ => RInt U32_MAX
  | liq_get_output_gamma _ | liq_get_quantization_error _ | liq_get_remapping_error _ => RF64 (dsub d0 d1)
  | liq_get_quantization_quality _ | liq_get_remapping_quality _ => RInt (-1)
  | liq_version | liq_attr_destroy _ | liq_set_last_index_transparent _ _ | liq_attr_set_progress_callback _ | liq_set_log_callback _
  | liq_set_log_flush_callback _ | liq_image_destroy _ | liq_histogram_destroy _ | liq_result_set_progress_callback _
  | liq_result_destroy _ => RVoid
  end.
(** [p] points to an object tagged [t]. *)
Definition is_a (s : cstate) (p : handle) (t : tag) : Prop :=
  exists n o, p = Some n /\ nth_error (c_objs s) n = Some o /\ o_tag o = t.
(** The functions that do not check (all of) their objects. *)
Definition unchecked (c : ccall) : bool :=
  match c with
  | liq_set_speed _ _ | liq_image_create_custom _ _ _ _ _
  | liq_set_min_opacity _ _ | liq_get_min_opacity _
  | liq_attr_destroy _ | liq_image_destroy _ | liq_result_destroy _ | liq_histogram_destroy _
  | liq_image_set_background _ _ => true
  | _ => false
  end.

Lemma tag_eqb_eq x y : tag_eqb x y = true <-> x = y.
Proof. destruct x, y; cbn; split; congruence. Qed.
Lemma good_is_a s t p : good s t p = true <-> is_a s p t.
Proof.
  unfold good, obj, is_a. destruct p as [n|].
  - destruct (nth_error (c_objs s) n) as [o|] eqn:E.
    + rewrite tag_eqb_eq. split; [intros H; exists n, o; auto|]. intros (n' & o' & H1 & H2 & H3). congruence.
    + split; [discriminate|]. intros (n' & o' & H1 & H2 & H3). congruence.
  - split; [discriminate|]. intros (n' & o' & H1 & _). discriminate.
Qed.
Lemma good_not s t p : ~ is_a s p t -> good s t p = false.
Proof. intros H. destruct (good s t p) eqn:E; auto. destruct H. apply good_is_a, E. Qed.

Ltac bad H := apply good_not in H; rewrite ?H, ?Bool.andb_false_r; cbn; auto.
Lemma rejects s c : unchecked c = false -> (exists p t, In (p, t) (args c) /\ ~ is_a s p t) -> ccall_run u cb s c = Ret (failure c) s.
Proof.
  intros U (p & t & I & N).
  destruct c; try discriminate U; cbn [args In] in I;
    repeat match goal with H : _ \/ _ |- _ => destruct H as [H|H] end;
    try (destruct I; fail);
    try match goal with H : (_, _) = (p, t) |- _ => apply pair_equal_spec in H as [<- <-] end;
    cbn [ccall_run failure]; try (destruct pixels; [|reflexivity]); unfold guard, invalid, all_ones, minus_one;
    bad N.
Qed.

(** * Coherent states *)
Definition coherent_obj (o : cobj) : Prop :=
  match o_tag o, o_body o with
  | TAttr, BAttr _ | TImage, BImage _ | TImage, Gone | TResult, BResult _ | THist, BHist _ | TFreed, Gone => True
  | _, _ => False
  end.
Definition coherent (s : cstate) : Prop := forall n o, nth_error (c_objs s) n = Some o -> coherent_obj o.
(** [p] is an image that was handed over as a background. *)
Definition handed_over (s : cstate) (p : handle) : Prop := exists n, p = Some n /\ nth_error (c_objs s) n = Some (CObj TImage Gone).
(** The caller's row buffers have the size of the image. *)
Definition rows_fit (s : cstate) (c : ccall) : Prop :=
  match c with
  | liq_write_remapped_image_rows _ p (Some rows) =>
      forall t im, obj s p = Some (CObj t (BImage im)) -> length rows = i_h im /\ Forall (fun r => length r = i_w im) rows
  | _ => True
  end.

Lemma coherent_attr s p k : coherent s -> good s TAttr p = true -> exists a, obj s p = Some (CObj TAttr (BAttr a)) /\ inner_attr s p k = k a.
Proof.
  intros C G. apply good_is_a in G as (n & o & -> & E & T). specialize (C n o E). unfold inner_attr, obj. rewrite E.
  destruct o as [t b]; cbn in T; subst t. destruct b; cbn in C; try tauto. eauto.
Qed.
Lemma coherent_hist s p k : coherent s -> good s THist p = true -> exists a, obj s p = Some (CObj THist (BHist a)) /\ inner_hist s p k = k a.
Proof.
  intros C G. apply good_is_a in G as (n & o & -> & E & T). specialize (C n o E). unfold inner_hist, obj. rewrite E.
  destruct o as [t b]; cbn in T; subst t. destruct b; cbn in C; try tauto. eauto.
Qed.
Lemma coherent_result s p k : coherent s -> good s TResult p = true -> exists a, obj s p = Some (CObj TResult (BResult a)) /\ inner_result s p k = k a.
Proof.
  intros C G. apply good_is_a in G as (n & o & -> & E & T). specialize (C n o E). unfold inner_result, obj. rewrite E.
  destruct o as [t b]; cbn in T; subst t. destruct b; cbn in C; try tauto. eauto.
Qed.
Lemma coherent_image s p k : coherent s -> good s TImage p = true -> ~ handed_over s p ->
  exists a, obj s p = Some (CObj TImage (BImage a)) /\ inner_image s p k = k a.
Proof.
  intros C G H. apply good_is_a in G as (n & o & -> & E & T). specialize (C n o E). unfold inner_image, obj. rewrite E.
  destruct o as [t b]; cbn in T; subst t. destruct b; cbn in C; try tauto; eauto. destruct H. exists n. auto.
Qed.

(** Changes to the objects: [changes s s' l]: only objects in [l] differ, and
    objects are only added. *)
Definition changes (s s' : cstate) (l : list handle) : Prop :=
  (length (c_objs s) <= length (c_objs s'))%nat /\
  forall n, (n < length (c_objs s))%nat -> ~ In (Some n) l -> nth_error (c_objs s') n = nth_error (c_objs s) n.
Lemma changes_refl s l : changes s s l.
Proof. split; auto. Qed.
Lemma changes_trans s s1 s2 l : changes s s1 l -> changes s1 s2 l -> changes s s2 l.
Proof. intros [A1 A2] [B1 B2]. split; [lia|]. intros n L N. rewrite B2, A2; auto. lia. Qed.
Lemma changes_obj s p o l : In p l -> changes s (set_obj s p o) l.
Proof.
  intros I. destruct p as [n|]; cbn; [|apply changes_refl]. split; cbn; [rewrite upd_length; auto|].
  intros m L N. apply nth_error_upd_neq. intros ->. auto.
Qed.
Lemma changes_body s p b l : In p l -> changes s (set_body s p b) l.
Proof. intros I. unfold set_body. destruct (obj s p); [apply changes_obj; auto|apply changes_refl]. Qed.
Lemma changes_world s w l : changes s (set_world s w) l.
Proof. split; cbn; auto. Qed.
Lemma changes_new s t b l r s' : new_obj s t b = Ret r s' -> changes s s' l.
Proof.
  unfold new_obj. intros E. injection E as _ <-. split; cbn. rewrite app_length; lia.
  intros. apply nth_error_app1; auto.
Qed.
Lemma done_changes {T} s p (f : T -> body) r x s' l : In p l -> done s p f r = Ret x s' -> changes s s' l.
Proof.
  intros I. unfold done. destruct r; try discriminate; intros E; injection E as _ <-; [apply changes_body; auto|apply changes_refl].
Qed.
Lemma quantized_changes s r x s' l : quantized s r = Ret x s' -> changes s s' l.
Proof.
  unfold quantized. destruct r; try discriminate; [apply changes_new|]. intros E; injection E as _ <-. apply changes_refl.
Qed.
Lemma created_changes s r x s' l : created s r = Ret x s' -> changes s s' l.
Proof.
  unfold created. destruct r; try discriminate; [apply changes_new|]. intros E; injection E as _ <-. apply changes_refl.
Qed.
Lemma destroy_changes t s p x s' l : In p l -> destroy t s p = Ret x s' -> changes s s' l.
Proof.
  intros I. unfold destroy. destruct p as [n|]; [|intros E; injection E as _ <-; apply changes_refl].
  destruct (obj s (Some n)) as [[t' b]|]; [|discriminate].
  destruct t', b; try discriminate; (destruct (tag_eqb _ t); [|discriminate]; intros E; injection E as _ <-; exact (changes_obj s (Some n) _ l I)).
Qed.
Lemma inner_attr_ret s p k x s' : inner_attr s p k = Ret x s' -> exists a, k a = Ret x s'.
Proof. unfold inner_attr. destruct (obj s p) as [[? []]|]; try discriminate. eauto. Qed.
Lemma inner_image_ret s p k x s' : inner_image s p k = Ret x s' -> exists a, k a = Ret x s'.
Proof. unfold inner_image. destruct (obj s p) as [[? []]|]; try discriminate. eauto. Qed.
Lemma inner_result_ret s p k x s' : inner_result s p k = Ret x s' -> exists a, k a = Ret x s'.
Proof. unfold inner_result. destruct (obj s p) as [[? []]|]; try discriminate. eauto. Qed.
Lemma inner_hist_ret s p k x s' : inner_hist s p k = Ret x s' -> exists a, k a = Ret x s'.
Proof. unfold inner_hist. destruct (obj s p) as [[? []]|]; try discriminate. eauto. Qed.

Lemma quantize_image_changes s a i x s' l : In i l -> quantize_image u cb s a i = Ret x s' -> changes s s' l.
Proof.
  intros I E. unfold quantize_image in E. apply inner_attr_ret in E as [at_ E]. apply inner_image_ret in E as [im E].
  destruct (quantize u cb at_ (im, c_world s)) as [r [im' w']]. apply quantized_changes with (l := l) in E.
  eapply changes_trans; [|exact E]. eapply changes_trans; [apply changes_body, I|apply changes_world].
Qed.
Ltac peel E :=
  repeat first
    [ apply inner_attr_ret in E as [? E] | apply inner_image_ret in E as [? E]
    | apply inner_result_ret in E as [? E] | apply inner_hist_ret in E as [? E] ].
Ltac fin E := injection E as _ <-; first [apply changes_refl | apply changes_body; cbn; auto | apply changes_obj; cbn; auto].

(** A call changes only the objects it is given. *)
Lemma frame s c x s' : ccall_run u cb s c = Ret x s' -> changes s s' (map fst (args c)).
Proof.
  intros E.
  assert (WR : forall (P : bool) f (k : cout), guard P f s k = Ret x s' -> (k = Ret x s' -> changes s s' (map fst (args c))) -> changes s s' (map fst (args c))).
  { intros P f k G H. unfold guard in G. destruct P; [auto|fin G]. }
  destruct c; cbn [ccall_run args map fst] in *;
    try (fin E; fail);
    try (eapply destroy_changes; [|exact E]; cbn; auto; fail);
    try (eapply changes_new; exact E);
    try (apply WR in E; [exact E|]; clear E; intros E; peel E;
         first [ fin E | eapply done_changes; [|exact E]; cbn; auto | eapply changes_new; exact E
               | eapply quantize_image_changes; [|exact E]; cbn; auto ]; fail).
  - peel E. eapply done_changes; [|exact E]; cbn; auto.
  - apply WR in E; [exact E|]; clear E; intros E. unfold or_null in E. destruct (quantize_image u cb s a i) as [r s1| |] eqn:Q; try discriminate.
    assert (K : changes s s1 [a; i]) by (eapply quantize_image_changes; [|exact Q]; cbn; auto).
    destruct r; injection E as _ <-; exact K.
  - apply WR in E; [exact E|]; clear E; intros E. eapply quantize_image_changes; [|exact E]; cbn; auto.
  - apply WR in E; [exact E|]; clear E; intros E. peel E. destruct buf as [buf|]; [|fin E].
    destruct (Nat.ltb _ _); [fin E|]. destruct (remap_into _ _ _ _ _ _) as [r [[[q' i'] out] w']].
    assert (K : changes s (set_world (set_body (set_body s q (BResult q')) i (BImage i')) w') [q; i]).
    { eapply changes_trans; [|apply changes_world]. eapply changes_trans; apply changes_body; cbn; auto. }
    destruct r; try discriminate; injection E as _ <-; exact K.
  - apply WR in E; [exact E|]; clear E; intros E. peel E. destruct rows as [rows|]; [|fin E].
    destruct (negb _); [discriminate|]. destruct (remap_into _ _ _ _ _ _) as [r [[[q' i'] out] w']].
    assert (K : changes s (set_world (set_body (set_body s q (BResult q')) i (BImage i')) w') [q; i]).
    { eapply changes_trans; [|apply changes_world]. eapply changes_trans; apply changes_body; cbn; auto. }
    destruct r; try discriminate; injection E as _ <-; exact K.
  - destruct (negb _).
    + destruct (destroy TImage s b) as [r s1| |] eqn:D; try discriminate. destruct b; [|discriminate].
      injection E as _ <-. eapply destroy_changes; [|exact D]; cbn; auto.
    + destruct (match i, b with Some x, Some y => Nat.eqb x y | _, _ => false end); [discriminate|]. peel E.
      eapply changes_trans; [apply changes_body; right; left; reflexivity|]. eapply done_changes; [|exact E]. cbn; auto.
  - apply WR in E; [exact E|]; clear E; intros E. peel E. destruct imp as [[|m0 m]|]; try (fin E; fail).
    destruct (Nat.ltb _ _); [fin E|]. destruct (_ || _)%bool; [|fin E]. eapply done_changes; [|exact E]; cbn; auto.
  - apply WR in E; [exact E|]; clear E; intros E. peel E. destruct (_ || _)%bool; [fin E|].
    destruct (d_src _) as [? [|]|]; fin E.
  - peel E. eapply created_changes; exact E.
  - apply WR in E; [exact E|]; clear E; intros E. peel E. destruct rows as [rows|]; [|fin E].
    destruct (all_some rows); [|fin E]. eapply created_changes; exact E.
  - destruct pixels as [buf|]; [|fin E]. apply WR in E; [exact E|]; clear E; intros E. peel E. eapply created_changes; exact E.
  - apply WR in E; [exact E|]; clear E; intros E. peel E. destruct (n <? 0); [fin E|]. destruct (n =? 0); [fin E|].
    destruct entries; [|fin E]. eapply done_changes; [|exact E]; cbn; auto.
  - apply WR in E; [exact E|]; clear E; intros E. peel E. destruct (add_image _ _ _ _) as [r [[h' i'] w']].
    assert (K : changes s (set_world (set_body (set_body s h (BHist h')) i (BImage i')) w') [h; a; i]).
    { eapply changes_trans; [|apply changes_world]. eapply changes_trans; apply changes_body; cbn; auto. }
    destruct r; try discriminate; injection E as _ <-; exact K.
  - apply WR in E; [exact E|]; clear E; intros E. peel E. destruct (hist_quantize _ _ _ _) as [r [h' w']].
    eapply changes_trans; [|eapply quantized_changes; exact E].
    apply changes_trans with (set_body s h (BHist h')); [apply changes_body; cbn; auto|apply changes_world].
  - apply WR in E; [exact E|]; clear E; intros E. peel E. destruct (palette _) as [p' x']. fin E.
Qed.
End FfiFacts.
