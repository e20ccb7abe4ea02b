(** C08, C11, C12, C29, C36, C37, C43: remapping calls and settings of a
    result, on any objects a program can hold. *)
From Verif Require Import Base Arith Order Pal World Attr Hist Nearest Kmeans Blur ImageM Quant Remap SpecHist SpecImage
  AttrFacts Ieee Api ResultFacts Witness.
Open Scope nat_scope.

(** C08.  A palette has between 1 and [max_colors] entries, and [palette_len]
    is the length of [palette]. *)
Theorem C08_palette_size :
  forall (A : Arith) (C : CastLaws A) m q, result_r m q ->
  1 <= palette_len q <= m /\ m <= 256 /\
  length (fst (palette q)) = palette_len q /\ palette_len (snd (palette q)) = palette_len q.
Proof. exact (fun A C => @palette_len_bounds A C). Qed.
Print Assumptions C08_palette_size.
(** C08.  ... and it stays the same through remaps and setting changes. *)
Theorem C08_palette_size_stable :
  forall (A : Arith) (C : CastLaws A),
  (forall u cb m q i pxs buf w r q' i' out w', unspec_ok u -> result_r m q -> image_r i pxs ->
     remap_into u cb q i buf w = (r, (q', i', out, w')) -> palette_len q' = palette_len q) /\
  (forall q q', (exists v, set_dithering_level q v = Ok q') \/ (exists v, set_output_gamma q v = Ok q') ->
     palette_len q' = palette_len q).
Proof. exact (fun A C => conj (@palette_len_calls A C) (@palette_len_setters A)). Qed.
Print Assumptions C08_palette_size_stable.
Example C08_example : result_r 256 res2 /\ palette_len res2 = 2 /\ fst (palette res2) = [blue; red].
Proof. split; [exact res2_r|]. split; vm. Qed.

(** C11.  A successful remap writes a valid index to each of the
    [width*height] cells and touches nothing else.  (The buffer's previous
    contents are arbitrary, also values no index can have.) *)
Theorem C11_remap_complete :
  forall (A : Arith) (C : CastLaws A) u cb m q i pxs buf w q' i' out w',
  unspec_ok u -> result_r m q -> image_r i pxs ->
  remap_into u cb q i buf w = (Ok tt, (q', i', out, w')) ->
  i_w i * i_h i <= length buf /\ length out = length buf /\
  (forall k, k < i_w i * i_h i -> exists v, nth_error out k = Some v /\ v < palette_len q) /\
  (forall k, i_w i * i_h i <= k -> nth_error out k = nth_error buf k).
Proof. exact (fun A C => @remap_complete A C). Qed.
Print Assumptions C11_remap_complete.
Example C11_example : result_r 256 plain2 /\ image_r img2 [[red; blue]] /\
  (let '(r, (_, _, out, _)) := remap_into useq never plain2 img2 [999; 999; 999] world0 in r = Ok tt /\ out = [1; 0; 999]) /\
  (let '(r, (_, _, out, _)) := remap_into useq never res2 img2 [999; 999; 999] world0 in r = Ok tt /\ out = [1; 0; 999]).
Proof. split; [exact plain2_r|]. split; [exact img2_r|]. split; vm_compute; auto. Qed.

(** C12.  Without dithering, indices and palette do not depend on the
    assignment of rows to threads, the merge order, the callback or anything
    else left open. *)
Theorem C12_schedule_independent :
  forall (A : Arith) (C : CastLaws A) u1 u2 cb1 cb2 m q i pxs buf1 buf2 w1 w2 q1 i1 out1 w1' q2 i2 out2 w2',
  unspec_ok u1 -> unspec_ok u2 -> result_r m q -> image_r i pxs -> (q_dither q =f f0) = true ->
  remap_into u1 cb1 q i buf1 w1 = (Ok tt, (q1, i1, out1, w1')) ->
  remap_into u2 cb2 q i buf2 w2 = (Ok tt, (q2, i2, out2, w2')) ->
  firstn (i_w i * i_h i) out1 = firstn (i_w i * i_h i) out2 /\ fst (palette q1) = fst (palette q2).
Proof. exact (fun A C => @plain_remap_schedule_free A C). Qed.
Print Assumptions C12_schedule_independent.
(** C12.  ... nor on the image having been remapped before. *)
Theorem C12_repeatable :
  forall (A : Arith) (C : CastLaws A) u1 u2 cb1 cb2 m q i pxs buf1 buf2 w1 w2 q1 i1 out1 w1' q2 i2 out2 w2',
  unspec_ok u1 -> unspec_ok u2 -> result_r m q -> image_r i pxs -> (q_dither q =f f0) = true ->
  remap_into u1 cb1 q i buf1 w1 = (Ok tt, (q1, i1, out1, w1')) ->
  remap_into u2 cb2 q1 i1 buf2 w2 = (Ok tt, (q2, i2, out2, w2')) ->
  firstn (i_w i * i_h i) out1 = firstn (i_w i * i_h i) out2 /\ fst (palette q1) = fst (palette q2).
Proof. exact (fun A C => @plain_remap_repeat A C). Qed.
Print Assumptions C12_repeatable.
(** Two workers, two different orders. *)
Definition two_threads (swap : bool) : unspec :=
  {| u_map := u_map useq; u_set := u_set useq; u_select := u_select useq; u_med3 := u_med3 useq;
     u_batches := u_batches useq;
     u_rows := fun _ n => if swap then [[]; rev (seq 0 n)] else [seq 0 n; []];
     u_main := fun _ _ => if swap then 1 else 0;
     u_sum := if swap then fun _ n => fold_right (fun i t => SNode (SLeaf i) t) SZero (seq 0 n) else u_sum useq;
     u_cpus := 2; u_scratch := u_scratch useq |}.
Lemma two_threads_ok s : unspec_ok (two_threads s).
Proof.
  destruct useq_ok. constructor; cbn [two_threads u_map u_set u_select u_med3 u_batches u_rows u_main u_sum u_cpus u_scratch]; auto.
  - intros t n. destruct s; unfold covers; cbn; rewrite app_nil_r; auto. apply Permutation_sym, Permutation_rev.
  - intros t n. destruct s; cbn; auto.
  - intros t n. destruct s; [|apply uo_sum].
    assert (E : forall l, stree_leaves (fold_right (fun i t => SNode (SLeaf i) t) SZero l) = l) by (induction l; cbn; congruence).
    rewrite E. auto.
Qed.
Example C12_example : unspec_ok (two_threads true) /\ unspec_ok (two_threads false) /\
  (let '(r, (_, _, out, _)) := remap_into (two_threads true) never plain2 img2 [7; 7] world0 in r = Ok tt /\ out = [1; 0]) /\
  (let '(r, (_, _, out, _)) := remap_into (two_threads false) never plain2 img2 [8; 8] world0 in r = Ok tt /\ out = [1; 0]).
Proof. split; [apply two_threads_ok|]. split; [apply two_threads_ok|]. split; vm_compute; auto. Qed.

(** C29.  No call panics, whatever the objects, callbacks and schedules. *)
Theorem C29_no_panic :
  forall (A : Arith) (C : CastLaws A) u cb a m h i pxs q w buf scratch,
  unspec_ok u -> usable a -> hist_r h -> image_r i pxs -> result_r m q ->
  forall cb1 cb2,
  fst (add_image u cb a (h, i, w)) <> Panic /\ fst (hist_quantize u cb a (h, w)) <> Panic /\
  fst (quantize u cb a (i, w)) <> Panic /\ fst (remap_into u cb1 q i buf w) <> Panic /\
  fst (remapped u cb2 q i scratch w) <> Panic.
Proof. exact (fun A C => @calls_ok A C). Qed.
Print Assumptions C29_no_panic.
(** C29.  Why [quantize] can fail. *)
Theorem C29_quantize_errors :
  forall (A : Arith) (C : CastLaws A) u cb a i pxs w e s', unspec_ok u -> usable a -> image_r i pxs ->
  quantize u cb a (i, w) = (Err e, s') ->
  e = Unsupported \/ (e = Aborted /\ exists told pct, cb told pct = true) \/ (e = QualityTooLow /\ a_max_mse a <> None).
Proof. exact (fun A C => @quantize_errors A C). Qed.
Print Assumptions C29_quantize_errors.
Example C29_example : hist_r (hist_new attrs_new) /\ image_r img2 [[red; blue]] /\ result_r 256 res2 /\
  fst (hist_quantize useq never attrs_new (hist_new attrs_new, world0)) = Err Unsupported /\
  fst (quantize useq (fun _ _ => true) attrs_new (img2, world0)) = Err Aborted /\
  fst (remapped useq never res2 img2 (fun _ => 0) world0) = Ok ([blue; red], [1; 0]).
Proof.
  split; [exact (hr_new attrs_new us_new)|]. split; [exact img2_r|]. split; [exact res2_r|].
  split; [vm|]. split; vm.
Qed.

(** C36.  A buffer that is too short is rejected without any effect, a buffer
    that is long enough is never reported as too small, and its tail is kept. *)
Theorem C36_buffer_too_small :
  forall (A : Arith) (C : CastLaws A) u cb m q i pxs buf w, unspec_ok u -> result_r m q -> image_r i pxs ->
  (length buf < i_w i * i_h i -> remap_into u cb q i buf w = (Err BufferTooSmall, (q, i, buf, w))) /\
  (i_w i * i_h i <= length buf ->
     fst (remap_into u cb q i buf w) <> Err BufferTooSmall /\
     forall k, i_w i * i_h i <= k -> nth_error (snd (fst (snd (remap_into u cb q i buf w)))) k = nth_error buf k).
Proof. exact (fun A C => @remap_buffer A C). Qed.
Print Assumptions C36_buffer_too_small.
Example C36_example : i_w img2 * i_h img2 = 2 /\ fst (remap_into useq never res2 img2 [5] world0) = Err BufferTooSmall /\
  fst (remap_into useq never res2 img2 [5; 5] world0) = Ok tt.
Proof. repeat split; vm. Qed.

(** C37.  A failed remap leaves the result object exactly as it was; it fails
    only for a short buffer, an abort or a NaN error. *)
Theorem C37_failed_remap_keeps_result :
  forall (A : Arith) (C : CastLaws A) u cb m q i pxs buf w e q' i' out w', unspec_ok u -> result_r m q -> image_r i pxs ->
  remap_into u cb q i buf w = (Err e, (q', i', out, w')) ->
  q' = q /\ ((e = Aborted /\ exists told pct, cb told pct = true) \/ e = OutOfMemory \/ e = BufferTooSmall).
Proof. exact (fun A C => @remap_failure A C). Qed.
Print Assumptions C37_failed_remap_keeps_result.
Example C37_example : let stop := fun (t : list f32) (_ : f32) => negb (Nat.eqb (length t) 1) in
  fst (remap_into useq (fun t p => negb (stop t p)) res2 img2 [5; 5] world0) = Err Aborted /\
  fst (remap_into useq stop res2 img2 [5; 5] world0) = Err Aborted.
Proof. split; vm. Qed.

(** C43.  After a remap, an accepted setting change drops the remap's palette
    and error: the getters return what they returned before the remap.  (For a
    new output gamma the palette is the converted one, if [palette] had not
    been called before; see C20 for the other case.) *)
Theorem C43_settings_reset :
  forall (A : Arith) (C : CastLaws A) u cb m q0 i pxs buf w q1 i' out w' q2,
  unspec_ok u -> result_r m q0 -> image_r i pxs -> q_rem q0 = None ->
  remap_into u cb q0 i buf w = (Ok tt, (q1, i', out, w')) ->
  (exists v, set_dithering_level q1 v = Ok q2) \/ (exists v, set_output_gamma q1 v = Ok q2) ->
  remapping_error q2 = quantization_error q0 /\ remapping_quality q2 = quantization_quality q0 /\
  quantization_error q2 = quantization_error q0 /\ quantization_quality q2 = quantization_quality q0 /\
  palette_len q2 = palette_len q0 /\
  ((exists v, set_dithering_level q1 v = Ok q2) -> fst (palette q2) = fst (palette q0) /\ output_gamma q2 = output_gamma q0) /\
  (forall v, set_output_gamma q1 v = Ok q2 -> output_gamma q2 = v /\ q_dither q2 = q_dither q0 /\
     (q_int q0 = [] -> fst (palette q2) = snd (init_int_palette (q_pal q0) v (q_post q0)))).
Proof. exact (fun A C => @setters_reset A C). Qed.
Print Assumptions C43_settings_reset.
(** C43.  A clone behaves like the original. *)
Theorem C43_clone :
  forall (A : Arith) u cb q i buf w, let q' := clone_result q in
  palette q' = palette q /\ palette_len q' = palette_len q /\ output_gamma q' = output_gamma q /\
  quantization_error q' = quantization_error q /\ quantization_quality q' = quantization_quality q /\
  remapping_error q' = remapping_error q /\ remapping_quality q' = remapping_quality q /\
  remap_into u cb q' i buf w = remap_into u cb q i buf w.
Proof. exact (fun A => @clone_observes A). Qed.
Print Assumptions C43_clone.
Example C43_example : is_none (q_rem res2) = true /\
  (let '(r, (q1, _, _, _)) := remap_into useq never res2 img2 [5; 5] world0 in
   let q2 := get_ok (set_dithering_level q1 f0) no_result in
   (r, is_none (q_rem q1), is_none (q_rem q2), fst (palette q2))) = (Ok tt, false, true, [blue; red]).
Proof. split; vm. Qed.
