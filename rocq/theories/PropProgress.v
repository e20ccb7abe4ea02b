(** C06, C07, C13: progress reports, breaking off, and the minimum quality. *)
From Verif Require Import Base BaseFacts Arith Order Pal World Attr Hist Nearest Kmeans Blur ImageM Quant Remap SpecHist SpecImage SpecPow SpecProgress
  AttrFacts ImageFacts Ieee USeq Api ApiFacts PalFacts PowRef ProgressFacts ProgressIeee MinFacts Witness.
From Flocq Require Import IEEE754.BinarySingleNaN.
Open Scope nat_scope.

(** C06.  Every number reported while quantizing is between 0 and 100
    (in particular not NaN), for every image, histogram, setting and callback. *)
Theorem C06_quantize_progress : forall pow32 pow64, let A := ieee pow32 pow64 in
  forall u cb (a : attrs), usable a ->
  (forall i pxs w, image_r i pxs -> percentages (w_trace w) (w_trace (snd (snd (quantize u cb a (i, w)))))) /\
  (forall h w, percentages (w_trace w) (w_trace (snd (snd (hist_quantize u cb a (h, w)))))) /\
  (forall h i w, percentages (w_trace w) (w_trace (snd (snd (add_image u cb a (h, i, w)))))).
Proof.
  exact (fun p32 p64 u cb a Ua => conj (fun i pxs w I => quantize_progress p32 p64 u cb a i pxs w Ua I)
    (conj (fun h w => hist_progress p32 p64 u cb a h w Ua) (fun h i w => add_progress p32 p64 u cb a h i w Ua))).
Qed.
Print Assumptions C06_quantize_progress.
(** C06.  While remapping: for images of at most 2^24 rows, or on machines with
    at most 2048 processors.  (Beyond that rounding can push the number above
    100, see [C06_remap_progress_refuted] in PropTall.v.) *)
Theorem C06_remap_progress_partial : forall pow32 pow64, let A := ieee pow32 pow64 in
  forall u cb m (q : qresult) i pxs buf w, unspec_ok u -> result_r m q -> image_r i pxs ->
  (Z.of_nat (i_h i) <= 2 ^ 24)%Z \/ u_cpus u <= 2048 ->
  percentages (w_trace w) (w_trace (snd (snd (remap_into u cb q i buf w)))).
Proof. exact (fun p32 p64 => remap_progress p32 p64). Qed.
Print Assumptions C06_remap_progress_partial.
(** The number reported for a chunk of rows that starts at row 33554423 of
    33554424 is above 100. *)
Example C06_formula_example : in_range (chunk_pct 20 33554423 33554424) = false /\ in_range (chunk_pct 20 16777215 16777216) = true.
Proof. split; vm. Qed.
(** Numbers are really reported, and not all of them are 0. *)
Example C06_example :
  length (w_trace (snd st2)) = 5 /\ forallb in_range (w_trace (snd st2)) = true /\
  length (filter (fun p => Bltb (BofZ 24 128 90) p) (w_trace (snd st2))) = 1.
Proof. split; [vm|split; vm]. Qed.

(** C07.  If the callback breaks during [quantize] and keeps breaking, the
    result is [Aborted]; any arithmetic. *)
Theorem C07_break_aborts : forall (A : Arith) (C : CastLaws A) u cb (a : attrs), unspec_ok u -> usable a -> latching cb ->
  (forall i pxs w, image_r i pxs -> broke cb (w_trace w) (w_trace (snd (snd (quantize u cb a (i, w))))) ->
     fst (quantize u cb a (i, w)) = Err Aborted) /\
  (forall h w, hist_r h -> broke cb (w_trace w) (w_trace (snd (snd (hist_quantize u cb a (h, w))))) ->
     fst (hist_quantize u cb a (h, w)) = Err Aborted).
Proof.
  exact (fun A C u cb a U Ua L => conj (fun i pxs w I => abort_image C u cb a i pxs w U Ua I L)
    (fun h w H => abort_hist C u cb a h w U Ua H L)).
Qed.
Print Assumptions C07_break_aborts.
(** C07.  Adding an image to a histogram and remapping are aborted by a single
    [Break]. *)
Theorem C07_single_break_aborts : forall (A : Arith) u cb,
  (forall a h i w, broke cb (w_trace w) (w_trace (snd (snd (add_image u cb a (h, i, w))))) ->
     fst (add_image u cb a (h, i, w)) = Err Aborted) /\
  (forall q i buf w, broke cb (w_trace w) (w_trace (snd (snd (remap_into u cb q i buf w)))) ->
     fst (remap_into u cb q i buf w) = Err Aborted).
Proof. exact (fun A u cb => conj (abort_add_image u cb) (abort_remap u cb)). Qed.
Print Assumptions C07_single_break_aborts.
(** The other half of C07 is false: a single [Break] during the palette search
    is ignored and [quantize] returns a result. *)
Definition once (k : nat) : callback := fun t _ => Nat.eqb (length t) k.
Definition aq : attrs := get_ok (set_quality attrs_new 0 90) attrs_new.
Lemma aq_usable : usable aq.
Proof. refine (us_call attrs_new (SpecAttr.CallQuality 0 90) aq us_new _ _); [split; lia|]. exact (eq_refl (Ok aq) <: set_quality attrs_new 0 90 = Ok aq). Qed.
Definition done4 := quantize useq (once 4) aq (img2, world0).
Definition trace4 : list f32 := w_trace (snd (snd done4)).
Theorem C07_single_break_refuted :
  exists (A : Arith) (C : CastLaws A) u cb a i pxs q, unspec_ok u /\ usable a /\ image_r i pxs /\
  broke cb [] (w_trace (snd (snd (quantize u cb a (i, world0))))) /\
  fst (quantize u cb a (i, world0)) = Ok q.
Proof.
  exists toy, toy_cast, useq, (once 4), aq, img2, [[red; blue]], (get_ok (fst done4) no_result).
  split; [exact useq_ok|]. split; [exact aq_usable|]. split; [exact img2_r|]. split.
  - exists (firstn 2 trace4), (nth 2 trace4 f0), (skipn 3 trace4). rewrite app_nil_r. split; vm.
  - vm.
Qed.
Print Assumptions C07_single_break_refuted.
Definition keeps (k : nat) : callback := fun t _ => Nat.leb k (length t).
Lemma keeps_latching k : latching (keeps k).
Proof. intros t p q H. unfold keeps in *. apply Nat.leb_le in H. apply Nat.leb_le. cbn [length]. lia. Qed.
Definition aborted_at (k : nat) : bool :=
  match fst (quantize useq (keeps k) aq (img2, world0)) with Err Aborted => true | _ => false end.
Example C07_example : latching (keeps 4) /\ map aborted_at [0; 1; 2; 5; 10; 20; 1000] = [true; true; true; true; true; true; false].
Proof. split; [exact (keeps_latching 4)|vm]. Qed.

(** C13.  A result that reports an error value reads as a quality of at least
    the accepted minimum — unless the error is NaN. *)
Theorem C13_minimum_quality_partial : forall pow32 pow64, pow64_accurate pow64 -> let A := ieee pow32 pow64 in
  forall u cb (a : attrs) (q : qresult) v, unspec_ok u -> usable a -> made_by u cb a q ->
  quantization_quality q = Some v -> (forall e, q_err q = Some e -> is_nan e = false) -> (fst (get_quality a) <= v)%Z.
Proof. exact min_quality. Qed.
Print Assumptions C13_minimum_quality_partial.
(** C13.  When a minimum was set and the callback never breaks, the result
    always reports a quality. *)
Theorem C13_quality_reported : forall (A : Arith) (C : CastLaws A) u cb a q, unspec_ok u -> usable a -> made_by u cb a q ->
  a_max_mse a <> None -> (forall told p, cb told p = false) -> quantization_quality q <> None.
Proof. exact (fun A C => error_known C). Qed.
Print Assumptions C13_quality_reported.
(** The NaN case happens: a histogram of nothing but fixed colours has total
    weight 0, so the error is 0/0; the result is accepted with quality 0 though
    the minimum is 80. *)
Definition amin : attrs := get_ok (set_quality attrs_new 80 90) attrs_new.
Lemma amin_eq : set_quality attrs_new 80 90 = Ok amin.
Proof. exact (eq_refl (Ok amin) <: set_quality attrs_new 80 90 = Ok amin). Qed.
Lemma amin_usable : usable amin.
Proof. refine (us_call attrs_new (SpecAttr.CallQuality 80 90) amin us_new _ amin_eq). split; lia. Qed.
Definition hfix : hist := get_ok (hist_add_fixed_color (hist_new amin) red d0) (hist_new amin).
Lemma hfix_r : hist_r hfix.
Proof.
  refine (hr_fixed (hist_new amin) red d0 hfix (hr_new amin amin_usable) _ _); [repeat split; cbn; lia|].
  exact (eq_refl (Ok hfix) <: hist_add_fixed_color (hist_new amin) red d0 = Ok hfix).
Qed.
Definition qfix : qresult := get_ok (fst (hist_quantize useq never amin (hfix, world0))) no_result.
Lemma qfix_eq : fst (hist_quantize useq never amin (hfix, world0)) = Ok qfix.
Proof. vm. Qed.
Theorem C13_nan_refuted :
  exists (A : Arith) (C : CastLaws A) u cb a q v, unspec_ok u /\ usable a /\ made_by u cb a q /\ (forall told p, cb told p = false) /\
  quantization_quality q = Some v /\ (v < fst (get_quality a))%Z.
Proof.
  exists toy, toy_cast, useq, never, amin, qfix, 0%Z. split; [exact useq_ok|]. split; [exact amin_usable|]. split.
  { left. exists hfix, world0, (snd (hist_quantize useq never amin (hfix, world0))). split; [exact hfix_r|].
    rewrite <- qfix_eq. apply surjective_pairing. }
  split; [reflexivity|]. split; [vm|].
  apply Z.ltb_lt. vm.
Qed.
Print Assumptions C13_nan_refuted.
(** The hypotheses are satisfiable: an accurate [powf] exists, and the two
    colour image is accepted at minimum quality 80 with quality 100. *)
Definition q80 : qresult := get_ok (fst (quantize useq never amin (img2, world0))) no_result.
Example C13_example : pow64_accurate pow64_ref /\ fst (get_quality amin) = 80%Z /\
  quantization_quality q80 = Some 100%Z /\ length (q_pal q80) = 2.
Proof. split; [exact pow64_ref_accurate|]. split; [vm|split; vm]. Qed.
