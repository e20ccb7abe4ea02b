(** C19, C27, C28, C42: using images again, the remapping error, uninitialised
    scratch memory and importance maps. *)
From Verif Require Import Base BaseFacts Arith Order Pal World Attr Hist Nearest Kmeans Blur ImageM Quant Remap SpecHist SpecImage
  AttrFacts ImageFacts Ieee USeq Api ApiFacts NearFacts ResultFacts ReuseFacts Witness.
From Flocq Require Import IEEE754.BinarySingleNaN.
Open Scope nat_scope.

(** C19 (proved part).  Any image can be remapped again by any result: a buffer
    that is long enough is only rejected when the callback breaks or the sum
    of the errors is NaN (reported as [OutOfMemory]). *)
Theorem C19_remap_again_partial :
  forall (A : Arith) (C : CastLaws A) u cb m q i pxs buf w e s', unspec_ok u -> result_r m q -> image_r i pxs ->
  i_w i * i_h i <= length buf -> remap_into u cb q i buf w = (Err e, s') ->
  (e = Aborted /\ exists told pct, cb told pct = true) \/ e = OutOfMemory.
Proof. exact (fun A C => @remap_again A C). Qed.
Print Assumptions C19_remap_again_partial.
(** C19 (proved part).  An image that has not been remapped can be added to
    histograms (and so quantized) any number of times. *)
Theorem C19_requantize_partial :
  forall (A : Arith) (C : CastLaws A) u cb a h i pxs w e s', unremapped i pxs -> add_image u cb a (h, i, w) = (Err e, s') ->
  e = Aborted /\ exists told pct, cb told pct = true.
Proof. exact (fun A C => @requantize A C). Qed.
Print Assumptions C19_requantize_partial.
(** C19 is false for quantizing after remapping: the first remap leaves the
    pixels converted, the second one frees the source, then [quantize] fails. *)
Definition next_image {T} (x : res T * (qresult * image * list nat * world)) : image := snd (fst (fst (snd x))).
Definition once2 : image := next_image (remap_into useq never res2 (fst st2) [0; 0] world0).
Definition twice2 : image := next_image (remap_into useq never res2 once2 [0; 0] world0).
Lemma rest_eq {T} (x : res T * (qresult * image * list nat * world)) :
  x = (fst x, (fst (fst (fst (snd x))), next_image x, snd (fst (snd x)), snd (snd x))).
Proof. destruct x as [r [[[q i] o] w]]. reflexivity. Qed.
Lemma twice2_r : image_r twice2 [[red; blue]].
Proof.
  assert (S : image_r (fst st2) [[red; blue]]).
  { refine (ir_quantize useq never attrs_new img2 _ world0 (Ok res2) (fst st2) (snd st2) useq_ok us_new img2_r _).
    rewrite res2_eq. destruct st2. reflexivity. }
  refine (ir_remap _ _ _ _ _ _ _ _ _ _ _ _ _ useq_ok res2_r _ (rest_eq (remap_into useq never res2 once2 [0; 0] world0))).
  exact (ir_remap _ _ _ _ _ _ _ _ _ _ _ _ _ useq_ok res2_r S (rest_eq (remap_into useq never res2 (fst st2) [0; 0] world0))).
Qed.
Definition is_ok {T} (r : res T) : bool := match r with Ok _ => true | _ => false end.
Definition err_of {T} (r : res T) : option error := match r with Err e => Some e | _ => None end.
Lemma err_of_eq {T} (r : res T) e : err_of r = Some e -> r = Err e.
Proof. destruct r; cbn; congruence. Qed.
Theorem C19_requantize_refuted :
  exists (A : Arith) (C : CastLaws A) u a i pxs, unspec_ok u /\ usable a /\ image_r i pxs /\
  fst (quantize u (fun _ _ => false) a (i, world0)) = Err Unsupported.
Proof.
  exists toy, toy_cast, useq, attrs_new, twice2, [[red; blue]].
  split; [exact useq_ok|]. split; [exact us_new|]. split; [exact twice2_r|]. apply err_of_eq. vm.
Qed.
Print Assumptions C19_requantize_refuted.
Example C19_example :
  unremapped img2 [[red; blue]] /\ is_ok (fst (quantize useq never attrs_new (once2, world0))) = true /\
  is_ok (fst (remap_into useq never res2 twice2 [0; 0] world0)) = true.
Proof.
  split; [|split; vm]. refine (un_stride [red; blue] 2 1 2 d0 img2 _ _ _ _ img2_new); try lia. repeat constructor; cbn; lia.
Qed.

(** C27 (proved part).  The error an undithered remap reports (here before the
    conversion to the usual scale) is the sum of the distances between the
    pixels and the palette colours chosen for them, divided by the number of
    pixels modulo 2^32 - so by the number of pixels of any image smaller than
    that. *)
Theorem C27_error_is_mean_partial :
  forall (A : Arith) u rcb m q i pxs buf w q' i' out w' (C : CastLaws A), unspec_ok u -> result_r m q -> image_r i pxs ->
  (q_dither q =f f0) = true -> i_bg i = None -> remap_into u rcb q i buf w = (Ok tt, (q', i', out, w')) ->
  exists dist t,
    Permutation (stree_leaves t) (seq 0 (i_h i)) /\ dis_nan (sum_of_rows (i_w i) dist t) = false /\
    remap_err q' = Some (sum_of_rows (i_w i) dist t /d dofZ ((Z.of_nat (i_w i) * Z.of_nat (i_h i)) mod 2 ^ 32)) /\
    (forall y x r c, nth_error pxs y = Some r -> nth_error r x = Some c ->
       exists k pc, nth_error out (y * i_w i + x) = Some k /\
         nth_error (colors_of (fst (init_int_palette (q_pal q) (q_gamma q) (q_post q)))) k = Some pc /\
         dist_to (from_rgba (gamma_lut (d_gamma (i_px i))) c) pc (dist y x)).
Proof. exact (fun A => @plain_error A). Qed.
Print Assumptions C27_error_is_mean_partial.
Example C27_example : result_r 256 plain2 /\ (q_dither plain2 =f f0) = true /\ i_bg img2 = None /\
  (let '(r, (q', _, out, _)) := remap_into useq never plain2 img2 [9; 9] world0 in
   (is_ok r, out, option_map (fun e => (e =d d0)) (remap_err q'))) = (true, [1; 0], Some true).
Proof. split; [exact plain2_r|]. split; [vm|]. split; [vm|vm]. Qed.

(** C27 is false for larger images: an image of 65536×65536 pixels is
    accepted, but its pixel count is 0 modulo 2^32 and no remap of it reports
    a finite error. *)
Section Large.
Variables (pow32 : b32 -> b32 -> b32) (pow64 : b64 -> b64 -> b64).
Let Ar : Arith := ieee pow32 pow64.
Definition big_row (y : nat) : list rgba := repeat red (Z.to_nat 65536).
Lemma big_image : exists i : @image Ar, @image_new_fn Ar big_row 65536 65536 (@d0 Ar) = Ok i /\
  Z.of_nat (i_w i) = 65536%Z /\ Z.of_nat (i_h i) = 65536%Z /\ i_bg i = None.
Proof.
  unfold image_new_fn. replace (negb _) with false by reflexivity. unfold image_new_internal.
  replace (negb (check_image_size 65536 65536)) with false by reflexivity.
  replace (negb _) with false by reflexivity. eexists. split; [reflexivity|]. unfold i_w, i_h. cbn [i_px d_w d_h i_bg].
  rewrite !Z2Nat.id by lia. auto.
Qed.
Lemma div_zero (x : b64) : is_finite (Bdiv mode_NE x (BofZ 53 1024 0)) = false.
Proof. destruct x; reflexivity. Qed.
Lemma big_error (i : @image Ar) (pxs : list (list rgba)) u rcb m (q : @qresult Ar) buf w q' i' out w' : @unspec_ok Ar u -> @result_r Ar m q -> @image_r Ar i pxs ->
  Z.of_nat (i_w i) = 65536%Z -> Z.of_nat (i_h i) = 65536%Z -> i_bg i = None -> @feq Ar (q_dither q) (@f0 Ar) = true ->
  @remap_into Ar u rcb q i buf w = (Ok tt, (q', i', out, w')) -> exists e : b64, @remap_err Ar q' = Some e /\ is_finite e = false.
Proof.
  intros U R I W H B D E. destruct (@plain_error Ar u rcb m q i pxs buf w q' i' out w' (ieee_cast _ _) U R I D B E) as (dist & t & _ & _ & Q & _).
  eexists; split; [exact Q|]. rewrite W, H. apply div_zero.
Qed.
End Large.
Theorem C27_large_image_refuted :
  forall (pow32 : b32 -> b32 -> b32) (pow64 : b64 -> b64 -> b64), let Ar := ieee pow32 pow64 in
  exists (i : @image Ar) pxs, @image_r Ar i pxs /\
  forall u rcb m q buf w q' i' out w', unspec_ok u -> result_r m q -> @feq Ar (q_dither q) (@f0 Ar) = true ->
  remap_into u rcb q i buf w = (Ok tt, (q', i', out, w')) -> exists e : b64, @remap_err Ar q' = Some e /\ is_finite e = false.
Proof.
  intros pow32 pow64 Ar. destruct (big_image pow32 pow64) as (i & E & W & H & B). exists i.
  assert (R : @image_r Ar i (callback_rows big_row (Z.to_nat 65536))).
  { refine (@ir_fn Ar big_row 65536 65536 (@d0 Ar) i _ _ _ E); try lia. intros y _. unfold big_row. rewrite repeat_length. split; auto.
    apply Forall_forall. intros x Hx. apply repeat_spec in Hx. subst. repeat split; cbn; lia. }
  exists (callback_rows big_row (Z.to_nat 65536)). split; [exact R|].
  intros u rcb m q buf w q' i' out w' U Rq D Q. exact (big_error pow32 pow64 i _ u rcb m q buf w q' i' out w' U Rq R W H B D Q).
Qed.
Print Assumptions C27_large_image_refuted.

(** C28 (proved part).  The outcome of any remap is the same for all contents
    of scratch rows when the image is not split into chunks (at most 128 rows,
    one CPU, or a single-threaded result) or no dither map is generated. *)
Theorem C28_scratch_unused_partial :
  forall (A : Arith) (C : CastLaws A) u s1 s2 rcb m q i pxs buf w, unspec_ok u -> (forall t c, s1 t c < 256) ->
  result_r m q -> image_r i pxs ->
  no_guess q \/ one_chunk u q i ->
  remap_into (with_scratch u s1) rcb q i buf w = remap_into (with_scratch u s2) rcb q i buf w.
Proof. exact (fun A C => @remap_scratch A C). Qed.
Print Assumptions C28_scratch_unused_partial.
Example C28_example : one_chunk useq res2 img2 /\
  (let '(r, (_, _, out, _)) := remap_into (with_scratch useq (fun _ _ => 7)) never res2 img2 [9; 9] world0 in (is_ok r, out)) = (true, [1; 0]).
Proof. split; [right; left; reflexivity|vm]. Qed.
(** C28 is false in general: a column of 129 equal pixels whose colour lies
    half-way between two palette colours. *)
Definition grey (k : Z) : rgba := Rgba k k k 255.
Definition two_greys : hist :=
  get_ok (hist_add_fixed_color (get_ok (hist_add_fixed_color (hist_new attrs_new) (grey 0) d0) (hist_new attrs_new)) (grey 200) d0) (hist_new attrs_new).
Lemma two_greys_r : hist_r two_greys.
Proof.
  refine (hr_fixed (get_ok (hist_add_fixed_color (hist_new attrs_new) (grey 0) d0) (hist_new attrs_new)) (grey 200) d0 two_greys _ _ _).
  - refine (hr_fixed (hist_new attrs_new) (grey 0) d0 _ (hr_new attrs_new us_new) _ _); [repeat split; cbn; lia|vm].
  - repeat split; cbn; lia.
  - vm.
Qed.
Definition greys : qresult := call_r (hist_quantize useq never attrs_new (two_greys, world0)) no_result.
Lemma greys_r : result_r 256 greys.
Proof.
  refine (rr_hist useq never attrs_new two_greys world0 greys (snd (hist_quantize useq never attrs_new (two_greys, world0))) useq_ok us_new two_greys_r _).
  vm.
Qed.
Definition column : image := get_ok (image_new (repeat (grey 100) 129) 1 129 d0) no_image.
Lemma column_new : image_new_stride (repeat (grey 100) 129) 1 129 1 d0 = Ok column.
Proof. vm. Qed.
Lemma column_r : image_r column (strided rgba_default (repeat (grey 100) 129) (Z.to_nat 1) (Z.to_nat 129) (Z.to_nat 1)).
Proof.
  refine (ir_stride (repeat (grey 100) 129) 1 129 1 d0 column _ _ _ _ column_new); try lia.
  apply Forall_forall. intros x Hx. apply repeat_spec in Hx. subst. repeat split; cbn; lia.
Qed.
Definition u2 : unspec := u_seq 2 (fun _ _ => 0).
Lemma u2_ok k : k < 256 -> unspec_ok (with_scratch u2 (fun _ _ => k)).
Proof. intros H. apply with_scratch_ok; auto. apply u_seq_ok; intros; lia. Qed.
Definition cell65 (k : nat) : option nat :=
  nth_error (snd (fst (snd (remap_into (with_scratch u2 (fun _ _ => k)) never greys column (repeat 0 129) world0)))) 65.
Lemma cell65_0 : cell65 0 = Some 0.
Proof. vm. Qed.
Lemma cell65_1 : cell65 1 = Some 1.
Proof. vm. Qed.
Theorem C28_scratch_refuted :
  exists (A : Arith) (C : CastLaws A) u s1 s2 m q i pxs,
  unspec_ok (with_scratch u s1) /\ unspec_ok (with_scratch u s2) /\ result_r m q /\ image_r i pxs /\
  let out s := snd (fst (snd (remap_into (with_scratch u s) (fun _ _ => false) q i (repeat 0 (i_w i * i_h i)) world0))) in
  out s1 <> out s2.
Proof.
  exists toy, toy_cast, u2, (fun _ _ => 0), (fun _ _ => 1), 256, greys, column. eexists.
  split; [apply u2_ok; lia|]. split; [apply u2_ok; lia|]. split; [exact greys_r|]. split; [exact column_r|].
  intros out E. apply (f_equal (fun l => nth_error l 65)) in E.
  assert (Q : cell65 0 = cell65 1) by exact E. rewrite cell65_0, cell65_1 in Q. discriminate.
Qed.
Print Assumptions C28_scratch_refuted.

(** C42 (proved part).  The importance map survives quantization, adding the
    image to histograms, undithered remaps and remaps without a dither map. *)
Theorem C42_map_kept_partial :
  forall (A : Arith) (C : CastLaws A) i pxs m, image_r i pxs -> i_imp i = Some m ->
  (forall u cb a w r i' w', quantize u cb a (i, w) = (r, (i', w')) -> i_imp i' = Some m) /\
  (forall u cb a h w r h' i' w', add_image u cb a (h, i, w) = (r, (h', i', w')) -> i_imp i' = Some m) /\
  (forall u cb q buf w r q' i' out w', (q_dither q =f f0) = true \/ dmode_is_none (q_dmap q) = true ->
     remap_into u cb q i buf w = (r, (q', i', out, w')) -> i_imp i' = Some m).
Proof.
  exact (fun A C i pxs m I M => conj (fun u cb a w r i' w' E => @quantize_keeps_map A C u cb a i pxs w r i' w' m (reach_image i pxs I) M E)
    (conj (fun u cb a h w r h' i' w' E => @add_image_keeps_map A C u cb a h i pxs w r h' i' w' m (reach_image i pxs I) M E)
      (fun u cb q buf w r q' i' out w' H E => eq_trans (@remap_keeps_map A u cb q i buf w r q' i' out w' H E) M))).
Qed.
Print Assumptions C42_map_kept_partial.
(** C42 is false for the first dithered remap. *)
Definition stripes : list rgba := [red; red; blue; blue; red; red; blue; blue; red; red; blue; blue; red; red; blue; blue].
Definition img4 : image := get_ok (image_new stripes 4 4 d0) no_image.
Definition img4m : image := get_ok (set_importance_map img4 (repeat 10%Z 16)) no_image.
Lemma img4_new : image_new_stride stripes 4 4 4 d0 = Ok img4.
Proof. vm. Qed.
Lemma img4m_set : set_importance_map img4 (repeat 10%Z 16) = Ok img4m.
Proof. vm. Qed.
Lemma img4m_r : image_r img4m (strided rgba_default stripes (Z.to_nat 4) (Z.to_nat 4) (Z.to_nat 4)).
Proof.
  refine (ir_imp img4 _ (repeat 10%Z 16) img4m _ _ img4m_set).
  - refine (ir_stride stripes 4 4 4 d0 img4 _ _ _ _ img4_new); try lia. repeat constructor; cbn; lia.
  - apply Forall_forall. intros x Hx. apply repeat_spec in Hx. subst. split; lia.
Qed.
Definition imp_after : option (list Z) := i_imp (next_image (remap_into useq never res2 img4m (repeat 0 16) world0)).
Lemma imp_after_eq : imp_after = Some (repeat 255%Z 16).
Proof. vm. Qed.
Theorem C42_map_refuted :
  exists (A : Arith) (C : CastLaws A) u m q i pxs map, unspec_ok u /\ result_r m q /\ image_r i pxs /\ i_imp i = Some map /\
  i_imp (next_image (remap_into u (fun _ _ => false) q i (repeat 0 (i_w i * i_h i)) world0)) <> Some map.
Proof.
  exists toy, toy_cast, useq, 256, res2, img4m. do 2 eexists.
  split; [exact useq_ok|]. split; [exact res2_r|]. split; [exact img4m_r|]. split; [reflexivity|].
  change (imp_after <> Some (repeat 10%Z 16)). rewrite imp_after_eq. discriminate.
Qed.
Print Assumptions C42_map_refuted.
Example C42_example : image_r img4m (strided rgba_default stripes (Z.to_nat 4) (Z.to_nat 4) (Z.to_nat 4)) /\ i_imp img4m = Some (repeat 10%Z 16) /\
  i_imp (next_image (remap_into useq never plain2 img4m (repeat 0 16) world0)) = Some (repeat 10%Z 16).
Proof. split; [exact img4m_r|]. split; vm. Qed.
