(** C58: the palette is no worse than reported (exact arithmetic). *)
From Verif Require Import Base BaseFacts Arith Order Pal World Attr Hist Nearest MedianCut Kmeans Blur ImageM Quant Remap Api
  SpecHist RealArith SpecKmeans SpecPromise BoundFacts Ieee USeq Witness AttrFacts.
From Coq Require Import Reals Lra.
Open Scope R_scope.

(** C58.  At speeds 7 and above (no feedback rounds), for colours of one
    opacity, whatever the threads, hash order and callback do: the weighted
    mean of the distances from the histogram's colours to the palette returned
    is at most the error the result reports, and at most the error asked for by
    the minimum quality (a third of it for up to 256 colours) if the callback
    did not stop the work.  [insert_fixed] adds the fixed colours, which count
    as used 0 times; at least one colour must have been counted. *)
Theorem C58_histogram_partial : forall big, 3 < big -> let A := real big in
  forall u cb a h w q s' al, unspec_ok u -> usable a -> (7 <= get_speed a)%Z -> hist_r h -> al <> 0%Z ->
  (forall e, In e (hg_map h) -> ca (snd (snd e)) = al) -> (forall f, In f (hg_fixed h) -> ca (fst f) = al) ->
  (exists e, In e (hg_map (insert_fixed u h)) /\ (0 < fst (snd e))%Z) -> (hg_fixed h = [] \/ (a_target_mse a : R) <> 0) ->
  hist_quantize u cb a (h, w) = (Ok q, s') ->
  exists m, mean_distance (q_pal q) (weighed u h (q_gamma q)) m /\ (forall e, q_err q = Some e -> m <= e) /\
    (forall l, (forall t x, cb t x = false) -> a_max_mse a = Some l -> m <= l * allowance (length (hg_map (insert_fixed u h)))).
Proof. exact (fun big B u cb a h w q s' al => hist_bounded big B u cb a h w q s' al). Qed.
Print Assumptions C58_histogram_partial.

(** The same from an image; [h] is the histogram [quantize] makes of it. *)
Theorem C58_image_partial : forall big, 3 < big -> let A := real big in
  forall u cb a i pxs w h i1 w1 q i' w' al, unspec_ok u -> usable a -> (7 <= get_speed a)%Z -> image_r i pxs -> al <> 0%Z ->
  (forall r c, In r pxs -> In c r -> ca c = al) -> (forall c, In c (i_fixed i) -> ca c = al) -> (i_fixed i = [] \/ (a_target_mse a : R) <> 0) ->
  add_image u cb a (hist_new a, i, w) = (Ok tt, (h, i1, w1)) -> (exists e, In e (hg_map (insert_fixed u h)) /\ (0 < fst (snd e))%Z) ->
  quantize u cb a (i, w) = (Ok q, (i', w')) ->
  exists m, mean_distance (q_pal q) (weighed u h (q_gamma q)) m /\ (forall e, q_err q = Some e -> m <= e) /\
    (forall l, (forall t x, cb t x = false) -> a_max_mse a = Some l -> m <= l * allowance (length (hg_map (insert_fixed u h)))).
Proof. exact (fun big B u cb a i pxs w h i1 w1 q i' w' al => image_bounded big B u cb a i pxs w h i1 w1 q i' w' al). Qed.
Print Assumptions C58_image_partial.

(** In floating point, by running the model: eight opaque greys and two
    colours asked for, speed 10.  The mean distance to the palette returned,
    under the weights of the histogram, is above 0 and below the error
    reported, because the last step improved the palette once more. *)
Definition fast2 : attrs := get_ok (set_quality (get_ok (set_speed (get_ok (set_max_colors attrs_new 2) attrs_new) 10) attrs_new) 0 90) attrs_new.
Definition grey8 : list rgba := map (fun v => Rgba v v v 255) [3; 20; 70; 90; 100; 110; 160; 250]%Z.
Definition img8 : image := get_ok (image_new grey8 8 1 d0) no_image.
Definition res8 : qresult := call_r (quantize useq never fast2 (img8, world0)) no_result.
(** The histogram [quantize] makes, and the weighted mean distance from its
    colours to a palette, computed in the arithmetic [A]. *)
Definition items_of {A : Arith} (u : unspec) (cb : callback) (a : attrs) (i : image) : list hitem :=
  let '(_, (h, _, _)) := add_image u cb a (hist_new a, i, world0) in
  hi_items (fst (finalize_builder u h (unwrap_or (hg_gamma h) (dlit 45455 100000)))).
Definition nearest_d {A : Arith} (p : palf) (c : px) : f64 :=
  fold_left (fun d e => let x := f2d (diff c (fst e)) in if (x <d d)%flt then x else d) p (dofZ 1000).
Definition mean_d {A : Arith} (p : palf) (l : list hitem) : f64 :=
  (dsum (map (fun it => nearest_d p (h_color it) *d f2d (h_adj it)) l) /d dsum (map (fun it => f2d (h_adj it)) l))%flt.
Definition mean8 : f64 := mean_d (q_pal res8) (items_of useq never fast2 img8).
Example C58_example : get_speed fast2 = 10%Z /\ fst (palette res8) = [Rgba 65 65 65 255; Rgba 205 205 205 255] /\
  option_map (fun e => (d0 <d mean8, mean8 <d e))%flt (q_err res8) = Some (true, true).
Proof. split; [vm|]. split; vm. Qed.

(** The condition on fixed colours is needed: with target quality 100 a colour
    fixed twice takes two palette entries and pushes out a colour of the image,
    and the error reported is still 0.  Red and blue, red fixed twice. *)
Definition fast : attrs := get_ok (set_speed attrs_new 7) attrs_new.
Lemma fast_usable : usable fast.
Proof. apply (us_call attrs_new (SpecAttr.CallSpeed 7) fast us_new); [cbn; lia|]. change (set_speed attrs_new 7 = Ok fast). vm. Qed.
Definition twice : image := get_ok (image_add_fixed_color (get_ok (image_add_fixed_color img2 red) no_image) red) no_image.
Lemma twice_r : image_r twice [[red; blue]].
Proof.
  assert (X : rgba_ok red) by (repeat split; cbn; lia).
  refine (ir_fixed _ _ red _ (ir_fixed img2 _ red (get_ok (image_add_fixed_color img2 red) no_image) img2_r X _) X _); vm.
Qed.
Definition hist_twice : hist := fst (fst (snd (add_image useq never fast (hist_new fast, twice, world0)))).
Definition res_twice : qresult := call_r (quantize useq never fast (twice, world0)) no_result.
Definition lost : rgba * (Z * rgba) := nth 1 (hg_map hist_twice) (red, (0%Z, red)).
Theorem C58_duplicate_fixed_refuted : exists (A : Arith) u cb a i pxs h i1 w1 q i' w' e, unspec_ok u /\ usable a /\ (7 <= get_speed a)%Z /\ image_r i pxs /\
  (forall r c, In r pxs -> In c r -> ca c = 255%Z) /\ (forall c, In c (i_fixed i) -> ca c = 255%Z) /\
  add_image u cb a (hist_new a, i, world0) = (Ok tt, (h, i1, w1)) /\ In e (hg_map (insert_fixed u h)) /\ (0 < fst (snd e))%Z /\
  quantize u cb a (i, world0) = (Ok q, (i', w')) /\ q_err q = Some d0 /\
  Forall (fun x => (f0 <f diff (from_rgba (gamma_lut (q_gamma q)) (snd (snd e))) (fst x))%flt = true) (q_pal q).
Proof.
  exists toy, useq, never, fast, twice, [[red; blue]], hist_twice.
  set (o := add_image useq never fast (hist_new fast, twice, world0)). set (s := quantize useq never fast (twice, world0)).
  exists (snd (fst (snd o))), (snd (snd o)), res_twice, (fst (snd s)), (snd (snd s)), lost.
  split; [exact useq_ok|]. split; [exact fast_usable|]. split; [vm_compute; discriminate|]. split; [exact twice_r|].
  split; [intros r c [<-|[]] [<-|[<-|[]]]; reflexivity|]. split; [intros c [<-|[<-|[]]]; reflexivity|].
  split; [unfold o, hist_twice; vm|]. split; [vm_compute; tauto|]. split; [vm_compute; reflexivity|]. split; [unfold s, res_twice; vm|]. split; [vm|].
  apply Forall_forall. apply forallb_forall. vm.
Qed.
Print Assumptions C58_duplicate_fixed_refuted.

(** And so is the condition of one opacity: of five colours of different
    opacities, two asked for, the mean distance to the palette returned is more
    than 1% above the error reported. *)
Definition mixed : list rgba := [Rgba 60 0 255 190; Rgba 255 255 128 128; Rgba 128 60 60 255; Rgba 255 60 255 40; Rgba 128 60 0 128]%Z.
Definition img_mixed : image := get_ok (image_new mixed 5 1 d0) no_image.
Lemma mixed_r : image_r img_mixed [mixed].
Proof. refine (ir_stride mixed 5 1 5 d0 img_mixed _ _ _ _ _); try lia; [repeat constructor; cbn; lia|vm]. Qed.
Lemma fast2_usable : usable fast2.
Proof.
  apply (us_call (get_ok (set_speed (get_ok (set_max_colors attrs_new 2) attrs_new) 10) attrs_new) (SpecAttr.CallQuality 0 90)); [|cbn; lia|change (set_quality (get_ok (set_speed (get_ok (set_max_colors attrs_new 2) attrs_new) 10) attrs_new) 0 90 = Ok fast2); vm].
  apply (us_call (get_ok (set_max_colors attrs_new 2) attrs_new) (SpecAttr.CallSpeed 10)); [|cbn; lia|vm].
  apply (us_call attrs_new (SpecAttr.CallMaxColors 2)); [apply us_new|cbn; lia|vm].
Qed.
Definition res_mixed : qresult := call_r (quantize useq never fast2 (img_mixed, world0)) no_result.
Theorem C58_opacities_refuted : exists (A : Arith) u cb a i pxs q i' w' e, unspec_ok u /\ usable a /\ (7 <= get_speed a)%Z /\ image_r i pxs /\
  i_fixed i = [] /\ (forall r c, In r pxs -> In c r -> ca c <> 0%Z) /\ quantize u cb a (i, world0) = (Ok q, (i', w')) /\ q_err q = Some e /\
  (e *d dlit 101 100 <d mean_d (q_pal q) (items_of u cb a i))%flt = true.
Proof.
  exists toy, useq, never, fast2, img_mixed, [mixed], res_mixed. set (s := quantize useq never fast2 (img_mixed, world0)).
  exists (fst (snd s)), (snd (snd s)), (match q_err res_mixed with Some e => e | None => d0 end).
  split; [exact useq_ok|]. split; [exact fast2_usable|]. split; [vm_compute; discriminate|]. split; [exact mixed_r|]. split; [reflexivity|].
  split; [intros r c [<-|[]] H; cbn in H; repeat (destruct H as [<-|H]; [discriminate|]); destruct H|]. split; [unfold s, res_mixed; vm|].
  split; [|vm]. vm.
Qed.
Print Assumptions C58_opacities_refuted.
