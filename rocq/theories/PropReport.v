(** What the reported errors and qualities mean (property C55). *)
From Verif Require Import Base BaseFacts Arith Order Pal World Attr Hist Nearest Kmeans Blur ImageM Quant Remap SpecHist SpecImage
  SpecAttr AttrFacts ImageFacts Ieee SpecPow PowRef USeq Api ApiFacts NearFacts ResultFacts PalFacts ReuseFacts SpecReport ReportFacts Witness.
From Flocq Require Import IEEE754.BinarySingleNaN.
Open Scope nat_scope.

(** C55 (I): a fresh result.  The quality reported is the largest minimum
    quality that would have accepted the error of the palette, the error is
    that error on the 8-bit scale, and before any remap the remapping numbers
    are the same numbers. *)
Theorem C55_palette_reported : forall pow32 pow64, pow64_accurate pow64 -> let A := ieee pow32 pow64 in
  forall u cb a (q : qresult), unspec_ok u -> usable a -> made_by u cb a q ->
  remapping_error q = quantization_error q /\ remapping_quality q = quantization_quality q /\
  match quantization_error q, quantization_quality q with
  | Some e, Some v => exists e0, q_err q = Some e0 /\ e = standard e0 /\ describes e0 v
  | None, None => q_err q = None
  | _, _ => False
  end.
Proof. exact fresh_reports. Qed.
Print Assumptions C55_palette_reported.

(** C55 (I): an undithered remap.  The remapping error is the mean of the
    distances between the pixels and the colours chosen for them (the pixel
    count is taken modulo 2^32, see C27), the remapping quality is the largest
    minimum quality that accepts that mean, and the numbers of the palette
    itself do not change. *)
Theorem C55_remap_reported : forall pow32 pow64, pow64_accurate pow64 -> let A := ieee pow32 pow64 in
  forall u rcb m (q : qresult) i pxs buf w q' i' out w', unspec_ok u -> result_r m q -> image_r i pxs ->
  (q_dither q =f f0) = true -> i_bg i = None -> remap_into u rcb q i buf w = (Ok tt, (q', i', out, w')) ->
  quantization_error q' = quantization_error q /\ quantization_quality q' = quantization_quality q /\
  exists dist t v,
    let mean := sum_of_rows (i_w i) dist t /d dofZ ((Z.of_nat (i_w i) * Z.of_nat (i_h i)) mod 2 ^ 32) in
    Permutation (stree_leaves t) (seq 0 (i_h i)) /\
    (forall y x r c, nth_error pxs y = Some r -> nth_error r x = Some c ->
       exists k pc, nth_error out (y * i_w i + x) = Some k /\
         nth_error (colors_of (fst (init_int_palette (q_pal q) (q_gamma q) (q_post q)))) k = Some pc /\
         dist_to (from_rgba (gamma_lut (d_gamma (i_px i))) c) pc (dist y x)) /\
    remapping_error q' = Some (standard mean) /\ remapping_quality q' = Some v /\ describes mean v.
Proof. exact remap_reports. Qed.
Print Assumptions C55_remap_reported.

(** C55 (O): a dithered remap that makes no draft (the speed is 7 or more, or
    the image has been drafted before) reports the numbers of the palette
    search, whatever image is remapped. *)
Theorem C55_no_draft : forall (A : Arith) u cb q i buf w q' i' out w', (q_dither q =f f0) = false ->
  (q_dmap q = DmNone \/ i_dmap i <> None) -> remap_into u cb q i buf w = (Ok tt, (q', i', out, w')) ->
  remapping_error q' = quantization_error q /\ remapping_quality q' = quantization_quality q.
Proof. exact (fun A => @no_draft_reports A). Qed.
Print Assumptions C55_no_draft.

(** So the documented meaning, "mean square error of last remapping done", is
    false with dithering: a palette made for a red and blue image reports
    error 0 and quality 100 after a remap that shows black, green, white and
    grey pixels as red and blue. *)
Definition fast : attrs := get_ok (set_speed attrs_new 10) attrs_new.
Lemma fast_eq : set_speed attrs_new 10 = Ok fast.
Proof. vm. Qed.
Lemma fast_usable : usable fast.
Proof. apply (us_call attrs_new (CallSpeed 10)); [apply us_new|cbn; lia|exact fast_eq]. Qed.
Definition other : list rgba := [Rgba 0 0 0 255; Rgba 0 255 0 255; Rgba 255 255 255 255; Rgba 128 128 128 255].
Definition other_img : image := get_ok (image_new other 2 2 d0) no_image.
Lemma other_new : image_new_stride other 2 2 2 d0 = Ok other_img.
Proof. vm. Qed.
Lemma other_r : image_r other_img (strided rgba_default other (Z.to_nat 2) (Z.to_nat 2) (Z.to_nat 2)).
Proof. refine (ir_stride other 2 2 2 d0 other_img _ _ _ _ other_new); try lia. repeat constructor; cbn; lia. Qed.
Definition fast_q : qresult := call_r (quantize useq never fast (img2, world0)) no_result.
Definition fast_st : image * world := snd (quantize useq never fast (img2, world0)).
Lemma fast_q_eq : quantize useq never fast (img2, world0) = (Ok fast_q, fast_st).
Proof. vm. Qed.
Lemma fast_colors : a_max_colors fast = 256.
Proof. vm. Qed.
Lemma fast_q_r : result_r 256 fast_q.
Proof. exact (eq_ind _ (fun m => result_r m fast_q) (rr_image useq never fast img2 _ world0 fast_q fast_st useq_ok fast_usable img2_r fast_q_eq) _ fast_colors). Qed.
Definition seen_of {A : Arith} (x : res unit * (qresult * image * list nat * world)) : res unit * list nat * option bool * option Z * list rgba :=
  let '(r, (q', _, out, _)) := x in (r, out, option_map (fun e => e =d d0) (remapping_error q'), remapping_quality q', fst (palette q')).
Lemma wrong_is : seen_of (remap_into useq never fast_q other_img [9; 9; 9; 9] world0) = (Ok tt, [1; 0; 1; 1], Some true, Some 100%Z, [blue; red]).
Proof. vm. Qed.
Lemma wrong_gen {A : Arith} (x : res unit * (qresult * image * list nat * world)) ip :
  seen_of x = (Ok tt, [1; 0; 1; 1], Some true, Some 100%Z, ip) ->
  exists q' i' out w', x = (Ok tt, (q', i', out, w')) /\ out = [1; 0; 1; 1] /\ fst (palette q') = ip /\
    (exists e, remapping_error q' = Some e /\ (e =d d0) = true) /\ remapping_quality q' = Some 100%Z.
Proof.
  destruct x as [r [[[q' i'] out] w']]. unfold seen_of. intros W.
  apply pair_equal_spec in W as [W W5]. apply pair_equal_spec in W as [W W4]. apply pair_equal_spec in W as [W W3]. apply pair_equal_spec in W as [W1 W2].
  exists q', i', out, w'. split; [congruence|]. split; [exact W2|]. split; [exact W5|]. split; [|exact W4].
  destruct (remapping_error q') as [e|]; [|discriminate W3]. exists e. split; [reflexivity|]. cbn [option_map] in W3. congruence.
Qed.
Lemma other_white : exists r, nth_error (strided rgba_default other (Z.to_nat 2) (Z.to_nat 2) (Z.to_nat 2)) 1 = Some r /\ nth_error r 0 = Some (Rgba 255 255 255 255).
Proof. eexists. split; reflexivity. Qed.
Definition wrong_report {A : Arith} (pxs : list (list rgba)) (out : list nat) (q' : qresult) : Prop :=
  (* the remap shows a white pixel as red *)
  (exists r, nth_error pxs 1 = Some r /\ nth_error r 0 = Some (Rgba 255 255 255 255)) /\
  (exists k, nth_error out 2 = Some k /\ nth_error (fst (palette q')) k = Some (Rgba 200 0 0 255)) /\
  (* and reports no error *)
  (exists e, remapping_error q' = Some e /\ (e =d d0) = true) /\ remapping_quality q' = Some 100%Z.
Lemma report_gen {A : Arith} u cb m q i pxs buf : unspec_ok u -> result_r m q -> image_r i pxs ->
  (exists r, nth_error pxs 1 = Some r /\ nth_error r 0 = Some (Rgba 255 255 255 255)) ->
  seen_of (remap_into u cb q i buf world0) = (Ok tt, [1; 0; 1; 1], Some true, Some 100%Z, [blue; red]) ->
  exists u cb m q i pxs buf q' i' out w', unspec_ok u /\ result_r m q /\ image_r i pxs /\
  remap_into u cb q i buf world0 = (Ok tt, (q', i', out, w')) /\ wrong_report pxs out q'.
Proof.
  intros U R I W S. destruct (wrong_gen _ _ S) as (q' & i' & out & w' & E & E1 & E2 & E3 & E4).
  exists u, cb, m, q, i, pxs, buf, q', i', out, w'. split; [exact U|]. split; [exact R|]. split; [exact I|]. split; [exact E|].
  split; [exact W|]. split; [|split; [exact E3|exact E4]]. exists 1. rewrite E1, E2. split; reflexivity.
Qed.
Theorem C55_dithered_error_refuted :
  exists (A : Arith) (C : CastLaws A) u cb m (q : qresult) i pxs buf q' i' out w', unspec_ok u /\ result_r m q /\ image_r i pxs /\
  remap_into u cb q i buf world0 = (Ok tt, (q', i', out, w')) /\ wrong_report pxs out q'.
Proof.
  exact (ex_intro _ toy (ex_intro _ toy_cast (report_gen useq never 256 fast_q other_img _ [9; 9; 9; 9] useq_ok fast_q_r other_r other_white wrong_is))).
Qed.
Print Assumptions C55_dithered_error_refuted.

(** The hypotheses are satisfiable: an accurate [pow] exists; an undithered
    remap of the other image on the red and blue palette reports an error above
    0 and quality 0 while the palette's own numbers stay. *)
Definition fast_plain : qresult := get_ok (set_dithering_level fast_q f0) no_result.
Definition plain_seen : res unit * list nat * option bool * option Z * option Z :=
  let '(r, (q', _, out, _)) := remap_into useq never fast_plain other_img [9; 9; 9; 9] world0 in
  (r, out, option_map (fun e => d0 <d e) (remapping_error q'), remapping_quality q', quantization_quality q').
Example C55_example : pow64_accurate pow64_ref /\ (q_dither fast_plain =f f0) = true /\ q_dmap fast_q = DmNone /\
  plain_seen = (Ok tt, [1; 1; 1; 1], Some true, Some 0%Z, Some 100%Z).
Proof. split; [exact pow64_ref_accurate|]. split; [vm|]. split; vm. Qed.
