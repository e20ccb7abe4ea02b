(** Model of src/quant.rs (palette search, result object) and of the entry
    points of src/hist.rs and src/attr.rs that lead to it. *)
From Verif Require Import Base Arith Pal World Attr Hist MedianCut Nearest Kmeans Blur ImageM.
Section Quant.
Context {A : Arith}.
Variable u : unspec.
Variable cb : callback.    (* the callback set on Attributes *)

(** src/quant.rs:437-445 [palette_from_histogram] *)
Definition palette_from_histogram (h : hint) (max_colors : nat) : res (palf * option f64) :=
  p <- foldM (fun p it => pal_push p (h_color it) (h_perc it)) (hi_items h) [] ;;
  p' <- with_fixed_colors p max_colors (hi_fixed h) ;;
  Ok (p', Some d0).

(** src/quant.rs:409-435 [refine_palette]; [fuel] = number of iterations. *)
Fixpoint refine_loop (fuel : nat) (a : attrs) (iterations : Z) (limit : f64) (max_mse : option f64)
         (i : Z) (h : hint) (p : palf) (err : option f64) : ST world (hint * palf * option f64) :=
  if (i <? iterations)%Z then
    match fuel with
    | O => slift Panic
    | S f =>
        let stage_done := fofZ i /f fofZ iterations in
        let overall := ffma (stage_done *f fofZ (a_st3 a)) (flit 89 100)
                            (fofZ (a_st1 a) +f fofZ (a_st2 a)) in
        stop <~ progress cb overall ;;
        if (stop : bool) then sret (h, p, err)
        else
          ' (e, h', p') <~ iteration u h p false ;;
          let converged := match err with
                           | Some prev => dabs (prev -d e) <d limit
                           | None => false
                           end in
          if converged then sret (h', p', Some e)
          else
            let mm := match max_mse with Some m => m | None => dofZ (10 ^ 20) end in
            refine_loop f a iterations limit max_mse
              (i + (if (mm *d dlit 15 10) <d e then 2 else 1))%Z h' p' (Some e)
    end
  else sret (h, p, err).
Definition refine_palette (a : attrs) (h : hint) (p : palf) (max_mse err : option f64)
  : ST world (hint * palf * option f64) :=
  let '(it, lim) := kmeans_iterations a (length (hi_items h)) (match err with Some _ => true | None => false end) in
  refine_loop (Z.to_nat it) a it lim max_mse 0 h p err.

(** src/quant.rs:371-401: the search loop.  Every round lowers [left] by at
    least one. *)
Definition unwrap_or {T} (o : option T) (d : T) : T := match o with Some x => x | None => d end.
Fixpoint search_loop (fuel : nat) (a : attrs) (total : Z) (tmse : f64)
         (h : hint) (max_colors : nat) (left : Z) (best : option palf) (overshoot : f64)
         (fails : Z) (err : option f64) : ST world (hint * option palf * option f64) :=
  match fuel with
  | O => slift Panic
  | S f =>
      let per_color := dmax (dmax tmse (unwrap_or err (quality_to_mse 1))) (quality_to_mse 51) *d dlit 12 10 in
      ' (p0, h1) <~ slift (mediancut u h max_colors (tmse *d overshoot) per_color) ;;
      p1 <~ slift (with_fixed_colors p0 (a_max_colors a) (hi_fixed h1)) ;;
      let q := fofZ (Z.max left 0) /f fofZ (total + 1) in
      let stage_done := ffma q (fneg q) f1 in
      let overall := ffma stage_done (fofZ (a_st2 a)) (fofZ (a_st1 a)) in
      if (left <=? 0)%Z then sret (h1, Some p1, err)
      else
        let none := match best with None => true | Some _ => false end in
        let first_run := (none && (d0 <d tmse))%bool in
        ' (e, h2, p2) <~ iteration u h1 p1 (negb first_run) ;;
        let better := (none || (e <d unwrap_or err dmaxv)
                       || ((e <=d tmse) && Nat.ltb (length p2) max_colors))%bool in
        let '(best', overshoot', max_colors', fails', left', err') :=
          if better then
            (Some p2,
             (if ((e <d tmse) && (d0 <d e))%bool then
                if (overshoot *d dlit 125 100) <d (tmse /d e) then overshoot *d dlit 125 100 else tmse /d e
              else overshoot),
             Nat.min max_colors (length p2 + 1), 0, left - 1, Some e)%Z
          else (best, d1, max_colors, fails + 1, left - (5 + (fails + 1)), err)%Z in
        stop <~ progress cb overall ;;
        if (stop || (left' <=? 0)%Z)%bool then sret (h2, best', err')
        else search_loop f a total tmse h2 max_colors' left' best' overshoot' fails' err'
  end.

(** src/quant.rs:356-406 [find_best_palette] *)
Definition find_best_palette (a : attrs) (tmse : f64) (perfect : bool) (max_mse : option f64) (h : hint)
  : ST world (palf * option f64) :=
  if (Nat.leb (length (hi_items h)) (a_max_colors a) && perfect)%bool
  then slift (palette_from_histogram h (a_max_colors a))
  else
    let total := feedback_loop_trials a (length (hi_items h)) in
    let over := if (0 <? total)%Z then dlit 105 100 else d1 in
    ' (h', best, err) <~ search_loop (S (Z.to_nat total)) a total tmse h (a_max_colors a) total None over 0 None ;;
    match best with
    | None => serr ValueOutOfRange
    | Some p =>
        ' (_, p', err') <~ refine_palette a h' p max_mse err ;;
        sret (p', err')
    end.

(** src/quant.rs:312-343 [sort_palette] *)
Definition is_transp (c : px) : bool := pa c <=f MAX_TRANSP_A.
Definition sort_palette (a : attrs) (p : palf) : res palf :=
  let last := a_last_transp a in
  let key e := Bool.eqb (is_transp (fst e)) last in
  let sorted := sort_by (fun x y => cmp_then (cmp_bool (key x) (key y))
                                      (cmp_rev (fcmp (popularity (snd x)) (popularity (snd y))))) p in
  if last then
    match min_by (fun x y => fcmp (pa (snd x)) (pa (snd y)))
                 (filter (fun ic => is_transp (snd ic)) (enumerate (colors_of sorted))) with
    | Some (i, _) => swap sorted (length sorted - 1) i
    | None => Ok sorted
    end
  else Ok sorted.

(** src/quant.rs:18-29 [QuantizationResult], src/remap.rs:22-26 [Remapped].
    An 8-bit [Palette] is the list of its first [count] entries, so a count of
    0 is the empty list.  The callback is passed separately. *)
Record qresult := QResult {
  q_rem : option (list rgba * option f64);
  q_pal : palf;
  q_int : list rgba;
  q_dither : f32;
  q_gamma : f64;
  q_err : option f64;
  q_post : Z;
  q_dmap : dmode;
  q_single : bool
}.

(** src/quant.rs:32-72 [QuantizationResult::new] *)
Definition result_new (a : attrs) (h : hint) (freeze : bool) (gamma : f64) : ST world qresult :=
  stop1 <~ progress cb (fofZ (a_st1 a)) ;;
  if (stop1 : bool) then serr Aborted
  else
    let '(max_mse, tmse, perfect) := target_mse a (length (hi_items h)) in
    ' (p, err) <~ find_best_palette a tmse perfect max_mse h ;;
    let p1 := if freeze then map (fun e => (fst e, pop_to_fixed (snd e))) p else p in
    stop2 <~ progress cb (ffma (fofZ (a_st3 a)) (flit 95 100) (fofZ (a_st1 a) +f fofZ (a_st2 a))) ;;
    if (stop2 : bool) then serr Aborted
    else
      let too_low := match err, max_mse with
                     | Some e, Some m => m <d e
                     | _, _ => false
                     end in
      if too_low then serr QualityTooLow
      else
        p2 <~ slift (sort_palette a p1) ;;
        sret (QResult None p2 [] f1 gamma err (a_post_out a) (a_dither a) (a_single a)).

(** src/hist.rs:189-206 [quantize_internal] *)
Definition quantize_internal (a : attrs) (freeze : bool) : ST (hist * world) qresult :=
  fun '(h, w) =>
    if (match hg_map h, hg_fixed h with [], [] => true | _, _ => false end)%bool
    then (Err Unsupported, (h, w))
    else
      match progress cb f0 w with
      | (Ok true, w1) => (Err Aborted, (h, w1))
      | (_, w1) =>
        match progress cb (fofZ (a_st1 a) *f flit 89 100) w1 with
        | (Ok true, w2) => (Err Aborted, (h, w2))
        | (_, w2) =>
          let gamma := unwrap_or (hg_gamma h) (dlit 45455 100000) in
          let '(hi, h') := finalize_builder u h gamma in
          let '(r, w3) := result_new a hi freeze gamma w2 in
          (r, (h', w3))
        end
      end.

(** src/hist.rs:184-187 [Histogram::quantize] *)
Definition hist_quantize (a : attrs) : ST (hist * world) qresult := quantize_internal a true.

(** src/hist.rs:105-132 [add_image] *)
Definition add_image (a : attrs) : ST (hist * image * world) unit :=
  fun '(h, i, w) =>
    match (match i_imp i with
           | None => if a_contrast a then contrast_maps i else Ok i
           | Some _ => Ok i
           end) with
    | Err e => (Err e, (h, i, w))
    | Panic => (Panic, (h, i, w))
    | Ok i =>
        let h := with_gamma h (image_gamma i) in
        let h := add_image_fixed h (i_fixed i) in
        match progress cb (fofZ (a_st1 a) *f flit 40 100) w with
        | (Ok true, w1) => (Err Aborted, (h, i, w1))
        | (_, w1) =>
          match all_rgba_rows (i_px i) with
          | Err e => (Err e, (h, i, w1))
          | Panic => (Panic, (h, i, w1))
          | Ok rows => (Ok tt, (add_pixel_rows u h (i_w i) rows (i_imp i) (posterize_bits a), i, w1))
          end
        end
    end.

(** src/attr.rs:79-84 [Attributes::quantize] *)
Definition quantize (a : attrs) : ST (image * world) qresult :=
  fun '(i, w) =>
    match add_image a (hist_new a, i, w) with
    | (Ok _, (h, i', w')) =>
        let '(r, (_, w'')) := quantize_internal a false (h, w') in (r, (i', w''))
    | (Err e, (_, i', w')) => (Err e, (i', w'))
    | (Panic, (_, i', w')) => (Panic, (i', w'))
    end.

(** src/quant.rs:134-155 setters *)
Definition set_rem (q : qresult) (r : option (list rgba * option f64)) : qresult :=
  QResult r (q_pal q) (q_int q) (q_dither q) (q_gamma q) (q_err q) (q_post q) (q_dmap q) (q_single q).
Definition set_dithering_level (q : qresult) (v : f32) : res qresult :=
  if negb ((f0 <=f v) && (v <=f f1))%bool then Err ValueOutOfRange
  else Ok (QResult None (q_pal q) (q_int q) v (q_gamma q) (q_err q) (q_post q) (q_dmap q) (q_single q)).
Definition set_output_gamma (q : qresult) (v : f64) : res qresult :=
  if ((v <=d d0) || (d1 <=d v))%bool then Err ValueOutOfRange
  else Ok (QResult None (q_pal q) (q_int q) (q_dither q) v (q_err q) (q_post q) (q_dmap q) (q_single q)).

(** src/quant.rs:157-194 getters *)
Definition output_gamma (q : qresult) : f64 := q_gamma q.
Definition quantization_quality (q : qresult) : option Z := option_map mse_to_quality (q_err q).
Definition quantization_error (q : qresult) : option f64 := option_map mse_to_standard_mse (q_err q).
Definition remap_err (q : qresult) : option f64 :=
  match q_rem q with
  | Some (_, Some e) => Some e
  | _ => q_err q
  end.
Definition remapping_error (q : qresult) : option f64 := option_map mse_to_standard_mse (remap_err q).
Definition remapping_quality (q : qresult) : option Z := option_map mse_to_quality (remap_err q).

(** src/quant.rs:201-215 [palette], [int_palette]: returns the palette and the
    updated object. *)
Definition palette (q : qresult) : list rgba * qresult :=
  match q_rem q with
  | Some (ip, _) => (ip, q)
  | None =>
      match q_int q with
      | [] =>
          let '(p', ip) := init_int_palette (q_pal q) (q_gamma q) (q_post q) in
          (ip, QResult (q_rem q) p' ip (q_dither q) (q_gamma q) (q_err q) (q_post q) (q_dmap q) (q_single q))
      | ip => (ip, q)
      end
  end.

(** src/quant.rs:289-291 [palette_len] *)
Definition palette_len (q : qresult) : nat := length (q_pal q).

(** src/quant.rs:294-310 [clone]: everything but the callback *)
Definition clone_result (q : qresult) : qresult :=
  QResult (q_rem q) (q_pal q) (q_int q) (q_dither q) (q_gamma q) (q_err q) (q_post q) (q_dmap q) (q_single q).
End Quant.
