(** Model of src/remap.rs and of the remapping entry points of src/quant.rs. *)
From Verif Require Import Base Arith Pal World Attr Hist Nearest Kmeans Blur ImageM Quant.
Section Remap.
Context {A : Arith}.
Variable u : unspec.
Variable rcb : callback.   (* the callback set on the QuantizationResult *)

(** src/remap.rs:66-88: one pixel of the undithered remap.  State: k-means
    accumulator, last match, output so far, error. *)
Definition remap_px (n : nearest) (bg : list px) (tidx : nat) (imp : option (list Z)) (row width : nat)
           (st : kmeans * nat * list nat * f64) (cp : nat * px) : res (kmeans * nat * list nat * f64) :=
  let '(k, last, outs, err) := st in
  let '(col, inp) := cp in
  let '(matched, df) := search n inp last in
  let use_bg := match nth_error bg col with
                | Some b => let bd := diff b inp in if bd <=f df then Some bd else None
                | None => None
                end in
  match use_bg with
  | Some bd => Ok (k, matched, outs ++ [tidx], err +d f2d bd)
  | None =>
      let importance := match imp with
                        | Some m => match nth_error m (row * width + col) with Some v => v | None => 1%Z end
                        | None => 1%Z
                        end in
      k' <- update_color k inp (fofZ importance) matched ;;
      Ok (k', matched, outs ++ [matched], err +d f2d df)
  end.

(** src/remap.rs:58-89: one row.  [inp.zip(out)]: the output row has [width]
    cells, all rows of the bitmap do. *)
Definition remap_row (n : nearest) (d : drows) (bg : option drows) (tidx : nat) (imp : option (list Z))
           (row : nat) (k : kmeans) : res (kmeans * list nat * f64) :=
  inp <- row_f d row ;;
  bgp <- match bg with Some b => row_f b row | None => Ok [] end ;;
  ' (k', _, outs, err) <- foldM (remap_px n bgp tidx imp row (d_w d)) (enumerate inp) (k, 0, [], d0) ;;
  Ok (k', outs, err).

(** One worker of the parallel loop over output rows. *)
Definition remap_worker (n : nearest) (d : drows) (bg : option drows) (tidx : nat) (imp : option (list Z))
           (st : list (list nat) * list f64) (kw : kmeans * list nat)
  : res (list (list nat) * list f64 * kmeans) :=
  foldM (fun '(out, errs, k) row =>
           ' (k', o, e) <- remap_row n d bg tidx imp row k ;;
           out' <- set_idx out row o ;;
           Ok (out', upd errs row e, k')) (snd kw) (fst st, snd st, fst kw).

(** src/remap.rs:29-102 [remap_to_palette], after the pixel rows have been
    prepared; [threads]/[main]/[shape] describe the schedule: rows of every
    worker in merge order, which one is the calling thread, and how the row
    errors are summed. *)
Definition transparent_idx (n : nearest) : nat := fst (search n px0 0).
Definition remap_rows (n : nearest) (d : drows) (bg : option drows) (imp : option (list Z))
           (threads : list (list nat)) (main : nat) (shape : stree)
           (out : list (list nat)) (p : palf) : res (list (list nat) * f64 * palf) :=
  let t := transparent_idx n in
  tc <- match bg with Some _ => idx (n_pal n) t | None => Ok px0 end ;;
  let '(bg, tidx) := match bg with
                     | Some b => if pa tc <f MIN_OPAQUE_A then (Some b, t) else (None, 0)
                     | None => (None, 0)
                     end in
  let k0 := km_new (length p) in
  kmain <- match bg with Some _ => update_color k0 px0 f1 tidx | None => Ok k0 end ;;
  let kws := map (fun iw => (if Nat.eqb (fst iw) main then kmain else k0, snd iw)) (enumerate threads) in
  ' (out', errs, ks) <-
     foldM (fun '(out, errs, ks) kw =>
              ' (o, e, k) <- remap_worker n d bg tidx imp (out, errs) kw ;; Ok (o, e, ks ++ [k]))
           kws (out, repeat d0 (length out), []) ;;
  let err := stree_sum (fun r => nth r errs d0) shape in
  let p' := match km_reduce ks with Some k => fst (km_finalize k p) | None => p end in
  Ok (out', err, p').

(** State of a remapping call. *)
Record rst := RSt { r_q : qresult; r_img : image; r_out : list (list nat); r_w : world }.
Definition on_world {T} (m : ST world T) : ST rst T :=
  fun s => let '(r, w) := m (r_w s) in (r, RSt (r_q s) (r_img s) (r_out s) w).
Definition put_img (i : image) : ST rst unit := smod (fun s => RSt (r_q s) i (r_out s) (r_w s)).
Definition put_out (o : list (list nat)) : ST rst unit := smod (fun s => RSt (r_q s) (r_img s) o (r_w s)).
Definition put_q (q : qresult) : ST rst unit := smod (fun s => RSt q (r_img s) (r_out s) (r_w s)).

(** src/remap.rs:44,50,164-167,183: caching of converted pixels of the image
    and of its background *)
Definition prepare_image : ST rst unit :=
  s <~ sget ;;
  d <~ slift (prepare_iter (i_px (r_img s)) true) ;;
  put_img (set_px (r_img s) d).
Definition prepare_bg : ST rst unit :=
  s <~ sget ;;
  match i_bg (r_img s) with
  | None => sret tt
  | Some b => d <~ slift (prepare_iter (i_px b) true) ;; put_img (set_bg (r_img s) (Some (set_px b d)))
  end.

(** src/remap.rs:29-102 [remap_to_palette]; [use_bg] says whether the image's
    background is passed.  f64::NAN marks an allocation failure, but any NaN
    sum takes the same path (92-94).  [px.width * px.height] is u32. *)
Definition remap_to_palette (use_bg : bool) (p : palf) : ST rst (f64 * palf) :=
  n <~ slift (nearest_new p) ;;
  _ <~ prepare_image ;;
  _ <~ (if use_bg then prepare_bg else sret tt) ;;
  s <~ sget ;;
  let i := r_img s in
  let bg := if use_bg then option_map i_px (i_bg i) else None in
  let rows := length (r_out s) in
  t <~ on_world tick ;;
  ' (out, err, p') <~ slift (remap_rows n (i_px i) bg (i_imp i) (u_rows u t rows) (u_main u t rows)
                                       (u_sum u t rows) (r_out s) p) ;;
  _ <~ put_out out ;;
  if dis_nan err then serr OutOfMemory
  else sret (err /d dofZ (wrap32 (Z.of_nat (i_w i) * Z.of_nat (i_h i))), p').

(** src/remap.rs:104-141 [get_dithered_pixel] *)
Definition MAX_OVERFLOW : f32 := flit 11 10.
Definition MAX_UNDERFLOW : f32 := fneg (flit 1 10).
Definition ratio_step (ratio p s : f32) : f32 :=
  if MAX_OVERFLOW <f (p +f s) then fmin ratio ((MAX_OVERFLOW -f p) /f s)
  else if (p +f s) <f MAX_UNDERFLOW then fmin ratio ((MAX_UNDERFLOW -f p) /f s)
  else ratio.
Definition err_energy (s : px) : f32 :=
  ffma (pr s) (pr s) (pg s *f pg s) +f ffma (pb s) (pb s) (pa s *f pa s).
Definition get_dithered_pixel (level max_err : f32) (thiserr p : px) : px :=
  let s := px_scale thiserr level in
  let e := err_energy s in
  if e <f (fofZ 2 /f fofZ 256 /f fofZ 256) then p
  else
    let ratio := ratio_step f1 (pr p) (pr s) in
    let ratio := ratio_step ratio (pg p) (pg s) in
    let ratio := ratio_step ratio (pb p) (pb s) in
    let ratio := if max_err <f e then ratio *f flit 8 10 else ratio in
    Px (fclamp (pa p +f pa s) f0 f1)
       (ffma (pr s) ratio (pr p)) (ffma (pg s) ratio (pg p)) (ffma (pb s) ratio (pb p)).

(** Settings that stay constant during dithering. *)
Record dither_env := DEnv {
  e_w : nat;
  e_n : nearest;
  e_base : f32;
  e_max : f32;
  e_tidx : nat;
  e_guess : bool
}.

(** State inside one row. *)
Record dstate := DSt {
  s_this : list px; s_next : list px;     (* width + 2 error cells each *)
  s_out : list nat;
  s_bgused : nat;
  s_last : nat
}.

Definition err_add (l : list px) (i : nat) (e : px) (k : f32) : res (list px) :=
  x <- idx l i ;; set_idx l i (px_add x (px_scale e k)).
Definition err_set (l : list px) (i : nat) (e : px) (k : f32) : res (list px) :=
  set_idx l i (px_scale e k).
Definition sixteenths (k : Z) : f32 := fofZ k /f fofZ 16.

(** src/remap.rs:250-318: one pixel of [dither_row] *)
Definition dither_px (E : dither_env) (row : list px) (dmap : list Z) (bgp : list px) (even : bool)
           (st : dstate) (x : nat) : res dstate :=
  let col := if even then x else (e_w E - 1 - x)%nat in
  input <- idx row col ;;
  let level := match nth_error dmap col with Some l => e_base E *f fofZ l | None => e_base E end in
  te <- idx (s_this st) (col + 1) ;;
  let spx := get_dithered_pixel level (e_max E) te input in
  guess <- (if e_guess E then idx (s_out st) col else Ok (s_last st)) ;;
  let '(m, ddiff) := search (e_n E) spx guess in
  outpx <- idx (n_pal (e_n E)) m ;;
  ' (matched, output, used) <-
    match nth_error bgp col with
    | None => Ok (m, outpx, s_bgused st)
    | Some b =>
        if diff spx b <=f ddiff then Ok (e_tidx E, b, s_bgused st)
        else if Nat.ltb 1 (s_bgused st) then Ok (m, outpx, 0%nat)
        else
          let max_diff := diff input b in
          if max_diff <f diff input outpx then
            gp <- idx (n_pal (e_n E)) guess ;;
            if diff input gp <f max_diff then Ok (guess, gp, (s_bgused st + 1)%nat)
            else Ok (m, outpx, s_bgused st)
          else Ok (m, outpx, s_bgused st)
    end ;;
  out' <- set_idx (s_out st) col matched ;;
  let err := px_sub spx output in
  let err := if e_max E <f err_energy err then px_scale err (flit 75 100) else err in
  if even then
    this' <- err_add (s_this st) (col + 2) err (sixteenths 7) ;;
    n1 <- err_add (s_next st) col err (sixteenths 3) ;;
    n2 <- err_add n1 (col + 1) err (sixteenths 5) ;;
    n3 <- err_set n2 (col + 2) err (sixteenths 1) ;;
    Ok (DSt this' n3 out' used m)
  else
    this' <- err_add (s_this st) col err (sixteenths 7) ;;
    n1 <- err_set (s_next st) col err (sixteenths 1) ;;
    n2 <- err_add n1 (col + 1) err (sixteenths 5) ;;
    n3 <- err_add n2 (col + 2) err (sixteenths 3) ;;
    Ok (DSt this' n3 out' used m).

(** src/remap.rs:234-319 [dither_row]: [diffusion] is the pair of halves. *)
Definition dither_row (E : dither_env) (row : list px) (dmap : list Z) (bgp : list px) (even : bool)
           (dif : list px * list px) (out : list nat) : res ((list px * list px) * list nat) :=
  if negb (Nat.eqb (length row) (e_w E) && Nat.eqb (length out) (e_w E))%bool then Panic  (* assert_eq! *)
  else
    let this := if even then fst dif else snd dif in
    let zero := repeat px0 (e_w E + 2) in
    st <- foldM (dither_px E row dmap bgp even) (seq 0 (e_w E)) (DSt this zero out 0 0) ;;
    Ok (if even then (s_this st, s_next st) else (s_next st, s_this st), s_out st).

(** [dither_map.get(row * width .. row * width + width).unwrap_or(&[])] *)
Definition dmap_slice (dm : list Z) (row w : nat) : list Z :=
  match slice dm (row * w) w with Ok l => l | _ => [] end.

(** One row of the image (either a warm-up row or a real one). *)
Definition dither_image_row (E : dither_env) (d : drows) (bg : option drows) (dm : list Z)
           (row : nat) (dif : list px * list px) (out : list nat)
  : res ((list px * list px) * list nat) :=
  r <- row_f d row ;;
  b <- match bg with Some b => row_f b row | None => Ok [] end ;;
  dither_row E r (dmap_slice dm row (e_w E)) b (Nat.even row) dif out.

(** src/remap.rs:202-213: warm-up rows written to an uninitialised scratch row *)
Definition warm_up (E : dither_env) (d : drows) (bg : option drows) (dm : list Z)
           (start : nat) (scratch : list nat) : res (list px * list px) :=
  let zero := repeat px0 (e_w E + 2) in
  if Nat.ltb 2 start then
    ' (dif, _) <- foldM (fun '(dif, sc) row => dither_image_row E d bg dm row dif sc)
                        (seq (start - 2) 2) ((zero, zero), scratch) ;;
    Ok dif
  else Ok (zero, zero).

(** src/remap.rs:218-227: the rows of one chunk *)
Definition dither_chunk (E : dither_env) (d : drows) (bg : option drows) (dm : list Z)
           (start : nat) (dif : list px * list px) (rows : list (list nat)) : res (list (list nat)) :=
  ' (_, outs) <- foldM (fun '(dif, outs) ir =>
                    ' (dif', o) <- dither_image_row E d bg dm (start + fst ir) dif (snd ir) ;;
                    Ok (dif', outs ++ [o])) (enumerate rows) (dif, []) ;;
  Ok outs.

(** src/remap.rs:187-188 *)
Definition num_chunks (single : bool) (w h : nat) : nat :=
  if single then 1
  else Nat.min (Nat.max (Nat.min (Z.to_nat (Z.of_nat w * Z.of_nat h / 524288)) (h / 128))
                        (if Nat.ltb 128 h then 2 else 1)) (u_cpus u).

(** src/remap.rs:190-231: chunks in order; [done] are the rows already
    written.  Spawned chunks run to completion even when a later one aborts. *)
Fixpoint floyd_chunks (E : dither_env) (d : drows) (bg : option drows) (dm : list Z) (stage1 : Z) (h : nat)
         (start : nat) (done : list (list nat)) (cs : list (list (list nat))) : ST rst unit :=
  match cs with
  | [] => put_out done
  | c :: t =>
      k <~ on_world tick ;;
      dif <~ slift (warm_up E d bg dm start (map (u_scratch u k) (seq 0 (e_w E)))) ;;
      stop <~ on_world (progress rcb (fofZ stage1 +f fofZ (Z.of_nat start) *f (fofZ 100 -f fofZ stage1)
                                                    /f fofZ (Z.of_nat h))) ;;
      if (stop : bool) then (_ <~ put_out (done ++ concat (c :: t)) ;; serr Aborted)
      else
        o <~ slift (dither_chunk E d bg dm start dif c) ;;
        floyd_chunks E d bg dm stage1 h (start + length c) (done ++ o) t
  end.

(** src/remap.rs:146-232 [remap_to_palette_floyd] *)
Definition is_none {T} (o : option T) : bool := match o with None => true | Some _ => false end.
Definition floyd (p : palf) (max_err : f32) (is_remapped : bool) : ST rst unit :=
  s <~ sget ;;
  let q := r_q s in
  let i := r_img s in
  let stage1 := if dmode_is_none (q_dmap q) then 0%Z else 20%Z in
  let dm := if dmode_is_none (q_dmap q) then []
            else match i_dmap i with
                 | Some m => m
                 | None => match i_edges i with Some e => e | None => [] end
                 end in
  n <~ slift (nearest_new p) ;;
  _ <~ prepare_bg ;;
  let tidx := match i_bg i with Some _ => transparent_idx n | None => 0 end in
  tc <~ slift (match i_bg i with Some _ => idx (n_pal n) tidx | None => Ok px0 end) ;;
  let use_bg := match i_bg i with Some _ => negb (MIN_OPAQUE_A <f pa tc) | None => false end in
  let inv := f1 -f q_dither q in
  let base := ffma inv (fneg inv) f1 *f (fofZ 15 /f fofZ 16) in
  let base := match dm with [] => base | _ => base *f (f1 /f fofZ 255) end in
  _ <~ prepare_image ;;
  s <~ sget ;;
  let i := r_img s in
  let bg := if use_bg then option_map i_px (i_bg i) else None in
  let E := DEnv (i_w i) n base max_err tidx (is_remapped && negb use_bg)%bool in
  let nc := num_chunks (q_single q) (i_w i) (i_h i) in
  let size := ((i_h i + nc - 1) / nc)%nat in
  floyd_chunks E (i_px i) bg dm stage1 (i_h i) 0 [] (chunks size (r_out s)).

(** src/quant.rs:120-132 [optionally_generate_dither_map]; [width * height] is
    computed on u32. *)
Definition optionally_generate_dither_map (dm : dmode) (uses_bg : bool) (p : palf)
  : ST rst (option f64 * palf) :=
  s <~ sget ;;
  let i := r_img s in
  let huge := (2000 * 2000 <? wrap32 (Z.of_nat (i_w i) * Z.of_nat (i_h i)))%Z in
  let allow := (dmode_is_always dm || (negb huge && negb (dmode_is_none dm)))%bool in
  if negb (allow && is_none (i_dmap i))%bool then sret (None, p)
  else
    ' (err, p') <~ remap_to_palette false p ;;
    s <~ sget ;;
    i' <~ slift (update_dither_map (r_img s) (r_out s) p' uses_bg) ;;
    _ <~ put_img i' ;;
    sret (Some err, p').

(** src/quant.rs:83-118 [write_remapped_image_rows_internal] *)
Definition write_remapped : ST rst unit :=
  s <~ sget ;;
  let q := r_q s in
  let stage1 := if dmode_is_none (q_dmap q) then 0%Z else 20%Z in
  stop <~ on_world (progress rcb (fofZ stage1 *f flit 25 100)) ;;
  if (stop : bool) then serr Aborted
  else
    _ <~ put_img (set_px (r_img s) (free_histogram_inputs (i_px (r_img s)))) ;;
    if q_dither q =f f0 then
      let '(p, ip) := init_int_palette (q_pal q) (q_gamma q) (q_post q) in
      ' (err, _) <~ remap_to_palette true p ;;
      put_q (set_rem q (Some (ip, Some err)))
    else
      let uses_bg := negb (is_none (i_bg (r_img s))) in
      ' (map_err, p) <~ optionally_generate_dither_map (q_dmap q) uses_bg (q_pal q) ;;
      stop2 <~ on_world (progress rcb (fofZ stage1 *f flit 5 10)) ;;
      if (stop2 : bool) then serr Aborted
      else
        let perr := match map_err with Some e => Some e | None => q_err q end in
        let '(p', ip) := init_int_palette p (q_gamma q) (q_post q) in
        let max_err := d2f (dmax (unwrap_or perr (quality_to_mse 80) *d dlit 24 10) (quality_to_mse 35)) in
        _ <~ floyd p' max_err (negb (is_none map_err)) ;;
        put_q (set_rem q (Some (ip, perr))).

(** src/quant.rs:74-81 [optionally_prepare_for_dithering_with_background_set]
    (hidden from the documentation): every full row of the buffer is used; the
    cells after the last full row stay.  The palette of the result itself is
    refined.  [update_dither_map] comes after that but cannot fail
    (allocation failure is not modelled), so an error leaves the palette. *)
Definition set_pal (q : qresult) (p : palf) : qresult :=
  QResult (q_rem q) p (q_int q) (q_dither q) (q_gamma q) (q_err q) (q_post q) (q_dmap q) (q_single q).
Definition prepare_for_dithering (q : qresult) (i : image) (buf : list nat) (w : world)
  : res unit * (qresult * image * list nat * world) :=
  let rows := chunks_exact (i_w i) buf in
  let rest := skipn (i_w i * length rows) buf in
  let '(r, s) := optionally_generate_dither_map (q_dmap q) true (q_pal q) (RSt q i rows w) in
  let after := fun q' => (q', r_img s, concat (r_out s) ++ rest, r_w s) in
  match r with
  | Ok (_, p) => (Ok tt, after (set_pal q p))
  | Err e => (Err e, after q)
  | Panic => (Panic, after q)
  end.

(** src/quant.rs:265-271 [remap_into]: a contiguous buffer whose previous
    contents are [buf]; on return the first [width*height] cells hold the
    indices. *)
Definition remap_into (q : qresult) (i : image) (buf : list nat) (w : world)
  : res unit * (qresult * image * list nat * world) :=
  let need := (i_w i * i_h i)%nat in
  if Nat.ltb (length buf) need then (Err BufferTooSmall, (q, i, buf, w))
  else
    let rows := chunks_exact (i_w i) (firstn need buf) in
    let '(r, s) := write_remapped (RSt q i rows w) in
    (r, (r_q s, r_img s, concat (r_out s) ++ skipn need buf, r_w s)).

(** src/quant.rs:229-254 [remapped], [remap_into_vec]: [scratch] is the
    uninitialised spare capacity. *)
Definition remapped (q : qresult) (i : image) (scratch : nat -> nat) (w : world)
  : res (list rgba * list nat) * (qresult * image * world) :=
  match remap_into q i (map scratch (seq 0 (i_w i * i_h i))) w with
  | (Ok _, (q', i', out, w')) => let '(pal, q'') := palette q' in (Ok (pal, out), (q'', i', w'))
  | (Err e, (q', i', _, w')) => (Err e, (q', i', w'))
  | (Panic, (q', i', _, w')) => (Panic, (q', i', w'))
  end.
End Remap.
