(** Model of src/rows.rs and src/image.rs: pixel sources, images, contrast
    maps, dither map.  Memory ownership and lifetimes are in [Mem.v]. *)
From Verif Require Import Base Arith Pal World Attr Blur.
Section ImageM.
Context {A : Arith}.

(** src/rows.rs:9-17 [PixelsSource].  [Pixels] is the pixel memory and, for
    every row, the position of its first pixel (the row pointers);
    [PixCallback] is the user's row function. *)
Inductive source :=
| SrcPixels (buf : list rgba) (offs : list nat)
| SrcCallback (cb : nat -> list rgba).

(** src/rows.rs:39-45 [DynamicRows]; the flat [f_pixels] cache is a list of rows. *)
Record drows := DRows {
  d_w : nat; d_h : nat;
  d_f : option (list (list px));
  d_src : source;
  d_gamma : f64
}.
Definition with_cache (d : drows) (f : list (list px)) : drows :=
  DRows (d_w d) (d_h d) (Some f) (d_src d) (d_gamma d).

(** src/image.rs:19-26 [Image] *)
Inductive image := Image {
  i_px : drows;
  i_imp : option (list Z);
  i_edges : option (list Z);
  i_dmap : option (list Z);
  i_bg : option image;
  i_fixed : list rgba
}.
Definition i_w (i : image) : nat := d_w (i_px i).
Definition i_h (i : image) : nat := d_h (i_px i).
Definition set_px (i : image) (d : drows) : image :=
  Image d (i_imp i) (i_edges i) (i_dmap i) (i_bg i) (i_fixed i).
Definition set_imp (i : image) (m : option (list Z)) : image :=
  Image (i_px i) m (i_edges i) (i_dmap i) (i_bg i) (i_fixed i).
Definition set_edges (i : image) (m : option (list Z)) : image :=
  Image (i_px i) (i_imp i) m (i_dmap i) (i_bg i) (i_fixed i).
Definition set_dmap (i : image) (m : option (list Z)) : image :=
  Image (i_px i) (i_imp i) (i_edges i) m (i_bg i) (i_fixed i).
Definition set_bg (i : image) (b : option image) : image :=
  Image (i_px i) (i_imp i) (i_edges i) (i_dmap i) b (i_fixed i).
Definition set_fixed (i : image) (f : list rgba) : image :=
  Image (i_px i) (i_imp i) (i_edges i) (i_dmap i) (i_bg i) f.

(** src/rows.rs:125-136 [row_rgba]: [width] pixels starting at the row
    pointer (an out-of-bounds read, undefined behaviour in the code, is
    [Panic] here), or the callback's row. *)
Definition row_rgba (d : drows) (row : nat) : res (list rgba) :=
  match d_src d with
  | SrcPixels buf offs => off <- idx offs row ;; slice buf off (d_w d)
  | SrcCallback cb => Ok (cb row)
  end.

(** src/rows.rs:138-145 [convert_row_to_f] *)
Definition convert_row (d : drows) (r : list rgba) : res (list px) :=
  if Nat.eqb (length r) (d_w d) then Ok (map (from_rgba (gamma_lut (d_gamma d))) r) else Panic.

(** src/rows.rs:147-150 [should_use_low_memory]: 16 bytes per [f_pixel] *)
Definition low_memory (d : drows) : bool :=
  Z.ltb (LIQ_HIGH_MEMORY_LIMIT / 16) (Z.of_nat (d_w d) * Z.of_nat (d_h d)).

(** src/rows.rs:160-177 [prepare_iter] *)
Definition prepare_iter (d : drows) (allow_streamed : bool) : res drows :=
  match d_f d with
  | Some _ => Ok d
  | None =>
      if (allow_streamed && low_memory d)%bool then Ok d
      else
        rows <- mapM (fun r => p <- row_rgba d r ;; convert_row d p) (seq 0 (d_h d)) ;;
        Ok (with_cache d rows)
  end.

(** src/rows.rs:82-110 [row_f], [row_f_shared] (after slicing to [..width]) *)
Definition row_f (d : drows) (row : nat) : res (list px) :=
  match d_f d with
  | Some rows => idx rows row
  | None => p <- row_rgba d row ;; convert_row d p
  end.

(** src/rows.rs:197-206 [rgba_rows_iter] and the loop of src/hist.rs:260-261 *)
Definition all_rgba_rows (d : drows) : res (list (list rgba)) :=
  match d_src d with
  | SrcPixels _ [] => Err Unsupported
  | _ => mapM (row_rgba d) (seq 0 (d_h d))
  end.

(** src/rows.rs:208-215 [all_rows_f] *)
Definition all_rows_f (d : drows) : res (drows * list (list px)) :=
  d' <- prepare_iter d false ;;
  match d_f d' with Some f => Ok (d', f) | None => Err Unsupported end.

(** src/rows.rs:242-249 [free_histogram_inputs] *)
Definition free_histogram_inputs (d : drows) : drows :=
  match d_f d with
  | Some _ => DRows (d_w d) (d_h d) (d_f d) (SrcPixels [] []) (d_gamma d)
  | None => d
  end.

(** src/rows.rs:20-36 [for_pixels]: u32 width, height, stride (on a 64-bit
    target the products cannot overflow). *)
Definition for_pixels (buf : list rgba) (width height stride : Z) : res source :=
  if ((stride <? width)%Z || (height =? 0)%Z || (width =? 0)%Z)%bool then Err ValueOutOfRange
  else
    let min_area := (stride * height + width - stride)%Z in
    if (Z.of_nat (length buf) <? min_area)%Z then Err BufferTooSmall
    else
      let rows := firstn (Z.to_nat height) (chunks (Z.to_nat stride) buf) in
      Ok (SrcPixels buf (map (fun kr => fst kr * Z.to_nat stride)%nat (enumerate rows))).

Definition I32_MAX : Z := 2147483647.
Definition ISIZE_MAX : Z := 9223372036854775807.

(** src/image.rs:116-125 [check_image_size] (64-bit [usize]) *)
Definition check_image_size (width height : Z) : bool :=
  if ((width =? 0)%Z || (height =? 0)%Z)%bool then false
  else negb ((I32_MAX <? Z.max width height)%Z || (ISIZE_MAX / 16 / height <? width)%Z).

(** src/image.rs:79-114 [new_internal]: u32 width and height *)
Definition image_new_internal (src : source) (width height : Z) (gamma : f64) : res image :=
  if negb (check_image_size width height) then Err ValueOutOfRange
  else if negb ((d0 <=d gamma) && (gamma <=d d1))%bool then Err ValueOutOfRange
  else Ok (Image (DRows (Z.to_nat width) (Z.to_nat height) None src
                        (if d0 <d gamma then gamma else dlit 45455 100000))
                 None None None None []).

(** src/image.rs:325-339 [new_stride_internal]: usize arguments, converted
    with [try_into::<u32>]; used by [new], [new_borrowed], [new_stride],
    [new_stride_borrowed] (38-55, 311-323) *)
Definition u32_ok (z : Z) : bool := (z <=? U32_MAX)%Z.
Definition image_new_stride (buf : list rgba) (width height stride : Z) (gamma : f64) : res image :=
  if negb (u32_ok width && u32_ok height && u32_ok stride)%bool then Err ValueOutOfRange
  else src <- for_pixels buf width height stride ;; image_new_internal src width height gamma.
Definition image_new (buf : list rgba) (width height : Z) (gamma : f64) : res image :=
  image_new_stride buf width height width gamma.

(** src/image.rs:68-72 [new_fn] *)
Definition image_new_fn (cb : nat -> list rgba) (width height : Z) (gamma : f64) : res image :=
  if negb (u32_ok width && u32_ok height)%bool then Err ValueOutOfRange
  else image_new_internal (SrcCallback cb) width height gamma.

(** src/image.rs:178-185 [set_importance_map] *)
Definition set_importance_map (i : image) (m : list Z) : res image :=
  if negb (Nat.eqb (length m) (i_w i * i_h i)) then Err BufferTooSmall
  else Ok (set_imp i (Some m)).

(** src/image.rs:192-201 [set_background] *)
Definition set_background (i bg : image) : res image :=
  match i_bg bg with
  | Some _ => Err Unsupported
  | None =>
      if negb (Nat.eqb (i_w i) (i_w bg) && Nat.eqb (i_h i) (i_h bg))%bool then Err BufferTooSmall
      else Ok (set_bg i (Some bg))
  end.

(** src/image.rs:210-215 [Image::add_fixed_color] *)
Definition image_add_fixed_color (i : image) (c : rgba) : res image :=
  if Nat.leb MAX_COLORS (length (i_fixed i)) then Err Unsupported
  else Ok (set_fixed i (i_fixed i ++ [c])).

(** src/image.rs:231-234 [gamma] *)
Definition image_gamma (i : image) : option f64 :=
  if d0 <d d_gamma (i_px i) then Some (d_gamma (i_px i)) else None.

(** src/image.rs:274-287: one pixel of the noise and edge maps *)
Definition px_max4 (p : px) : f32 := fmax (fmax (pa p) (pr p)) (fmax (pg p) (pb p)).
Definition contrast_px (prev curr next prevl nextl : px) : Z * Z :=
  let bend a b := px_map fabs (px_sub (px_add a b) (px_scale curr (fofZ 2))) in
  let horiz := px_max4 (bend prev next) in
  let vert := px_max4 (bend prevl nextl) in
  let edge := fmax horiz vert in
  let z := ffma (fabs (horiz -f vert)) (fneg (flit 5 10)) edge in
  let z := f1 -f fmax z (fmin horiz vert) in
  let z := z *f z in
  let z := z *f z in
  (fto_u8 (ffma z (fofZ 176) (fofZ 80)), fto_u8 ((f1 -f edge) *f fofZ 256)).

(** src/image.rs:266-288: one row *)
Definition contrast_row (width : nat) (prev_row curr_row next_row : list px) : res (list (Z * Z)) :=
  c0 <- idx curr_row 0 ;;
  ' (_, _, outs) <-
     foldM (fun '(curr, next, outs) i =>
        let prev := curr in
        let curr := next in
        next <- idx curr_row (Nat.min (i + 1) (width - 1)) ;;
        prevl <- idx prev_row i ;;
        nextl <- idx next_row i ;;
        Ok (curr, next, outs ++ [contrast_px prev curr next prevl nextl]))
       (seq 0 width) (c0, c0, []) ;;
  Ok outs.

(** src/image.rs:258-265: the rows above and below, clamped at the borders *)
Fixpoint contrast_rows (width n : nat) (curr next : list px) (rest : list (list px)) : res (list (Z * Z)) :=
  match n with
  | O => Ok []
  | S m =>
      let prev := curr in
      let curr := next in
      let '(next, rest) := match rest with [] => (next, []) | r :: t => (r, t) end in
      row <- contrast_row width prev curr next ;;
      more <- contrast_rows width m curr next rest ;;
      Ok (row ++ more)
  end.

(** src/image.rs:236-305 [contrast_maps] *)
Definition contrast_maps (i : image) : res image :=
  let w := i_w i in
  let h := i_h i in
  if (Nat.ltb w 4 || Nat.ltb h 4 || (LIQ_HIGH_MEMORY_LIMIT <? 3 * Z.of_nat w * Z.of_nat h)%Z)%bool then Ok i
  else
    let zero := repeat 0%Z (w * h) in
    let noise0 := match i_imp i with Some n => n | None => zero end in
    let edges0 := match i_edges i with Some e => e | None => zero end in
    ' (d, rows) <- all_rows_f (i_px i) ;;
    match rows with
    | [] => Err InvalidPointer
    | first :: rest =>
        ne <- contrast_rows w h first first rest ;;
        noise <- splice noise0 0 (map fst ne) ;;
        edges <- splice edges0 0 (map snd ne) ;;
        tmp <- liq_max3 noise zero w h ;;
        noise <- liq_max3 tmp noise w h ;;
        ' (noise, tmp) <- liq_blur noise tmp w h 3 ;;
        tmp <- liq_max3 noise tmp w h ;;
        noise <- liq_min3 tmp noise w h ;;
        tmp <- liq_min3 noise tmp w h ;;
        noise <- liq_min3 tmp noise w h ;;
        tmp <- liq_min3 edges tmp w h ;;
        edges <- liq_max3 tmp edges w h ;;
        let edges := map (fun en => Z.min (snd en) (fst en)) (combine edges noise)
                     ++ skipn (length noise) edges in
        Ok (set_edges (set_imp (set_px i d) (Some noise)) (Some edges))
    end.

(** src/image.rs:160-163 *)
Definition edge_value (e : Z) (neighbors : nat) : Z :=
  fto_u8 (fofZ (e + 128) *f (fofZ 255 /f fofZ (255 + 128))
          *f (f1 -f fofZ 20 /f fofZ (20 + Z.of_nat neighbors))).

(** src/image.rs:146-158: equal pixels above and below a run; the [usize]
    subtraction [col - lastcol] panics (debug) when negative *)
Definition count_row (r : option (list nat)) (last i : nat) : res nat :=
  match r with
  | None => Ok 0
  | Some l => x <- idx l i ;; Ok (if Nat.eqb x last then 15 else 0)
  end.
Definition count_neighbors (prev next : option (list nat)) (last from to : nat) : res nat :=
  if Nat.ltb to from then Panic else
  foldM (fun n i => a <- count_row prev last i ;; b <- count_row next last i ;; Ok (n + a + b))
        (seq from (to - from)) (10 * (to - from)).

(** src/image.rs:138-168: one row *)
Definition dmap_row (colors : list px) (bg : bool) (width : nat) (this : list nat)
           (prev next : option (list nat)) (edges : list Z) : res (list Z) :=
  p0 <- idx this 0 ;;
  ' (_, _, e) <-
    foldM (fun '(last, lastcol, edges) cp =>
        let '(col, p) := cp in
        skip <- (if bg then c <- idx colors p ;; Ok (pa c <f MIN_OPAQUE_A) else Ok false) ;;
        if skip then Ok (last, lastcol, edges)
        else if (negb (Nat.eqb p last) || Nat.eqb col (width - 1))%bool then
          n <- count_neighbors prev next last lastcol col ;;
          e <- foldM (fun es k => x <- idx es k ;; set_idx es k (edge_value x n))
                     (seq lastcol (col + 1 - lastcol)) edges ;;
          Ok (p, (col + 1)%nat, e)
        else Ok (last, lastcol, edges))
      (skipn 1 (enumerate this)) (p0, 0%nat, edges) ;;
  Ok e.

(** src/image.rs:135-170: all rows, zipped with the edge rows *)
Fixpoint dmap_rows (colors : list px) (bg : bool) (width : nat) (prev : option (list nat))
           (rows : list (list nat)) (edges : list (list Z)) : res (list Z) :=
  match rows, edges with
  | this :: rows', e :: edges' =>
      let next := match edges', rows' with _ :: _, r :: _ => Some r | _, _ => None end in
      e' <- dmap_row colors bg width this prev next e ;;
      more <- dmap_rows colors bg width (Some this) rows' edges' ;;
      Ok (e' ++ more)
  | _, _ => Ok (concat edges)
  end.

(** src/image.rs:127-173 [update_dither_map] *)
Definition update_dither_map (i : image) (remapped : list (list nat)) (p : palf) (bg : bool) : res image :=
  i <- (match i_edges i with None => contrast_maps i | Some _ => Ok i end) ;;
  match i_edges i with
  | None => Ok i
  | Some edges =>
      m <- dmap_rows (colors_of p) bg (i_w i) None remapped (chunks_exact (i_w i) edges) ;;
      Ok (set_dmap (set_edges i None) (Some m))
  end.
End ImageM.
