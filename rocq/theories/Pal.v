(** Model of src/pal.rs: internal colours, palettes, 8-bit conversion. *)
From Verif Require Import Base Arith.
Section Pal.
Context {A : Arith}.

(** src/pal.rs:9-10,32-34 [f_pixel(ARGBF)] (and [ARGBF] itself). *)
Record px := Px { pa : f32; pr : f32; pg : f32; pb : f32 }.
Definition px0 : px := Px f0 f0 f0 f0.     (* f_pixel::default() *)

(** Channel-wise operations of the [rgb] crate used by the code. *)
Definition px_add (x y : px) : px := Px (pa x +f pa y) (pr x +f pr y) (pg x +f pg y) (pb x +f pb y).
Definition px_sub (x y : px) : px := Px (pa x -f pa y) (pr x -f pr y) (pg x -f pg y) (pb x -f pb y).
Definition px_scale (x : px) (k : f32) : px := Px (pa x *f k) (pr x *f k) (pg x *f k) (pb x *f k).
Definition px_divs (x : px) (k : f32) : px := Px (pa x /f k) (pr x /f k) (pg x /f k) (pb x /f k).
Definition px_map (f : f32 -> f32) (x : px) : px := Px (f (pa x)) (f (pr x)) (f (pg x)) (f (pb x)).

(** src/pal.rs:12-22 constants *)
Definition INTERNAL_GAMMA : f64 := dlit 57 100.
Definition LIQ_WEIGHT_A : f32 := flit 625 1000.
Definition LIQ_WEIGHT_R : f32 := flit 5 10.
Definition LIQ_WEIGHT_G : f32 := f1.
Definition LIQ_WEIGHT_B : f32 := flit 45 100.
Definition LIQ_WEIGHT_MSE : f64 := dlit 45 100.
Definition MIN_OPAQUE_A : f32 := f1 /f fofZ 256 *f LIQ_WEIGHT_A.
Definition MAX_TRANSP_A : f32 := fofZ 255 /f fofZ 256 *f LIQ_WEIGHT_A.

(** src/pal.rs:37-51 [f_pixel::diff] (portable version; the x86-64 version
    86-114 and the NEON version 53-84 are in PalSimd.v, the latter associates the sum
    differently). *)
Definition diff (s o : px) : f32 :=
  let alphas := pa o -f pa s in
  let br := pr s -f pr o in
  let bg := pg s -f pg o in
  let bb := pb s -f pb o in
  let wr := br +f alphas in
  let wg := bg +f alphas in
  let wb := bb +f alphas in
  fmax (br *f br) (wr *f wr) +f fmax (bg *f bg) (wg *f wg) +f fmax (bb *f bb) (wb *f wb).

(** src/pal.rs:116-137 [to_rgb] *)
Definition to_rgb (c : px) (gamma : f64) : rgba :=
  if pa c <f MIN_OPAQUE_A then Rgba 0 0 0 0
  else
    let r := (LIQ_WEIGHT_A /f LIQ_WEIGHT_R) *f pr c /f pa c in
    let g := (LIQ_WEIGHT_A /f LIQ_WEIGHT_G) *f pg c /f pa c in
    let b := (LIQ_WEIGHT_A /f LIQ_WEIGHT_B) *f pb c /f pa c in
    let a := (fofZ 256 /f LIQ_WEIGHT_A) *f pa c in
    let gm := d2f (gamma /d INTERNAL_GAMMA) in
    Rgba (fto_u8 (fpow r gm *f fofZ 256))
         (fto_u8 (fpow g gm *f fofZ 256))
         (fto_u8 (fpow b gm *f fofZ 256))
         (fto_u8 a).

(** src/pal.rs:335-343 [gamma_lut]; the 256-entry table is the function it
    tabulates. *)
Definition gamma_lut (gamma : f64) (i : Z) : f32 :=
  fpow (fofZ i /f fofZ 255) (d2f (INTERNAL_GAMMA /d gamma)).

(** src/pal.rs:139-147 [from_rgba] *)
Definition from_rgba (lut : Z -> f32) (c : rgba) : px :=
  let a := fofZ (ca c) /f fofZ 255 in
  Px (a *f LIQ_WEIGHT_A)
     (lut (cr c) *f LIQ_WEIGHT_R *f a)
     (lut (cg c) *f LIQ_WEIGHT_G *f a)
     (lut (cb c) *f LIQ_WEIGHT_B *f a).

(** src/pal.rs:173-203 [PalPop]: popularity, negative = fixed. *)
Definition pop_is_fixed (p : f32) : bool := p <f f0.
Definition pop_to_fixed (p : f32) : f32 :=
  if p <f f0 then p else if f0 <f p then fneg p else fneg f1.
Definition popularity (p : f32) : f32 := fabs p.

(** src/pal.rs:218-223 [PalF]: the two parallel [ArrayVec]s are one list of
    pairs. *)
Definition palf := list (px * f32).
Definition colors_of (p : palf) : list px := map fst p.

(** src/pal.rs:236-240 [push]; [ArrayVec::push] panics when full. *)
Definition pal_push (p : palf) (c : px) (pop : f32) : res palf :=
  if Nat.ltb (length p) MAX_COLORS then Ok (p ++ [(c, pop)]) else Panic.

(** src/pal.rs:242-245 [set] *)
Definition pal_set (p : palf) (i : nat) (c : px) (pop : f32) : res palf := set_idx p i (c, pop).

(** [ArrayVec::extend] panics beyond the capacity. *)
Definition pal_extend (p q : palf) : res palf :=
  if Nat.leb (length p + length q) MAX_COLORS then Ok (p ++ q) else Panic.

(** src/pal.rs:274-282: one step of the loop placing fixed colour [i]. *)
Definition place_fixed (p : palf) (ic : nat * px) : res palf :=
  let '(i, fc) := ic in
  let cand := skipn i (enumerate (colors_of p)) in
  best <- ok_or_panic (min_by (fun x y => fcmp (diff (snd x) fc) (diff (snd y) fc)) cand) ;;
  p1 <- swap p i (fst best) ;;
  e <- idx p1 i ;;
  pal_set p1 i fc (pop_to_fixed (snd e)).

(** src/pal.rs:258-287 [with_fixed_colors] *)
Definition with_fixed_colors (p : palf) (max_colors : nat) (fixed : list px) : res palf :=
  match fixed with
  | [] => Ok p
  | _ =>
    let max_fixed := Nat.min (length fixed) max_colors in
    p1 <- (if Nat.ltb (length p) max_fixed
           then pal_extend p (map (fun c => (c, f0)) (firstn (max_fixed - length p) fixed))
           else Ok p) ;;
    foldM place_fixed (firstn (length p1) (enumerate fixed)) p1
  end.

(** src/pal.rs:326-333 [posterize_channel] *)
Definition posterize_channel (c bits : Z) : Z :=
  if Z.eqb bits 0 then c
  else Z.lor (Z.land c (255 - (Z.shiftl 1 bits - 1))) (Z.shiftr c (8 - bits)).

(** src/pal.rs:308-323 [init_int_palette]: returns the rounded palette and the
    8-bit palette. *)
Definition int_entry (gamma : f64) (posterize : Z) (e : px * f32) : (px * f32) * rgba :=
  let c := rgba_map (fun v => posterize_channel v posterize) (to_rgb (fst e) gamma) in
  let fc := from_rgba (gamma_lut gamma) c in
  let shown := if (Z.eqb (ca c) 0 && negb (pop_is_fixed (snd e)))%bool
               then Rgba 71 112 76 (ca c) else c in
  ((fc, snd e), shown).
Definition init_int_palette (p : palf) (gamma : f64) (posterize : Z) : palf * list rgba :=
  (map (fun e => fst (int_entry gamma posterize e)) p,
   map (fun e => snd (int_entry gamma posterize e)) p).
End Pal.
