(** Specification of error diffusion: where the error of a pixel goes. *)
From Verif Require Import Base Arith Pal Nearest Remap.
Open Scope nat_scope.

(** Column of the [x]-th pixel of a row of width [w]: even rows are scanned
    left to right, odd rows right to left. *)
Definition scan (even : bool) (w x : nat) : nat := if even then x else w - 1 - x.
(** Error cells have one cell of margin on both sides.  The pixel scanned at
    [x] owns cell [cell even w (x + 1)]. *)
Definition cell (even : bool) (w x : nat) : nat := if even then x else w + 1 - x.

Section SpecDither.
Context {A : Arith}.
Definition contrib (acc : px) (o : option px) (k : Z) : px :=
  match o with Some e => px_add acc (px_scale e (sixteenths k)) | None => acc end.
(** The error of the pixel scanned [back] positions before [x]. *)
Definition err_at (errs : list px) (x back : nat) : option px := if Nat.leb back x then nth_error errs (x - back) else None.
(** What a row with errors [errs] (in scanning order) leaves in the cells of
    the next row: 1/16 of the error two positions before, 5/16 of the one
    before and 3/16 of the one at the position. *)
Definition owed (errs : list px) (x : nat) : px :=
  contrib (contrib (match err_at errs x 2 with Some e => px_scale e (sixteenths 1) | None => px0 end) (err_at errs x 1) 5) (err_at errs x 0) 3.

(** A row diffused: every pixel is looked up with the error accumulated for
    it in the previous row plus 7/16 of the error of the pixel before it, and
    leaves the difference between the colour wanted and the colour shown as
    its own error (three quarters of it if that is excessive). *)
Definition damped (max_err : f32) (e : px) : px := if max_err <f err_energy e then px_scale e (flit 75 100) else e.
Definition level_at (E : dither_env) (dmap : list Z) (col : nat) : f32 :=
  match nth_error dmap col with Some l => e_base E *f fofZ l | None => e_base E end.
Definition row_diffused (E : dither_env) (row : list px) (dmap : list Z) (bgp : list px) (even : bool) (this : list px) (out : list nat) (errs : list px) : Prop :=
  let w := e_w E in
  length out = w /\ length errs = w /\
  forall x, x < w -> exists input acc shown k,
    let col := scan even w x in
    let want := get_dithered_pixel (level_at E dmap col) (e_max E) (contrib acc (err_at errs x 1) 7) input in
    nth_error row col = Some input /\ nth_error this (cell even w (x + 1)) = Some acc /\ nth_error out col = Some k /\
    (nth_error (n_pal (e_n E)) k = Some shown \/ (k = e_tidx E /\ nth_error bgp col = Some shown)) /\
    (nth_error bgp col = None -> exists g, k = fst (search (e_n E) want g)) /\
    nth_error errs x = Some (damped (e_max E) (px_sub want shown)).
(** Consecutive rows from row [y] on; [this] are the cells of the first one
    and [last] those left for the row after the last one. *)
Inductive rows_diffused (E : dither_env) (rows bgs : nat -> list px) (dm : list Z) : nat -> list px -> list (list nat) -> list px -> Prop :=
| rd_nil y this : rows_diffused E rows bgs dm y this [] this
| rd_cons y this o outs errs next last :
    row_diffused E (rows y) (dmap_slice dm y (e_w E)) (bgs y) (Nat.even y) this o errs ->
    length next = e_w E + 2 ->
    (forall x, x < e_w E + 2 -> nth_error next (cell (Nat.even y) (e_w E) x) = Some (owed errs x)) ->
    rows_diffused E rows bgs dm (S y) next outs last ->
    rows_diffused E rows bgs dm y this (o :: outs) last.
(** A picture in chunks: every chunk starts without errors, or (from the
    third row on) with the errors of the two rows above it, diffused for the
    purpose and thrown away. *)
Inductive chunks_diffused (E : dither_env) (rows bgs : nat -> list px) (dm : list Z) : nat -> list (list (list nat)) -> Prop :=
| cd_nil y : chunks_diffused E rows bgs dm y []
| cd_cons y this outs last cs :
    (y <= 2 /\ this = repeat px0 (e_w E + 2) \/
     2 < y /\ exists o1 o2, rows_diffused E rows bgs dm (y - 2) (repeat px0 (e_w E + 2)) [o1; o2] this) ->
    rows_diffused E rows bgs dm y this outs last ->
    chunks_diffused E rows bgs dm (y + length outs) cs ->
    chunks_diffused E rows bgs dm y (outs :: cs).
End SpecDither.
