(** Model of src/blur.rs: byte-map filters on row-major maps. *)
From Verif Require Import Base.
Open Scope nat_scope.

(** [&s[off..][..len]] *)
Definition slice {T} (s : list T) (off len : nat) : res (list T) :=
  if Nat.leb (off + len) (length s) then Ok (firstn len (skipn off s)) else Panic.
(** Store into [&mut d[off..][..len]] *)
Definition splice {T} (d : list T) (off : nat) (x : list T) : res (list T) :=
  if Nat.leb (off + length x) (length d)
  then Ok (firstn off d ++ x ++ skipn (off + length x) d) else Panic.

(** src/blur.rs:37-58 [liq_op3], one row; the loop variables [prev], [curr],
    [next] are kept as in the code. *)
Definition op3_row (op : Z -> Z -> Z) (width : nat) (row prevrow nextrow : list Z) : res (list Z) :=
  if Nat.eqb width 0 then Panic else
  r0 <- idx row 0 ;;
  ' (curr, next, outs) <-
    foldM (fun '(curr, next, outs) i =>
             let prev := curr in
             let curr := next in
             next <- idx row (i + 1) ;;
             n <- idx nextrow i ;; p <- idx prevrow i ;;
             let t1 := op prev next in
             let t2 := op n p in
             Ok (curr, next, outs ++ [op curr (op t1 t2)]))
          (seq 0 (width - 1)) (r0, r0, []) ;;
  n <- idx nextrow (width - 1) ;; p <- idx prevrow (width - 1) ;;
  let t1 := op curr next in
  let t2 := op n p in
  Ok (outs ++ [op curr (op t1 t2)]).

Definition op3 (op : Z -> Z -> Z) (src dst : list Z) (width height : nat) : res (list Z) :=
  foldM (fun dst j =>
           row <- slice src (j * width) width ;;
           prevrow <- slice src ((j - 1) * width) width ;;
           nextrow <- slice src (Nat.min (j + 1) (height - 1) * width) width ;;
           out <- op3_row op width row prevrow nextrow ;;
           splice dst (j * width) out) (seq 0 height) dst.

(** src/blur.rs:33-35, 62-64 *)
Definition liq_max3 := op3 Z.max.
Definition liq_min3 := op3 Z.min.

(** src/blur.rs:3-29 [transposing_1d_blur], one row.  The three loops over
    [i] differ only in the element removed from and added to the window.  A
    u16 overflow (a panic in debug builds, wrap-around in release builds) is
    [Panic] here. *)
Definition u16 (z : Z) : res Z := if ((0 <=? z) && (z <? 65536))%Z%bool then Ok z else Panic.
Definition blur_out (row : list Z) (width size : nat) (st : Z * list Z) (i : nat) : res (Z * list Z) :=
  let '(sum, outs) := st in
  sub <- idx row (if Nat.ltb i size then 0 else i - size) ;;
  add <- idx row (if Nat.ltb i (width - size) then i + size else width - 1) ;;
  sum <- u16 (sum - sub) ;;
  sum <- u16 (sum + add) ;;
  Ok (sum, outs ++ [wrap8 (sum / (Z.of_nat size * 2))]).
Definition blur_row (row : list Z) (width size : nat) : res (list Z) :=
  r0 <- idx row 0 ;;
  head <- slice row 0 size ;;
  sum <- u16 (r0 * Z.of_nat size) ;;
  sum <- foldM (fun s v => u16 (s + v)%Z) head sum ;;
  ' (_, outs) <- foldM (blur_out row width size) (seq 0 width) (sum, []) ;;
  Ok outs.
Definition blur_1d (src dst : list Z) (width height size : nat) : res (list Z) :=
  if (Nat.ltb width (2 * size + 1) || Nat.ltb height (2 * size + 1))%bool then Ok dst
  else
    foldM (fun dst jr =>
             outs <- blur_row (snd jr) width size ;;
             foldM (fun dst iv => set_idx dst (fst iv * height + fst jr) (snd iv)) (enumerate outs) dst)
          (enumerate (chunks_exact width src)) dst.

(** src/blur.rs:68-71 [liq_blur]: returns the filtered map and the scratch map. *)
Definition liq_blur (src_dst tmp : list Z) (width height size : nat) : res (list Z * list Z) :=
  tmp' <- blur_1d src_dst tmp width height size ;;
  src' <- blur_1d tmp' src_dst height width size ;;
  Ok (src', tmp').
