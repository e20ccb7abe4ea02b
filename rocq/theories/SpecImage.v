(** Independent descriptions of image data: reading with coordinates clamped
    to the image, neighbourhoods and moving averages. *)
From Verif Require Import Base.
Open Scope Z_scope.

(** Nearest valid coordinate in [0..n-1]. *)
Definition clampn (n : nat) (k : Z) : nat := Z.to_nat (Z.max 0 (Z.min k (Z.of_nat n - 1))).
(** Value at ([x], [y]) of a row-major [w]×[h] map, coordinates clamped. *)
Definition at_clamped (m : list Z) (w h : nat) (x y : Z) : Z := nth (clampn h y * w + clampn w x) m 0.

(** The pixel and its four direct neighbours. *)
Definition plus5 (m : list Z) (w h : nat) (x y : Z) : list Z :=
  let p := at_clamped m w h in
  [p x y; p (x - 1) y; p (x + 1) y; p x (y - 1); p x (y + 1)].
Definition is_max (v : Z) (l : list Z) : Prop := In v l /\ Forall (fun a => a <= v) l.
Definition is_min (v : Z) (l : list Z) : Prop := In v l /\ Forall (fun a => v <= a) l.

(** [f a + f (a+1) + ... + f (a+n-1)] *)
Fixpoint run_sum (f : Z -> Z) (a : Z) (n : nat) : Z :=
  match n with O => 0 | S m => f a + run_sum f (a + 1) m end.
(** Moving average over the [2*size] positions [x-size+1 .. x+size]. *)
Definition moving_avg (size : nat) (f : Z -> Z) (x : Z) : Z :=
  run_sum f (x - Z.of_nat size + 1) (2 * size) / (2 * Z.of_nat size).
(** Horizontal moving average followed by a vertical one. *)
Definition blurred (m : list Z) (w h size : nat) (x y : Z) : Z :=
  moving_avg size (fun y' => moving_avg size (fun x' => at_clamped m w h x' y') x) y.

(** Which sizes, strides and buffer lengths an image constructor should take. *)
Definition dims_ok (w h : Z) : Prop :=
  1 <= w <= 2 ^ 31 - 1 /\ 1 <= h <= 2 ^ 31 - 1 /\ 16 * (w * h) <= 2 ^ 63 - 1.
Definition buffer_ok (len w h stride : Z) : Prop :=
  w <= stride <= 2 ^ 32 - 1 /\ stride * (h - 1) + w <= len.
(** The pixels of a strided buffer, row by row. *)
Definition strided {T} (d : T) (buf : list T) (w h stride : nat) : list (list T) :=
  map (fun y => map (fun x => nth (y * stride + x)%nat buf d) (seq 0 w)) (seq 0 h).
