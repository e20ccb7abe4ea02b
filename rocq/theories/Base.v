(** Shared vocabulary of the model: results, panics, list access.

    Rust's [Result<T, Error>] stays data and every panic path of the code
    (slice index out of bounds, [ArrayVec] overflow, [expect]/[unwrap] on
    [None], failed [assert!]) is the explicit value [Panic]. *)
From Coq Require Export List Arith ZArith Lia Bool Permutation.
Export ListNotations.

(** src/error.rs:9-32 [enum Error].  [LIQ_OK] (C API only) is modelled in
    [Ffi.v].  [InternalError] is never constructed by the code; it is kept so
    that the enumeration is complete. *)
Inductive error :=
| QualityTooLow
| ValueOutOfRange
| OutOfMemory
| Aborted
| InternalError
| BufferTooSmall
| InvalidPointer
| Unsupported.

Definition error_eqb (a b : error) : bool :=
  match a, b with
  | QualityTooLow, QualityTooLow | ValueOutOfRange, ValueOutOfRange
  | OutOfMemory, OutOfMemory | Aborted, Aborted | InternalError, InternalError
  | BufferTooSmall, BufferTooSmall | InvalidPointer, InvalidPointer
  | Unsupported, Unsupported => true
  | _, _ => false
  end.

Inductive res (A : Type) :=
| Ok (a : A)
| Err (e : error)
| Panic.
Arguments Ok {A} _. Arguments Err {A} _. Arguments Panic {A}.

Definition bind {A B} (m : res A) (k : A -> res B) : res B :=
  match m with Ok a => k a | Err e => Err e | Panic => Panic end.
Declare Scope res_scope.
Delimit Scope res_scope with res.
Notation "x <- m ;; k" := (bind m (fun x => k))
  (at level 61, m at next level, right associativity) : res_scope.
Notation "' p <- m ;; k" := (bind m (fun p => k))
  (at level 61, p pattern, m at next level, right associativity) : res_scope.
Open Scope res_scope.

Definition is_ok {A} (r : res A) : bool := match r with Ok _ => true | _ => false end.
Definition ok_or_panic {A} (o : option A) : res A :=
  match o with Some a => Ok a | None => Panic end.

(** [slice[i]] *)
Definition idx {A} (l : list A) (i : nat) : res A := ok_or_panic (nth_error l i).

(** In-place store, out of bounds = no change (callers guard with [set_idx]). *)
Fixpoint upd {A} (l : list A) (i : nat) (a : A) : list A :=
  match l, i with
  | [], _ => []
  | _ :: t, O => a :: t
  | x :: t, S j => x :: upd t j a
  end.

(** [slice[i] = a] *)
Definition set_idx {A} (l : list A) (i : nat) (a : A) : res (list A) :=
  if Nat.ltb i (length l) then Ok (upd l i a) else Panic.

(** [slice.swap(i, j)] *)
Definition swap {A} (l : list A) (i j : nat) : res (list A) :=
  x <- idx l i ;; y <- idx l j ;; Ok (upd (upd l i y) j x).

(** Monadic left fold / map, used for loops whose body may panic. *)
Fixpoint foldM {A S} (f : S -> A -> res S) (l : list A) (s : S) : res S :=
  match l with [] => Ok s | a :: t => s' <- f s a ;; foldM f t s' end.
Fixpoint mapM {A B} (f : A -> res B) (l : list A) : res (list B) :=
  match l with [] => Ok [] | a :: t => b <- f a ;; bs <- mapM f t ;; Ok (b :: bs) end.

(** [slice.chunks(n)]: consecutive pieces of [n] elements, the last one may be
    shorter.  [fuel] is the length of the list ([n > 0] consumes at least one
    element per step). *)
Fixpoint chunks_fuel {A} (fuel n : nat) (l : list A) : list (list A) :=
  match fuel with
  | O => []
  | S f => match l with
           | [] => []
           | _ => firstn n l :: chunks_fuel f n (skipn n l)
           end
  end.
Definition chunks {A} (n : nat) (l : list A) : list (list A) := chunks_fuel (length l) n l.

(** [chunks_exact(n)] drops a final piece shorter than [n]. *)
Definition chunks_exact {A} (n : nat) (l : list A) : list (list A) :=
  filter (fun c => Nat.eqb (length c) n) (chunks n l).

(** [Iterator::min_by]/[max_by] as in core: a left fold which keeps the
    accumulator when the comparison is not [Greater] (min: the first minimum)
    and takes the new element otherwise (max: the last maximum). *)
Definition min_by {A} (cmp : A -> A -> comparison) (l : list A) : option A :=
  match l with
  | [] => None
  | a :: t => Some (fold_left (fun x y => match cmp x y with Gt => y | _ => x end) t a)
  end.
Definition max_by {A} (cmp : A -> A -> comparison) (l : list A) : option A :=
  match l with
  | [] => None
  | a :: t => Some (fold_left (fun x y => match cmp x y with Gt => x | _ => y end) t a)
  end.

(** Stable sort ([slice::sort_by]); insertion sort is one stable sort, and a
    stable sort's result is unique when [cmp] is a total preorder.  For a
    comparison that is not one (NaN keys) std may also panic; see DESIGN.md. *)
Fixpoint insert_by {A} (cmp : A -> A -> comparison) (x : A) (l : list A) : list A :=
  match l with
  | [] => [x]
  | y :: t => match cmp x y with Gt => y :: insert_by cmp x t | _ => x :: l end
  end.
Fixpoint sort_by {A} (cmp : A -> A -> comparison) (l : list A) : list A :=
  match l with [] => [] | x :: t => insert_by cmp x (sort_by cmp t) end.

Definition enumerate {A} (l : list A) : list (nat * A) := combine (seq 0 (length l)) l.

(** Lexicographic and reversed comparisons (Rust tuples, [std::cmp::Reverse]). *)
Definition cmp_then (a b : comparison) : comparison := match a with Eq => b | _ => a end.
Definition cmp_rev (a : comparison) : comparison := CompOpp a.
Definition cmp_bool (a b : bool) : comparison :=
  match a, b with false, true => Lt | true, false => Gt | _, _ => Eq end.

(** Fixed-width unsigned integers. *)
Definition U8_MAX : Z := 255.
Definition wrap8 (z : Z) : Z := Z.modulo z 256.
Definition wrap16 (z : Z) : Z := Z.modulo z 65536.
Definition wrap32 (z : Z) : Z := Z.modulo z 4294967296.
Definition U32_MAX : Z := 4294967295.
Definition sat_add32 (a b : Z) : Z := Z.min (a + b) U32_MAX.

(** src/pal.rs:216 [MAX_COLORS] with the default features ([PalIndex = u8]). *)
Definition MAX_COLORS : nat := 256.

(** src/lib.rs [LIQ_HIGH_MEMORY_LIMIT] *)
Definition LIQ_HIGH_MEMORY_LIMIT : Z := 2 ^ 26.

(** src/pal.rs:7 [RGBA]: four bytes. *)
Record rgba := Rgba { cr : Z; cg : Z; cb : Z; ca : Z }.
Definition rgba_default : rgba := Rgba 0 0 0 0.
Definition rgba_eqb (x y : rgba) : bool :=
  (Z.eqb (cr x) (cr y) && Z.eqb (cg x) (cg y) && Z.eqb (cb x) (cb y) && Z.eqb (ca x) (ca y))%bool.
Definition byte (z : Z) : Prop := (0 <= z < 256)%Z.
Definition rgba_ok (x : rgba) : Prop := byte (cr x) /\ byte (cg x) /\ byte (cb x) /\ byte (ca x).
Definition rgba_map (f : Z -> Z) (x : rgba) : rgba := Rgba (f (cr x)) (f (cg x)) (f (cb x)) (f (ca x)).
