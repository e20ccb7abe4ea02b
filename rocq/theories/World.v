(** State/error monad, the progress callback and the behaviour the language,
    the standard library or the scheduler leave open. *)
From Verif Require Import Base Arith Pal.

(** A computation that may fail or panic but keeps the state it reached. *)
Definition ST (S A : Type) := S -> res A * S.
Definition sret {S A} (a : A) : ST S A := fun s => (Ok a, s).
Definition serr {S A} (e : error) : ST S A := fun s => (Err e, s).
Definition sbind {S A B} (m : ST S A) (k : A -> ST S B) : ST S B :=
  fun s => match m s with
           | (Ok a, s') => k a s'
           | (Err e, s') => (Err e, s')
           | (Panic, s') => (Panic, s')
           end.
Definition slift {S A} (r : res A) : ST S A := fun s => (r, s).
Definition sget {S} : ST S S := fun s => (Ok s, s).
Definition smod {S} (f : S -> S) : ST S unit := fun s => (Ok tt, f s).
Declare Scope st_scope.
Delimit Scope st_scope with st.
Notation "x <~ m ;; k" := (sbind m (fun x => k))
  (at level 61, m at next level, right associativity) : st_scope.
Notation "' p <~ m ;; k" := (sbind m (fun p => k))
  (at level 61, p pattern, m at next level, right associativity) : st_scope.
Open Scope st_scope.

Section World.
Context {A : Arith}.

(** What the callbacks have been told so far (most recent first) and a clock
    that numbers the parallel sections executed so far. *)
Record world := World { w_trace : list f32; w_tick : nat }.
Definition world0 : world := World [] 0.

(** A user callback: an arbitrary function of everything it has been told
    (so it may have internal state); [true] = [ControlFlow::Break].  A missing
    callback is [fun _ _ => false] (src/attr.rs:251-257, src/quant.rs:225-227). *)
Definition callback := list f32 -> f32 -> bool.

(** src/attr.rs:251-257 [progress], src/quant.rs:225-227 [remap_progress] *)
Definition progress (cb : callback) (pct : f32) : ST world bool :=
  fun w => (Ok (cb (w_trace w) pct), World (pct :: w_trace w) (w_tick w)).
Definition tick : ST world nat :=
  fun w => (Ok (w_tick w), World (w_trace w) (S (w_tick w))).

(** src/hist.rs:40-48 [HistItem]; [ht_tmp] is the [HistSortTmp] union
    (src/hist.rs:77-82) as its u32 view, [likely_palette_index] its low byte
    (little-endian target). *)
Record hitem := HItem { h_color : px; h_adj : f32; h_perc : f32; h_mcw : f32; h_tmp : Z }.
Definition h_likely (i : hitem) : nat := Z.to_nat (h_tmp i mod 256).
Definition set_likely (i : hitem) (k : nat) : hitem :=
  HItem (h_color i) (h_adj i) (h_perc i) (h_mcw i)
        (h_tmp i - h_tmp i mod 256 + Z.of_nat k mod 256).
Definition set_sort (i : hitem) (v : Z) : hitem :=
  HItem (h_color i) (h_adj i) (h_perc i) (h_mcw i) v.
Definition set_mcw (i : hitem) (w : f32) : hitem :=
  HItem (h_color i) (h_adj i) (h_perc i) w (h_tmp i).
Definition set_adj (i : hitem) (w : f32) : hitem :=
  HItem (h_color i) w (h_perc i) (h_mcw i) (h_tmp i).

(** Shape of a parallel floating-point sum over rows (rayon's [sum]). *)
Inductive stree := SZero | SLeaf (row : nat) | SNode (l r : stree).
Fixpoint stree_leaves (t : stree) : list nat :=
  match t with SZero => [] | SLeaf i => [i] | SNode l r => stree_leaves l ++ stree_leaves r end.
Fixpoint stree_sum (f : nat -> f64) (t : stree) : f64 :=
  match t with SZero => d0 | SLeaf i => f i | SNode l r => stree_sum f l +d stree_sum f r end.

(** Behaviour left open; every theorem quantifies over it. *)
Record unspec := {
  (** iteration order of the colour [HashMap] and of the fixed-colour [HashSet] *)
  u_map : list (rgba * (Z * rgba)) -> list (rgba * (Z * rgba));
  u_set : list (rgba * Z) -> list (rgba * Z);
  (** [select_nth_unstable_by_key]: the rearranged slice *)
  u_select : list hitem -> nat -> list hitem;
  (** which of three (positions 0,1,2) [sort_unstable_by_key] leaves in the middle *)
  u_med3 : Z -> Z -> Z -> nat;
  (** k-means: at clock value [t], with [n] batches, the batches each thread
      processes, threads in the order their results are merged *)
  u_batches : nat -> nat -> list (list nat);
  (** remapping: rows per thread, position of the calling thread, sum shape *)
  u_rows : nat -> nat -> list (list nat);
  u_main : nat -> nat -> nat;
  u_sum : nat -> nat -> stree;
  (** [num_cpus()] *)
  u_cpus : nat;
  (** contents of freshly allocated, never written scratch rows (clock, column) *)
  u_scratch : nat -> nat -> nat
}.

Definition covers (n : nat) (threads : list (list nat)) : Prop :=
  Permutation (concat threads) (seq 0 n).

(** The contract of the above. *)
Record unspec_ok (u : unspec) : Prop := {
  uo_map : forall l, Permutation l (u_map u l);
  uo_set : forall l, Permutation l (u_set u l);
  uo_select_perm : forall l n, (n < length l)%nat -> Permutation l (u_select u l n);
  uo_select : forall l n m, (n < length l)%nat -> nth_error (u_select u l n) n = Some m ->
      Forall (fun x => (h_tmp x <= h_tmp m)%Z) (firstn n (u_select u l n)) /\
      Forall (fun x => (h_tmp m <= h_tmp x)%Z) (skipn n (u_select u l n));
  uo_med3 : forall a b c, (u_med3 u a b c < 3)%nat /\
      nth (u_med3 u a b c) [a; b; c] 0%Z = Z.max (Z.min a b) (Z.min (Z.max a b) c);
  uo_batches : forall t n, covers n (u_batches u t n);
  uo_rows : forall t n, covers n (u_rows u t n);
  uo_main : forall t n, (u_main u t n < length (u_rows u t n))%nat;
  uo_sum : forall t n, Permutation (stree_leaves (u_sum u t n)) (seq 0 n);
  uo_cpus : (1 <= u_cpus u)%nat;
  uo_scratch : forall t c, (u_scratch u t c < 256)%nat
}.
End World.
Arguments world0 {A}.
