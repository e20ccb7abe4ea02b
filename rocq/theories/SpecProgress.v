(** Progress callbacks: what "keeps breaking", "has broken" and "is a
    percentage" mean.  A callback sees the numbers reported so far (most recent
    first) and the current one; [true] is [ControlFlow::Break]. *)
From Verif Require Import Base Arith World Ieee.
From Flocq Require Import IEEE754.BinarySingleNaN.

(** Once it has asked to stop it asks again at every later call. *)
Definition latching {A : Arith} (cb : callback) : Prop := forall told p q, cb told p = true -> cb (p :: told) q = true.
(** It asked to stop at one of the calls that lead from [b] to [t]. *)
Definition broke {A : Arith} (cb : callback) (b t : list f32) : Prop :=
  exists l1 p l2, t = l1 ++ p :: l2 ++ b /\ cb (l2 ++ b) p = true.
(** Not NaN, and between 0 and 100. *)
Definition in_range (p : b32) : bool := (Bleb (BofZ 24 128 0) p && Bleb p (BofZ 24 128 100))%bool.
(** The numbers reported between the histories [b] and [t] are all in range. *)
Definition percentages (b t : list b32) : Prop := exists l, t = l ++ b /\ Forall (fun p => in_range p = true) l.
