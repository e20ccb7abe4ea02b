(** Where fixed colours go, in exact arithmetic (for C62). *)
From Verif Require Import Base Arith Pal RealArith.
From Coq Require Import Reals Permutation.
Open Scope R_scope.

Section S.
Context {big : R}.
Let A : Arith := real big.
Local Existing Instance A.
(** The weight of a fixed colour is that of the entry it replaces, negated; 1 is
    taken for 0. *)
Definition pinned (w : R) : R := if Rle_dec w 0 then if Rlt_dec w 0 then w else - 1 else - w.
(** [placing fs p p']: one after the other, each of the colours [fs] takes the
    place and the weight of the entry nearest to it among those of [p] not yet
    taken. *)
Inductive placing : list px -> palf -> palf -> Prop :=
| placed p p' : Permutation p p' -> placing [] p p'
| place f fs c (w : R) p rest p' : Permutation p ((c, w) :: rest) -> (forall x, In x p -> diff c f <= diff (fst x) f) ->
    placing fs rest p' -> placing (f :: fs) p ((f, pinned w) :: p').
End S.
