(** What the numbers reported by a result should mean (property C55). *)
From Verif Require Import Base Arith Pal World Attr.
Open Scope Z_scope.
Section Spec.
Context {A : Arith}.

(** Quality [v] describes the error [e]: [v] is the largest minimum quality
    that a caller could have asked for and that [e] still meets, up to the
    slack of one millionth. *)
Definition describes (e : f64) (v : Z) : Prop :=
  0 <= v <= 100 /\
  forall a mn a', 1 <= mn <= 100 -> set_quality a mn 100 = Ok a' ->
    exists limit, a_max_mse a' = Some limit /\ (mn <= v <-> (e <=d limit +d dlit 1 1000000) = true).

(** The internal error on the scale of a mean squared error of 8-bit colours. *)
Definition standard (e : f64) : f64 := (e *d dofZ 65536 /d dofZ 6) /d dlit 45 100.
End Spec.
