(** The floating-point operations used by the code, as a class without laws.

    A model function written over [Arith] can be run with IEEE arithmetic
    ([Ieee.v]) or read over the real numbers ([RealArith.v]); a theorem that
    assumes nothing about the instance holds for every rounding, every libm
    and in the presence of NaN. *)
From Verif Require Import Base.

Class Arith := {
  f32 : Type;
  f64 : Type;
  (* f32 *)
  fadd : f32 -> f32 -> f32;
  fsub : f32 -> f32 -> f32;
  fmul : f32 -> f32 -> f32;
  fdiv : f32 -> f32 -> f32;
  ffma : f32 -> f32 -> f32 -> f32;       (* a.mul_add(b, c) = a*b + c *)
  fneg : f32 -> f32;
  fabs : f32 -> f32;
  fsqrt : f32 -> f32;
  fmax : f32 -> f32 -> f32;              (* f32::max *)
  fmin : f32 -> f32 -> f32;
  fpow : f32 -> f32 -> f32;              (* f32::powf *)
  flt : f32 -> f32 -> bool;
  fle : f32 -> f32 -> bool;
  feq : f32 -> f32 -> bool;
  fofZ : Z -> f32;                       (* integer [as f32] / f32::from *)
  fto_u8 : f32 -> Z;                     (* [as u8], saturating, NaN -> 0 *)
  fto_u32 : f32 -> Z;                    (* [as u32] *)
  finf : f32;                            (* f32::INFINITY *)
  fmaxv : f32;                           (* f32::MAX *)
  (* f64 *)
  dadd : f64 -> f64 -> f64;
  dsub : f64 -> f64 -> f64;
  dmul : f64 -> f64 -> f64;
  ddiv : f64 -> f64 -> f64;
  dfma : f64 -> f64 -> f64 -> f64;
  dabs : f64 -> f64;
  dmax : f64 -> f64 -> f64;
  dmin : f64 -> f64 -> f64;
  dpow : f64 -> f64 -> f64;
  dlt : f64 -> f64 -> bool;
  dle : f64 -> f64 -> bool;
  deq : f64 -> f64 -> bool;
  dofZ : Z -> f64;
  dmaxv : f64;                           (* f64::MAX *)
  (* conversions *)
  f2d : f32 -> f64;
  d2f : f64 -> f32
}.

Declare Scope flt_scope.
Delimit Scope flt_scope with flt.
Notation "a +f b" := (fadd a b) (at level 50, left associativity) : flt_scope.
Notation "a -f b" := (fsub a b) (at level 50, left associativity) : flt_scope.
Notation "a *f b" := (fmul a b) (at level 40, left associativity) : flt_scope.
Notation "a /f b" := (fdiv a b) (at level 40, left associativity) : flt_scope.
Notation "a <f b" := (flt a b) (at level 70) : flt_scope.
Notation "a <=f b" := (fle a b) (at level 70) : flt_scope.
Notation "a >f b" := (flt b a) (at level 70) : flt_scope.
Notation "a >=f b" := (fle b a) (at level 70) : flt_scope.
Notation "a =f b" := (feq a b) (at level 70) : flt_scope.
Notation "a +d b" := (dadd a b) (at level 50, left associativity) : flt_scope.
Notation "a -d b" := (dsub a b) (at level 50, left associativity) : flt_scope.
Notation "a *d b" := (dmul a b) (at level 40, left associativity) : flt_scope.
Notation "a /d b" := (ddiv a b) (at level 40, left associativity) : flt_scope.
Notation "a <d b" := (dlt a b) (at level 70) : flt_scope.
Notation "a <=d b" := (dle a b) (at level 70) : flt_scope.
Notation "a >d b" := (dlt b a) (at level 70) : flt_scope.
Notation "a >=d b" := (dle b a) (at level 70) : flt_scope.
Notation "a =d b" := (deq a b) (at level 70) : flt_scope.
Open Scope flt_scope.

Section Derived.
Context {A : Arith}.

(** Literals.  A decimal literal [p/q] whose numerator and denominator are
    exactly representable is the correctly rounded quotient, i.e. [p / q] in
    the arithmetic itself. *)
Definition flit (p q : Z) : f32 := fofZ p /f fofZ q.
Definition dlit (p q : Z) : f64 := dofZ p /d dofZ q.
Definition f0 : f32 := fofZ 0.
Definition f1 : f32 := fofZ 1.
Definition d0 : f64 := dofZ 0.
Definition d1 : f64 := dofZ 1.

(** src/lib.rs [OrdFloat]: [partial_cmp(..).unwrap_or(Equal)]. *)
Definition fcmp (a b : f32) : comparison :=
  if a <f b then Lt else if b <f a then Gt else Eq.
Definition dcmp (a b : f64) : comparison :=
  if a <d b then Lt else if b <d a then Gt else Eq.

(** [f64::is_nan] is [self != self]. *)
Definition dis_nan (x : f64) : bool := negb (x =d x).

(** [iter().sum::<f64>()]: left fold from zero. *)
Definition dsum (l : list f64) : f64 := fold_left dadd l d0.

(** [f32::clamp(min, max)] *)
Definition fclamp (x lo hi : f32) : f32 :=
  let x := if x <f lo then lo else x in
  if hi <f x then hi else x.
End Derived.
