(** Exact arithmetic: both float types are the real numbers.  [big] stands for
    the infinities and the largest floats (the code only uses them as starting
    values of minimum searches).  Comparisons are decided, so nothing here
    computes; the instance is for proofs about the algorithms. *)
From Verif Require Import Base Arith Order.
From Coq Require Import Reals Lra.
Open Scope R_scope.

Definition Rltb (x y : R) : bool := if Rlt_dec x y then true else false.
Definition Rleb (x y : R) : bool := if Rle_dec x y then true else false.
Definition Reqb (x y : R) : bool := if Req_EM_T x y then true else false.
(** [powf] for bases the code uses (never negative). *)
Definition powR (x y : R) : R := if Rlt_dec 0 x then Rpower x y else 0.
(** [as uN]: the integer part, saturating. *)
Definition to_uint (m : Z) (x : R) : Z := Z.max 0 (Z.min m (Int_part x)).

Definition real (big : R) : Arith := {|
  f32 := R; f64 := R;
  fadd := Rplus; fsub := Rminus; fmul := Rmult; fdiv := Rdiv;
  ffma := fun a b c => a * b + c; fneg := Ropp; fabs := Rabs; fsqrt := sqrt;
  fmax := Rmax; fmin := Rmin; fpow := powR;
  flt := Rltb; fle := Rleb; feq := Reqb;
  fofZ := IZR; fto_u8 := to_uint 255; fto_u32 := to_uint U32_MAX;
  finf := big; fmaxv := big;
  dadd := Rplus; dsub := Rminus; dmul := Rmult; ddiv := Rdiv;
  dfma := fun a b c => a * b + c; dabs := Rabs; dmax := Rmax; dmin := Rmin; dpow := powR;
  dlt := Rltb; dle := Rleb; deq := Reqb;
  dofZ := IZR; dmaxv := big;
  f2d := fun x => x; d2f := fun x => x
|}.

Lemma Rltb_lt x y : Rltb x y = true <-> x < y.
Proof. unfold Rltb. destruct (Rlt_dec x y); split; intros; auto; try discriminate; contradiction. Qed.
Lemma Rltb_ge x y : Rltb x y = false <-> y <= x.
Proof. unfold Rltb. destruct (Rlt_dec x y); split; intros; auto; try discriminate; try lra. Qed.
Lemma Rleb_le x y : Rleb x y = true <-> x <= y.
Proof. unfold Rleb. destruct (Rle_dec x y); split; intros; auto; try discriminate; contradiction. Qed.
Lemma Rleb_gt x y : Rleb x y = false <-> y < x.
Proof. unfold Rleb. destruct (Rle_dec x y); split; intros; auto; try discriminate; try lra. Qed.
Lemma Reqb_eq x y : Reqb x y = true <-> x = y.
Proof. unfold Reqb. destruct (Req_EM_T x y); split; intros; auto; try discriminate; contradiction. Qed.
Lemma Reqb_neq x y : Reqb x y = false <-> x <> y.
Proof. unfold Reqb. destruct (Req_EM_T x y); split; intros; auto; try discriminate; contradiction. Qed.

(** Boolean comparisons in hypotheses and goal become propositions. *)
Ltac rbool := rewrite ?Rltb_lt, ?Rltb_ge, ?Rleb_le, ?Rleb_gt, ?Reqb_eq, ?Reqb_neq in *.

#[global] Instance real_ord big : OrdLaws (real big).
Proof.
  constructor; cbn; intros; rbool; try lra; try (apply IZR_le; auto; fail); try (split; intros; rbool; lra).
Qed.
#[global] Instance real_cast big : CastLaws (real big).
Proof. constructor; intros x; cbn; unfold to_uint, U32_MAX; lia. Qed.
