(** Abstract specification of the [Attributes] settings, independent of the
    model's record: what a user reading the documentation expects. *)
From Coq Require Import ZArith List Bool.
Import ListNotations.
Open Scope Z_scope.

(** The observable settings. *)
Record settings := Settings {
  s_colors : Z; s_speed : Z; s_posterization : Z; s_quality : Z * Z
}.
Definition settings_default : settings := Settings 256 4 0 (0, 100).

(** Setter calls with arguments of the Rust argument types. *)
Inductive call :=
| CallMaxColors (n : Z)            (* u32 *)
| CallSpeed (v : Z)                (* i32 *)
| CallPosterization (b : Z)        (* u8 *)
| CallQuality (min target : Z).    (* u8, u8 *)

Definition call_typed (c : call) : Prop :=
  match c with
  | CallMaxColors n => 0 <= n < 2 ^ 32
  | CallSpeed v => - 2 ^ 31 <= v < 2 ^ 31
  | CallPosterization b => 0 <= b < 256
  | CallQuality mn tg => 0 <= mn < 256 /\ 0 <= tg < 256
  end.

(** Documented ranges. *)
Definition call_valid (c : call) : bool :=
  match c with
  | CallMaxColors n => (2 <=? n) && (n <=? 256)
  | CallSpeed v => (1 <=? v) && (v <=? 10)
  | CallPosterization b => (0 <=? b) && (b <=? 4)
  | CallQuality mn tg => (0 <=? mn) && (mn <=? tg) && (tg <=? 100)
  end.

Definition spec_set (s : settings) (c : call) : settings :=
  match c with
  | CallMaxColors n => Settings n (s_speed s) (s_posterization s) (s_quality s)
  | CallSpeed v => Settings (s_colors s) v (s_posterization s) (s_quality s)
  | CallPosterization b => Settings (s_colors s) (s_speed s) b (s_quality s)
  | CallQuality mn tg => Settings (s_colors s) (s_speed s) (s_posterization s) (mn, tg)
  end.

(** One call: accepted exactly when valid; rejected calls change nothing. *)
Definition spec_step (s : settings) (c : call) : settings :=
  if call_valid c then spec_set s c else s.
Definition spec_run (cs : list call) : settings := fold_left spec_step cs settings_default.
