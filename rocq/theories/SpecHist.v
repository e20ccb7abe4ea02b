(** What a histogram should contain after a list of additions: colours with
    their weights, in the order they were added. *)
From Verif Require Import Base.
Open Scope Z_scope.

(** [b]-bit posterized colour used to tell colours apart: the [b] low bits of
    every channel are dropped, all fully transparent colours are one. *)
Definition drop_low (b v : Z) : Z := v / 2 ^ b * 2 ^ b.
Definition posterized (b : Z) (c : rgba) : rgba :=
  if ca c =? 0 then Rgba 0 0 0 0 else rgba_map (drop_low b) c.

Definition additions := list (rgba * Z).
Fixpoint zsum (l : list Z) : Z := match l with [] => 0 | x :: t => x + zsum t end.

(** The additions with a non-zero weight that fall on key [k]. *)
Definition falling_on (b : Z) (l : additions) (k : rgba) : additions :=
  filter (fun e => negb (snd e =? 0) && rgba_eqb (posterized b (fst e)) k)%bool l.

(** Expected entry of key [k]: the saturated sum of the weights, and the first
    colour that was added. *)
Definition expected (b : Z) (l : additions) (k : rgba) : option (Z * rgba) :=
  match falling_on b l k with
  | [] => None
  | (e :: _) as m => Some (Z.min (zsum (map snd m)) U32_MAX, fst e)
  end.

Definition addition_ok (e : rgba * Z) : Prop := rgba_ok (fst e) /\ 0 <= snd e <= U32_MAX.

(** The additions an image makes: its pixels row by row, each weighed by the
    importance map (255 without a map). *)
Definition image_additions (width : nat) (rows : list (list rgba)) (imp : option (list Z)) : additions :=
  combine (concat rows)
          (match imp with None => repeat 255 (length (concat rows)) | Some m => m end).
