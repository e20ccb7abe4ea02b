(** What median cut does, in exact arithmetic (for C61). *)
From Verif Require Import Base Arith Pal RealArith MedianReal.
From Coq Require Import Reals Permutation.
Open Scope R_scope.

Section S.
Context {big : R}.
Let A : Arith := real big.
Local Existing Instance A.
(** A colour with the weight it has in the search and the weight of its pixels. *)
Definition wcol : Type := px * R * R.
Definition wc_px (c : wcol) : px := fst (fst c).
Definition wc_adj (c : wcol) : R := snd (fst c).
Definition wc_pix (c : wcol) : R := snd c.
(** A box: its colours, and the colour that stands for them. *)
Definition sbox : Type := list wcol * px.

Definition total (l : list wcol) : R := sumR (map wc_adj l).
Definition centre (l : list wcol) : px :=
  let m (ch : px -> R) := sumR (map (fun c => wc_adj c * ch (wc_px c)) l) / total l in
  @Px A (m pa) (m pr) (m pg) (m pb).
(** How much the colours differ from [r] along a channel, and at most. *)
Definition spread (r : px) (l : list wcol) (ch : px -> R) : R :=
  sumR (map (fun c => wc_adj c * ((ch r - ch (wc_px c)) * (ch r - ch (wc_px c)))) l).
Definition furthest (r : px) (l : list wcol) (d : R) : Prop :=
  (exists c, In c l /\ d = diff r (wc_px c)) /\ forall c, In c l -> diff r (wc_px c) <= d.
Definition channels : list (px -> R) := [pa; pr; pg; pb].
(** [ch] is the channel along which the colours differ most. *)
Definition widest (r : px) (l : list wcol) (ch : px -> R) : Prop :=
  In ch channels /\ forall ch', In ch' channels -> spread r l ch' <= spread r l ch.

(** [s] is the priority of a box: its weight times its spread, more if some
    colour is further than [limit] from the colour that stands for the box. *)
Definition priority (limit : R) (b : sbox) (s : R) : Prop :=
  exists ch d, widest (snd b) (fst b) ch /\ furthest (snd b) (fst b) d /\
    s = total (fst b) * spread (snd b) (fst b) ch * (if Rlt_dec limit d then d / limit else 1).
(** [b] is the box to split: none with at least two colours has more priority. *)
Definition worst (limit : R) (b : sbox) (rest : list sbox) : Prop :=
  (1 < length (fst b))%nat /\ exists s, priority limit b s /\
  forall b', In b' rest -> (1 < length (fst b'))%nat -> exists s', priority limit b' s' /\ s' <= s.

(** [x] does not come after [y] along a channel, but for the precision of the
    sort keys. *)
Definition no_later (ch : px -> R) (x y : wcol) : Prop := ch (wc_px y) <= ch (wc_px x) + 2 / 65535.
(** The weight of colour [c] in finding the place to split, given the median. *)
Definition pull (mid : px) (c : wcol) : R := sqrt (diff mid (wc_px c)) * sqrt (1 + wc_adj c).
Definition pulls (mid : px) (l : list wcol) : R := sumR (map (pull mid) l).
(** [l] is cut in [l1] and [l2] along its widest channel where half of the total
    [pull] from its median is reached; never before the first colour. *)
Definition halves (r : px) (l l1 l2 : list wcol) : Prop :=
  Permutation l (l1 ++ l2) /\ l1 <> [] /\ l2 <> [] /\
  exists ch lo mid hi, widest r l ch /\
    Permutation l (lo ++ mid :: hi) /\ length lo = (length l / 2)%nat /\
    (forall x, In x lo -> no_later ch mid x) /\ (forall x, In x hi -> no_later ch x mid) /\
    (forall x y, In x l1 -> In y l2 -> no_later ch x y) /\
    let half := pulls (wc_px mid) l / 2 in
    (pulls (wc_px mid) l1 < half /\ exists x, In x l2 /\ half <= pulls (wc_px mid) l1 + pull (wc_px mid) x /\ forall y, In y l2 -> no_later ch x y) \/
    (exists x, l1 = [x] /\ half <= pull (wc_px mid) x).

(** [r] stands for the colours [l] of a box made by a split, [others] being the
    boxes not split: the mean; or the colour nearest to the mean, if the colours
    are few or the mean is of no use. *)
Definition stands_for (l : list wcol) (others : list sbox) (r : px) : Prop :=
  let m := centre l in
  let useless := forall c, In c l -> exists o, In o others /\ diff (snd o) (wc_px c) < diff m (wc_px c) in
  let few := (2 < length l < 500)%nat in
  (few \/ useless) /\ (exists c, In c l /\ r = wc_px c /\ forall c', In c' l -> diff m (wc_px c) <= diff m (wc_px c')) \/
  ~ few /\ ~ useless /\ r = m.
Definition split_box (b : sbox) (rest : list sbox) (b1 b2 : sbox) : Prop :=
  halves (snd b) (fst b) (fst b1) (fst b2) /\ stands_for (fst b1) rest (snd b1) /\ stands_for (fst b2) rest (snd b2).

(** The sum of the colours' distances to what stands for them. *)
Definition loss (bs : list sbox) : R :=
  sumR (map (fun b => sumR (map (fun c => diff (snd b) (wc_px c) * wc_pix c) (fst b))) bs).

(** Cutting boxes until there are [n], or none has two colours, or the loss is
    at most [goal]. *)
Inductive cut (n : nat) (limit goal : R) : list sbox -> list sbox -> Prop :=
| cut_full bs : (n <= length bs)%nat -> cut n limit goal bs bs
| cut_single bs : (forall b, In b bs -> (length (fst b) <= 1)%nat) -> cut n limit goal bs bs
| cut_last bs b rest b1 b2 : (length bs < n)%nat -> Permutation bs (b :: rest) ->
    worst (limit + INR (length bs) / INR n * 16 * limit) b rest -> split_box b rest b1 b2 ->
    loss (rest ++ [b1; b2]) <= goal -> cut n limit goal bs (rest ++ [b1; b2])
| cut_more bs b rest b1 b2 bs' : (length bs < n)%nat -> Permutation bs (b :: rest) ->
    worst (limit + INR (length bs) / INR n * 16 * limit) b rest -> split_box b rest b1 b2 ->
    goal < loss (rest ++ [b1; b2]) -> cut n limit goal (rest ++ [b1; b2]) bs' -> cut n limit goal bs bs'.

(** The boxes to start with: one for each cluster that is not empty, if these
    are at most a third of the colours wanted; otherwise a single one. *)
Definition starts (cl : list (nat * nat)) (n : nat) (l : list wcol) (bs : list sbox) : Prop :=
  let used := filter (fun c => negb (Nat.eqb (fst c) (snd c))) cl in
  concat (map fst bs) = l /\ (forall b, In b bs -> snd b = centre (fst b)) /\
  map (fun b => length (fst b)) bs =
    if Nat.leb (length used) (n / 3) then map (fun c => (snd c - fst c)%nat) used else [length l].
End S.
