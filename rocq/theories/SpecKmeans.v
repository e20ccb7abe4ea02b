(** What a k-means step is, in exact arithmetic (for C56). *)
From Verif Require Import Base Arith Pal World Nearest Kmeans RealArith MedianReal.
From Coq Require Import Reals.
Open Scope R_scope.

Section S.
Context {big : R}.
Let A : Arith := real big.
Local Existing Instance A.
(** [d] is the distance from colour [c] to the palette. *)
Definition least (p : palf) (c : px) (d : R) : Prop :=
  (exists e, In e p /\ d = diff c (fst e)) /\ forall e, In e p -> d <= diff c (fst e).
(** Colours assigned to entry [j], their weight, and their weighted mean. *)
Definition members (j : nat) (l : list hitem) : list hitem := filter (fun it => Nat.eqb (h_likely it) j) l.
Definition weight (l : list hitem) : R := sumR (map (fun it => h_adj it : R) l).
Definition mean (l : list hitem) : px :=
  let m (ch : px -> R) := sumR (map (fun it => (h_adj it : R) * ch (h_color it)) l) / weight l in
  @Px A (m pa) (m pr) (m pg) (m pb).
(** A colour mirrored at a palette colour. *)
Definition mirrored (c q : px) : px := @Px A (2 * pa c - pa q) (2 * pr c - pr q) (2 * pg c - pg q) (2 * pb c - pb q).
(** How colour [it] is assigned: [it'] is what it becomes and [d] the distance
    it is charged. *)
Definition assigned (p : palf) (adjust : bool) (it it' : hitem) (d : R) : Prop :=
  h_color it' = h_color it /\ h_perc it' = h_perc it /\
  exists q w, nth_error p (h_likely it') = Some (q, w) /\ least p (h_color it) (diff (h_color it) q) /\
    if adjust
    then least p (mirrored (h_color it) q) d /\ h_adj it' = (2 * h_adj it + h_perc it) * (1 / 2 + d)
    else d = diff (h_color it) q /\ h_adj it' = h_adj it.
(** Entry [j] of the new palette, [l] being its members and [all] all colours. *)
Definition entry_step (l all : list hitem) (e e' : px * R) : Prop :=
  if Rlt_dec (snd e) 0 then e' = e
  else if Rlt_dec 0 (weight l) then snd e' = weight l /\ fst e' = if Req_EM_T (pa (fst e)) 0 then fst e else mean l
  else fst e' = fst e \/ exists it, In it all /\ fst e' = h_color it.
(** The same before unused entries are replaced: an entry without weight keeps
    its colour and has popularity 0. *)
Definition entry_moved (l : list hitem) (e e1 : px * R) : Prop :=
  if Rlt_dec (snd e) 0 then e1 = e
  else snd e1 = weight l /\ fst e1 = if Rlt_dec 0 (weight l) then if Req_EM_T (pa (fst e)) 0 then fst e else mean l else fst e.
(** Replacing entry [j] if it is unused: it becomes the colour that is furthest
    from the palette as it is then, unless every colour is in the palette. *)
Definition refill (all : list hitem) (j : nat) (p p' : palf) : Prop :=
  exists e, nth_error p j = Some e /\
  if Req_EM_T (snd e) 0 then
    (exists it d, In it all /\ least p (h_color it) d /\ 0 < d /\ (forall it2 d2, In it2 all -> least p (h_color it2) d2 -> d2 <= d) /\
       p' = firstn j p ++ (h_color it, h_adj it) :: skipn (S j) p) \/
    ((forall it2 d2, In it2 all -> least p (h_color it2) d2 -> d2 = 0) /\ p' = p)
  else p' = p.
(** Replacing the unused ones among the entries [js], in this order. *)
Fixpoint refills (all : list hitem) (js : list nat) (p p' : palf) : Prop :=
  match js with [] => p' = p | j :: js => exists p1, refill all j p p1 /\ refills all js p1 p' end.
(** [s] is the weighted sum of the colours' distances to the palette. *)
Definition dist_sum (p : palf) (l : list hitem) (s : R) : Prop :=
  exists ds, length ds = length l /\ (forall k it d, nth_error l k = Some it -> nth_error ds k = Some d -> least p (h_color it) d) /\
    s = sumR (map (fun x => (h_adj (fst x) : R) * snd x) (combine l ds)).
(** The colours there are: premultiplied, with the weights 5/8 (alpha), 1/2, 1
    and 9/20 of the channels. *)
Definition inbox (c : px) : Prop :=
  let a := pa c : R in 0 <= a <= 5 / 8 /\ 0 <= (pr c : R) <= 4 / 5 * a /\ 0 <= (pg c : R) <= 8 / 5 * a /\ 0 <= (pb c : R) <= 18 / 25 * a.
(** The search can start: the hint is an entry, or some entry is closer than
    the largest number. *)
Definition within (p : palf) (it : hitem) : Prop := (h_likely it < length p)%nat \/ exists e, In e p /\ diff (h_color it) (fst e) < big.
End S.
