(** What the palette's error is, in exact arithmetic (for C58). *)
From Verif Require Import Base Arith Pal World Attr Hist Nearest MedianCut Kmeans ImageM Quant RealArith MedianReal SpecHist HistWeights SpecKmeans.
From Coq Require Import Reals.
Open Scope R_scope.

Section S.
Context {big : R}.
Let A : Arith := real big.
Local Existing Instance A.
(** The colours of a histogram and what they weigh (C48). *)
Definition weighed (u : unspec) (h : hist) (g : R) : list (px * R) :=
  let m := hg_map (insert_fixed u h) in
  map (fun e => (from_rgba (gamma_lut (g : f64)) (snd (snd e)), colour_weight (zsum (map (fun e => fst (snd e)) m)) (fst (snd e)))) m.
(** [m] is the weighted mean of the distances from the colours [l] to the
    palette. *)
Definition mean_distance (p : palf) (l : list (px * R)) (m : R) : Prop :=
  exists ds, length ds = length l /\ (forall k x d, nth_error l k = Some x -> nth_error ds k = Some d -> least p (fst x) d) /\
    m = sumR (map (fun x => snd (fst x) * snd x) (combine l ds)) / sumR (map snd l).
End S.
(** Of the error allowed by the minimum quality, what an image of [n] colours
    is allowed (src/attr.rs:297): few colours are to be kept better. *)
Definition allowance (n : nat) : R := if Nat.leb n 256 then 33 / 100 else 1.
