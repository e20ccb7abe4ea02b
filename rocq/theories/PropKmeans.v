(** C56: one refinement step is a weighted k-means step (exact arithmetic). *)
From Verif Require Import Base BaseFacts Arith Pal World Attr Hist Nearest MedianCut Kmeans Blur ImageM Quant NearFacts SearchFacts KmeansSched RealArith MedianReal
  NearReal SearchReal KmeansReal SpecKmeans KmeansStep KmeansMono KmeansBad KmeansBox.
From Coq Require Import Reals Lra.
Open Scope R_scope.

(** C56.  Whatever the threads do, a step gives every colour to a nearest
    palette entry and remembers that; the error it reports is the mean charged
    distance under the pixel weights; fixed entries stay; every other entry with
    assigned weight becomes the weighted mean of its colours (unless it is fully
    transparent) and gets their weight as popularity; an entry without weight
    stays or becomes one of the histogram's colours: in the order of the
    palette, each takes the colour that is then furthest from the palette,
    unless all are in it. *)
Theorem C56_step : forall big, 1 <= big -> let A := real big in
  forall threads (h : hint) (p : palf) adjust, (forall n, covers n (threads n)) -> hi_items h <> [] -> (0 < length p <= 256)%nat ->
  Forall (within p) (hi_items h) ->
  exists e h' p', iteration_with threads h p adjust = Ok (e, h', p') /\
    exists ds, length ds = length (hi_items h) /\ length (hi_items h') = length (hi_items h) /\ length p' = length p /\
      (forall k it it' d, nth_error (hi_items h) k = Some it -> nth_error (hi_items h') k = Some it' -> nth_error ds k = Some d ->
         assigned p adjust it it' d) /\
      e = sumR (map (fun x => snd x * h_perc (fst x)) (combine (hi_items h) ds)) / hi_total h /\
      (forall j x, nth_error p j = Some x -> exists x', nth_error p' j = Some x' /\
         entry_step (members j (hi_items h')) (hi_items h') x x') /\
      exists p1, length p1 = length p /\
        (forall j x, nth_error p j = Some x -> exists x1, nth_error p1 j = Some x1 /\ entry_moved (members j (hi_items h')) x x1) /\
        refills (hi_items h') (seq 0 (length p)) p1 p'.
Proof.
  exact (fun big Hb th h p adj C NE L W => match @iteration_with_ok (real big) th h p adj L C with
    ex_intro _ e (ex_intro _ h' (ex_intro _ p' (conj E _))) =>
      ex_intro _ e (ex_intro _ h' (ex_intro _ p' (conj E (step big Hb th h p adj e h' p' C NE W E)))) end).
Qed.
Print Assumptions C56_step.

(** The last premise of [C56_step] holds for all colours there are ... *)
Theorem C56_within : forall big, 3 < big -> forall (p : @palf (real big)) (l : list (@hitem (real big))), p <> [] ->
  Forall (fun e => inbox (fst e)) p -> Forall (fun it => inbox (h_color it)) l -> Forall (within p) l.
Proof. exact (fun big B p l NE FP F => box_within big p l B NE FP F). Qed.
Print Assumptions C56_within.
(** ... because those the library makes of 8-bit colours are in the box. *)
Theorem C56_colours : forall big (g : R) c, 0 < g -> rgba_ok c -> @inbox big (@from_rgba (real big) (@gamma_lut (real big) g) c).
Proof. exact (fun big g c => pixel_inbox big g c). Qed.
Print Assumptions C56_colours.

(** C56.  Among colours of one opacity (say, all opaque) a step without
    re-weighting never increases the weighted sum of distances to the palette. *)
Theorem C56_no_worse : forall big, 1 <= big -> let A := real big in
  forall threads (h : hint) (p : palf) e h' p' a s s', (forall n, covers n (threads n)) -> Forall (within p) (hi_items h) -> a <> 0 ->
  Forall (fun it => pa (h_color it) = a :> R /\ 0 <= (h_adj it : R)) (hi_items h) -> Forall (fun x => pa (fst x) = a :> R) p ->
  iteration_with threads h p false = Ok (e, h', p') -> dist_sum p (hi_items h) s -> dist_sum p' (hi_items h) s' -> s' <= s.
Proof. exact (fun big Hb th h p e h' p' a s s' => step_sum_better big Hb th h p e h' p' a s s'). Qed.
Print Assumptions C56_no_worse.

(** C56.  In general it can: the mean is not the point of least distance sum
    for a distance that takes the worse of two backgrounds.  Three colours of
    opacity 3/4, 1 and 1/2, one entry: the sum rises by a third, from 225/4096
    to 300/4096. *)
Theorem C56_no_worse_refuted : exists threads (h : @hint (real 4)) p e h' p' s s', (forall n, covers n (threads n)) /\
  Forall (fun it => inbox (h_color it) /\ h_adj it = 1 :> R) (hi_items h) /\ Forall (fun x => inbox (fst x)) p /\ Forall (within p) (hi_items h) /\
  iteration_with threads h p false = Ok (e, h', p') /\ dist_sum p (hi_items h) s /\ dist_sum p' (hi_items h) s' /\ s < s'.
Proof.
  destruct worsens as (e & h' & p' & E & D & D').
  assert (I : Forall (fun it => inbox (h_color it) /\ h_adj it = 1 :> R) cluster3).
  { unfold cluster3, lit. repeat (apply Forall_cons || apply Forall_nil); unfold inbox, lux; cbn; lra. }
  assert (J : Forall (fun x => inbox (fst x)) centre).
  { unfold centre. repeat (apply Forall_cons || apply Forall_nil); unfold inbox, lux; cbn; lra. }
  exists th1, (hint_of cluster3 3), centre, e, h', p', (225 / 4096), (300 / 4096). split; [exact th1_covers|]. split; [exact I|]. split; [exact J|].
  split; [|split; [exact E|split; [exact D|split; [exact D'|lra]]]].
  apply (box_within 4); [lra|discriminate|exact J|]. eapply Forall_impl; [|exact I]. cbv beta. tauto.
Qed.
Print Assumptions C56_no_worse_refuted.

(** Black and a grey, of weight 1 each, and one dark entry: the entry
    becomes the colour in the middle and the sum falls from 375/2048 to 75/512. *)
Example C56_example : exists e h' w, @iteration_with (real 4) th1 (hint_of [lit 1 0 1; lit 1 (1 / 2) 1] 2) [(lux 1 (1 / 8), 1)] false = Ok (e, h', [(lux 1 (1 / 4), w)]) /\
  dist_sum [(lux 1 (1 / 8), 1)] [lit 1 0 1; lit 1 (1 / 2) 1] (375 / 2048) /\ dist_sum [(lux 1 (1 / 4), w)] [lit 1 0 1; lit 1 (1 / 2) 1] (75 / 512).
Proof.
  destruct (step_one th1 (hint_of [lit 1 0 1; lit 1 (1 / 2) 1] 2) (lux 1 (1 / 8)) 1 th1_covers) as (e & h' & [x w] & E & S1 & _); try (unfold inbox, lux; cbn; lra).
  - discriminate.
  - unfold lit, hint_of. cbn [hi_items]. repeat (apply Forall_cons || apply Forall_nil); unfold inbox, lux; cbn; lra.
  - exists e, h', w. cbn [fst] in S1. assert (MM : mean (hi_items (hint_of [lit 1 0 1; lit 1 (1 / 2) 1] 2)) = lux 1 (1 / 4)) by (unfold mean, weight, lux; cbn; f_equal; lra).
    rewrite MM in S1. subst x. split; [exact E|].
    split; [pose proof (dist_one (lux 1 (1 / 8)) 1 [lit 1 0 1; lit 1 (1 / 2) 1]) as D|pose proof (dist_one (lux 1 (1 / 4)) w [lit 1 0 1; lit 1 (1 / 2) 1]) as D];
      (match type of D with dist_sum _ _ ?s => match goal with |- dist_sum _ _ ?t => assert (Q : s = t) end end; [|rewrite Q in D; exact D]);
      cbn [map sumR lit h_color h_adj]; rewrite !lux_diff; unfold Rmax; repeat destruct (Rle_dec _ _); lra.
Qed.
