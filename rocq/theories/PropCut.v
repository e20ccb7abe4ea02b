(** C61: median cut, in exact arithmetic. *)
From Verif Require Import Base BaseFacts Arith Order Pal World Attr Hist Nearest MedianCut Kmeans ImageM Quant Api MedianFacts SpecHist FewFacts RealArith MedianReal
  SpecKmeans SpecPromise SpecCut CutReal CutEnd.
From Coq Require Import Reals Lra Permutation.
Open Scope R_scope.

(** C61.  Median cut is the procedure of SpecCut.v: it starts with the clusters
    of the histogram or a single box; while there are fewer than [n] boxes and
    some box has two colours, it takes the box of the highest priority and cuts
    it along its widest channel where half of its colours' pull from the median
    is reached; it stops as soon as the loss is at most [t] times the total
    weight.  The palette is what stands for the boxes, with the weights of their
    pixels, and every colour is marked with its box.

    The limit beyond which a box's furthest colour counts is [m] or the error of
    quality 20. *)
Theorem C61_cut : forall big, let A := real big in
  forall (u : unspec) (h : hint) n (t m : R) p h', unspec_ok u ->
  Forall (fun c => (fst c <= snd c)%nat) (hi_clusters h) /\ fold_right (fun c s => snd c - fst c + s)%nat 0%nat (hi_clusters h) = length (hi_items h) ->
  hi_items h <> [] -> (0 < n <= 256)%nat ->
  Forall (fun it => inbox (h_color it) /\ 0 < (h_adj it : R) /\ 0 <= (h_perc it : R)) (hi_items h) ->
  mediancut u h n t m = Ok (p, h') ->
  let coloured := map (fun it => (h_color it, h_adj it : R, h_perc it : R)) in
  exists bs bs', starts (hi_clusters h) n (coloured (hi_items h)) bs /\ cut n (Rmax m (quality_to_mse 20)) (t * hi_total h) bs bs' /\
    p = map (fun b => (snd b, sumR (map wc_pix (fst b)))) bs' /\
    forall k b, nth_error bs' k = Some b -> Permutation (fst b) (coloured (members k (hi_items h'))).
Proof. exact (fun big u h n t m p h' U => cut_described big u U h n t m p h'). Qed.
Print Assumptions C61_cut.

(** The histograms of the search are of that kind when it starts. *)
Theorem C61_reachable : forall big, let A := real big in
  forall (u : unspec) (h : hist), unspec_ok u -> hist_r h -> (hg_map h <> [] \/ hg_fixed h <> []) ->
  (exists e, In e (hg_map (insert_fixed u h)) /\ (0 < fst (snd e))%Z) ->
  let hi := fst (finalize_builder u h (used_gamma h)) in
  (Forall (fun c => (fst c <= snd c)%nat) (hi_clusters hi) /\ fold_right (fun c s => snd c - fst c + s)%nat 0%nat (hi_clusters hi) = length (hi_items hi)) /\
  hi_items hi <> [] /\ Forall (fun it => inbox (h_color it) /\ 0 < (h_adj it : R) /\ 0 <= (h_perc it : R)) (hi_items hi) /\
  (hi_total hi : R) = sumR (map (fun it => h_perc it : R) (hi_items hi)) /\ 0 < (hi_total hi : R).
Proof. exact (fun big u h U => reachable_sound big u U h). Qed.
Print Assumptions C61_reachable.

(** C61.  Every palette entry has colours, the weight of their pixels, and is
    their weighted mean or the one of them that is nearest to it. *)
Theorem C61_entries : forall big, let A := real big in
  forall (u : unspec) (h : hint) n (t m : R) p h' j e, unspec_ok u ->
  Forall (fun c => (fst c <= snd c)%nat) (hi_clusters h) /\ fold_right (fun c s => snd c - fst c + s)%nat 0%nat (hi_clusters h) = length (hi_items h) ->
  hi_items h <> [] -> (0 < n <= 256)%nat ->
  Forall (fun it => inbox (h_color it) /\ 0 < (h_adj it : R) /\ 0 <= (h_perc it : R)) (hi_items h) ->
  mediancut u h n t m = Ok (p, h') -> nth_error p j = Some e ->
  let l := members j (hi_items h') in
  l <> [] /\ snd e = sumR (map (fun it => h_perc it : R) l) /\
  (fst e = mean l \/ exists it, In it l /\ fst e = h_color it /\ forall it', In it' l -> diff (mean l) (h_color it) <= diff (mean l) (h_color it')).
Proof. exact (fun big u h n t m p h' j e U => cut_entries big u U h n t m p h' j e). Qed.
Print Assumptions C61_entries.

(** C61.  If it gives fewer entries than asked for, the mean distance of the
    colours to the palette is at most the target. *)
Theorem C61_early : forall big, let A := real big in
  forall (u : unspec) (h : hint) n (t m : R) p h', unspec_ok u ->
  Forall (fun c => (fst c <= snd c)%nat) (hi_clusters h) /\ fold_right (fun c s => snd c - fst c + s)%nat 0%nat (hi_clusters h) = length (hi_items h) ->
  hi_items h <> [] -> (0 < n <= 256)%nat ->
  Forall (fun it => inbox (h_color it) /\ 0 < (h_adj it : R) /\ 0 <= (h_perc it : R)) (hi_items h) ->
  (hi_total h : R) = sumR (map (fun it => h_perc it : R) (hi_items h)) -> 0 < (hi_total h : R) -> 0 <= t ->
  mediancut u h n t m = Ok (p, h') -> (length p < n)%nat ->
  exists d, mean_distance p (map (fun it => (h_color it, h_perc it : R)) (hi_items h)) d /\ d <= t.
Proof. exact (fun big u h n t m p h' U => cut_early big u U h n t m p h'). Qed.
Print Assumptions C61_early.

(** Two colours and two entries: the palette is the two colours. *)
Definition dot2 (v w : R) : @hitem (real 4) := @HItem (real 4) (@Px (real 4) (5 / 8) v v v) w w 0 0.
Definition dots : @hint (real 4) := @HInt (real 4) [dot2 0 1; dot2 (1 / 4) 3] 4 [(0, 2)]%nat [].
Example C61_example : forall u, unspec_ok u -> exists p h', @mediancut (real 4) u dots 2 0 1 = Ok (p, h') /\
  Permutation p [(h_color (dot2 0 1), 1); (h_color (dot2 (1 / 4) 3), 3)].
Proof.
  intros u U. assert (CF : clusters_fit (hi_clusters dots) (length (hi_items dots))) by (split; [repeat constructor; cbn; lia|reflexivity]).
  destruct (@mediancut_ok (real 4) u U dots 2 0 1 CF ltac:(lia) ltac:(cbn; lia)) as (p & h' & E & _).
  exists p, h'. split; [exact E|].
  destruct (C61_cut 4 u dots 2 0 1 p h' U CF ltac:(discriminate) ltac:(lia)) as (bs & bs' & S & C & -> & _); auto.
  { unfold dots, dot2. cbn [hi_items]. repeat (apply Forall_cons || apply Forall_nil); unfold inbox; cbn; lra. }
  destruct S as (S1 & S2 & S3). cbn in S3. destruct bs as [|[l r] [|? ?]]; try discriminate. clear S3. cbn [map concat fst] in S1. rewrite app_nil_r in S1.
  set (c1 := (h_color (dot2 0 1), 1, 1)) in *. set (c2 := (h_color (dot2 (1 / 4) 3), 3, 3)) in *.
  assert (L : l = [c1; c2]) by exact S1. clear S1 S2. subst l.
  assert (G : forall b rest (b1 b2 : @sbox 4), Permutation [([c1; c2], r)] (b :: rest) -> split_box b rest b1 b2 ->
    rest = [] /\ Permutation (map (fun b => (snd b, sumR (map wc_pix (fst b)))) [b1; b2]) [(wc_px c1, 1); (wc_px c2, 3)]).
  { intros b rest [l1 r1] [l2 r2] P (H & R1 & R2). apply Permutation_length_1_inv in P. injection P as -> ->. split; auto.
    destruct H as (PM & N1 & N2 & _). cbn [fst snd] in *.
    assert (CE : forall c s, 0 < wc_adj c -> @stands_for 4 [c] [] s -> s = wc_px c).
    { intros c s W [(_ & d & [<-|[]] & Q & _)|(_ & _ & Q)]; [exact Q|]. rewrite Q. apply centre_one. exact W. }
    assert (Q1 : 0 < @wc_adj 4 c1) by (cbn; lra). assert (Q2 : 0 < @wc_adj 4 c2) by (cbn; lra).
    destruct l1 as [|x [|? ?]]; [congruence| |].
    2:{ apply Permutation_length in PM. destruct l2; [congruence|]. cbn in PM. rewrite app_length in PM. cbn in PM. lia. }
    destruct l2 as [|y [|? ?]]; [congruence| |apply Permutation_length in PM; cbn in PM; lia].
    cbn [app] in PM. apply Permutation_length_2 in PM as [[<- <-]|[<- <-]]; rewrite (CE _ _ Q1 ltac:(eassumption)), (CE _ _ Q2 ltac:(eassumption)); cbn [map fst snd sumR wc_pix c1 c2]; rewrite !Rplus_0_r.
    - reflexivity.
    - apply perm_swap. }
  inversion C as [? H|? H|? b rest b1 b2 H P _ SB _|? b rest b1 b2 ? H P _ SB _ C']; subst.
  - cbn in H. lia.
  - specialize (H _ (or_introl eq_refl)). cbn in H. lia.
  - destruct (G b rest b1 b2 P SB) as [-> Q]. exact Q.
  - destruct (G b rest b1 b2 P SB) as [-> Q]. cbn [app] in C'.
    inversion C' as [? H2|? H2|? ? ? ? ? H2|? ? ? ? ? ? H2]; subst; [exact Q|exact Q|cbn in H2; lia|cbn in H2; lia].
Qed.
