(** Invariants of one k-means round, for any arithmetic and any assignment of
    batches to threads. *)
From Verif Require Import Base BaseFacts Arith Pal World Attr Hist MedianCut Nearest Kmeans Blur ImageM Quant
  SpecHist HistFacts MedianFacts NearFacts SearchFacts QuantFacts KmeansSched CutInv.
Open Scope nat_scope.

Section Moved.
Context {A : Arith}.
(** What a round does to an entry: without adjustment nothing that matters;
    with adjustment a new weight from the distance of a mirror image to a
    palette colour. *)
Definition mirror (c r : px) : px := px_sub (px_add c c) r.
Definition new_adj (it : hitem) (nd : f32) : f32 := ffma (fofZ 2) (h_adj it) (h_perc it) *f (flit 5 10 +f nd).
Lemma moved_plain n it : core (moved n false it) = core it.
Proof. unfold moved, iterate_item. destruct (search n (h_color it) (h_likely it)) as [m d]. reflexivity. Qed.
Lemma moved_adj p n it : nearest_new p = Ok n -> exists r q nd, In r (colors_of p) /\ In q (colors_of p) /\ dist_to (mirror (h_color it) r) q nd /\
  core (moved n true it) = (h_color it, new_adj it nd, h_perc it).
Proof.
  intros E. destruct (nearest_new_inv p n E) as (L & N & P). unfold moved, iterate_item.
  pose proof (search_idx n (length p) (h_color it) (h_likely it) N) as M. destruct (search n (h_color it) (h_likely it)) as [m d]. cbn [fst] in M.
  destruct (idx_lt (n_pal n) m) as (r & EI & NR); [rewrite P; unfold colors_of; rewrite map_length; lia|]. rewrite EI. cbn [bind].
  destruct (search_distance p n (mirror (h_color it) r) m E M) as (q & NQ & D). 
  exists r, q, (snd (search n (mirror (h_color it) r) m)). split; [rewrite <- P; eapply nth_error_In; eauto|]. split; [eapply nth_error_In; eauto|]. split; [exact D|].
  reflexivity.
Qed.
Lemma moved_color p n adj it : nearest_new p = Ok n -> h_color (moved n adj it) = h_color it.
Proof.
  intros E. destruct adj.
  - destruct (moved_adj p n it E) as (r & q & nd & _ & _ & _ & EQ). unfold core in EQ. congruence.
  - pose proof (moved_plain n it) as EQ. unfold core in EQ. congruence.
Qed.
Lemma gain_moved n k adj it : near_ok n k -> exists m, gain n adj it = (h_color it, h_adj (moved n adj it), m).
Proof.
  intros N. unfold gain, moved, iterate_item. pose proof (search_idx n k (h_color it) (h_likely it) N) as M.
  destruct (search n (h_color it) (h_likely it)) as [m d]. cbn [fst] in M. destruct adj.
  - destruct (idx_lt (n_pal n) m) as (r & -> & _); [destruct N; lia|]. cbn [bind]. eauto.
  - cbn [bind]. eauto.
Qed.
End Moved.

Section Round.
Context {A : Arith}.
Variables GC GC' : px * f32 * f32 -> Prop.
Variable PB : px -> Prop.
Variable AV : coloravg -> Prop.
Hypothesis av0 : AV c0.
Hypothesis av_add : forall a c w v, AV a -> GC' (c, w, v) -> AV (avg_add a c w).
Hypothesis red : forall ks km p, Forall (fun x => Forall AV (k_avg x)) ks -> km_reduce ks = Some km -> pal_in PB p -> pal_in PB (fst (km_finalize km p)).
Hypothesis colB : forall c, GC' c -> PB (fst (fst c)).

Lemma adds_av gs : forall avg, Forall AV avg -> Forall (fun g : px * f32 * nat => exists v, GC' (fst (fst g), snd (fst g), v)) gs -> Forall AV (adds avg gs).
Proof.
  unfold adds. induction gs as [|[[p w] m] gs IH]; intros avg H F; cbn [fold_left]; auto. apply Forall_cons_iff in F as [(v & F1) F]. cbn [fst snd] in F1.
  apply IH; auto. apply Forall_upd; auto. eapply av_add; eauto.
  destruct (Nat.lt_ge_cases m (length avg)) as [L|L].
  - rewrite Forall_forall in H. apply H, nth_In. auto.
  - rewrite nth_overflow by auto. apply av0.
Qed.
Lemma in_share items work it : In it (share (chunks 256 items) work) -> In it items.
Proof.
  unfold share. intros H. apply in_concat in H as (l & H1 & H2). apply in_map_iff in H1 as (i & <- & _).
  rewrite <- (chunks_concat 256 items) by lia. apply in_concat. destruct (Nat.lt_ge_cases i (length (chunks 256 items))) as [L|L].
  - eexists. split; [apply nth_In; exact L|exact H2].
  - rewrite nth_overflow in H2 by auto. destruct H2.
Qed.
Lemma round_inv th h (p : palf) adj e h' p' : (forall n, covers n (th n)) ->
  (forall n it, nearest_new p = Ok n -> GC (core it) -> GC' (core (moved n adj it))) ->
  all_gc GC (hi_items h) -> pal_in PB p -> iteration_with th h p adj = Ok (e, h', p') ->
  all_gc GC' (hi_items h') /\ pal_in PB p' /\ length (hi_items h') = length (hi_items h) /\ hi_clusters h' = hi_clusters h /\ hi_fixed h' = hi_fixed h /\ hi_total h' = hi_total h.
Proof.
  intros CV MV G H E. rewrite iteration_with_eq in E by auto. destruct (hi_items h) as [|x l] eqn:I.
  { injection E as <- <- <-. rewrite I. split; [constructor|]. auto. }
  rewrite <- I in *. apply bind_ok in E as (n & N & E). cbv zeta in E.
  assert (GM : all_gc GC' (map (moved n adj) (hi_items h))).
  { unfold all_gc in *. rewrite Forall_map in G. apply Forall_map, Forall_map. eapply Forall_impl; [|exact G]. intros it Hi. apply MV; auto. }
  destruct (nearest_new_inv p n N) as (_ & NO & _).
  match type of E with context [match km_reduce ?ks with _ => _ end] => destruct (km_reduce ks) as [km|] eqn:K end.
  - assert (FK : pal_in PB (fst (km_finalize km p))).
    { eapply red; [|exact K|exact H]. apply Forall_map, Forall_forall. intros wk _. unfold worker_km. cbn [k_avg]. apply adds_av.
      - apply Forall_forall. intros y Hy. apply repeat_spec in Hy. subst y. exact av0.
      - apply Forall_map, Forall_forall. intros it Hit. apply in_share in Hit. destruct (gain_moved n (length p) adj it NO) as (m & ->). cbn [fst snd].
        exists (h_perc (moved n adj it)). unfold all_gc in GM. rewrite Forall_map, Forall_map, Forall_forall in GM. specialize (GM it Hit).
        unfold core in GM. rewrite (moved_color p n adj it N) in GM. exact GM. }
    destruct (km_finalize km p) as [p1 s]. cbn [fst] in FK. apply bind_ok in E as (p2 & E2 & E). injection E as _ <- <-. cbn [hi_items hi_clusters hi_fixed hi_total].
    split; [exact GM|]. rewrite map_length. split; [|auto]. eapply replace_unused_in; [|exact FK|exact E2]. 
    unfold all_gc in GM. rewrite Forall_map in GM. eapply Forall_impl; [|exact GM]. intros it Hi. exact (colB _ Hi).
  - apply bind_ok in E as (p2 & E2 & E). injection E as _ <- <-. cbn [hi_items hi_clusters hi_fixed hi_total].
    split; [exact GM|]. rewrite map_length. split; [|auto]. eapply replace_unused_in; [|exact H|exact E2].
    unfold all_gc in GM. rewrite Forall_map in GM. eapply Forall_impl; [|exact GM]. intros it Hi. exact (colB _ Hi).
Qed.
End Round.

(** The error that a round reports: sums of the entries' shares, divided by
    the total.  [D] holds for the shares, [S1] for the sums of batches, [S2]
    for those of workers and [S3] for the sum of all. *)
Section Error.
Context {A : Arith}.
Variables D S1 S2 S3 : f64 -> Prop.
Hypothesis s1 : S1 d0. Hypothesis s2 : S2 d0.
Hypothesis a1 : forall s x, S1 s -> D x -> S1 (s +d x).
Hypothesis a2 : forall s x, S2 s -> S1 x -> S2 (s +d x).
Hypothesis a3 : forall s x, S3 s -> S2 x -> S3 (s +d x).
Hypothesis s23 : forall x, S2 x -> S3 x.
Lemma fold_inv (P Q : f64 -> Prop) : (forall s x, P s -> Q x -> P (s +d x)) -> forall l s, P s -> Forall Q l -> P (fold_left dadd l s).
Proof. intros H. induction l as [|x l IH]; intros s Hs F; cbn [fold_left]; auto. apply Forall_cons_iff in F as [F1 F2]. apply IH; auto. Qed.
Lemma worker_diff n adj k items work : Forall (fun it => D (miss n adj it)) items -> S2 (k_diff (worker_km n adj k (chunks 256 items) work)).
Proof.
  intros F. unfold worker_km. cbn [k_diff]. revert s2. generalize (d0 : f64) at 1 3. induction work as [|i work IH]; intros s Hs; cbn [fold_left]; auto.
  apply IH. apply a2; auto. apply (fold_inv S1 D); auto. apply Forall_map, Forall_forall. intros it Hit.
  rewrite Forall_forall in F. apply F. apply (in_share items [i]). unfold share. cbn [map concat]. rewrite app_nil_r. exact Hit.
Qed.
Lemma reduce_diff ks km : Forall (fun k => S2 (k_diff k)) ks -> km_reduce ks = Some km -> S3 (k_diff km).
Proof.
  intros F E. destruct ks as [|k ks]; [discriminate|]. cbn [km_reduce] in E. injection E as <-. apply Forall_cons_iff in F as [F1 F2].
  apply s23 in F1. revert k F1. induction ks as [|x ks IH]; intros k F1; cbn [fold_left]; auto. apply Forall_cons_iff in F2 as [F2 F3].
  apply IH; auto. unfold km_merge. cbn [k_diff]. auto.
Qed.
Lemma round_error th h (p : palf) adj e h' p' : (forall n, covers n (th n)) ->
  (forall n it, nearest_new p = Ok n -> In it (hi_items h) -> D (miss n adj it)) ->
  iteration_with th h p adj = Ok (e, h', p') -> e = d0 \/ exists s, S3 s /\ e = s /d hi_total h.
Proof.
  intros CV M E. rewrite iteration_with_eq in E by auto. destruct (hi_items h) as [|x l] eqn:I.
  { injection E as <- <- <-. auto. }
  rewrite <- I in *. apply bind_ok in E as (n & N & E). cbv zeta in E.
  match type of E with context [match km_reduce ?ks with _ => _ end] => destruct (km_reduce ks) as [km|] eqn:K end.
  - assert (FK : S3 (k_diff km)).
    { eapply reduce_diff; [|exact K]. apply Forall_map, Forall_forall. intros wk _. apply worker_diff. apply Forall_forall. intros it Hit. apply M; auto. }
    unfold km_finalize in E. apply bind_ok in E as (p2 & E2 & E). injection E as <- _ _. right. eauto.
  - apply bind_ok in E as (p2 & E2 & E). injection E as <- _ _. auto.
Qed.
(** The share of an entry: its weight times the distance of its colour, or of
    a mirror image of it, to a palette colour. *)
Lemma search_dist_any p n c g : nearest_new p = Ok n -> (forall pc, In pc (colors_of p) -> (diff pc c <f finf) = true) ->
  exists pc, In pc (colors_of p) /\ dist_to c pc (snd (search n c g)).
Proof.
  intros H F. destruct (Nat.lt_ge_cases g (length p)) as [L|L].
  { destruct (search_distance p n c g H L) as (pc & N & D0). exists pc. split; [eapply nth_error_In; eauto|exact D0]. }
  destruct (nearest_new_tree p n H) as (_ & P & T). unfold search. rewrite P.
  destruct (nth_error (colors_of p) g) as [pc|] eqn:E.
  { assert (g < length (colors_of p)) by (apply nth_error_Some; congruence). unfold colors_of in *. rewrite map_length in *. lia. }
  cbv zeta. cbn [snd].
  assert (V : forall i vp, has_color p (i, vp) -> holds p c (visit (Visitor finf finf 0 None) (fsqrt (diff vp c)) (diff vp c) i)).
  { intros i vp Hv. unfold visit. cbn [v_dsq v_excl excluded]. unfold has_color in Hv. cbn [fst snd] in Hv. rewrite F by (eapply nth_error_In; exact Hv). cbn [andb negb].
    exists vp. cbn [v_idx v_dsq v_dist]. split; [exact Hv|]. split; [right; reflexivity|reflexivity]. }
  assert (G : holds p c (search_node (n_root n) c (Visitor finf finf 0 None))).
  { destruct (n_root n) as [vp i es|vp i r rs l r0]; cbn [tree_pairs] in T; apply Forall_cons_iff in T as [T1 T2]; specialize (V i vp T1).
    - assert (LF : Forall (has_color p) (tree_pairs (Leaf vp i es))) by (constructor; auto).
      cbn [search_node]. revert V. generalize (visit (Visitor finf finf 0 None) (fsqrt (diff vp c)) (diff vp c) i). clear T1 LF. induction es as [|[j q] es IH]; intros v V; cbn [fold_left]; auto.
      apply Forall_cons_iff in T2 as [T2 T3]. apply IH; auto. apply visit_holds; auto.
    - apply Forall_app in T2 as [Tl Tr]. cbn [search_node]. cbv zeta. revert V. generalize (visit (Visitor finf finf 0 None) (fsqrt (diff vp c)) (diff vp c) i). intros v V.
      destruct (diff vp c <f rs).
      + destruct (_ <=f _); [apply search_node_holds; auto|]; apply search_node_holds; auto.
      + destruct (_ <=f _); [apply search_node_holds; auto|]; apply search_node_holds; auto. }
  destruct G as (pc & N & D0 & _). exists pc. split; [eapply nth_error_In; exact N|exact D0].
Qed.
Lemma miss_shape p n (adj : bool) it : nearest_new p = Ok n -> (adj = false -> forall pc, In pc (colors_of p) -> (diff pc (h_color it) <f finf) = true) -> exists r q nd, In r (colors_of p) /\ In q (colors_of p) /\
  dist_to (if adj then mirror (h_color it) r else h_color it) q nd /\ miss n adj it = f2d (nd *f h_perc it).
Proof.
  intros E FN. destruct (nearest_new_inv p n E) as (L & N & P). unfold miss, iterate_item.
  pose proof (search_idx n (length p) (h_color it) (h_likely it) N) as M.
  destruct (search n (h_color it) (h_likely it)) as [m d] eqn:SE. cbn [fst] in M. destruct adj.
  - destruct (idx_lt (n_pal n) m) as (r & EI & NR); [rewrite P; unfold colors_of; rewrite map_length; lia|]. rewrite EI. cbn [bind].
    destruct (search_distance p n (mirror (h_color it) r) m E M) as (q & NQ & D0).
    exists r, q, (snd (search n (mirror (h_color it) r) m)). split; [rewrite <- P; eapply nth_error_In; eauto|]. split; [eapply nth_error_In; eauto|]. split; [exact D0|].
    reflexivity.
  - cbn [bind].
    destruct (search_dist_any p n (h_color it) (h_likely it) E (FN eq_refl)) as (q & NQ & D0). rewrite SE in D0. cbn [fst snd] in *.
    exists q, q, d. split; [exact NQ|]. split; [exact NQ|]. split; [exact D0|reflexivity].
Qed.
End Error.
