(** Invariants of the palette search: what median cut establishes and a
    k-means round keeps holds for the palette that is found.  Any arithmetic. *)
From Verif Require Import Base BaseFacts Arith Pal World Attr Hist MedianCut Nearest Kmeans Blur ImageM Quant
  AttrFacts SpecHist ImageFacts HistFacts MedianFacts SearchFacts QuantFacts.
Open Scope nat_scope.

Section Inv.
Context {A : Arith}.
Variable u : unspec.
Variable U : unspec_ok u.
Variable cb : callback.
Variable a : attrs.
Variable HI : hint -> Prop.
Variable PI : palf -> Prop.
Hypothesis cut : forall h mc t m p0 h1 p1, HI h -> 1 <= mc <= a_max_colors a -> mediancut u h mc t m = Ok (p0, h1) ->
  with_fixed_colors p0 (a_max_colors a) (hi_fixed h1) = Ok p1 -> PI p1 /\ HI h1.
Hypothesis iter : forall th h (p : palf) adj e h' p', (forall n, covers n (th n)) -> HI h -> PI p -> iteration_with th h p adj = Ok (e, h', p') -> HI h' /\ PI p'.

Lemma iteration_inv h (p : palf) adj w e h' p' w' : HI h -> PI p -> iteration u h p adj w = (Ok (e, h', p'), w') -> HI h' /\ PI p'.
Proof.
  intros H P E. unfold iteration, sbind, tick, slift in E. cbv beta iota in E.
  destruct (iteration_with (u_batches u (w_tick w)) h p adj) as [[[e1 h1] p1]| |] eqn:Q; inversion E; subst.
  eapply iter; [|exact H|exact P|exact Q]. intros n. apply (uo_batches u U).
Qed.
Lemma refine_loop_inv fuel iterations limit mm : forall i h (p : palf) err w h' p' err' w', HI h -> PI p ->
  refine_loop u cb fuel a iterations limit mm i h p err w = (Ok (h', p', err'), w') -> HI h' /\ PI p'.
Proof.
  induction fuel as [|f IH]; intros i h p err w h' p' err' w' H P E; cbn [refine_loop] in E.
  - destruct (i <? iterations)%Z; unfold slift, sret in E; inversion E; subst; auto.
  - destruct (i <? iterations)%Z; [|unfold sret in E; inversion E; subst; auto]. cbv zeta in E.
    unfold sbind at 1 in E. unfold progress at 1 in E. destruct (cb _ _); [unfold sret in E; inversion E; subst; auto|].
    unfold sbind at 1 in E.
    match type of E with context [iteration u h p false ?w0] => destruct (iteration u h p false w0) as [[[[e h1] p1]|e|] w1] eqn:EI end; try discriminate.
    destruct (iteration_inv _ _ _ _ _ _ _ _ H P EI) as [H1 P1]. cbv beta iota in E.
    destruct (match err with Some prev => _ | None => false end); [unfold sret in E; inversion E; subst; auto|]. eapply IH; [exact H1|exact P1|exact E].
Qed.
Lemma search_loop_inv total tmse fuel : forall h mc left best over fails err w h' best' err' w',
  HI h -> 1 <= mc <= a_max_colors a -> (forall p, best = Some p -> PI p) ->
  search_loop u cb fuel a total tmse h mc left best over fails err w = (Ok (h', best', err'), w') -> HI h' /\ (forall p, best' = Some p -> PI p).
Proof.
  induction fuel as [|f IH]; intros h mc left best over fails err w h' best' err' w' H M B E; cbn [search_loop] in E; [unfold slift in E; discriminate|].
  cbv zeta in E. unfold sbind at 1 in E. unfold slift at 1 in E.
  match type of E with context [mediancut u h mc ?t ?m] => destruct (mediancut u h mc t m) as [[p0 h1]| |] eqn:E1 end; try discriminate. cbv beta iota in E.
  unfold sbind at 1 in E. unfold slift at 1 in E.
  destruct (with_fixed_colors p0 (a_max_colors a) (hi_fixed h1)) as [p1| |] eqn:E2; try discriminate. cbv beta iota in E.
  destruct (cut _ _ _ _ _ _ _ H M E1 E2) as [P1 H1].
  destruct (left <=? 0)%Z.
  { unfold sret in E. inversion E; subst. split; auto. intros p Q. inversion Q; subst; auto. }
  unfold sbind at 1 in E.
  match type of E with context [iteration u h1 p1 ?d ?w0] => destruct (iteration u h1 p1 d w0) as [[[[e h2] p2]|e|] w1] eqn:EI end; try discriminate.
  destruct (iteration_inv _ _ _ _ _ _ _ _ H1 P1 EI) as [H2 P2]. cbv beta iota in E.
  match type of E with context [if ?b then (Some p2, ?o, ?m, ?fl, ?l, ?er) else ?y] => set (better := b) in E; set (X := (Some p2, o, m, fl, l, er)) in E; set (Y := y) in E end.
  assert (G : exists best' over' mc' fails' left' err', (if better then X else Y) = (best', over', mc', fails', left', err') /\
              (forall p, best' = Some p -> PI p) /\ 1 <= mc' <= a_max_colors a).
  { destruct better.
    - do 6 eexists. split; [reflexivity|]. split; [intros p Q; inversion Q; subst; auto|lia].
    - do 6 eexists. split; [reflexivity|]. split; [auto|lia]. }
  destruct G as (best1 & over1 & mc1 & fails1 & left1 & err1 & EQ & B1 & M1). rewrite EQ in E. clear EQ X Y better.
  unfold sbind at 1 in E. unfold progress at 1 in E.
  match type of E with context [if ?b then _ else _] => destruct b end.
  - unfold sret in E. inversion E; subst. auto.
  - eapply IH; [exact H2|exact M1|exact B1|exact E].
Qed.
Hypothesis direct : forall h p e, HI h -> length (hi_items h) <= a_max_colors a -> palette_from_histogram h (a_max_colors a) = Ok (p, e) -> PI p.
Hypothesis Ha : 1 <= a_max_colors a.
Lemma find_best_palette_inv tmse perfect mm h w p err w' : HI h -> find_best_palette u cb a tmse perfect mm h w = (Ok (p, err), w') -> PI p.
Proof.
  intros H E. unfold find_best_palette in E. destruct (Nat.leb _ _ && _)%bool eqn:B.
  - apply andb_true_iff in B as [B _]. apply Nat.leb_le in B. unfold slift in E.
    destruct (palette_from_histogram h (a_max_colors a)) as [[p1 e1]| |] eqn:Q; inversion E; subst. eapply direct; eauto.
  - cbv zeta in E. unfold sbind at 1 in E.
    match type of E with context [search_loop ?u ?c ?f ?a ?t ?x ?h ?m ?l ?b ?o ?z ?e w] => destruct (search_loop u c f a t x h m l b o z e w) as [[[[h1 best] e1]|e1|] w1] eqn:ES end; try discriminate.
    apply search_loop_inv in ES as [H1 B1]; [|auto|lia|discriminate]. cbv beta iota in E.
    destruct best as [p1|]; [|discriminate]. unfold sbind at 1 in E. unfold refine_palette in E.
    destruct (kmeans_iterations a (length (hi_items h1)) _) as [it lim].
    match type of E with context [refine_loop ?u ?c ?f ?a ?i ?l ?m ?z ?h ?p ?e ?w] => destruct (refine_loop u c f a i l m z h p e w) as [[[[h2 p2] e2]|e2|] w2] eqn:ER end; try discriminate.
    cbv beta iota in E. unfold sret in E. inversion E; subst. eapply refine_loop_inv in ER; [apply ER|auto|apply B1; reflexivity].
Qed.
(** The entries of the result's palette come from the palette found. *)
Lemma result_new_inv h freeze gamma w q w' : HI h -> result_new u cb a h freeze gamma w = (Ok q, w') ->
  exists p, PI p /\ Permutation (colors_of p) (colors_of (q_pal q)) /\ q_gamma q = gamma /\ q_int q = [] /\ q_rem q = None /\ q_post q = a_post_out a.
Proof.
  intros H E. unfold result_new in E. unfold sbind at 1 in E. unfold progress at 1 in E. destruct (cb _ _); [discriminate|].
  destruct (target_mse a (length (hi_items h))) as [[mm tm] perfect]. unfold sbind at 1 in E.
  match type of E with context [find_best_palette u cb a tm perfect mm h ?w0] => destruct (find_best_palette u cb a tm perfect mm h w0) as [[[p err]|e|] w1] eqn:EF end; try discriminate.
  apply find_best_palette_inv in EF; auto. cbv beta iota zeta in E. unfold sbind at 1 in E. unfold progress at 1 in E.
  match type of E with context [if cb ?t ?x then _ else _] => destruct (cb t x) end; [discriminate|].
  destruct (match err with Some e => _ | None => _ end); [discriminate|]. unfold sbind at 1 in E. unfold slift at 1 in E.
  match type of E with context [sort_palette a ?x] => destruct (sort_palette_ok a x) as (p2 & E2 & P2); rewrite E2 in E end.
  unfold sret in E. inversion E; subst. exists p. split; auto. split; [|cbn; auto]. cbn [q_pal]. unfold colors_of. rewrite <- (Permutation_map fst P2).
  destruct freeze; [|auto]. rewrite map_map. cbn [fst]. auto.
Qed.
End Inv.
