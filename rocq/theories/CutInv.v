(** Invariants of median cut and of the palette search that may depend on the
    number of rounds made so far.  Any arithmetic. *)
From Verif Require Import Base BaseFacts Arith Pal World Attr Hist MedianCut Nearest Kmeans Blur ImageM Quant
  AttrFacts SpecHist ImageFacts HistFacts MedianFacts SearchFacts QuantFacts.
Open Scope nat_scope.

Lemma two_maps_inv {T X Y} (f : T -> X) (g : T -> Y) (Q : T -> Prop) : (forall x y, f x = f y -> g x = g y -> Q x -> Q y) ->
  forall a b, map f a = map f b -> map g a = map g b -> Forall Q a -> Forall Q b.
Proof.
  intros H a. induction a as [|x a IH]; intros [|y b] E1 E2 F; try discriminate; auto. cbn in E1, E2. inversion E1. inversion E2.
  apply Forall_cons_iff in F as [F1 F2]. constructor; eauto.
Qed.

Section Cut.
Context {A : Arith}.
Variable GC : px * f32 * f32 -> Prop.
Variable PZ : px -> Prop.
Variable N : nat.
Definition all_gc (l : list hitem) : Prop := Forall GC (map core l).
Hypothesis avg : forall l, length l <= N -> all_gc l -> PZ (weighed_average_color l).
Hypothesis col : forall c, GC c -> PZ (fst (fst c)).
Hypothesis zero : PZ px0.

Definition bok (b : mbox) : Prop := length (b_items b) <= N /\ all_gc (b_items b) /\ PZ (b_avg b).
Lemma box_new_c_avg off l w av : b_avg (box_new_c off l w av) = av.
Proof. unfold box_new_c. destruct (box_stats l av). reflexivity. Qed.
Lemma box_new_bok off l : length l <= N -> all_gc l -> bok (box_new off l).
Proof.
  intros L G. unfold bok. rewrite (proj1 (box_new_items _ _)). split; auto. split; auto. unfold box_new. rewrite box_new_c_avg. auto.
Qed.
Lemma box_new_s_bok off l w o : length l <= N -> all_gc l -> bok (box_new_s off l w o).
Proof.
  intros L G. unfold bok. rewrite (proj1 (box_new_s_items _ _ _ _)). split; auto. split; auto.
  unfold box_new_s. cbv zeta. rewrite box_new_c_avg. destruct (_ || _)%bool; [|auto].
  destruct (min_by _ l) as [c|] eqn:M; auto. apply min_by_in in M. unfold all_gc in G. rewrite Forall_forall in G.
  apply (col (core c)). apply G, in_map. auto.
Qed.
Lemma all_gc_perm l l' : Permutation (map core l) (map core l') -> all_gc l -> all_gc l'.
Proof. intros PM G. eapply Permutation_Forall; eauto. Qed.

Lemma set_err_avg b e : b_avg (set_err b e) = b_avg b.
Proof. reflexivity. Qed.
Lemma fill_errors_avg target : forall bs total, map b_avg (fst (fill_errors bs total target)) = map b_avg bs.
Proof.
  induction bs as [|b bs IH]; intros total; cbn [fill_errors]; auto. destruct (b_err b).
  - specialize (IH total). destruct (fill_errors bs total target). cbn in *. congruence.
  - cbv zeta. destruct (_ <d _); [reflexivity|]. specialize (IH (total +d compute_total_error b)). destruct (fill_errors bs _ target). cbn in *. congruence.
Qed.
Lemma below_avg bs t w : map b_avg (fst (below_target bs t w)) = map b_avg bs.
Proof. unfold below_target. cbv zeta. destruct (_ <d _); [reflexivity|]. apply fill_errors_avg. Qed.
Lemma split_shape u b o b1 b2 : box_split u b o = Ok [b1; b2] ->
  exists o1 w1 o2 w2, b1 = box_new_s o1 (b_items b1) w1 o /\ b2 = box_new_s o2 (b_items b2) w2 o.
Proof.
  intros E. unfold box_split in E. apply bind_ok in E as ([l1 t] & _ & E). apply bind_ok in E as ([l2 e] & _ & E). cbv zeta in E.
  destruct (Nat.ltb _ _); [discriminate|]. inversion E; subst. rewrite !(proj1 (box_new_s_items _ _ _ _)). eauto 6.
Qed.

Section U.
Variable u : unspec.
Variable U : unspec_ok u.
Lemma cut_loop_bok fuel target tw tm mm : forall bs bs', cut_loop u fuel target tw tm mm bs = Ok bs' -> Forall bok bs -> Forall bok bs'.
Proof.
  induction fuel as [|f IH]; intros bs bs' H T; cbn [cut_loop] in H.
  - destruct (Nat.ltb _ _); [discriminate|]. inversion H; subst; auto.
  - destruct (Nat.ltb _ _); [|inversion H; subst; auto].
    cbv zeta in H. destruct (take_best bs _) as [i|] eqn:E; [|inversion H; subst; auto].
    destruct (take_best_ok _ _ _ E) as (b & Nb & Lb).
    destruct (swap_remove_ok bs i) as (b' & rest & E1 & Nb' & PM); [apply nth_error_Some; congruence|].
    rewrite E1 in H. rewrite Nb in Nb'. inversion Nb'; subst b'. cbn [bind] in H.
    destruct (box_split_ok u U b rest) as (b1 & b2 & E2 & P2 & _); [lia|]. rewrite E2 in H. cbn [bind] in H.
    assert (T1 : Forall bok (b :: rest)) by (eapply Permutation_Forall; [exact PM|exact T]).
    apply Forall_cons_iff in T1 as [(BL & GB & _) TR].
    destruct (split_shape u b rest b1 b2 E2) as (o1 & w1 & o2 & w2 & S1 & S2).
    assert (LL : length (b_items b1) <= N /\ length (b_items b2) <= N).
    { apply Permutation_length in P2. rewrite app_length, !map_length in P2. lia. }
    assert (G12 : Forall GC (map core (b_items b1) ++ map core (b_items b2))) by (eapply Permutation_Forall; [exact P2|exact GB]).
    apply Forall_app in G12 as [G1 G2].
    assert (T2 : Forall bok (rest ++ [b1; b2])).
    { apply Forall_app; split; auto. constructor; [|constructor; [|constructor]].
      - rewrite S1. apply box_new_s_bok; auto; tauto.
      - rewrite S2. apply box_new_s_bok; auto; tauto. }
    destruct (below_target (rest ++ [b1; b2]) tm tw) as [bs1 below] eqn:B.
    assert (T3 : Forall bok bs1).
    { pose proof (below_target_items (rest ++ [b1; b2]) tm tw) as [Q1 _]. pose proof (below_avg (rest ++ [b1; b2]) tm tw) as Q2.
      rewrite B in Q1, Q2. cbn [fst] in *.
      eapply (two_maps_inv b_items b_avg); [|symmetry; exact Q1|symmetry; exact Q2|exact T2].
      intros x y Ei Ea (X1 & X2 & X3). unfold bok. rewrite <- Ei, <- Ea. auto. }
    destruct below; [inversion H; subst; auto|eauto].
Qed.
Lemma cluster_boxes_bok cl : forall off items bs, length items <= N -> all_gc items -> cluster_boxes cl off items = Ok bs -> Forall bok bs.
Proof.
  induction cl as [|[b e] cl IH]; intros off items bs L F H; cbn [cluster_boxes] in H; [inversion H; constructor|].
  destruct (Nat.ltb_spec (length items) (e - b)); [discriminate|]. apply bind_ok in H as (r & H1 & H2). inversion H2; subst.
  unfold all_gc in F. rewrite <- (firstn_skipn (e - b) items), map_app in F. apply Forall_app in F as [F1 F2].
  constructor; [|eapply IH; [|exact F2|exact H1]; rewrite skipn_length; lia]. apply box_new_bok; auto. rewrite firstn_length. lia.
Qed.
Lemma mediancut_zone h target t m p h' : clusters_fit (hi_clusters h) (length (hi_items h)) -> (0 < length (hi_items h)) -> (0 < target <= 256) ->
  length (hi_items h) <= N -> all_gc (hi_items h) -> mediancut u h target t m = Ok (p, h') ->
  Forall (fun e => PZ (fst e)) p /\ all_gc (hi_items h') /\ length (hi_items h') = length (hi_items h) /\ hi_clusters h' = hi_clusters h /\ hi_fixed h' = hi_fixed h.
Proof.
  intros CF L T LN G E. destruct (mediancut_ok u U h target t m CF T L) as (p2 & h2 & E2 & _ & PM & _ & C3 & F3 & _). rewrite E in E2. inversion E2; subst p2 h2.
  split; [|split; [eapply all_gc_perm; eauto|split; [|auto]]].
  2:{ apply Permutation_length in PM. rewrite !map_length in PM. auto. }
  unfold mediancut in E. destruct (cutter_new_ok h target CF ltac:(lia) L) as (bs & EC & Lb & I). rewrite EC in E. cbn [bind] in E. cbv zeta in E.
  destruct (cut_loop_ok u U target target (hi_total h) t (dmax m (quality_to_mse 20)) bs (map core (hi_items h))) as (bs' & EL & Hh & Lb'); [unfold MedianFacts.holds; rewrite I; auto|lia|].
  assert (B0 : Forall bok bs).
  { unfold cutter_new in EC. cbv zeta in EC. destruct (Nat.leb _ _); [eapply cluster_boxes_bok; eauto|].
    inversion EC; subst. constructor; [|constructor]. apply box_new_bok; auto. }
  pose proof (cut_loop_bok _ _ _ _ _ _ _ EL B0) as FB.
  rewrite EL in E. cbn [bind] in E. rewrite into_palette_ok in E by lia. cbn [bind] in E. inversion E; subst.
  apply Forall_map. eapply Forall_impl; [|exact FB]. intros b (_ & _ & X). exact X.
Qed.
End U.
End Cut.

(** Fixed colours and colours that no pixel uses. *)
Section Pal.
Context {A : Arith}.
Variable P : px -> Prop.
Definition pal_in (p : palf) : Prop := Forall (fun e => P (fst e)) p.
Lemma place_fixed_in p ic p' : pal_in p -> P (snd ic) -> place_fixed p ic = Ok p' -> pal_in p'.
Proof.
  intros HP Hc E. destruct ic as [i c]. unfold place_fixed in E. cbv zeta in E.
  apply bind_ok in E as (best & _ & E). apply bind_ok in E as (p1 & E1 & E). apply bind_ok in E as (e & _ & E).
  unfold pal_set in E. apply set_idx_ok in E as [_ ->]. apply Forall_upd; auto. eapply Permutation_Forall; [eapply swap_perm; exact E1|exact HP].
Qed.
Lemma with_fixed_in p m fixed p' : pal_in p -> Forall P fixed -> with_fixed_colors p m fixed = Ok p' -> pal_in p'.
Proof.
  intros HP F E. unfold with_fixed_colors in E. destruct fixed as [|f fs]; [inversion E; subst; auto|]. cbv zeta in E.
  set (fixed := f :: fs) in *. apply bind_ok in E as (p1 & E1 & E).
  assert (H1 : pal_in p1).
  { destruct (Nat.ltb _ _); [|inversion E1; subst; auto]. unfold pal_extend in E1. destruct (Nat.leb _ _); [|discriminate]. inversion E1; subst.
    apply Forall_app. split; auto. apply Forall_map. rewrite Forall_forall in *. intros c Hc. apply F. eapply firstn_In. exact Hc. }
  refine (foldM_inv _ pal_in _ _ _ _ _ E); auto.
  intros s ic s' Hic Hs Es. eapply place_fixed_in; [exact Hs| |exact Es].
  apply firstn_In in Hic. destruct ic as [i c]. apply In_enumerate in Hic. apply nth_error_In in Hic. rewrite Forall_forall in F. apply F. exact Hic.
Qed.
Lemma worst_in n cs items : forall st, (forall it, snd st = Some it -> P (h_color it)) -> Forall (fun it => P (h_color it)) items ->
  forall it, snd (fold_left (worst_step n cs) items st) = Some it -> P (h_color it).
Proof.
  induction items as [|x items IH]; intros st H F; cbn [fold_left]; auto. apply Forall_cons_iff in F as [F1 F2]. apply IH; auto.
  intros it E. destruct st as [wd w]. unfold worst_step in E. destruct (match nth_error cs (h_likely x) with None => _ | Some _ => _ end); [|apply H; exact E].
  cbv zeta in E. destruct (flt _ _); [|apply H; exact E]. cbn [snd] in E. inversion E; subst. exact F1.
Qed.
Lemma replace_unused_in items p p' : Forall (fun it => P (h_color it)) items -> pal_in p -> replace_unused items p = Ok p' -> pal_in p'.
Proof.
  intros F H E. unfold replace_unused in E. refine (foldM_inv _ pal_in _ _ _ _ H E). clear H E. intros q i q' _ H E.
  apply bind_ok in E as ([c w] & _ & E). destruct (_ && _)%bool; [|inversion E; subst; auto].
  apply bind_ok in E as (n & _ & E). destruct (snd (fold_left _ items _)) as [it|] eqn:W; [|inversion E; subst; auto].
  unfold pal_set in E. apply set_idx_ok in E as [_ ->]. apply Forall_upd; auto. cbn [fst].
  eapply worst_in; [|exact F|exact W]. cbn [snd]. discriminate.
Qed.
Lemma pal_in_colors p q : Permutation (colors_of p) (colors_of q) -> pal_in p -> Forall P (colors_of q).
Proof. intros PM H. apply (Permutation_Forall PM). apply Forall_map. exact H. Qed.
End Pal.

(** The search, with an invariant that depends on the number of rounds. *)
Section Inv.
Context {A : Arith}.
Variable u : unspec.
Variable U : unspec_ok u.
Variable cb : callback.
Variable a : attrs.
Variable HI : nat -> hint -> Prop.
Variables PZ PB : palf -> Prop.
Variable EB : f64 -> Prop.
Variable T : nat.
Hypothesis sub : forall p, PZ p -> PB p.
Hypothesis cut : forall j h mc t m p0 h1 p1, j <= T -> HI j h -> 1 <= mc <= a_max_colors a -> mediancut u h mc t m = Ok (p0, h1) ->
  with_fixed_colors p0 (a_max_colors a) (hi_fixed h1) = Ok p1 -> PZ p1 /\ HI j h1.
Hypothesis iter : forall j th h (p : palf) adj e h' p', (forall n, covers n (th n)) -> j < T -> HI j h -> PZ p -> iteration_with th h p adj = Ok (e, h', p') -> HI (S j) h' /\ PB p' /\ EB e.
Hypothesis ref : forall j th h (p : palf) e h' p', (forall n, covers n (th n)) -> j <= T -> HI j h -> PB p -> iteration_with th h p false = Ok (e, h', p') -> HI j h' /\ PB p' /\ EB e.

Lemma iteration_adj j h (p : palf) adj w e h' p' w' : j < T -> HI j h -> PZ p -> iteration u h p adj w = (Ok (e, h', p'), w') -> HI (S j) h' /\ PB p' /\ EB e.
Proof.
  intros J H P E. unfold iteration, sbind, tick, slift in E. cbv beta iota in E.
  destruct (iteration_with (u_batches u (w_tick w)) h p adj) as [[[e1 h1] p1]| |] eqn:Q; inversion E; subst.
  eapply iter; [|exact J|exact H|exact P|exact Q]. intros n. apply (uo_batches u U).
Qed.
Lemma iteration_ref j h (p : palf) w e h' p' w' : j <= T -> HI j h -> PB p -> iteration u h p false w = (Ok (e, h', p'), w') -> HI j h' /\ PB p' /\ EB e.
Proof.
  intros J H P E. unfold iteration, sbind, tick, slift in E. cbv beta iota in E.
  destruct (iteration_with (u_batches u (w_tick w)) h p false) as [[[e1 h1] p1]| |] eqn:Q; inversion E; subst.
  eapply ref; [|exact J|exact H|exact P|exact Q]. intros n. apply (uo_batches u U).
Qed.
Lemma refine_loop_idx j fuel iterations limit mm : j <= T -> forall i h (p : palf) err w h' p' err' w', HI j h -> PB p -> (forall e, err = Some e -> EB e) ->
  refine_loop u cb fuel a iterations limit mm i h p err w = (Ok (h', p', err'), w') -> PB p' /\ (forall e, err' = Some e -> EB e).
Proof.
  intros J. induction fuel as [|f IH]; intros i h p err w h' p' err' w' H P EE E; cbn [refine_loop] in E.
  - destruct (i <? iterations)%Z; unfold slift, sret in E; inversion E; subst; auto.
  - destruct (i <? iterations)%Z; [|unfold sret in E; inversion E; subst; auto]. cbv zeta in E.
    unfold sbind at 1 in E. unfold progress at 1 in E. destruct (cb _ _); [unfold sret in E; inversion E; subst; auto|].
    unfold sbind at 1 in E.
    match type of E with context [iteration u h p false ?w0] => destruct (iteration u h p false w0) as [[[[e h1] p1]|e|] w1] eqn:EI end; try discriminate.
    destruct (iteration_ref _ _ _ _ _ _ _ _ J H P EI) as (H1 & P1 & E1).
    assert (ES : forall x, Some e = Some x -> EB x) by (intros x Q; inversion Q; subst; auto). cbv beta iota in E.
    destruct (match err with Some prev => _ | None => false end); [unfold sret in E; inversion E; subst; auto|]. eapply IH; [exact H1|exact P1|exact ES|exact E].
Qed.
Lemma search_loop_idx total tmse fuel : forall j h mc left best over fails err w h' best' err' w',
  (Z.of_nat j + Z.max left 0 <= Z.of_nat T)%Z -> (0 <= fails)%Z -> HI j h -> 1 <= mc <= a_max_colors a -> (forall p, best = Some p -> PB p) -> (forall e, err = Some e -> EB e) ->
  search_loop u cb fuel a total tmse h mc left best over fails err w = (Ok (h', best', err'), w') ->
  exists j', j' <= T /\ HI j' h' /\ (forall p, best' = Some p -> PB p) /\ (forall e, err' = Some e -> EB e).
Proof.
  induction fuel as [|f IH]; intros j h mc left best over fails err w h' best' err' w' J FL H M B EE E; cbn [search_loop] in E; [unfold slift in E; discriminate|].
  cbv zeta in E. unfold sbind at 1 in E. unfold slift at 1 in E.
  match type of E with context [mediancut u h mc ?t ?m] => destruct (mediancut u h mc t m) as [[p0 h1]| |] eqn:E1 end; try discriminate. cbv beta iota in E.
  unfold sbind at 1 in E. unfold slift at 1 in E.
  destruct (with_fixed_colors p0 (a_max_colors a) (hi_fixed h1)) as [p1| |] eqn:E2; try discriminate. cbv beta iota in E.
  destruct (cut j _ _ _ _ _ _ _ ltac:(lia) H M E1 E2) as [P1 H1].
  destruct (Z.leb_spec left 0) as [L0|L0].
  { unfold sret in E. inversion E; subst. exists j. split; [lia|]. split; auto. split; [|exact EE]. intros p Q. inversion Q; subst; auto. }
  unfold sbind at 1 in E.
  match type of E with context [iteration u h1 p1 ?d ?w0] => destruct (iteration u h1 p1 d w0) as [[[[e h2] p2]|e|] w1] eqn:EI end; try discriminate.
  destruct (iteration_adj j _ _ _ _ _ _ _ _ ltac:(lia) H1 P1 EI) as (H2 & P2 & ER). cbv beta iota in E.
  match type of E with context [if ?b then (Some p2, ?o, ?m, ?fl, ?l, ?er) else ?y] => set (better := b) in E; set (X := (Some p2, o, m, fl, l, er)) in E; set (Y := y) in E end.
  assert (G : exists best' over' mc' fails' left' err', (if better then X else Y) = (best', over', mc', fails', left', err') /\
              (forall p, best' = Some p -> PB p) /\ (forall e, err' = Some e -> EB e) /\ 1 <= mc' <= a_max_colors a /\ (left' <= left - 1)%Z /\ (0 <= fails')%Z).
  { destruct better.
    - do 6 eexists. split; [reflexivity|]. split; [intros p Q; inversion Q; subst; auto|]. split; [intros x Q; inversion Q; subst; auto|lia].
    - do 6 eexists. split; [reflexivity|]. split; [auto|]. split; [auto|lia]. }
  destruct G as (best1 & over1 & mc1 & fails1 & left1 & err1 & EQ & B1 & EE1 & M1 & L1 & FL1). rewrite EQ in E. clear EQ X Y better.
  unfold sbind at 1 in E. unfold progress at 1 in E.
  match type of E with context [if ?b then _ else _] => destruct b eqn:ST end.
  - unfold sret in E. inversion E; subst. exists (S j). split; [lia|auto].
  - apply orb_false_iff in ST as [_ ST]. apply Z.leb_gt in ST. eapply (IH (S j)); [|exact FL1|exact H2|exact M1|exact B1|exact EE1|exact E]. lia.
Qed.
Hypothesis direct : forall h p e, HI 0 h -> length (hi_items h) <= a_max_colors a -> palette_from_histogram h (a_max_colors a) = Ok (p, e) -> PB p /\ (forall x, e = Some x -> EB x).
Hypothesis Ha : 1 <= a_max_colors a.
Hypothesis trials : forall h, HI 0 h -> (feedback_loop_trials a (length (hi_items h)) <= Z.of_nat T)%Z.
Lemma find_best_palette_idx tmse perfect mm h w p err w' : HI 0 h -> find_best_palette u cb a tmse perfect mm h w = (Ok (p, err), w') -> PB p /\ (forall e, err = Some e -> EB e).
Proof.
  intros H E. pose proof (trials h H) as TR. unfold find_best_palette in E. destruct (Nat.leb _ _ && _)%bool eqn:B.
  - apply andb_true_iff in B as [B _]. apply Nat.leb_le in B. unfold slift in E.
    destruct (palette_from_histogram h (a_max_colors a)) as [[p1 e1]| |] eqn:Q; inversion E; subst. eapply direct; eauto.
  - cbv zeta in E. unfold sbind at 1 in E.
    match type of E with context [search_loop ?u ?c ?f ?a ?t ?x ?h ?m ?l ?b ?o ?z ?e w] => destruct (search_loop u c f a t x h m l b o z e w) as [[[[h1 best] e1]|e1|] w1] eqn:ES end; try discriminate.
    apply (search_loop_idx _ _ _ 0) in ES as (j & J & H1 & B1 & EE1); [|lia|lia|auto|lia|discriminate|discriminate]. cbv beta iota in E.
    destruct best as [p1|]; [|discriminate]. unfold sbind at 1 in E. unfold refine_palette in E.
    destruct (kmeans_iterations a (length (hi_items h1)) _) as [it lim].
    match type of E with context [refine_loop ?u ?c ?f ?a ?i ?l ?m ?z ?h ?p ?e ?w] => destruct (refine_loop u c f a i l m z h p e w) as [[[[h2 p2] e2]|e2|] w2] eqn:ER end; try discriminate.
    cbv beta iota in E. unfold sret in E. inversion E; subst. eapply refine_loop_idx in ER; [exact ER|exact J|exact H1|apply B1; reflexivity|exact EE1].
Qed.
Lemma result_new_idx h freeze gamma w q w' : HI 0 h -> result_new u cb a h freeze gamma w = (Ok q, w') ->
  exists p, PB p /\ Permutation (colors_of p) (colors_of (q_pal q)) /\ q_gamma q = gamma /\ q_int q = [] /\ q_rem q = None /\ q_post q = a_post_out a /\
    (forall e, q_err q = Some e -> EB e).
Proof.
  intros H E. unfold result_new in E. unfold sbind at 1 in E. unfold progress at 1 in E. destruct (cb _ _); [discriminate|].
  destruct (target_mse a (length (hi_items h))) as [[mm tm] perfect]. unfold sbind at 1 in E.
  match type of E with context [find_best_palette u cb a tm perfect mm h ?w0] => destruct (find_best_palette u cb a tm perfect mm h w0) as [[[p err]|e|] w1] eqn:EF end; try discriminate.
  apply find_best_palette_idx in EF as [EF EE]; auto. cbv beta iota zeta in E. unfold sbind at 1 in E. unfold progress at 1 in E.
  match type of E with context [if cb ?t ?x then _ else _] => destruct (cb t x) end; [discriminate|].
  destruct (match err with Some e => _ | None => _ end); [discriminate|]. unfold sbind at 1 in E. unfold slift at 1 in E.
  match type of E with context [sort_palette a ?x] => destruct (sort_palette_ok a x) as (p2 & E2 & P2); rewrite E2 in E end.
  unfold sret in E. inversion E; subst. exists p. split; auto. split; [|cbn; auto]. cbn [q_pal]. unfold colors_of. rewrite <- (Permutation_map fst P2).
  destruct freeze; [|auto]. rewrite map_map. cbn [fst]. auto.
Qed.
End Inv.
