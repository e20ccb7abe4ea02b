(** In exact arithmetic the palette lies in every convex set that contains the
    histogram's colours and the fixed colours. *)
From Verif Require Import Base BaseFacts Arith Pal World Attr Hist Nearest MedianCut Kmeans Blur ImageM Quant
  MedianFacts NearFacts SearchFacts QuantFacts SplitFacts KmeansSched SearchInv RealArith NearReal MedianReal KmeansReal.
From Coq Require Import Reals Lra.
Open Scope R_scope.

Lemma box_split_shape {A : Arith} (u : unspec) b others b1 b2 : box_split u b others = Ok [b1; b2] ->
  exists o1 w1 o2 w2, b1 = box_new_s o1 (b_items b1) w1 others /\ b2 = box_new_s o2 (b_items b2) w2 others.
Proof.
  unfold box_split. intros E. apply bind_ok in E as ([l1 t] & _ & E). apply bind_ok in E as ([l2 edge] & _ & E). cbv zeta in E.
  destruct (Nat.ltb _ _); [discriminate|]. inversion E; subst. rewrite !(proj1 (box_new_s_items _ _ _ _)). do 4 eexists. split; reflexivity.
Qed.
Lemma fill_errors_avg {A : Arith} bs : forall t g, map b_avg (fst (fill_errors bs t g)) = map b_avg bs.
Proof.
  induction bs as [|b bs IH]; intros t g; cbn [fill_errors]; auto.
  destruct (b_err b).
  - specialize (IH t g). destruct (fill_errors bs t g). cbn in *. congruence.
  - destruct (dlt g _); [auto|].
    specialize (IH (t +d compute_total_error b)%flt g). destruct (fill_errors bs _ g). cbn in *. congruence.
Qed.
Lemma below_target_avg {A : Arith} bs g w : map b_avg (fst (below_target bs g w)) = map b_avg bs.
Proof. unfold below_target. destruct (dlt _ _); auto. apply fill_errors_avg. Qed.
Lemma two_maps {T X Y} (f : T -> X) (g : T -> Y) (P : T -> Prop) a : forall b, (forall x y, f x = f y -> g x = g y -> P x -> P y) ->
  map f a = map f b -> map g a = map g b -> Forall P a -> Forall P b.
Proof.
  induction a as [|x a IH]; intros [|y b] H Ef Eg F; try discriminate; auto. cbn [map] in *. inversion F; subst. constructor.
  - apply (H x y); auto; congruence.
  - apply IH; auto; congruence.
Qed.

Section R.
Variable big : R.
Hypothesis Hbig : 0 <= big.
Let A : Arith := real big.
Existing Instance A.

Definition mix (t : R) (x y : px) : px :=
  Px (t * pa x + (1 - t) * pa y) (t * pr x + (1 - t) * pr y) (t * pg x + (1 - t) * pg y) (t * pb x + (1 - t) * pb y).
Definition convex (P : px -> Prop) : Prop := forall t x y, 0 <= t <= 1 -> P x -> P y -> P (mix t x y).

Variable P : px -> Prop.
Hypothesis C : convex P.

(** A sum [s] of colours with weights adding up to [t]. *)
Definition inP (s : px) (t : R) : Prop := 0 <= t /\ (t = 0 -> s = px0) /\ (0 < t -> P (px_divs s t)).
Lemma px_ext (x y : px) : pa x = pa y -> pr x = pr y -> pg x = pg y -> pb x = pb y -> x = y.
Proof. destruct x, y. cbn. congruence. Qed.
Ltac rpx := apply px_ext; match goal with |- @eq _ ?a ?b => change (@eq R a b) end;
  unfold px_add, px_scale, px_divs, px0, mix, f0, A; cbn [pa pr pg pb fadd fmul fdiv fofZ real];
  repeat match goal with
  | |- context [@pa ?B ?p] => let x := fresh "x" in pose (x := @pa B p : R); change (@pa B p) with x; clearbody x
  | |- context [@pr ?B ?p] => let x := fresh "x" in pose (x := @pr B p : R); change (@pr B p) with x; clearbody x
  | |- context [@pg ?B ?p] => let x := fresh "x" in pose (x := @pg B p : R); change (@pg B p) with x; clearbody x
  | |- context [@pb ?B ?p] => let x := fresh "x" in pose (x := @pb B p : R); change (@pb B p) with x; clearbody x
  end.
Lemma inP_zero : inP px0 0.
Proof. split; [lra|]. split; auto. intros. lra. Qed.
Lemma inP_one p w : 0 <= w -> P p -> inP (px_scale p w) w.
Proof.
  intros W HP. split; auto. split.
  - intros ->. rpx; ring.
  - intros W'. replace (px_divs (px_scale p w) w) with p; auto. rpx; field; lra.
Qed.
Lemma inP_add s t s' t' : inP s t -> inP s' t' -> inP (px_add s s') (t + t').
Proof.
  intros (T & Z & H) (T' & Z' & H'). split; [lra|]. split.
  - intros E. rewrite Z, Z' by lra. rpx; ring.
  - intros W. destruct (Req_dec t 0) as [->|N].
    { rewrite Z by auto. replace (px_divs (px_add px0 s') (0 + t')) with (px_divs s' t'); [apply H'; lra|]. rpx; field; lra. }
    destruct (Req_dec t' 0) as [->|N'].
    { rewrite Z' by auto. replace (px_divs (px_add s px0) (t + 0)) with (px_divs s t); [apply H; lra|]. rpx; field; lra. }
    replace (px_divs (px_add s s') (t + t')) with (mix (t / (t + t')) (px_divs s t) (px_divs s' t')).
    + apply C; [|apply H; lra|apply H'; lra]. assert (0 < / (t + t')) by (apply Rinv_0_lt_compat; lra).
      unfold Rdiv. split; [apply Rmult_le_pos; lra|]. apply Rmult_le_reg_r with (t + t'); [lra|]. rewrite Rmult_assoc, Rinv_l by lra. lra.
    + rpx; field; lra.
Qed.

(** * Median cut *)
Definition goodc (c : px * R * R) : Prop := P (fst (fst c)) /\ 0 < snd (fst c) /\ 0 < snd c.
Definition good (l : list hitem) : Prop := Forall goodc (map core l).

Lemma average_in l : good l -> (0 < length l)%nat -> P (weighed_average_color l).
Proof.
  intros G L. unfold weighed_average_color.
  assert (H : forall l t s, good l -> inP t s ->
    exists t' s', fold_left (fun '(t, s) c => (px_add t (px_scale (h_color c) (h_adj c)), s + h_adj c)) l (t, s) = (t', s') /\ inP t' s' /\ s <= s' /\ (l <> [] -> 0 < s')).
  { clear l G L. induction l as [|c l IH]; intros t s G I; cbn [fold_left].
    - exists t, s. split; auto. split; auto. split; [lra|congruence].
    - unfold good in G. cbn [map] in G. apply Forall_cons_iff in G as [(G1 & G2 & G3) G]. cbn [core fst snd] in *.
      destruct (IH (px_add t (px_scale (h_color c) (h_adj c))) (s + h_adj c) G) as (t' & s' & E & I' & S & _).
      { apply inP_add; auto. apply inP_one; auto. lra. }
      exists t', s'. split; [exact E|]. destruct I. split; auto. split; [lra|]. intros _. lra. }
  destruct (H l px0 0 G inP_zero) as (t' & s' & E & I' & _ & Pos).
  change (P (let '(t, sum) := fold_left (fun '(t, s) c => (px_add t (px_scale (h_color c) (h_adj c)), s + h_adj c)) l (px0, 0) in
     if negb (Reqb sum 0) then px_divs t sum else t)). rewrite E. 
  assert (0 < s') by (apply Pos; destruct l; [cbn in L; lia|discriminate]).
  destruct (Reqb s' 0) eqn:Q; rbool; [lra|]. cbn [negb]. apply I'. auto.
Qed.
Definition bok (b : mbox) : Prop := (0 < length (b_items b))%nat /\ good (b_items b) /\ P (b_avg b).
Lemma box_new_c_avg off l w avg : b_avg (box_new_c off l w avg) = avg.
Proof. unfold box_new_c. destruct (box_stats l avg). reflexivity. Qed.
Lemma box_new_bok off l : good l -> (0 < length l)%nat -> bok (box_new off l).
Proof.
  intros G L. split; [|split].
  - rewrite (proj1 (box_new_items _ _)). auto.
  - rewrite (proj1 (box_new_items _ _)). auto.
  - unfold box_new. rewrite box_new_c_avg. apply average_in; auto.
Qed.
Lemma box_new_s_bok off l w o : good l -> (0 < length l)%nat -> bok (box_new_s off l w o).
Proof.
  intros G L. split; [|split].
  - rewrite (proj1 (box_new_s_items _ _ _ _)). auto.
  - rewrite (proj1 (box_new_s_items _ _ _ _)). auto.
  - unfold box_new_s. cbv zeta. rewrite box_new_c_avg. destruct (_ || _)%bool; [|apply average_in; auto].
    destruct (min_by _ l) as [c|] eqn:M.
    + apply min_by_in in M. unfold good in G. rewrite Forall_forall in G. apply (G (core c)). apply in_map. auto.
    + exfalso. assert (NE : l <> []) by (intros ->; cbn in L; lia).
      destruct (min_by_some (fun x y => fcmp (diff (weighed_average_color l) (h_color x)) (diff (weighed_average_color l) (h_color y))) l NE) as (c & M').
      cbv beta in M, M'. rewrite M in M'. discriminate.
Qed.
Lemma good_perm l l' : Permutation (map core l) (map core l') -> good l -> good l'.
Proof. intros PM G. eapply Permutation_Forall; eauto. Qed.

Section U.
Variable u : unspec.
Variable U : unspec_ok u.

Lemma cut_loop_bok fuel target tw tm mm : forall bs bs', cut_loop u fuel target tw tm mm bs = Ok bs' -> Forall bok bs -> Forall bok bs'.
Proof.
  induction fuel as [|f IH]; intros bs bs' H T; cbn [cut_loop] in H.
  - destruct (Nat.ltb _ _); [discriminate|]. inversion H; subst; auto.
  - destruct (Nat.ltb _ _); [|inversion H; subst; auto].
    cbv zeta in H. destruct (take_best bs _) as [i|] eqn:E; [|inversion H; subst; auto].
    destruct (take_best_ok _ _ _ E) as (b & Nb & Lb).
    destruct (swap_remove_ok bs i) as (b' & rest & E1 & Nb' & PM); [apply nth_error_Some; congruence|].
    rewrite E1 in H. rewrite Nb in Nb'. inversion Nb'; subst b'. cbn [bind] in H.
    destruct (box_split_ok u U b rest) as (b1 & b2 & E2 & P2 & _); [lia|]. rewrite E2 in H. cbn [bind] in H.
    assert (T1 : Forall bok (b :: rest)) by (eapply Permutation_Forall; [exact PM|exact T]).
    apply Forall_cons_iff in T1 as [(_ & GB & _) TR].
    destruct (box_split_nonempty_real big u b rest b1 b2 U Lb E2) as [N1 N2].
    destruct (box_split_shape u b rest b1 b2 E2) as (o1 & w1 & o2 & w2 & S1 & S2).
    assert (G12 : Forall goodc (map core (b_items b1) ++ map core (b_items b2))) by (eapply Permutation_Forall; [exact P2|exact GB]).
    apply Forall_app in G12 as [G1 G2].
    assert (T2 : Forall bok (rest ++ [b1; b2])).
    { apply Forall_app; split; auto. constructor; [|constructor; [|constructor]].
      - rewrite S1. apply box_new_s_bok; auto.
      - rewrite S2. apply box_new_s_bok; auto. }
    destruct (below_target (rest ++ [b1; b2]) tm tw) as [bs1 below] eqn:B.
    assert (T3 : Forall bok bs1).
    { pose proof (below_target_items (rest ++ [b1; b2]) tm tw) as [Q1 _]. pose proof (below_target_avg (rest ++ [b1; b2]) tm tw) as Q2.
      rewrite B in Q1, Q2. cbn [fst] in *.
      eapply (two_maps b_items b_avg); [|symmetry; exact Q1|symmetry; exact Q2|exact T2].
      intros x y Ei Ea (X1 & X2 & X3). unfold bok. rewrite <- Ei, <- Ea. auto. }
    destruct below; [inversion H; subst; auto|eauto].
Qed.
Lemma cluster_boxes_bok cl : forall off items bs, Forall (fun c => (fst c < snd c)%nat) cl -> good items -> cluster_boxes cl off items = Ok bs -> Forall bok bs.
Proof.
  induction cl as [|[b e] cl IH]; intros off items bs FC F H; cbn [cluster_boxes] in H; [inversion H; constructor|].
  apply Forall_cons_iff in FC as [FC1 FC2]. cbn [fst snd] in FC1.
  destruct (Nat.ltb_spec (length items) (e - b)); [discriminate|]. apply bind_ok in H as (r & H1 & H2). inversion H2; subst.
  unfold good in F. rewrite <- (firstn_skipn (e - b) items), map_app in F. apply Forall_app in F as [F1 F2].
  constructor; [|eapply IH; eauto]. apply box_new_bok; auto. rewrite firstn_length. lia.
Qed.
Lemma cutter_new_bok h target bs : clusters_fit (hi_clusters h) (length (hi_items h)) -> (0 < length (hi_items h))%nat -> good (hi_items h) ->
  cutter_new h target = Ok bs -> Forall bok bs.
Proof.
  intros [CF _] L F H. unfold cutter_new in H. cbv zeta in H. destruct (Nat.leb _ _).
  - eapply cluster_boxes_bok; [|exact F|exact H]. apply Forall_forall. intros c Hc. apply filter_In in Hc as [Hc N].
    rewrite Forall_forall in CF. specialize (CF c Hc). unfold nonempty_cluster in N. destruct (Nat.eqb_spec (fst c) (snd c)); [discriminate|]. lia.
  - inversion H; subst. constructor; [|constructor]. apply box_new_bok; auto.
Qed.
Definition pal_in (p : palf) : Prop := Forall (fun e => P (fst e)) p.
Lemma mediancut_in h target t m p h' : clusters_fit (hi_clusters h) (length (hi_items h)) -> (0 < length (hi_items h))%nat -> (0 < target <= 256)%nat -> good (hi_items h) ->
  mediancut u h target t m = Ok (p, h') -> pal_in p /\ good (hi_items h').
Proof.
  intros CF L T G E. split.
  - unfold mediancut in E. destruct (cutter_new_ok h target CF ltac:(lia) L) as (bs & EC & Lb & I). rewrite EC in E. cbn [bind] in E. cbv zeta in E.
    destruct (cut_loop_ok u U target target (hi_total h) t (dmax m (quality_to_mse 20)) bs (map core (hi_items h))) as (bs' & EL & Hh & Lb'); [unfold MedianFacts.holds; rewrite I; auto|lia|].
    pose proof (cut_loop_bok _ _ _ _ _ _ _ EL (cutter_new_bok _ _ _ CF L G EC)) as FB.
    rewrite EL in E. cbn [bind] in E. rewrite into_palette_ok in E by lia. cbn [bind] in E. inversion E; subst.
    unfold pal_in. apply Forall_map. eapply Forall_impl; [|exact FB]. intros b (_ & _ & X). exact X.
  - destruct (mediancut_ok u U h target t m CF T L) as (p2 & h2 & E2 & _ & PM & _). rewrite E in E2. inversion E2; subst.
    eapply good_perm; eauto.
Qed.
End U.

(** * Fixed colours *)
Lemma swap_in {T} (Q : T -> Prop) (l l' : list T) i j : swap l i j = Ok l' -> Forall Q l -> Forall Q l'.
Proof. intros E F. eapply Permutation_Forall; [eapply swap_perm; exact E|exact F]. Qed.
Lemma place_fixed_in p ic p' : pal_in p -> P (snd ic) -> place_fixed p ic = Ok p' -> pal_in p'.
Proof.
  intros HP Hc E. destruct ic as [i c]. unfold place_fixed in E. cbv zeta in E.
  apply bind_ok in E as (best & _ & E). apply bind_ok in E as (p1 & E1 & E). apply bind_ok in E as (e & _ & E).
  unfold pal_set in E. apply set_idx_ok in E as [_ ->]. apply Forall_upd; auto. eapply swap_in; eauto.
Qed.
Lemma with_fixed_in p m fixed p' : pal_in p -> Forall P fixed -> with_fixed_colors p m fixed = Ok p' -> pal_in p'.
Proof.
  intros HP F E. unfold with_fixed_colors in E. destruct fixed as [|f fs]; [inversion E; subst; auto|]. cbv zeta in E.
  set (fixed := f :: fs) in *. apply bind_ok in E as (p1 & E1 & E).
  assert (H1 : pal_in p1).
  { destruct (Nat.ltb _ _); [|inversion E1; subst; auto]. unfold pal_extend in E1. destruct (Nat.leb _ _); [|discriminate]. inversion E1; subst.
    apply Forall_app. split; auto. apply Forall_map. rewrite Forall_forall in *. intros c Hc. apply F. eapply firstn_In. exact Hc. }
  refine (foldM_inv _ pal_in _ _ _ _ _ E); auto.
  intros s ic s' Hic Hs Es. eapply place_fixed_in; [exact Hs| |exact Es].
  apply firstn_In in Hic. destruct ic as [i c]. apply In_enumerate in Hic. apply nth_error_In in Hic. rewrite Forall_forall in F. apply F. exact Hic.
Qed.

(** * k-means *)
Lemma visit_pos v d dsq i : 0 <= v_dsq v -> 0 <= dsq -> 0 <= v_dsq (visit v d dsq i).
Proof. intros. unfold visit. destruct (_ && _)%bool; auto. Qed.
Lemma search_node_pos c : forall t v, 0 <= v_dsq v -> 0 <= v_dsq (search_node t c v).
Proof.
  induction t as [vp i es|vp i r rs l IHl r0 IHr]; intros v H; cbn [search_node].
  - assert (G : forall es v, 0 <= v_dsq v -> 0 <= v_dsq (fold_left (fun v (e : nat * px) => let d := diff (snd e) c in visit v (fsqrt d) d (fst e)) es v)).
    { clear v H. induction es0 as [|e es0 IH]; intros v H; cbn [fold_left]; auto. apply IH, visit_pos; auto. apply (diff_pos big). }
    apply G. apply visit_pos; auto. apply (diff_pos big).
  - assert (V : 0 <= v_dsq (visit v (fsqrt (diff vp c)) (diff vp c) i)) by (apply visit_pos; auto; apply (diff_pos big)).
    destruct (flt _ _); cbv zeta; destruct (fle _ _); auto.
Qed.
Lemma search_pos n c g : 0 <= snd (search n c g).
Proof.
  unfold search. destruct (nth_error (n_pal n) g) as [pc|].
  - cbv zeta. destruct (flt _ _); [apply (diff_pos big)|]. cbn [snd]. apply search_node_pos. apply (diff_pos big).
  - cbv zeta. cbn [snd]. apply search_node_pos. exact Hbig.
Qed.
Lemma moved_good n adj it : goodc (core it) -> goodc (core (moved n adj it)).
Proof.
  intros G. unfold moved. destruct (iterate_item n adj it) as [[[it' g] e]| |] eqn:E; auto.
  unfold iterate_item in E. destruct (search n (h_color it) (h_likely it)) as [m df]. apply bind_ok in E as ([it2 df2] & E2 & E).
  inversion E; subst. destruct adj; [|inversion E2; subst; exact G].
  apply bind_ok in E2 as (rm & _ & E2).
  assert (ND : 0 <= snd (search n (px_sub (px_add (h_color it) (h_color it)) rm) m)) by apply search_pos.
  revert E2 ND. generalize (snd (search n (px_sub (px_add (h_color it) (h_color it)) rm) m)). intros nd E2 ND. inversion E2; subst.
  destruct G as (G1 & G2 & G3). cbn [core fst snd] in *. split; [exact G1|]. split; [|exact G3].
  change (0 < (2 * h_adj it + h_perc it) * (5 / 10 + df2)). apply Rmult_lt_0_compat; [|lra].
  enough (0 < 2 * h_adj it) by lra. apply Rmult_lt_0_compat; [lra|exact G2].
Qed.
Lemma gain_in n adj it p w m : goodc (core it) -> gain n adj it = (p, w, m) -> P p /\ 0 <= w.
Proof.
  intros G. pose proof (moved_good n adj it G) as M. unfold moved in M. unfold gain.
  destruct (iterate_item n adj it) as [[[it' g] e]| |] eqn:E; intros E2.
  - unfold iterate_item in E. destruct (search n (h_color it) (h_likely it)) as [m1 df]. apply bind_ok in E as ([it2 df2] & _ & E).
    inversion E; subst. inversion H1; subst. destruct G as (G1 & _), M as (_ & M2 & _). cbn [core fst snd] in *. split; auto. lra.
  - inversion E2; subst. destruct G as (G1 & G2 & _). cbn [core fst snd] in *. split; auto. lra.
  - inversion E2; subst. destruct G as (G1 & G2 & _). cbn [core fst snd] in *. split; auto. lra.
Qed.
Definition d2p (d : dpx) : px := Px (da d) (dr d) (dg d) (db d).
Definition avg_in (a : coloravg) : Prop := inP (d2p (c_sum a)) (c_total a).
Lemma avg_in_0 : avg_in c0.
Proof. exact inP_zero. Qed.
Lemma avg_in_add a p w : avg_in a -> P p -> 0 <= w -> avg_in (avg_add a p w).
Proof.
  intros H Hp Hw. unfold avg_in. exact (inP_add _ _ _ _ H (inP_one p w Hw Hp)).
Qed.
Lemma adds_in gs : forall avg, Forall (fun g => P (fst (fst g)) /\ 0 <= snd (fst g)) gs -> Forall avg_in avg -> Forall avg_in (adds avg gs).
Proof.
  unfold adds. induction gs as [|[[p w] m] gs IH]; intros avg F H; cbn [fold_left]; auto. apply Forall_cons_iff in F as [[F1 F2] F].
  apply IH; auto. apply Forall_upd; auto. apply avg_in_add; auto.
  destruct (Nat.lt_ge_cases m (length avg)) as [L|L].
  - rewrite Forall_forall in H. apply H, nth_In. auto.
  - rewrite nth_overflow by auto. apply avg_in_0.
Qed.
Lemma good_all l : good l <-> Forall (fun it => goodc (core it)) l.
Proof. exact (Forall_map core goodc l). Qed.
Lemma total_in n adj k l : good l -> Forall avg_in (k_avg (total big n adj k l)).
Proof.
  intros G. unfold total. cbn [k_avg]. apply adds_in.
  - apply Forall_map. apply good_all in G. eapply Forall_impl; [|exact G]. intros it Gi. cbv beta.
    destruct (gain n adj it) as [[p w] m] eqn:E. exact (gain_in n adj it p w m Gi E).
  - apply Forall_forall. intros x Hx. apply repeat_spec in Hx. subst. apply avg_in_0.
Qed.
Lemma finalize_in k p : Forall avg_in (k_avg k) -> pal_in p -> pal_in (fst (km_finalize k p)).
Proof.
  intros F H. unfold km_finalize. cbn [fst]. apply Forall_app. split.
  - apply Forall_map, Forall_forall. intros [a [c w]] Hin. pose proof (in_combine_l _ _ _ _ Hin) as Ha. pose proof (in_combine_r _ _ _ _ Hin) as Hc.
    unfold pal_in in H. rewrite Forall_forall in F, H. apply F in Ha. apply H in Hc. cbn [fst] in Hc. unfold finalize_entry.
    destruct (pop_is_fixed w); [exact Hc|]. cbv zeta. destruct (_ && _)%bool eqn:B; [|exact Hc].
    apply andb_true_iff in B as [B _]. change (Rltb 0 (c_total a) = true) in B. rbool. destruct Ha as (_ & _ & Ha). exact (Ha B).
  - apply Forall_forall. intros x Hx. unfold pal_in in H. rewrite Forall_forall in H. apply H. rewrite <- (firstn_skipn (length (k_avg k)) p). apply in_or_app. auto.
Qed.
Lemma worst_in n cs items : forall st, (forall it, snd st = Some it -> P (h_color it)) -> Forall (fun it => P (h_color it)) items ->
  forall it, snd (fold_left (worst_step n cs) items st) = Some it -> P (h_color it).
Proof.
  induction items as [|x items IH]; intros st H F; cbn [fold_left]; auto. apply Forall_cons_iff in F as [F1 F2]. apply IH; auto.
  intros it E. destruct st as [wd w]. unfold worst_step in E. destruct (match nth_error cs (h_likely x) with None => _ | Some _ => _ end); [|apply H; exact E].
  cbv zeta in E. destruct (flt _ _); [|apply H; exact E]. cbn [snd] in E. inversion E; subst. exact F1.
Qed.
Lemma replace_unused_in items p p' : Forall (fun it => P (h_color it)) items -> pal_in p -> replace_unused items p = Ok p' -> pal_in p'.
Proof.
  intros F H E. unfold replace_unused in E. refine (foldM_inv _ pal_in _ _ _ _ H E). clear H E. intros q i q' _ H E.
  apply bind_ok in E as ([c w] & _ & E). destruct (_ && _)%bool; [|inversion E; subst; auto].
  apply bind_ok in E as (n & _ & E). destruct (snd (fold_left _ items _)) as [it|] eqn:W; [|inversion E; subst; auto].
  unfold pal_set in E. apply set_idx_ok in E as [_ ->]. apply Forall_upd; auto. cbn [fst].
  eapply worst_in; [|exact F|exact W]. cbn [snd]. discriminate.
Qed.
Lemma good_colors l : good l -> Forall (fun it => P (h_color it)) l.
Proof. intros G. apply good_all in G. eapply Forall_impl; [|exact G]. intros it (X & _). exact X. Qed.
Lemma round_in h p adj e h' p' : good (hi_items h) -> pal_in p -> round big h p adj = Ok (e, h', p') ->
  pal_in p' /\ good (hi_items h') /\ length (hi_items h') = length (hi_items h) /\ hi_clusters h' = hi_clusters h /\ hi_fixed h' = hi_fixed h.
Proof.
  intros G H E. unfold round in E. change (real big) with A in E. destruct (hi_items h) as [|x l] eqn:I; [cbv iota in E; injection E as <- <- <-; refine (conj H (conj _ (conj _ (conj eq_refl eq_refl)))); [exact (eq_ind_r good G I)|exact (f_equal (@length _) I)]|]. rewrite <- I in *.
  apply bind_ok in E as (n & _ & E). cbv zeta in E. destruct (km_finalize _ p) as [p1 s] eqn:K. apply bind_ok in E as (p2 & E2 & E).
  inversion E; subst. cbn [hi_items hi_clusters hi_fixed]. rewrite map_length.
  assert (GM : good (map (moved n adj) (hi_items h))).
  { apply good_all. apply good_all in G. apply Forall_map. eapply Forall_impl; [|exact G]. intros it. apply moved_good. }
  split; [|auto].
  refine (replace_unused_in _ _ _ (good_colors _ GM) _ E2).
  pose proof (finalize_in (total big n adj (length p) (hi_items h)) p (total_in n adj (length p) _ G) H) as FI. rewrite K in FI. exact FI.
Qed.

(** * The search *)
Section Search.
Variable u : unspec.
Variable U : unspec_ok u.
Variable cb : callback.
Variable a : attrs.
Hypothesis Ha : (1 <= a_max_colors a <= 256)%nat.

Definition HI1 (h : hint) : Prop := hint_ok h /\ good (hi_items h) /\ Forall P (hi_fixed h).
Lemma cut1 h mc t m p0 h1 p1 : HI1 h -> (1 <= mc <= a_max_colors a)%nat -> mediancut u h mc t m = Ok (p0, h1) ->
  with_fixed_colors p0 (a_max_colors a) (hi_fixed h1) = Ok p1 -> pal_in p1 /\ HI1 h1.
Proof.
  intros ((CF & L) & G & F) M E1 E2. destruct (mediancut_in u U h mc t m p0 h1 CF L ltac:(lia) G E1) as [P0 G1].
  destruct (mediancut_ok u U h mc t m CF ltac:(lia) L) as (q & h2 & E3 & _ & PM & _ & C3 & F3 & _). rewrite E1 in E3. inversion E3; subst q h2.
  assert (LL : length (hi_items h1) = length (hi_items h)) by (apply Permutation_length in PM; rewrite !map_length in PM; auto).
  split; [|split; [|split; auto]].
  - eapply with_fixed_in; [exact P0| |exact E2]. rewrite F3. exact F.
  - unfold hint_ok. rewrite C3, LL. auto.
  - rewrite F3. exact F.
Qed.
Lemma iter1 th h p adj e h' p' : (forall n, covers n (th n)) -> HI1 h -> pal_in p -> iteration_with th h p adj = Ok (e, h', p') -> HI1 h' /\ pal_in p'.
Proof.
  intros CV ((CF & L) & G & F) H E. pose proof (eq_trans (eq_sym (iteration_round big th h p adj CV)) E) as E0.
  destruct (round_in h p adj e h' p' G H E0) as (P' & G' & L' & C' & F').
  change (real big) with A in L', C', F', G', P'. change (real big) with A. split; auto. split; [|split; auto].
  - unfold hint_ok. rewrite L', C'. auto.
  - rewrite F'. exact F.
Qed.
Lemma direct1 h p e : HI1 h -> (length (hi_items h) <= a_max_colors a)%nat -> palette_from_histogram h (a_max_colors a) = Ok (p, e) -> pal_in p.
Proof.
  intros (_ & G & F) L E. unfold palette_from_histogram in E.
  pose proof (push_all_ok (fun it => (h_color it, h_perc it)) (hi_items h) []) as Q. cbn [fst snd app length] in Q. rewrite Q in E by lia. cbn [bind] in E.
  apply bind_ok in E as (p1 & E1 & E). inversion E; subst. eapply with_fixed_in; [|exact F|exact E1].
  unfold pal_in. apply Forall_map. exact (good_colors _ G).
Qed.

(** Only fixed colours in the histogram: they all go to the palette. *)
Definition HI2 (h : hint) : Prop := hint_ok h /\ Forall P (hi_fixed h) /\ (length (hi_items h) <= length (hi_fixed h))%nat.
Definition pal_fixed (p : palf) : Prop := (0 < length p <= 256)%nat /\ Forall (fun e => P (fst e) /\ pop_is_fixed (snd e) = true) p.
Lemma real_fix_law : fix_law.
Proof.
  intros w. change (Rltb (if Rltb w 0 then w else if Rltb 0 w then - w else - (1)) 0 = true).
  destruct (Rltb w 0) eqn:E1; rbool; auto. destruct (Rltb 0 w) eqn:E2; rbool; lra.
Qed.
Lemma all_fixed (p p' : palf) fixed : Forall P fixed -> (length p <= Nat.min (length fixed) (a_max_colors a))%nat -> (0 < length p)%nat ->
  with_fixed_colors p (a_max_colors a) fixed = Ok p' -> pal_fixed p'.
Proof.
  intros F L L0 E. destruct (with_fixed_colors_ok p (a_max_colors a) fixed ltac:(lia) ltac:(lia)) as (q & E' & Lq & HF). rewrite E in E'. inversion E'; subst q.
  split; [lia|]. apply Forall_forall. intros e He. apply In_nth_error in He as (i & Ni).
  assert (Hi : (i < length p')%nat) by (apply nth_error_Some; congruence).
  destruct (nth_error fixed i) as [c|] eqn:Nc; [|apply nth_error_None in Nc; lia].
  destruct (HF i c Hi Nc) as (w & Nw). rewrite Ni in Nw. inversion Nw; subst. cbn [fst snd]. split; [|apply real_fix_law].
  rewrite Forall_forall in F. apply F. eapply nth_error_In; eauto.
Qed.
Lemma cut2 h mc t m p0 h1 p1 : HI2 h -> (1 <= mc <= a_max_colors a)%nat -> mediancut u h mc t m = Ok (p0, h1) ->
  with_fixed_colors p0 (a_max_colors a) (hi_fixed h1) = Ok p1 -> pal_fixed p1 /\ HI2 h1.
Proof.
  intros ((CF & L) & F & LF) M E1 E2.
  destruct (mediancut_ok u U h mc t m CF ltac:(lia) L) as (q & h2 & E3 & _ & PM & _ & C3 & F3 & _). rewrite E1 in E3. inversion E3; subst q h2.
  assert (LL : length (hi_items h1) = length (hi_items h)) by (apply Permutation_length in PM; rewrite !map_length in PM; auto).
  destruct (mediancut_nonempty_real big u h mc t m U CF ltac:(lia) L) as (q & h2 & groups & E4 & LP & _ & (GP & GL & _) & NE). pose proof (eq_trans (eq_sym E1) E4) as E5. inversion E5; subst q h2. change (real big) with A in GL, GP, NE, LP.
  assert (LG : (length p0 <= length (hi_items h1))%nat).
  { rewrite <- GL, <- (Permutation_length GP). clear - NE. induction NE as [|g gs Hg NE IH]; [cbn; lia|]. cbn [length concat]. rewrite app_length.
    destruct g; [congruence|]. cbn [length]. lia. }
  split.
  - rewrite F3 in E2. refine (all_fixed _ _ _ F _ _ E2); lia.
  - split; [|split].
    + unfold hint_ok. rewrite C3, LL. auto.
    + rewrite F3. exact F.
    + rewrite F3, LL. exact LF.
Qed.
Lemma iter2 th h p adj e h' p' : (forall n, covers n (th n)) -> HI2 h -> pal_fixed p -> iteration_with th h p adj = Ok (e, h', p') -> HI2 h' /\ pal_fixed p'.
Proof.
  intros CV (HO & F & LF) [L H] E. destruct (iteration_with_ok th h p adj L CV) as (e1 & h1 & p1 & E1 & SC & [KL K]). rewrite E in E1. inversion E1; subst.
  pose proof (same_colors_evolves _ _ SC) as EV. split.
  - split; [eapply evolves_ok; eauto|]. rewrite (evolves_length _ _ EV). destruct EV as (_ & _ & _ & ->). auto.
  - split; [lia|]. apply Forall_forall. intros x Hx. apply In_nth_error in Hx as (i & Ni).
    assert (Hi : (i < length p)%nat) by (rewrite <- KL; apply nth_error_Some; congruence).
    destruct (nth_error p i) as [[c w]|] eqn:N; [|apply nth_error_None in N; lia].
    rewrite Forall_forall in H. destruct (H _ (nth_error_In _ _ N)) as [H1 H2]. cbn [fst snd] in *. rewrite (K i c w N H2) in Ni. inversion Ni; subst. auto.
Qed.
Lemma direct2 h p e : HI2 h -> (length (hi_items h) <= a_max_colors a)%nat -> palette_from_histogram h (a_max_colors a) = Ok (p, e) -> pal_fixed p.
Proof.
  intros ((_ & L0) & F & LF) L E. unfold palette_from_histogram in E.
  pose proof (push_all_ok (fun it => (h_color it, h_perc it)) (hi_items h) []) as Q. cbn [fst snd app length] in Q. rewrite Q in E by lia. cbn [bind] in E.
  apply bind_ok in E as (p1 & E1 & E). inversion E; subst. eapply all_fixed; [exact F| | |exact E1]; rewrite map_length; lia.
Qed.
Lemma pal_in_colors p q : Permutation (colors_of p) (colors_of q) -> pal_in p -> pal_in q.
Proof.
  intros PM H. unfold pal_in in *. apply Forall_map. apply (Permutation_Forall PM). apply Forall_map. exact H.
Qed.
Lemma result_in h freeze gamma w q w' : HI1 h \/ HI2 h -> result_new u cb a h freeze gamma w = (Ok q, w') ->
  pal_in (q_pal q) /\ q_gamma q = gamma /\ q_int q = [] /\ q_rem q = None /\ q_post q = a_post_out a.
Proof.
  intros [H|H] E.
  - destruct (result_new_inv u U cb a HI1 pal_in cut1 iter1 direct1 ltac:(lia) h freeze gamma w q w' H E) as (p & HP & PM & R).
    split; auto. eapply pal_in_colors; eauto.
  - destruct (result_new_inv u U cb a HI2 pal_fixed cut2 iter2 direct2 ltac:(lia) h freeze gamma w q w' H E) as (p & [_ HP] & PM & R).
    split; auto. eapply pal_in_colors; [exact PM|]. eapply Forall_impl; [|exact HP]. intros x [X _]. exact X.
Qed.
End Search.
End R.
