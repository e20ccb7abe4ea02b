(** Exact arithmetic: without feedback rounds the error a result reports bounds
    the error of its palette, among colours of one opacity. *)
From Verif Require Import Base BaseFacts Arith Order Pal World Attr Hist Nearest MedianCut Kmeans Blur ImageM Quant Remap Api
  SpecHist AttrFacts ImageFacts HistFacts MedianFacts NearFacts SearchFacts QuantFacts ApiFacts KmeansSched RealArith MedianReal NearReal SearchReal KmeansReal HullReal
  RoundReal HullTop HistWeights SpecKmeans KmeansStep KmeansMono KmeansBad KmeansBox SpecPromise HistIn HistTotal FiniteTop LosslessTop FewFacts.
From Coq Require Import Reals Lra.
Open Scope R_scope.

Section R.
Variable big : R.
Hypothesis Hb : 3 < big.
Local Notation A := (real big).
Local Hint Extern 0 Arith => exact (real big) : typeclass_instances.
Let Hb1 : 1 <= big. Proof. lra. Qed.
Let Hb0 : 0 <= big. Proof. lra. Qed.

(** ** The distance to a palette, as a function *)
Fixpoint near (p : palf) (c : px) : R :=
  match p with [] => 0 | [e] => diff c (fst e) | e :: p => Rmin (diff c (fst e)) (near p c) end.
Lemma near_least (p : palf) c : p <> [] -> least p c (near p c).
Proof.
  induction p as [|e p IH]; intros NE; [congruence|]. destruct p as [|e2 p].
  - cbn [near]. split; [exists e; split; [left; auto|reflexivity]|]. intros x [<-|[]]. apply Rle_refl.
  - destruct IH as [(x & I & E) L]; [discriminate|]. change (near (e :: e2 :: p) c) with (Rmin (diff c (fst e)) (near (e2 :: p) c)). split.
    + destruct (Rle_dec (diff c (fst e)) (near (e2 :: p) c)) as [H|H].
      * exists e. split; [left; auto|]. apply Rmin_left. exact H.
      * exists x. split; [right; auto|]. rewrite <- E. apply Rmin_right. lra.
    + intros y [<-|Y]; [apply Rmin_l|]. eapply Rle_trans; [apply Rmin_r|]. apply L. exact Y.
Qed.
Lemma least_one (p : palf) c d d' : least p c d -> least p c d' -> d = d'.
Proof.
  intros [(x & X & ->) L] [(y & Y & ->) L']. apply Rle_antisym; [apply L|apply L']; auto.
Qed.
Lemma least_colors (p q : palf) c d : (forall x, In x (colors_of p) <-> In x (colors_of q)) -> least p c d -> least q c d.
Proof.
  intros S [(x & X & ->) L]. unfold colors_of in S. split.
  - destruct (proj1 (in_map_iff fst q (fst x)) (proj1 (S (fst x)) (in_map fst p x X))) as (y & Y1 & Y2). exists y. split; auto. rewrite Y1. reflexivity.
  - intros y Y. destruct (proj1 (in_map_iff fst p (fst y)) (proj2 (S (fst y)) (in_map fst q y Y))) as (z & Z1 & Z2). rewrite <- Z1. apply L. exact Z2.
Qed.
Definition cost (p : palf) (l : list (px * R * R)) : R := sumR (map (fun c => snd (fst c) * near p (fst (fst c))) l).
Lemma cost_perm p l l' : Permutation l l' -> cost p l = cost p l'.
Proof. intros H. unfold cost. apply sumR_perm, Permutation_map. exact H. Qed.
Lemma cost_sum p (l : list hitem) : p <> [] -> dist_sum p l (cost p (map core l)).
Proof.
  intros NE. exists (map (fun it => near p (h_color it)) l). split; [apply map_length|]. split.
  - intros k it d K1 K2. rewrite nth_error_map, K1 in K2. cbn in K2. inversion K2; subst d. apply near_least. exact NE.
  - unfold cost. clear. induction l as [|it l IH]; cbn [map combine sumR]; [reflexivity|]. rewrite IH. reflexivity.
Qed.
(** ** The step *)
Variable v : R.
Hypothesis V0 : v <> 0.
Definition P (c : px) : Prop := pa c = v :> R /\ inbox c.
Lemma P_convex : convex big P.
Proof.
  intros t x y T [X1 (X2 & X3 & X4 & X5)] [Y1 (Y2 & Y3 & Y4 & Y5)]. unfold P, inbox, mix in *. cbv zeta in *. cbn [pa pr pg pb].
  change (@eq R (pa x) v) in X1. change (@eq R (pa y) v) in Y1.
  split; [|repeat split]; unfold f32, real in *; nra.
Qed.
Variable C0 : list (px * R * R).
Variable T0 : R.
Hypothesis TP : 0 < T0.
Hypothesis same : Forall (fun c => snd (fst c) = snd c) C0.
Definition K (h : hint) : Prop := HI1 big P h /\ Permutation (map core (hi_items h)) C0 /\ (hi_total h : R) = T0.

Lemma core_same (l l' : list hitem) : length l' = length l ->
  (forall k it it', nth_error l k = Some it -> nth_error l' k = Some it' -> core it' = core it) -> map core l' = map core l.
Proof.
  revert l'. induction l as [|x l IH]; intros [|x' l'] L H; try discriminate; [reflexivity|]. cbn [map].
  rewrite (H 0%nat x x' eq_refl eq_refl). f_equal. apply IH; [cbn in L; lia|]. intros k. exact (H (S k)).
Qed.
Lemma bound_step th (h : hint) (p : palf) e h' p' : (forall n, covers n (th n)) -> K h -> pal_in big P p -> p <> [] ->
  iteration_with th h p false = Ok (e, h', p') ->
  K h' /\ pal_in big P p' /\ p' <> [] /\ cost p' C0 / T0 <= (e : R).
Proof.
  intros CV (H1 & PM & TT) HP NE E.
  destruct (iter1 big Hb0 P P_convex th h p false e h' p' CV H1 HP E) as [H1' HP'].
  destruct H1 as ((CF & LI0) & G & FX).
  assert (NI : hi_items h <> []) by (intros Z; rewrite Z in LI0; cbn in LI0; lia).
  assert (GA : Forall (fun it => goodc big P (core it)) (hi_items h)) by (apply (good_all big P); exact G).
  assert (W : Forall (within p) (hi_items h)).
  { apply (box_within big); [exact Hb|exact NE| |].
    - eapply Forall_impl; [|exact HP]. cbv beta. intros x [_ X]. exact X.
    - eapply Forall_impl; [|exact GA]. intros it ((_ & X) & _). exact X. }
  destruct (step big Hb1 th h p false e h' p' CV NI W E) as (ds & LD & LI & LP & AS & EE & _).
  assert (NE' : p' <> []) by (intros Z; rewrite Z in LP; destruct p; [congruence|discriminate]).
  assert (CS : map core (hi_items h') = map core (hi_items h)).
  { apply core_same; auto. intros k it it' K1 K2. assert (B : (k < length ds)%nat) by (rewrite LD; apply nth_error_Some; congruence).
    destruct (nth_ex ds k _ eq_refl B) as (d & K3). destruct (AS k it it' d K1 K2 K3) as (A1 & A2 & q & w & _ & _ & _ & A3).
    unfold core. rewrite A1, A2, A3. reflexivity. }
  assert (TE : hi_total h' = hi_total h).
  { pose proof (eq_trans (eq_sym (iteration_round big th h p false CV)) E) as E0. unfold round in E0. destruct (hi_items h) as [|x0 l0] eqn:EI; [congruence|].
    rewrite <- EI in *. apply bind_ok in E0 as (n & _ & E0). cbv zeta in E0. destruct (km_finalize _ p) as [p1 s]. apply bind_ok in E0 as (p2 & _ & E0). inversion E0; subst. reflexivity. }
  split. { split; [exact H1'|]. split; [rewrite CS; exact PM|]. rewrite TE. exact TT. }
  split; [exact HP'|]. split; [exact NE'|].
  assert (ST : cost p' (map core (hi_items h)) <= cost p (map core (hi_items h))).
  { eapply (step_sum_better big Hb1 th h p e h' p' v); [exact CV|exact W|exact V0| | |exact E|apply cost_sum; exact NE|apply cost_sum; exact NE'].
    - eapply Forall_impl; [|exact GA]. intros it ((X & _) & Y & _). split; [exact X|]. change (0 < @h_adj A it) in Y. apply Rlt_le. exact Y.
    - eapply Forall_impl; [|exact HP]. cbv beta. intros x [X _]. exact X. }
  assert (EC : sumR (map (fun x => snd x * h_perc (fst x)) (combine (hi_items h) ds)) = cost p (map core (hi_items h))).
  { assert (SA : Forall (fun it => h_adj it = h_perc it :> R) (hi_items h)).
    { assert (F : Forall (fun c => snd (fst c) = snd c) (map core (hi_items h))) by (eapply Permutation_Forall; [symmetry; exact PM|exact same]).
      rewrite Forall_map in F. exact F. }
    assert (GET : forall k it d, nth_error (hi_items h) k = Some it -> nth_error ds k = Some d -> d = near p (h_color it)).
    { intros k it d K1 K2. assert (B : (k < length (hi_items h))%nat) by (apply nth_error_Some; congruence).
      destruct (nth_ex (hi_items h') k _ LI B) as (it' & K3). destruct (AS k it it' d K1 K3 K2) as (_ & _ & q & w & _ & LE & -> & _).
      eapply least_one; [exact LE|]. apply near_least. exact NE. }
    unfold cost. clear - SA GET LD. revert ds LD GET. induction SA as [|it l SE F IH]; intros [|d ds] L GET; try discriminate; [reflexivity|].
    cbn [combine map sumR]. rewrite (IH ds) by (try (cbn in L; lia); intros k; exact (GET (S k))). f_equal. cbn [fst snd core].
    rewrite (GET 0%nat it d eq_refl eq_refl). change (@eq R (near p (h_color it) * h_perc it) (h_adj it * near p (h_color it))). rewrite SE. apply Rmult_comm. }
  rewrite EC, TT in EE. rewrite (cost_perm _ _ _ PM) in EE. rewrite !(cost_perm _ _ _ PM) in ST. rewrite EE. unfold Rdiv. apply Rmult_le_compat_r; [|exact ST].
  left. apply Rinv_0_lt_compat. exact TP.
Qed.

(** ** The search *)
Variable u : unspec.
Variable U : unspec_ok u.
Variable cb : callback.
Variable a : attrs.
Hypothesis Ha : (1 <= a_max_colors a <= 256)%nat.
Definition bounded (p : palf) (err : option R) : Prop := pal_in big P p /\ p <> [] /\ forall e, err = Some e -> cost p C0 / T0 <= e.
Lemma refine_bounded fuel iterations limit mm : forall i (h : hint) (p : palf) (err : option R) w h' p' err' w', K h -> bounded p err ->
  refine_loop u cb fuel a iterations limit mm i h p err w = (Ok (h', p', err'), w') -> bounded p' err'.
Proof.
  induction fuel as [|f IH]; intros i h p err w h' p' err' w' H B E; cbn [refine_loop] in E.
  - destruct (i <? iterations)%Z; unfold slift, sret in E; inversion E; subst; auto.
  - destruct (i <? iterations)%Z; [|unfold sret in E; inversion E; subst; auto]. cbv zeta in E.
    unfold sbind at 1 in E. unfold progress at 1 in E. destruct (cb _ _); [unfold sret in E; inversion E; subst; auto|].
    unfold sbind at 1 in E.
    match type of E with context [iteration u h p false ?w0] => destruct (iteration u h p false w0) as [[[[e h1] p1]|e|] w1] eqn:EI end; try discriminate.
    assert (G : K h1 /\ bounded p1 (Some (e : R))).
    { unfold iteration, sbind, tick, slift in EI. cbv beta iota in EI.
      match type of EI with context [iteration_with ?th h p false] => destruct (iteration_with th h p false) as [[[e1 h2] p2]| |] eqn:Q end; inversion EI; subst.
      destruct B as (B1 & B2 & _). eapply bound_step in Q; [|intros n; apply (uo_batches u U)|exact H|exact B1|exact B2].
      destruct Q as (Q1 & Q2 & Q3 & Q4). split; [exact Q1|]. split; [exact Q2|]. split; [exact Q3|]. intros x X. assert (x = e) by congruence. subst x. exact Q4. }
    destruct G as [G1 G2]. cbv beta iota in E.
    match type of E with (if ?b then _ else _) _ = _ => destruct b end; [unfold sret in E; inversion E; subst; auto|]. eapply IH; [exact G1|exact G2|exact E].
Qed.
(** Unless the callback stops it, at least one step gives an error. *)
Lemma refine_some fuel iterations limit mm : (forall t x, cb t x = false) -> forall i (h : hint) (p : palf) err w h' p' err' w',
  (i < iterations)%Z \/ err <> None ->
  refine_loop u cb fuel a iterations limit mm i h p err w = (Ok (h', p', err'), w') -> err' <> None.
Proof.
  intros NV. induction fuel as [|f IH]; intros i h p err w h' p' err' w' H E; cbn [refine_loop] in E.
  - destruct (Z.ltb_spec i iterations); unfold slift, sret in E; [discriminate|]. inversion E; subst. destruct H; [lia|auto].
  - destruct (Z.ltb_spec i iterations); [|unfold sret in E; inversion E; subst; destruct H; [lia|auto]]. cbv zeta in E.
    unfold sbind at 1 in E. unfold progress at 1 in E. rewrite NV in E.
    unfold sbind at 1 in E.
    match type of E with context [iteration u h p false ?w0] => destruct (iteration u h p false w0) as [[[[e h1] p1]|e|] w1] eqn:EI end; try discriminate.
    cbv beta iota in E.
    match type of E with (if ?b then _ else _) _ = _ => destruct b end; [unfold sret in E; inversion E; subst; discriminate|]. eapply IH; [|exact E]. right. discriminate.
Qed.
Hypothesis KM : (0 <= a_km_iter a)%Z.
Hypothesis calm : forall n, (feedback_loop_trials a n <= 0)%Z.
Lemma find_bounded tmse perfect mm (h : hint) w p (err : option R) w' : K h -> (hi_fixed h = [] \/ perfect = false) ->
  find_best_palette u cb a tmse perfect mm h w = (Ok (p, err), w') ->
  bounded p err /\ ((forall t x, cb t x = false) -> a_max_mse a <> None -> err <> None).
Proof.
  intros H FX E. unfold find_best_palette in E. destruct (Nat.leb _ _ && _)%bool eqn:B.
  - apply andb_true_iff in B as [B B2]. destruct FX as [FX|FX]; [|congruence]. apply Nat.leb_le in B. unfold slift in E.
    destruct (palette_from_histogram h (a_max_colors a)) as [[p1 e1]| |] eqn:Q; inversion E; subst p1 e1.
    pose proof (direct1 big P a Ha h p err (proj1 H) B Q) as PI.
    unfold palette_from_histogram in Q. pose proof (push_all_ok (fun it => (h_color it, h_perc it)) (hi_items h) []) as PU. cbn [fst snd app length] in PU.
    rewrite PU in Q by lia. cbn [bind] in Q. rewrite FX in Q. unfold with_fixed_colors in Q. cbn [bind] in Q. inversion Q; subst p err. clear Q PU.
    destruct H as (((_ & LL) & _) & PM & _).
    assert (NE : map (fun it => (h_color it, h_perc it)) (hi_items h) <> []) by (destruct (hi_items h); [cbn in LL; lia|discriminate]).
    split; [|intros _ _; discriminate]. split; [exact PI|]. split; [exact NE|]. intros e X. inversion X; subst e.
    set (p := map (fun it => (h_color it, h_perc it)) (hi_items h)) in *.
    assert (Z : cost p (map core (hi_items h)) = 0).
    { unfold cost. rewrite map_map. rewrite (sumR_ext _ (fun _ => 0)); [apply sumR_zero|]. intros it I. cbn [core fst snd].
      destruct (near_least p (h_color it) NE) as [(x & _ & EX) L].
      assert (L0 : near p (h_color it) <= 0).
      { pose proof (L (h_color it, h_perc it)) as L1. cbn [fst] in L1. rewrite (diff_self big) in L1. apply L1. unfold p. apply in_map_iff. exists it. auto. }
      assert (L1 : 0 <= near p (h_color it)) by (rewrite EX; apply (diff_pos big)).
      replace (near p (h_color it)) with 0 by lra. apply Rmult_0_r. }
    assert (Z0 : cost p C0 = 0) by (rewrite <- (cost_perm p _ _ PM); exact Z).
    change (cost p C0 / T0 <= 0). rewrite Z0. unfold Rdiv. rewrite Rmult_0_l. apply Rle_refl.
  - cbv zeta in E. unfold sbind at 1 in E.
    match type of E with context [search_loop ?u ?c ?f ?a ?t ?x ?h ?m ?l ?b ?o ?z ?e w] => destruct (search_loop u c f a t x h m l b o z e w) as [[[[h1 best] e1]|e1|] w1] eqn:ES end; try discriminate.
    cbn [search_loop] in ES. cbv zeta in ES. unfold sbind at 1 in ES. unfold slift at 1 in ES.
    match type of ES with context [mediancut u h ?mc ?t ?m] => destruct (mediancut u h mc t m) as [[p0 h2]| |] eqn:E1 end; try discriminate. cbv beta iota in ES.
    unfold sbind at 1 in ES. unfold slift at 1 in ES.
    destruct (with_fixed_colors p0 (a_max_colors a) (hi_fixed h2)) as [p1| |] eqn:E2; try discriminate. cbv beta iota in ES.
    rewrite (proj2 (Z.leb_le _ 0) (calm (length (hi_items h)))) in ES. unfold sret in ES.
    assert (h1 = h2 /\ best = Some p1 /\ e1 = None) as (-> & -> & ->) by (inversion ES; auto). clear ES.
    destruct H as (H1 & PM & TT). pose proof H1 as ((CF & LL) & _).
    destruct (cut1 big P P_convex u U a Ha h (a_max_colors a) _ _ p0 h2 p1 H1 ltac:(lia) E1 E2) as [P1 H2].
    match type of E1 with mediancut u h ?mc ?t ?m = _ => destruct (mediancut_ok u U h mc t m CF ltac:(lia) LL) as (q & h3 & E3 & LQ & PM2 & TT2 & _) end.
    rewrite E1 in E3. inversion E3; subst q h3. clear E3.
    assert (K2 : K h2). { split; [exact H2|]. split; [rewrite <- PM2; exact PM|]. rewrite TT2. exact TT. }
    assert (NE : p1 <> []).
    { destruct (with_fixed_colors_ok p0 (a_max_colors a) (hi_fixed h2) ltac:(lia) ltac:(lia)) as (q & E' & Lq & _). rewrite E2 in E'. inversion E'; subst q.
      intros Z. assert (length p1 = 0%nat) by (rewrite Z; reflexivity). lia. }
    cbv beta iota in E. unfold sbind at 1 in E. unfold refine_palette in E.
    destruct (kmeans_iterations a (length (hi_items h2)) _) as [it lim] eqn:KI.
    match type of E with context [refine_loop ?u ?c ?f ?a ?i ?l ?m ?z ?h ?p ?e ?w] => destruct (refine_loop u c f a i l m z h p e w) as [[[[h4 p4] e4]|e4|] w4] eqn:ER end; try discriminate.
    cbv beta iota in E. unfold sret in E. inversion E; subst p4 e4. split.
    + eapply refine_bounded; [exact K2| |exact ER]. split; [exact P1|]. split; [exact NE|]. discriminate.
    + intros NV MM. eapply refine_some; [exact NV| |exact ER]. left. unfold kmeans_iterations in KI. destruct (a_max_mse a); [|congruence].
      cbn [negb andb] in KI. rewrite andb_true_r in KI. pose proof (shrink_nonneg (a_km_iter a) (length (hi_items h2)) KM) as SN. rewrite andb_true_r in KI.
      assert (IT : it = if (shrink_by_len (a_km_iter a) (length (hi_items h2)) =? 0)%Z then 1%Z else shrink_by_len (a_km_iter a) (length (hi_items h2))) by congruence.
      rewrite IT. destruct (Z.eqb_spec (shrink_by_len (a_km_iter a) (length (hi_items h2))) 0); lia.
Qed.
Lemma result_bounded (h : hint) freeze (gamma : R) w q w' : K h -> (hi_fixed h = [] \/ (a_target_mse a : R) <> 0) ->
  result_new u cb a h freeze gamma w = (Ok q, w') ->
  exists p, bounded p (q_err q) /\ Permutation (colors_of p) (colors_of (q_pal q)) /\ q_gamma q = gamma /\
    ((forall t x, cb t x = false) -> a_max_mse a <> None -> q_err q <> None) /\
    (forall e m, q_err q = Some e -> a_max_mse a = Some m -> (e : R) <= m * allowance (length (hi_items h))).
Proof.
  intros H FX E. unfold result_new in E. unfold sbind at 1 in E. unfold progress at 1 in E. destruct (cb _ _); [discriminate|].
  destruct (target_mse a (length (hi_items h))) as [[mm tm] perfect] eqn:TM. unfold sbind at 1 in E.
  match type of E with context [find_best_palette u cb a tm perfect mm h ?w0] => destruct (find_best_palette u cb a tm perfect mm h w0) as [[[p err]|e|] w1] eqn:EF end; try discriminate.
  assert (FX2 : hi_fixed h = [] \/ perfect = false).
  { destruct FX as [FX|FX]; auto. right. unfold target_mse in TM. cbv zeta in TM.
    assert (PE : perfect = Reqb (a_target_mse a) 0) by (unfold deq in TM; inversion TM; reflexivity). rewrite PE. destruct (Reqb (a_target_mse a) 0) eqn:Z; auto. rbool. contradiction. }
  destruct (find_bounded _ _ _ _ _ _ _ _ H FX2 EF) as [B BS]. cbv beta iota zeta in E. unfold sbind at 1 in E. unfold progress at 1 in E.
  match type of E with context [if cb ?t ?x then _ else _] => destruct (cb t x) end; [discriminate|].
  match type of E with (if ?b then _ else _) _ = _ => destruct b eqn:TL end; [discriminate|]. unfold sbind at 1 in E. unfold slift at 1 in E.
  match type of E with context [sort_palette a ?x] => destruct (sort_palette_ok a x) as (p2 & E2 & P2); rewrite E2 in E end.
  unfold sret in E. inversion E; subst q. exists p. cbn [q_pal q_err q_gamma]. split; [exact B|]. split; [|split; [reflexivity|split; [exact BS|]]].
  - unfold colors_of. rewrite <- (Permutation_map fst P2). destruct freeze; [|auto]. rewrite map_map. cbn [fst]. auto.
  - intros e m EE EM. rewrite EE in TL. unfold target_mse in TM. rewrite EM in TM. cbv zeta in TM.
    assert (MM : mm = Some (m * allowance (length (hi_items h)) : R)).
    { apply (f_equal (fun x => fst (fst x))) in TM. cbn [fst] in TM. rewrite <- TM. unfold allowance. change MAX_COLORS with 256%nat. destruct (Nat.leb (length (hi_items h)) 256); reflexivity. }
    rewrite MM in TL. change (Rltb (m * allowance (length (hi_items h))) e = false) in TL. rbool. exact TL.
Qed.
End R.

(** ** From a histogram or an image *)
Section Top.
Variable big : R.
Hypothesis Hb : 3 < big.
Local Notation A := (real big).
Local Hint Extern 0 Arith => exact (real big) : typeclass_instances.
Let Hb0 : 0 <= big. Proof. lra. Qed.
Let CL : CastLaws A := real_cast big.
Local Existing Instance CL.

Lemma weighed_positive (u : unspec) (h : hist) (g : R) : counts_ok h -> (exists e, In e (hg_map (insert_fixed u h)) /\ (0 < fst (snd e))%Z) ->
  Forall (fun x => 0 < snd x) (@weighed big u h g) /\ @weighed big u h g <> [].
Proof.
  intros CO (e & I & POS). split; [|unfold weighed; destruct (hg_map (insert_fixed u h)); [destruct I|discriminate]].
  pose proof (insert_fixed_counts u h CO) as N1. unfold counts_ok in N1. unfold weighed. cbv zeta.
  assert (T : (0 < zsum (map (fun e => fst (snd e)) (hg_map (insert_fixed u h))))%Z).
  { revert N1 I POS. generalize (hg_map (insert_fixed u h)). intros l F I POS. induction F as [|x l X F IH]; [destruct I|]. cbn [map zsum].
    assert (0 <= zsum (map (fun e => fst (snd e)) l))%Z by (clear - F; induction F as [|y l Y F IH]; cbn [map zsum]; lia).
    destruct I as [->|I]; [lia|]. specialize (IH I). lia. }
  apply IZR_lt in T. revert T. generalize (zsum (map (fun e => fst (snd e)) (hg_map (insert_fixed u h)))). intros t T.
  apply Forall_map. eapply Forall_impl; [|exact N1]. intros x [X _]. cbn [snd]. unfold colour_weight. destruct (Z.eqb_spec (fst (snd x)) 0) as [Z|Z]; [lra|].
  assert (0 < fst (snd x))%Z by lia. apply IZR_lt in H. apply Rmin_glb_lt; lra.
Qed.
Lemma weight_sum (l : list (@px A * R)) : Forall (fun x => 0 < snd x) l -> l <> [] -> 0 < sumR (map snd l).
Proof.
  intros F NE. destruct l as [|x l]; [congruence|]. inversion F; subst. cbn [map sumR].
  assert (0 <= sumR (map snd l)); [|lra]. apply sumR_pos, Forall_map. eapply Forall_impl; [|exact H2]. cbv beta. intros y. lra.
Qed.
Lemma internal_bounded u cb a h freeze w q s' al : unspec_ok u -> usable a -> (forall n, (feedback_loop_trials a n <= 0)%Z) -> hist_r h -> (al <> 0)%Z ->
  (forall e, In e (hg_map (insert_fixed u h)) -> ca (snd (snd e)) = al) -> (forall f, In f (hg_fixed h) -> ca (fst f) = al) ->
  (exists e, In e (hg_map (insert_fixed u h)) /\ (0 < fst (snd e))%Z) -> (hg_fixed h = [] \/ (a_target_mse a : R) <> 0) ->
  quantize_internal u cb a freeze (h, w) = (Ok q, s') ->
  exists m, mean_distance (q_pal q) (weighed u h (q_gamma q)) m /\ (forall e, q_err q = Some e -> m <= e) /\
    (forall l, (forall t x, cb t x = false) -> a_max_mse a = Some l -> m <= l * allowance (length (hg_map (insert_fixed u h)))).
Proof.
  intros U Ua CALM HR AL HC HF CNT FX E. pose proof (proj1 (@objects_ok A CL) h HR) as W. pose proof (@counts_reachable A CL h HR) as CO.
  pose proof (usable_ok a Ua) as [O1 _ _ PL]. assert (M : (1 <= a_max_colors a <= 256)%nat) by lia.
  assert (KM : (0 <= a_km_iter a)%Z) by (unfold plan_ok in PL; lia).
  assert (GP : 0 < (used_gamma h : R)).
  { apply Rltb_lt. exact (@gamma_used A CL h HR (default_gamma_pos big)). }
  assert (NE : hg_map h <> [] \/ hg_fixed h <> []).
  { unfold quantize_internal in E. destruct (hg_map h); [|left; congruence]. destruct (hg_fixed h); [discriminate|right; congruence]. }
  set (g := used_gamma h) in *. set (hi := fst (finalize_builder u h g)).
  destruct (finalize_weighs big u h g U W CO) as [PW TW]. fold hi in PW, TW. cbv zeta in PW.
  set (v := IZR al / 255 * (625 / 1000)).
  assert (V0 : v <> 0). { unfold v. assert (IZR al <> 0) by (apply not_0_IZR; exact AL). lra. }
  destruct (insert_fixed_wf u U h W) as (W1 & _).
  assert (PC : forall c, rgba_ok c -> ca c = al -> P big v (from_rgba (gamma_lut g) c)).
  { intros c R1 R2. split; [|apply (pixel_inbox big g c GP R1)]. unfold v. rewrite <- R2. reflexivity. }
  destruct (weighed_positive u h g CO CNT) as [WP WN].
  assert (PW2 : Permutation (map core (hi_items hi)) (map (fun x => (fst x, snd x, snd x)) (@weighed big u h g))).
  { unfold weighed. cbv zeta. rewrite map_map. cbn [fst snd]. exact PW. }
  assert (GD : good big (P big v) (hi_items hi)).
  { unfold good. eapply Permutation_Forall; [symmetry; exact PW2|]. apply Forall_map. apply Forall_forall. intros x X. rewrite Forall_forall in WP. pose proof (WP x X) as XP.
    unfold goodc. cbn [fst snd]. split; [|split; exact XP]. unfold weighed in X. apply in_map_iff in X as (e & <- & I). cbn [fst]. apply PC; [|apply HC; exact I].
    destruct W1 as (W1 & _). rewrite Forall_forall in W1. apply W1. exact I. }
  assert (H1 : HI1 big (P big v) hi).
  { destruct (QuantFacts.finalize_ok u U h g W NE) as (HO & _). split; [exact HO|]. split; [exact GD|].
    eapply Permutation_Forall; [symmetry; apply (finalize_fixed u h g U)|]. apply Forall_map. apply Forall_forall. intros f F. apply PC; [|apply HF; exact F].
    destruct W as (_ & W2). rewrite Forall_forall in W2. exact (W2 f F). }
  assert (TP : 0 < sumR (map snd (@weighed big u h g))) by (apply weight_sum; auto).
  assert (TE : (hi_total hi : R) = sumR (map snd (@weighed big u h g))).
  { rewrite TW. transitivity (sumR (map snd (map core (hi_items hi)))); [rewrite map_map; reflexivity|]. rewrite (sumR_perm _ _ (Permutation_map snd PW2)). rewrite map_map. reflexivity. }
  set (C0 := map (fun x => (fst x, snd x, snd x)) (@weighed big u h g)) in *.
  assert (SM : Forall (fun c : px * R * R => snd (fst c) = snd c) C0) by (apply Forall_map, Forall_forall; intros x _; reflexivity).
  assert (KH : K big v C0 (sumR (map snd (@weighed big u h g))) hi) by (split; [exact H1|split; [exact PW2|exact TE]]).
  assert (FX2 : hi_fixed hi = [] \/ (a_target_mse a : R) <> 0).
  { destruct FX as [FX|FX]; auto. left. pose proof (finalize_fixed u h g U) as PF. rewrite FX in PF. apply Permutation_sym, Permutation_nil in PF. exact PF. }
  assert (LH : length (hi_items hi) = length (hg_map (insert_fixed u h))) by (apply Permutation_length in PW; rewrite !map_length in PW; exact PW).
  assert (G : forall w2 w3, result_new u cb a hi freeze g w2 = (Ok q, w3) ->
    exists m, mean_distance (q_pal q) (weighed u h (q_gamma q)) m /\ (forall e, q_err q = Some e -> m <= e) /\
    (forall l, (forall t x, cb t x = false) -> a_max_mse a = Some l -> m <= l * allowance (length (hg_map (insert_fixed u h))))).
  { intros w2 w3 RN. destruct (result_bounded big Hb v V0 C0 _ TP SM u U cb a M KM CALM hi freeze g w2 q w3 KH FX2 RN) as (p & (B1 & B2 & B3) & PM & QG & BS & BM).
    exists (cost big p C0 / sumR (map snd (@weighed big u h g))). split; [|split; [exact B3|]].
    - rewrite QG. exists (map (fun x => near big p (fst x)) (@weighed big u h g)). split; [apply map_length|]. split.
      + intros k x d K1 K2. rewrite nth_error_map, K1 in K2. cbn in K2. inversion K2; subst d.
        eapply least_colors; [|apply near_least; exact B2]. intros y. split; intros Y; [apply (Permutation_in _ PM Y)|apply (Permutation_in _ (Permutation_sym PM) Y)].
      + f_equal. unfold cost, C0. rewrite map_map. cbn [fst snd]. clear. induction (@weighed big u h g) as [|x l IH]; cbn [map combine sumR]; [reflexivity|]. rewrite IH. reflexivity.
    - intros l NV ML. assert (Q0 : q_err q <> None) by (apply BS; [exact NV|congruence]). destruct (q_err q) as [e|] eqn:Q; [|congruence].
      rewrite <- LH. eapply Rle_trans; [apply (B3 e eq_refl)|]. apply (BM e l eq_refl ML). }
  unfold quantize_internal in E. destruct (match hg_map h, hg_fixed h with [], [] => true | _, _ => false end); [discriminate|].
  change (unwrap_or (hg_gamma h) (dlit 45455 100000)) with (used_gamma h) in *. cbv zeta in E. fold g in E.
  assert (G2 : forall w2, (let '(hi, h') := finalize_builder u h g in let '(r, w3) := result_new u cb a hi freeze g w2 in (r, (h', w3))) = (Ok q, s') ->
     exists w3, result_new u cb a hi freeze g w2 = (Ok q, w3)).
  { intros w2 E'. unfold hi. destruct (finalize_builder u h g) as [hi2 h']. cbn [fst]. destruct (result_new u cb a hi2 freeze g w2) as [r w3]. inversion E'; subst r. eauto. }
  destruct (progress cb f0 w) as [[[]|e|] w1]; try discriminate;
  (destruct (progress cb _ w1) as [[[]|e2|] w2]; try discriminate; destruct (G2 w2 E) as (w3 & RN); exact (G w2 w3 RN)).
Qed.
Lemma insert_alpha u h al : unspec_ok u -> (forall e, In e (hg_map h) -> ca (snd (snd e)) = al) -> (forall f, In f (hg_fixed h) -> ca (fst f) = al) ->
  forall e, In e (hg_map (insert_fixed u h)) -> ca (snd (snd e)) = al.
Proof.
  intros U HM HF. unfold insert_fixed. cbn [hg_map with_map].
  assert (HF' : Forall (fun f => ca (fst f) = al) (u_set u (hg_fixed h))) by (eapply Permutation_Forall; [apply (uo_set u U)|]; apply Forall_forall; exact HF).
  assert (HM' : Forall (fun e => ca (snd (snd e)) = al) (hg_map h)) by (apply Forall_forall; exact HM). apply Forall_forall.
  revert HM'. generalize (hg_map h). induction HF' as [|f l F HF' IH]; intros m HM'; cbn [fold_left]; [exact HM'|]. apply IH.
  induction HM' as [|[k v] m X HM' IHm]; cbn [hm_insert]; [repeat constructor; exact F|]. destruct (rgba_eqb _ k); constructor; auto.
Qed.
Lemma no_rounds a n : usable a -> (7 <= get_speed a)%Z -> (feedback_loop_trials a n <= 0)%Z.
Proof.
  intros U S. destruct (usable_trials a U) as [_ T]. unfold feedback_loop_trials. rewrite T. replace (Z.max (56 - 9 * get_speed a) 0) with 0%Z by lia.
  unfold shrink_by_len. repeat match goal with |- context [if ?b then _ else _] => destruct b end; cbn; lia.
Qed.
Lemma hist_bounded u cb a h w q s' al : unspec_ok u -> usable a -> (7 <= get_speed a)%Z -> hist_r h -> (al <> 0)%Z ->
  (forall e, In e (hg_map h) -> ca (snd (snd e)) = al) -> (forall f, In f (hg_fixed h) -> ca (fst f) = al) ->
  (exists e, In e (hg_map (insert_fixed u h)) /\ (0 < fst (snd e))%Z) -> (hg_fixed h = [] \/ (a_target_mse a : R) <> 0) ->
  hist_quantize u cb a (h, w) = (Ok q, s') ->
  exists m, mean_distance (q_pal q) (weighed u h (q_gamma q)) m /\ (forall e, q_err q = Some e -> m <= e) /\
    (forall l, (forall t x, cb t x = false) -> a_max_mse a = Some l -> m <= l * allowance (length (hg_map (insert_fixed u h)))).
Proof.
  intros U Ua SP HR AL HM HF CNT FX E. apply (internal_bounded u cb a h true w q s' al U Ua (fun n => no_rounds a n Ua SP) HR AL); auto.
  apply insert_alpha; auto.
Qed.
Lemma image_bounded u cb a i pxs w h i1 w1 q i' w' al : unspec_ok u -> usable a -> (7 <= get_speed a)%Z -> image_r i pxs -> (al <> 0)%Z ->
  (forall r c, In r pxs -> In c r -> ca c = al) -> (forall c, In c (i_fixed i) -> ca c = al) -> (i_fixed i = [] \/ (a_target_mse a : R) <> 0) ->
  add_image u cb a (hist_new a, i, w) = (Ok tt, (h, i1, w1)) -> (exists e, In e (hg_map (insert_fixed u h)) /\ (0 < fst (snd e))%Z) ->
  quantize u cb a (i, w) = (Ok q, (i', w')) ->
  exists m, mean_distance (q_pal q) (weighed u h (q_gamma q)) m /\ (forall e, q_err q = Some e -> m <= e) /\
    (forall l, (forall t x, cb t x = false) -> a_max_mse a = Some l -> m <= l * allowance (length (hg_map (insert_fixed u h)))).
Proof.
  intros U Ua SP I AL HM HF FX AI CNT E. pose proof (proj1 (proj2 (@objects_ok A CL)) i pxs I) as IO.
  pose proof (add_image_in u U (fun c => ca c = al) cb a (hist_new a) i pxs w _ h i1 w1 IO HM (proj2 (Forall_forall _ _) HF) (hist_in_new _ a) AI) as (_ & HI1 & HI2).
  unfold quantize in E. pose proof AI as AI0. rewrite AI in E. destruct (quantize_internal u cb a false (h, w1)) as [r [h2 w2]] eqn:QI. inversion E; subst r.
  assert (FX' : hg_fixed h = [] \/ (a_target_mse a : R) <> 0).
  { destruct FX as [FX|FX]; auto. left. destruct (add_image_spec u cb a (hist_new a) i w pxs IO) as (i2 & _ & _ & _ & _ & _ & _ & _ & _ & E1). cbv zeta in E1. rewrite E1 in AI. clear E1.
    destruct (cb _ _); [discriminate|]. destruct (all_rgba_rows (i_px i)); try discriminate. inversion AI; subst h. rewrite (settle_fixed (A := A)), (add_all_fixed (A := A)). unfold add_image_fixed. rewrite FX. reflexivity. }
  eapply (internal_bounded u cb a h false w1 q _ al U Ua (fun n => no_rounds a n Ua SP)); eauto.
  - apply (hr_image u cb a (hist_new a) i pxs w (Ok tt) h i1 w1); auto. constructor. exact Ua.
  - apply insert_alpha; auto; [|rewrite Forall_forall in HI2; exact HI2]. intros e X. rewrite Forall_forall in HI1. apply HI1 in X. apply X.
  - rewrite Forall_forall in HI2. exact HI2.
Qed.
End Top.
