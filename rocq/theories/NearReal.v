(** Exact arithmetic: the colour distance is a metric (its square root is a
    norm of the difference), and the vantage-point search is exact. *)
From Verif Require Import Base BaseFacts Arith Order Pal Nearest SearchFacts NearFacts TreeFacts RealArith.
From Coq Require Import Reals Lra.
Open Scope R_scope.

Section Metric.
Variable big : R.
Let A : Arith := real big.
Local Existing Instance A.

(** The part of one channel: the larger of the differences on black and on
    white. *)
Definition chan (c a : R) : R := Rmax (Rabs c) (Rabs (c + a)).
Lemma chan_sq c a : Rmax (c * c) ((c + a) * (c + a)) = chan c a * chan c a.
Proof.
  unfold chan. unfold Rmax. destruct (Rle_dec (c * c) ((c + a) * (c + a))), (Rle_dec (Rabs c) (Rabs (c + a)));
    try (rewrite <- Rabs_mult; symmetry; apply Rabs_pos_eq; nra);
    repeat match goal with H : ~ _ |- _ => apply Rnot_le_lt in H end.
  - assert (Rsqr (c + a) < Rsqr c) by (apply Rsqr_lt_abs_1; auto). unfold Rsqr in *. lra.
  - assert (Rsqr c <= Rsqr (c + a)) by (apply Rsqr_le_abs_1; auto). unfold Rsqr in *. lra.
Qed.
Lemma chan_pos c a : 0 <= chan c a.
Proof. apply Rle_trans with (Rabs c); [apply Rabs_pos|apply Rmax_l]. Qed.
Lemma chan_opp c a : chan (- c) (- a) = chan c a.
Proof. unfold chan. replace (- c + - a) with (- (c + a)) by ring. rewrite !Rabs_Ropp. reflexivity. Qed.
Lemma chan_triangle c a c' a' : chan (c + c') (a + a') <= chan c a + chan c' a'.
Proof.
  unfold chan. apply Rmax_lub.
  - eapply Rle_trans; [apply Rabs_triang|]. apply Rplus_le_compat; apply Rmax_l.
  - replace (c + c' + (a + a')) with ((c + a) + (c' + a')) by ring. eapply Rle_trans; [apply Rabs_triang|].
    apply Rplus_le_compat; apply Rmax_r.
Qed.

Definition comps (s o : px) : R * R * R :=
  (chan (pr s - pr o) (pa o - pa s), chan (pg s - pg o) (pa o - pa s), chan (pb s - pb o) (pa o - pa s)).
Definition sumsq (v : R * R * R) : R := let '(x, y, z) := v in x * x + y * y + z * z.
Lemma diff_comps (s o : px) : diff s o = sumsq (comps s o).
Proof. unfold diff, comps, sumsq. cbn. rewrite <- !chan_sq. reflexivity. Qed.
Lemma diff_pos (s o : px) : 0 <= diff s o.
Proof. rewrite diff_comps. unfold sumsq, comps. nra. Qed.
Lemma diff_sym (s o : px) : diff s o = diff o s.
Proof.
  rewrite !diff_comps. unfold comps. f_equal.
  rewrite <- (chan_opp (pr s - pr o)), <- (chan_opp (pg s - pg o)), <- (chan_opp (pb s - pb o)).
  replace (- (pa o - pa s)) with (pa s - pa o) by ring.
  replace (- (pr s - pr o)) with (pr o - pr s) by ring. replace (- (pg s - pg o)) with (pg o - pg s) by ring.
  replace (- (pb s - pb o)) with (pb o - pb s) by ring. reflexivity.
Qed.
Lemma diff_self (s : px) : diff s s = 0.
Proof.
  rewrite diff_comps. unfold comps, sumsq, chan. rewrite !Rminus_diag_eq by auto. rewrite Rplus_0_l, Rabs_R0, Rmax_left by lra. lra.
Qed.
Lemma chan_zero c a : chan c a = 0 -> c = 0 /\ a = 0.
Proof.
  unfold chan. intros H. pose proof (Rmax_l (Rabs c) (Rabs (c + a))). pose proof (Rmax_r (Rabs c) (Rabs (c + a))).
  pose proof (Rabs_pos c). pose proof (Rabs_pos (c + a)). assert (Rabs c = 0) by lra. assert (Rabs (c + a) = 0) by lra.
  assert (c = 0) by (destruct (Req_dec c 0); auto; exfalso; apply (Rabs_no_R0 c); auto).
  assert (c + a = 0) by (destruct (Req_dec (c + a) 0); auto; exfalso; apply (Rabs_no_R0 (c + a)); auto).
  lra.
Qed.
Lemma diff_zero (s o : px) : diff s o = 0 -> s = o.
Proof.
  rewrite diff_comps. unfold comps, sumsq. intros H.
  pose proof (chan_pos (pr s - pr o) (pa o - pa s)) as Pr. pose proof (chan_pos (pg s - pg o) (pa o - pa s)) as Pg.
  pose proof (chan_pos (pb s - pb o) (pa o - pa s)) as Pb.
  set (x := chan (pr s - pr o) _) in *. set (y := chan (pg s - pg o) _) in *. set (z := chan (pb s - pb o) _) in *.
  assert (x = 0) by nra. assert (y = 0) by nra. assert (z = 0) by nra.
  destruct (chan_zero _ _ H0), (chan_zero _ _ H1), (chan_zero _ _ H2). destruct s, o; cbn in *. f_equal; lra.
Qed.

(** Minkowski's inequality in three dimensions. *)
Lemma minkowski a b c x y z :
  sqrt ((a + x) * (a + x) + (b + y) * (b + y) + (c + z) * (c + z)) <=
  sqrt (a * a + b * b + c * c) + sqrt (x * x + y * y + z * z).
Proof.
  set (s := a * a + b * b + c * c). set (t := x * x + y * y + z * z).
  assert (S0 : 0 <= s) by (unfold s; nra). assert (T0 : 0 <= t) by (unfold t; nra).
  pose proof (sqrt_pos s) as PS. pose proof (sqrt_pos t) as PT.
  assert (CS : a * x + b * y + c * z <= sqrt s * sqrt t).
  { rewrite <- sqrt_mult by auto. destruct (Rle_lt_dec (a * x + b * y + c * z) 0) as [N|N].
    - eapply Rle_trans; [exact N|apply sqrt_pos].
    - rewrite <- (sqrt_Rsqr (a * x + b * y + c * z)) by lra. apply sqrt_le_1_alt. unfold Rsqr, s, t.
      pose proof (Rle_0_sqr (a * y - b * x)) as H1. pose proof (Rle_0_sqr (a * z - c * x)) as H2. pose proof (Rle_0_sqr (b * z - c * y)) as H3.
      unfold Rsqr in H1, H2, H3.
      match goal with |- ?l <= ?r => replace r with (l + ((a * y - b * x) * (a * y - b * x) + (a * z - c * x) * (a * z - c * x) + (b * z - c * y) * (b * z - c * y))) by ring end.
      lra. }
  rewrite <- (sqrt_Rsqr (sqrt s + sqrt t)) by lra. apply sqrt_le_1_alt. unfold Rsqr.
  replace ((sqrt s + sqrt t) * (sqrt s + sqrt t)) with (sqrt s * sqrt s + sqrt t * sqrt t + 2 * (sqrt s * sqrt t)) by ring.
  rewrite !sqrt_sqrt by auto. 
  replace ((a + x) * (a + x) + (b + y) * (b + y) + (c + z) * (c + z)) with (s + t + 2 * (a * x + b * y + c * z)) by (unfold s, t; ring). lra.
Qed.
Lemma sumsq_le x y z x' y' z' : 0 <= x <= x' -> 0 <= y <= y' -> 0 <= z <= z' -> sumsq (x, y, z) <= sumsq (x', y', z').
Proof. unfold sumsq. intros. nra. Qed.

(** The distance itself. *)
Definition dist (s o : px) : R := sqrt (diff s o).
Lemma dist_pos s o : 0 <= dist s o. Proof. apply sqrt_pos. Qed.
Lemma dist_sq s o : dist s o * dist s o = diff s o. Proof. apply sqrt_sqrt, diff_pos. Qed.
Lemma dist_sym s o : dist s o = dist o s. Proof. unfold dist. rewrite diff_sym. reflexivity. Qed.
Lemma dist_triangle (s t o : px) : dist s o <= dist s t + dist t o.
Proof.
  unfold dist. rewrite !diff_comps. unfold comps. eapply Rle_trans; [|apply minkowski]. apply sqrt_le_1_alt.
  assert (T : forall (f : px -> R), 0 <= chan (f s - f o) (pa o - pa s) <=
    chan (f s - f t) (pa t - pa s) + chan (f t - f o) (pa o - pa t)).
  { intros f. split; [apply chan_pos|]. replace (f s - f o) with ((f s - f t) + (f t - f o)) by ring.
    replace (pa o - pa s) with ((pa t - pa s) + (pa o - pa t)) by ring. apply chan_triangle. }
  apply sumsq_le; [apply (T pr)|apply (T pg)|apply (T pb)].
Qed.


(** * The search *)
Definition vis_ok (v : visitor) : Prop := 0 <= v_dist v /\ v_dsq v <= v_dist v * v_dist v.
(** [v'] is at least as good as [v] and as all the entries of [l]. *)
Definition better (needle : px) (v v' : visitor) (l : list (nat * px)) : Prop :=
  vis_ok v' /\ v_excl v' = v_excl v /\ v_dsq v' <= v_dsq v /\
  forall ic, In ic l -> excluded (v_excl v) (fst ic) = false -> v_dsq v' <= diff (snd ic) needle.
Lemma better_trans needle v v' v'' l l' : better needle v v' l -> better needle v' v'' l' -> better needle v v'' (l ++ l').
Proof.
  intros (A1 & A2 & A3 & A4) (B1 & B2 & B3 & B4). rewrite A2 in *. split; auto. split; auto. split; [lra|].
  intros ic H X. apply in_app_or in H as [H|H]; [specialize (A4 ic H X); lra|auto].
Qed.
Lemma visit_better needle v i c : vis_ok v -> better needle v (visit v (fsqrt (diff c needle)) (diff c needle) i) [(i, c)].
Proof.
  intros V. unfold visit. destruct (Rltb (diff c needle) (v_dsq v)) eqn:L; cbn [flt real A]; rewrite L; cbn [andb].
  - apply Rltb_lt in L. destruct (excluded (v_excl v) i) eqn:X; cbn [negb].
    + split; auto. split; auto. split; [lra|]. intros ic [<-|[]] H. cbn in H. congruence.
    + split; [|split; [auto|split; [cbn [v_dsq]; apply Rlt_le; exact L|]]].
      * split; cbn [v_dsq v_dist]; [apply sqrt_pos|]. change (diff c needle <= sqrt (diff c needle) * sqrt (diff c needle)). rewrite sqrt_sqrt; [apply Rle_refl|apply diff_pos].
      * intros ic [<-|[]] _. apply Rle_refl.
  - apply Rltb_ge in L. split; auto. split; auto. split; [lra|]. intros ic [<-|[]] _. exact L.
Qed.
Lemma leaf_better needle es : forall v, vis_ok v ->
  better needle v (fold_left (fun v (e : nat * px) => let d := diff (snd e) needle in visit v (fsqrt d) d (fst e)) es v) es.
Proof.
  induction es as [|[j q] es IH]; intros v V; cbn [fold_left].
  - split; auto. split; auto. split; [lra|]. intros ic [].
  - cbv zeta. cbn [fst snd]. pose proof (visit_better needle v j q V) as B. eapply (better_trans _ _ _ _ [(j, q)]); [exact B|].
    apply IH. apply B.
Qed.
Lemma skip_better needle v l : vis_ok v -> (forall ic, In ic l -> v_dist v <= dist (snd ic) needle) -> better needle v v l.
Proof.
  intros V H. split; auto. split; auto. split; [lra|]. intros ic I _. specialize (H ic I). rewrite <- dist_sq.
  destruct V as [V1 V2]. eapply Rle_trans; [exact V2|]. apply Rmult_le_compat; auto.
Qed.
Lemma better_perm needle v v' l l' : (forall ic, In ic l' -> In ic l) -> better needle v v' l -> better needle v v' l'.
Proof. intros H (A1 & A2 & A3 & A4). split; auto. Qed.
Lemma dist_le a b c d : diff a b <= diff c d -> dist a b <= dist c d.
Proof. intros H. apply sqrt_le_1_alt. auto. Qed.

Lemma search_node_better needle : forall t v, split_ok t -> vis_ok v -> better needle v (search_node t needle v) (tree_pairs t).
Proof.
  induction t as [vp i es|vp i rad rsq l IHl r IHr]; intros v S V; cbn [tree_pairs search_node] in *.
  - pose proof (visit_better needle v i vp V) as B. eapply (better_trans _ _ _ _ [(i, vp)]); [exact B|]. apply leaf_better. apply B.
  - destruct S as (-> & Sl & Sr & Ol & Or). rewrite Forall_forall in Sl, Sr.
    pose proof (visit_better needle v i vp V) as B. set (v0 := visit v _ _ i) in *. cbv zeta.
    assert (V0 : vis_ok v0) by apply B. 
    destruct (diff vp needle <f rsq) eqn:C.
    + pose proof (IHl v0 Ol V0) as B1. set (v1 := search_node l needle v0) in *. assert (V1 : vis_ok v1) by apply B1.
      change (fsqrt rsq -f v_dist v1 <=f fsqrt (diff vp needle)) with (Rleb (sqrt rsq - v_dist v1) (dist vp needle)).
      destruct (Rleb _ _) eqn:D.
      * pose proof (IHr v1 Or V1) as B2. eapply (better_trans _ _ _ _ [(i, vp)]); [exact B|]. eapply better_trans; eauto.
      * apply Rleb_gt in D. eapply (better_trans _ _ _ _ [(i, vp)]); [exact B|]. eapply better_trans; [exact B1|].
        apply skip_better; auto. intros ic I. specialize (Sr ic I). cbn [fle real A] in Sr. apply Rleb_le in Sr.
        assert (sqrt rsq <= dist vp (snd ic)) by (apply sqrt_le_1_alt; auto).
        pose proof (dist_triangle vp needle (snd ic)) as T. rewrite (dist_sym needle) in T. lra.
    + pose proof (IHr v0 Or V0) as B1. set (v1 := search_node r needle v0) in *. assert (V1 : vis_ok v1) by apply B1.
      change (fsqrt (diff vp needle) <=f fsqrt rsq +f v_dist v1) with (Rleb (dist vp needle) (sqrt rsq + v_dist v1)).
      assert (PM : forall ic, In ic ((i, vp) :: tree_pairs l ++ tree_pairs r) -> In ic ((i, vp) :: tree_pairs r ++ tree_pairs l)).
      { intros ic [H|H]; [left; auto|right]. apply in_app_or in H. apply in_or_app. tauto. }
      apply (better_perm _ _ _ _ _ PM).
      destruct (Rleb _ _) eqn:D.
      * pose proof (IHl v1 Ol V1) as B2. eapply (better_trans _ _ _ _ [(i, vp)]); [exact B|]. eapply better_trans; eauto.
      * apply Rleb_gt in D. eapply (better_trans _ _ _ _ [(i, vp)]); [exact B|]. eapply better_trans; [exact B1|].
        apply skip_better; auto. intros ic I. specialize (Sl ic I). cbn [fle real A] in Sl. apply Rleb_le in Sl.
        assert (dist vp (snd ic) <= sqrt rsq) by (apply sqrt_le_1_alt; auto).
        pose proof (dist_triangle vp (snd ic) needle) as T. lra.
Qed.

Lemma clear_real (p : palf) : clear_dists p.
Proof. intros i j _ _. apply Rleb_le. lra. Qed.

(** The table of distances to the nearest other colour never exceeds a quarter
    of the real one. *)
Lemma other_bound (p : palf) n k j pk pj : 1 <= big -> nearest_new p = Ok n -> nth_error (colors_of p) k = Some pk -> nth_error (colors_of p) j = Some pj -> k <> j ->
  nth k (n_other n) 0 <= diff pj pk / 4.
Proof.
  intros Hb N K J NE. destruct (nearest_new_split p n (clear_real p) N) as [S I].
  assert (E : n_other n = map (fun ic => v_dsq (search_node (n_root n) (snd ic) (Visitor fmaxv fmaxv 0 (Some (fst ic)))) /f fofZ 4) (enumerate (colors_of p))).
  { unfold nearest_new in N. destruct (Nat.ltb_spec 256 (length p)); [discriminate|]. destruct p as [|e p]; [discriminate|].
    injection N as <-. reflexivity. }
  rewrite E. assert (Q : nth_error (map (fun ic => v_dsq (search_node (n_root n) (snd ic) (Visitor fmaxv fmaxv 0 (Some (fst ic)))) /f fofZ 4) (enumerate (colors_of p))) k =
     Some (v_dsq (search_node (n_root n) pk (Visitor fmaxv fmaxv 0 (Some k))) /f fofZ 4)).
  { rewrite nth_error_map, nth_error_enumerate, K. reflexivity. }
  rewrite (nth_error_nth _ _ _ Q).
  assert (V : vis_ok (Visitor fmaxv fmaxv 0 (Some k))). { split; cbn; [lra|]. nra. }
  destruct (search_node_better pk (n_root n) _ S V) as (_ & _ & _ & B).
  specialize (B (j, pj)). cbn [fst snd v_excl excluded] in B.
  assert (X : v_dsq (search_node (n_root n) pk (Visitor fmaxv fmaxv 0 (Some k))) <= diff pj pk).
  { apply B; [apply I; exact J|]. apply Nat.eqb_neq. auto. }
  change (v_dsq (search_node (n_root n) pk (Visitor fmaxv fmaxv 0 (Some k))) / 4 <= diff pj pk / 4). lra.
Qed.

(** The search returns a nearest colour and its distance, whatever the hint. *)
Lemma search_exact (p : palf) n c g : 1 <= big -> nearest_new p = Ok n ->
  (g < length p)%nat \/ (exists j pj, nth_error (colors_of p) j = Some pj /\ diff c pj < big) ->
  exists pc, nth_error (colors_of p) (fst (search n c g)) = Some pc /\ snd (search n c g) = diff c pc /\
  forall j pj, nth_error (colors_of p) j = Some pj -> diff c pc <= diff c pj.
Proof.
  intros Hb N G. destruct (nearest_new_split p n (clear_real p) N) as [S I]. destruct (nearest_new_tree p n N) as (_ & P & T).
  unfold search. rewrite P. destruct (nth_error (colors_of p) g) as [pg|] eqn:E.
  - cbv zeta. destruct (diff c pg <f nth g (n_other n) f0) eqn:L; cbn [fst snd].
    + exists pg. split; auto. split; auto. intros j pj J. destruct (Nat.eq_dec g j) as [->|NE]; [rewrite E in J; inversion J; lra|].
      pose proof (other_bound p n g j pg pj Hb N E J NE) as B. apply Rltb_lt in L. change f0 with 0 in L.
      assert (Q : diff c pg < diff pj pg / 4) by lra. rewrite <- !dist_sq in *.
      pose proof (dist_triangle pj c pg) as TR. rewrite (dist_sym pj c) in TR.
      pose proof (dist_pos c pg). pose proof (dist_pos c pj). pose proof (dist_pos pj pg).
      assert (dist c pg < dist pj pg / 2) by nra. apply Rmult_le_compat; lra.
    + assert (V : vis_ok (Visitor (fsqrt (diff c pg)) (diff c pg) g None)).
      { split; cbn; [apply sqrt_pos|]. rewrite sqrt_sqrt; [lra|apply diff_pos]. }
      destruct (search_node_better c (n_root n) _ S V) as (_ & _ & _ & B).
      destruct (search_node_holds p c (n_root n) (Visitor (fsqrt (diff c pg)) (diff c pg) g None) T) as (q & Q & D & _).
      { exists pg. cbn. split; auto. split; [left; auto|auto]. }
      exists q. split; auto. assert (DE : v_dsq (search_node (n_root n) c (Visitor (fsqrt (diff c pg)) (diff c pg) g None)) = diff c q).
      { destruct D as [D|D]; rewrite D; [auto|apply diff_sym]. }
      split; auto. intros j pj J. rewrite <- DE, (diff_sym c pj). apply (B (j, pj)); auto. apply I. exact J.
  - destruct G as [G|(j0 & p0 & J0 & L0)].
    { apply nth_error_None in E. unfold colors_of in E. rewrite map_length in E. lia. }
    cbv zeta. cbn [fst snd].
    assert (V : vis_ok (Visitor finf finf 0 None)) by (split; cbn; [lra|nra]).
    destruct (search_node_better c (n_root n) _ S V) as (_ & _ & _ & B).
    destruct (search_node_found p c (n_root n) (Visitor finf finf 0 None) T) as [F|F].
    { exfalso. specialize (B (j0, p0) (proj2 (I (j0, p0)) J0) eq_refl). rewrite F in B. cbn [v_dsq snd] in B. rewrite diff_sym in L0. apply (Rlt_not_le _ _ L0). exact B. }
    destruct F as (q & Q & D). exists q. split; auto.
    assert (DE : v_dsq (search_node (n_root n) c (Visitor finf finf 0 None)) = diff c q).
    { destruct D as [D|D]; rewrite D; [auto|apply diff_sym]. }
    split; auto. intros j pj J. rewrite <- DE, (diff_sym c pj). apply (B (j, pj)); auto. apply I. exact J.
Qed.
End Metric.
