(** A k-means step that makes things worse (colours of different opacity). *)
From Verif Require Import Base BaseFacts Arith Pal World Attr Hist Nearest MedianCut Kmeans Blur ImageM Quant NearFacts SearchFacts KmeansSched RealArith MedianReal
  NearReal SearchReal KmeansReal SpecKmeans KmeansStep KmeansMono.
From Coq Require Import Reals Lra.
Open Scope R_scope.

(** A grey in the library's weighted channels, of opacity [8/5 a]. *)
Definition lux (a v : R) : @px (real 4) := @Px (real 4) (5 / 8 * a) (5 / 8 * v) (5 / 8 * v) (5 / 8 * v).
Definition lit (a v w : R) : @hitem (real 4) := @HItem (real 4) (lux a v) w w w 0%Z.
Definition hint_of (l : list (@hitem (real 4))) (t : R) : @hint (real 4) := @HInt (real 4) l t [] [].
Definition cluster3 : list (@hitem (real 4)) := [lit (3 / 4) (1 / 4) 1; lit 1 (1 / 2) 1; lit (1 / 2) (1 / 4) 1].
Definition centre : @palf (real 4) := [(lux (3 / 4) (3 / 8), 1)].
Definition th1 : nat -> list (list nat) := fun n => [seq 0 n].
Lemma th1_covers n : covers n (th1 n).
Proof. unfold covers, th1. cbn [concat]. rewrite app_nil_r. reflexivity. Qed.

Lemma chan_box k r r' a a' : 0 <= k <= 8 / 5 -> 0 <= a <= 5 / 8 -> 0 <= a' <= 5 / 8 -> 0 <= r <= k * a -> 0 <= r' <= k * a' -> chan (r - r') (a' - a) * chan (r - r') (a' - a) <= 1.
Proof.
  intros K H1 H2 H3 H4. pose proof (chan_pos (r - r') (a' - a)) as P. assert (chan (r - r') (a' - a) <= 1).
  { assert (k * a <= 8 / 5 * a) by nra. assert (k * a' <= 8 / 5 * a') by nra. unfold chan. apply Rmax_lub; apply Rabs_le; lra. }
  nra.
Qed.
Lemma box_diff big (c q : @px (real big)) : inbox c -> inbox q -> diff c q <= 3.
Proof.
  intros (C1 & C2 & C3 & C4) (Q1 & Q2 & Q3 & Q4). rewrite (diff_comps big). unfold comps, sumsq.
  pose proof (chan_box (4 / 5) _ _ _ _ ltac:(lra) C1 Q1 C2 Q2). pose proof (chan_box (8 / 5) _ _ _ _ ltac:(lra) C1 Q1 C3 Q3). pose proof (chan_box (18 / 25) _ _ _ _ ltac:(lra) C1 Q1 C4 Q4).
  cbv zeta in *. unfold f32, real in *. lra.
Qed.
Lemma box_within big (p : @palf (real big)) (l : list (@hitem (real big))) : 3 < big -> p <> [] -> Forall (fun e => inbox (fst e)) p -> Forall (fun it => inbox (h_color it)) l -> Forall (within p) l.
Proof.
  intros B NE FP F. eapply Forall_impl; [|exact F]. intros it I. cbv beta in I. right. destruct p as [|e p]; [congruence|]. exists e. split; [left; auto|].
  inversion FP; subst. pose proof (box_diff big _ _ I H1). cbv zeta in *. lra.
Qed.

(** One entry, so every colour is assigned to it. *)
Lemma step_one th (h : @hint (real 4)) (q : @px (real 4)) w : (forall n, covers n (th n)) -> hi_items h <> [] -> Forall (fun it => inbox (h_color it) /\ 0 < (h_adj it : R)) (hi_items h) ->
  inbox q -> 0 <= w -> (pa q : R) <> 0 ->
  exists e h' x', @iteration_with (real 4) th h [(q, w)] false = Ok (e, h', [x']) /\ fst x' = mean (hi_items h) /\ snd x' = weight (hi_items h).
Proof.
  intros C NE F BQ W NZ.
  destruct (@iteration_with_ok (real 4) th h [(q, w)] false) as (e & h' & p' & E & _ & _); [cbn; lia|auto|].
  assert (WI : Forall (@within 4 [(q, w)]) (hi_items h)).
  { apply box_within; [lra|congruence|constructor; auto|eapply Forall_impl; [|exact F]; cbv beta; tauto]. }
  destruct (step 4 ltac:(lra) th h [(q, w)] false e h' p' C NE WI E) as (ds & LD & LI & LP & AS & _ & EN & _).
  destruct p' as [|x' [|]]; try discriminate. exists e, h', x'. split; auto.
  destruct (EN 0%nat (q, w) eq_refl) as (y & Y & S). inversion Y; subst y.
  assert (M : forall k it it', nth_error (hi_items h) k = Some it -> nth_error (hi_items h') k = Some it' -> h_color it' = h_color it /\ h_adj it' = h_adj it /\ h_likely it' = 0%nat).
  { intros k it it' K1 K2. assert (B : (k < length (hi_items h))%nat) by (apply nth_error_Some; congruence). destruct (nth_ex _ k _ LD B) as (d & K3).
    destruct (AS k it it' d K1 K2 K3) as (A1 & _ & q2 & w2 & Q & _ & _ & A2). split; auto. split; auto.
    destruct (h_likely it') as [|m]; auto. destruct m; discriminate. }
  assert (MEM : members 0 (hi_items h') = hi_items h' /\ (forall f : @px (real 4) -> R -> R, map (fun it => f (h_color it) (h_adj it)) (hi_items h') = map (fun it => f (h_color it) (h_adj it)) (hi_items h))).
  { clear - M LI. revert M LI. generalize (hi_items h) as l. generalize (hi_items h') as l'. induction l' as [|y l' IH]; intros [|x l] M L; try discriminate; [split; reflexivity|].
    destruct (M 0%nat x y eq_refl eq_refl) as (M1 & M2 & M3). destruct (IH l (fun k => M (S k)) ltac:(cbn in L; lia)) as [I1 I2]. split.
    - unfold members. cbn [filter]. rewrite M3. cbn [Nat.eqb]. f_equal. exact I1.
    - intros f. cbn [map]. rewrite M1, M2. f_equal. apply I2. }
  destruct MEM as [M0 MM].
  assert (WE : weight (hi_items h') = weight (hi_items h)) by (unfold weight; rewrite (MM (fun _ a => a)); reflexivity).
  assert (ME : mean (hi_items h') = mean (hi_items h)).
  { unfold mean. rewrite WE. f_equal; f_equal; f_equal; apply (MM (fun c a => a * _ c)). }
  rewrite M0 in S. unfold entry_step in S. cbn [fst snd] in S. rewrite WE, ME in S.
  destruct (Rlt_dec w 0); [lra|]. assert (P : 0 < weight (hi_items h)).
  { unfold weight. destruct (hi_items h) as [|x l]; [congruence|]. cbn [map sumR]. inversion F; subst. destruct H1 as [_ P].
    assert (0 <= sumR (map (fun it : @hitem (real 4) => @h_adj (real 4) it : R) l)); [|lra]. apply sumR_pos. apply Forall_map. eapply Forall_impl; [|exact H2]. cbv beta. intros; lra. }
  destruct (Rlt_dec 0 (weight (hi_items h))); [|contradiction]. destruct S as [S1 S2]. destruct (Req_EM_T (pa q) 0); [contradiction|]. auto.
Qed.
Lemma dist_one (q : @px (real 4)) w (l : list (@hitem (real 4))) : dist_sum [(q, w)] l (sumR (map (fun it => (@h_adj (real 4) it : R) * diff (h_color it) q) l)).
Proof.
  exists (map (fun it => diff (h_color it) q) l). split; [apply map_length|]. split.
  - intros k it d K1 K2. rewrite nth_error_map, K1 in K2. cbn in K2. inversion K2; subst d. split.
    + exists (q, w). split; [left; auto|reflexivity].
    + intros e [<-|[]]. apply Rle_refl.
  - induction l as [|it l IH]; cbn [map combine sumR]; [reflexivity|]. rewrite IH. reflexivity.
Qed.
Lemma lux_diff a v a' v' : diff (lux a v) (lux a' v') = 75 / 64 * Rmax ((v - v') * (v - v')) ((v - v' + (a' - a)) * (v - v' + (a' - a))).
Proof.
  assert (E : 5 / 8 * a' - 5 / 8 * a = 5 / 8 * (a' - a)) by lra. assert (V : 5 / 8 * v - 5 / 8 * v' = 5 / 8 * (v - v')) by lra.
  unfold diff, lux. cbn [pa pr pg pb]. cbn. rewrite E, V.
  replace (5 / 8 * (v - v') * (5 / 8 * (v - v'))) with (25 / 64 * ((v - v') * (v - v'))) by lra.
  replace ((5 / 8 * (v - v') + 5 / 8 * (a' - a)) * (5 / 8 * (v - v') + 5 / 8 * (a' - a))) with (25 / 64 * ((v - v' + (a' - a)) * (v - v' + (a' - a)))) by lra.
  rewrite RmaxRmult by lra. lra.
Qed.

Lemma worsens : exists e h' p', @iteration_with (real 4) th1 (hint_of cluster3 3) centre false = Ok (e, h', p') /\
  dist_sum centre cluster3 (225 / 4096) /\ dist_sum p' cluster3 (300 / 4096).
Proof.
  destruct (step_one th1 (hint_of cluster3 3) (lux (3 / 4) (3 / 8)) 1 th1_covers) as (e & h' & [x w] & E & S1 & _); try (unfold inbox, lux; cbn; lra).
  - discriminate.
  - unfold cluster3, lit, hint_of. cbn [hi_items]. repeat (apply Forall_cons || apply Forall_nil); unfold inbox, lux; cbn; lra.
  - exists e, h', [(x, w)]. split; [exact E|]. cbn [fst] in S1. subst x.
    assert (MM : mean (hi_items (hint_of cluster3 3)) = lux (3 / 4) (1 / 3)).
    { unfold mean, weight, lux. cbn. f_equal; lra. }
    rewrite MM. split.
    + pose proof (dist_one (lux (3 / 4) (3 / 8)) 1 cluster3) as D. match type of D with dist_sum _ _ ?s => assert (Q : s = 225 / 4096) end; [|rewrite Q in D; exact D].
      unfold cluster3. cbn [map sumR lit h_color h_adj]. rewrite !lux_diff. unfold Rmax. repeat destruct (Rle_dec _ _); lra.
    + pose proof (dist_one (lux (3 / 4) (1 / 3)) w cluster3) as D. match type of D with dist_sum _ _ ?s => assert (Q : s = 300 / 4096) end; [|rewrite Q in D; exact D].
      unfold cluster3. cbn [map sumR lit h_color h_adj]. rewrite !lux_diff. unfold Rmax. repeat destruct (Rle_dec _ _); lra.
Qed.
