(** Exact arithmetic: a k-means step never worsens the weighted distance to
    the palette among colours of one opacity, and can worsen it otherwise. *)
From Verif Require Import Base BaseFacts Arith Pal World Attr Hist Nearest MedianCut Kmeans Blur ImageM Quant NearFacts SearchFacts KmeansSched RealArith MedianReal
  NearReal SearchReal KmeansReal SpecKmeans KmeansStep.
From Coq Require Import Reals Lra.
Open Scope R_scope.

Section R.
Variable big : R.
Hypothesis Hb : 1 <= big.
Local Notation A := (real big).
Local Hint Extern 0 Arith => exact (real big) : typeclass_instances.

(** ** Sums *)
Lemma sumR_plus {X} (f g : X -> R) l : sumR (map (fun x => f x + g x) l) = sumR (map f l) + sumR (map g l).
Proof. induction l; cbn [map sumR]; lra. Qed.
Lemma sumR_ext {X} (f g : X -> R) l : (forall x, In x l -> f x = g x) -> sumR (map f l) = sumR (map g l).
Proof. induction l as [|x l IH]; intros H; cbn [map sumR]; [auto|]. rewrite (H x) by (left; auto). rewrite IH; auto. intros; apply H; right; auto. Qed.
Lemma sumR_le {X} (f g : X -> R) l : (forall x, In x l -> f x <= g x) -> sumR (map f l) <= sumR (map g l).
Proof. induction l as [|x l IH]; intros H; cbn [map sumR]; [lra|]. assert (f x <= g x) by (apply H; left; auto). assert (sumR (map f l) <= sumR (map g l)) by (apply IH; intros; apply H; right; auto). lra. Qed.
Lemma sumR_scal {X} k (f : X -> R) l : sumR (map (fun x => k * f x) l) = k * sumR (map f l).
Proof. induction l; cbn [map sumR]; lra. Qed.
Lemma sumR_zero {X} (l : list X) : sumR (map (fun _ => 0) l) = 0.
Proof. induction l; cbn [map sumR]; lra. Qed.
Lemma sumR_one (k n b : nat) v : (b <= k < b + n)%nat -> sumR (map (fun j => if Nat.eqb k j then v else 0) (seq b n)) = v.
Proof.
  revert b. induction n as [|n IH]; intros b H; [lia|]. cbn [seq map sumR]. destruct (Nat.eqb_spec k b) as [->|NE].
  - rewrite (sumR_ext _ (fun _ => 0)); [rewrite sumR_zero; lra|]. intros j I. apply in_seq in I. destruct (Nat.eqb_spec b j); [lia|auto].
  - rewrite IH by lia. lra.
Qed.
Lemma group n (f : hitem -> R) l : Forall (fun it => (h_likely it < n)%nat) l ->
  sumR (map f l) = sumR (map (fun j => sumR (map f (members j l))) (seq 0 n)).
Proof.
  induction 1 as [|it l H F IH]; cbn [map sumR].
  - symmetry. apply sumR_zero.
  - rewrite IH. rewrite <- (sumR_one (h_likely it) n 0 (f it)) at 1 by lia. rewrite <- sumR_plus. apply sumR_ext. intros j _.
    unfold members. cbn [filter]. destruct (Nat.eqb (h_likely it) j); cbn [map sumR]; lra.
Qed.

(** ** The mean is the best point for squares *)
Lemma mean_best (l : list hitem) (ch : px -> R) (t : R) : 0 < weight l ->
  let m := ch_sum big ch l / weight l in
  sumR (map (fun it : @hitem A => (@h_adj A it : R) * ((ch (h_color it) - m) * (ch (h_color it) - m))) l) <=
  sumR (map (fun it : @hitem A => (@h_adj A it : R) * ((ch (h_color it) - t) * (ch (h_color it) - t))) l).
Proof.
  intros W m. assert (MW : m * weight l = ch_sum big ch l) by (unfold m; field; lra).
  assert (G : forall s, sumR (map (fun it : @hitem A => (@h_adj A it : R) * ((ch (h_color it) - s) * (ch (h_color it) - s))) l) =
     sumR (map (fun it : @hitem A => (@h_adj A it : R) * (ch (h_color it) * ch (h_color it))) l) - 2 * s * ch_sum big ch l + s * s * weight l).
  { intros s. unfold ch_sum, weight. clear. induction l; cbn [map sumR]; [lra|]. rewrite IHl. unfold f32, real. lra. }
  rewrite !G. rewrite <- MW. clearbody m. generalize (sumR (map (fun it : @hitem A => (@h_adj A it : R) * (ch (h_color it) * ch (h_color it))) l)). intros s.
  pose proof (Rmult_le_pos _ _ (Rlt_le _ _ W) (Rle_0_sqr (t - m))) as Q. unfold Rsqr in Q. lra.
Qed.
Lemma diff_same_alpha (c q : px) : pa c = pa q -> diff c q = (pr c - pr q) * (pr c - pr q) + (pg c - pg q) * (pg c - pg q) + (pb c - pb q) * (pb c - pb q).
Proof.
  intros H. rewrite (diff_comps big). unfold comps, sumsq, chan. replace (pa q - pa c) with 0 by (change (pa c = pa q :> R) in H; rewrite H; ring).
  rewrite !Rplus_0_r. rewrite !Rmax_left by lra. rewrite <- !Rabs_mult. rewrite !Rabs_pos_eq by apply Rle_0_sqr. reflexivity.
Qed.
Lemma weight_none (l : list hitem) : Forall (fun it => 0 <= (@h_adj A it : R)) l -> ~ 0 < weight l -> forall it, In it l -> (@h_adj A it : R) = 0.
Proof.
  unfold weight. induction 1 as [|x l H F IH]; intros N it I; [destruct I|]. cbn [map sumR] in N.
  assert (P : 0 <= sumR (map (fun it => h_adj it : R) l)). { apply sumR_pos. apply Forall_map. exact F. }
  destruct I as [->|I]; [lra|]. apply IH; auto. lra.
Qed.
Lemma mean_alpha (l : list hitem) a : 0 < weight l -> Forall (fun it => pa (h_color it) = a :> R) l -> pa (mean l) = a :> R.
Proof.
  intros W F. unfold mean. cbn [pa]. assert (E : sumR (map (fun it : @hitem A => (@h_adj A it : R) * pa (h_color it)) l) = a * weight l).
  { unfold weight. rewrite <- sumR_scal. apply sumR_ext. rewrite Forall_forall in F. intros it I. rewrite (F it I). ring. }
  rewrite E. field. lra.
Qed.

(** ** One entry *)
Lemma entry_better (l all : list hitem) (e e' : px * R) a : a <> 0 -> entry_step l all e e' -> pa (fst e) = a :> R ->
  Forall (fun it => pa (h_color it) = a :> R /\ 0 <= (@h_adj A it : R)) l ->
  sumR (map (fun it : @hitem A => (@h_adj A it : R) * diff (h_color it) (fst e')) l) <= sumR (map (fun it : @hitem A => (@h_adj A it : R) * diff (h_color it) (fst e)) l).
Proof.
  intros NZ S AE F. assert (FA : Forall (fun it => pa (h_color it) = a :> R) l) by (eapply Forall_impl; [|exact F]; cbv beta; tauto).
  assert (FW : Forall (fun it => 0 <= (@h_adj A it : R)) l) by (eapply Forall_impl; [|exact F]; cbv beta; tauto).
  unfold entry_step in S. destruct (Rlt_dec (@snd px R e) 0) as [H0|H0]; [rewrite S; lra|].
  destruct (Rlt_dec 0 (weight l)) as [H1|H1].
  - destruct S as [_ S]. destruct (Req_EM_T (pa (fst e)) 0) as [Z|_]; [exfalso; apply NZ; rewrite <- AE; exact Z|]. rewrite S.
    pose proof (mean_alpha l a H1 FA) as MA. rewrite Forall_forall in FA.
    rewrite (sumR_ext (fun it : @hitem A => (@h_adj A it : R) * diff (h_color it) (mean l))
      (fun it : @hitem A => (@h_adj A it : R) * ((pr (h_color it) - pr (mean l)) * (pr (h_color it) - pr (mean l))) + ((@h_adj A it : R) * ((pg (h_color it) - pg (mean l)) * (pg (h_color it) - pg (mean l))) + (@h_adj A it : R) * ((pb (h_color it) - pb (mean l)) * (pb (h_color it) - pb (mean l)))))).
    2: { intros it I. rewrite diff_same_alpha by (rewrite (FA it I); symmetry; exact MA). ring. }
    rewrite (sumR_ext (fun it : @hitem A => (@h_adj A it : R) * diff (h_color it) (fst e))
      (fun it : @hitem A => (@h_adj A it : R) * ((pr (h_color it) - pr (fst e)) * (pr (h_color it) - pr (fst e))) + ((@h_adj A it : R) * ((pg (h_color it) - pg (fst e)) * (pg (h_color it) - pg (fst e))) + (@h_adj A it : R) * ((pb (h_color it) - pb (fst e)) * (pb (h_color it) - pb (fst e)))))).
    2: { intros it I. rewrite diff_same_alpha by (rewrite (FA it I); symmetry; exact AE). ring. }
    rewrite !sumR_plus. apply Rplus_le_compat; [|apply Rplus_le_compat]; apply mean_best; auto.
  - pose proof (weight_none l FW H1) as Z. apply sumR_le. intros it I. rewrite (Z it I). lra.
Qed.

(** ** The whole step *)
Lemma nth_ex {X} (l : list X) k n : length l = n -> (k < n)%nat -> exists x, nth_error l k = Some x.
Proof. intros L H. destruct (nth_error l k) eqn:E; eauto. apply nth_error_None in E. lia. Qed.
Lemma sum_lists (f g : hitem -> R) : forall (l l' : list hitem) (ds : list R), length l' = length l -> length ds = length l ->
  (forall k it it' d, nth_error l k = Some it -> nth_error l' k = Some it' -> nth_error ds k = Some d -> f it * d <= g it') ->
  sumR (map (fun x => f (fst x) * snd x) (combine l ds)) <= sumR (map g l').
Proof.
  induction l as [|it l IH]; intros [|it' l'] [|d ds] L1 L2 H; try discriminate; cbn [combine map sumR]; [lra|].
  pose proof (H 0%nat it it' d eq_refl eq_refl eq_refl). cbn [fst snd]. assert (G := IH l' ds ltac:(cbn in *; lia) ltac:(cbn in *; lia) (fun k => H (S k))). lra.
Qed.
Lemma sum_lists_ge (f g : hitem -> R) : forall (l l' : list hitem) (ds : list R), length l' = length l -> length ds = length l ->
  (forall k it it' d, nth_error l k = Some it -> nth_error l' k = Some it' -> nth_error ds k = Some d -> g it' <= f it * d) ->
  sumR (map g l') <= sumR (map (fun x => f (fst x) * snd x) (combine l ds)).
Proof.
  induction l as [|it l IH]; intros [|it' l'] [|d ds] L1 L2 H; try discriminate; cbn [combine map sumR]; [lra|].
  pose proof (H 0%nat it it' d eq_refl eq_refl eq_refl). cbn [fst snd]. assert (G := IH l' ds ltac:(cbn in *; lia) ltac:(cbn in *; lia) (fun k => H (S k))). lra.
Qed.
Lemma step_better th (h : hint) (p : palf) e h' p' a : (forall n, covers n (th n)) -> Forall (within p) (hi_items h) -> a <> 0 ->
  Forall (fun it => pa (h_color it) = a :> R /\ 0 <= (@h_adj A it : R)) (hi_items h) -> Forall (fun x => pa (fst x) = a :> R) p ->
  iteration_with th h p false = Ok (e, h', p') ->
  forall ds ds', length ds = length (hi_items h) -> length ds' = length (hi_items h) ->
  (forall k it d, nth_error (hi_items h) k = Some it -> nth_error ds k = Some d -> least p (h_color it) d) ->
  (forall k it d, nth_error (hi_items h) k = Some it -> nth_error ds' k = Some d -> least p' (h_color it) d) ->
  sumR (map (fun x => (h_adj (fst x) : R) * snd x) (combine (hi_items h) ds')) <= sumR (map (fun x => (h_adj (fst x) : R) * snd x) (combine (hi_items h) ds)).
Proof.
  intros C W NZ F FP E ds ds' L L' D D'. destruct (hi_items h) as [|x0 l0] eqn:EI.
  { destruct ds, ds'; try discriminate. cbn. lra. }
  assert (NE : hi_items h <> []) by congruence. rewrite <- EI in *. clear EI x0 l0.
  destruct (step big Hb th h p false e h' p' C NE W E) as (gs & LG & LI & LP & AS & _ & EN & _).
  set (f := fun (q : palf) (it : hitem) => (@h_adj A it : R) * match nth_error q (h_likely it) with Some x => diff (h_color it) (fst x) | None => 0 end).
  assert (GET : forall k it, nth_error (hi_items h) k = Some it -> exists it' d, nth_error (hi_items h') k = Some it' /\ nth_error gs k = Some d /\ assigned p false it it' d).
  { intros k it K. assert (B : (k < length (hi_items h))%nat) by (apply nth_error_Some; congruence).
    destruct (nth_ex _ k _ LI B) as (it' & K1). destruct (nth_ex _ k _ LG B) as (d & K2). exists it', d. split; auto. split; auto. eapply AS; eauto. }
  assert (F' : Forall (fun it => (pa (h_color it) = a :> R /\ 0 <= (@h_adj A it : R)) /\ (h_likely it < length p)%nat) (hi_items h')).
  { apply Forall_forall. intros it' I. apply In_nth_error in I as (k & K).
    assert (B : (k < length (hi_items h))%nat) by (rewrite <- LI; apply nth_error_Some; congruence). destruct (nth_ex _ k _ eq_refl B) as (it & K0).
    destruct (GET k it K0) as (it2 & d & K1 & _ & (A1 & _ & q & w & Q & _ & _ & A2)). assert (it2 = it') by congruence. subst it2.
    rewrite Forall_forall in F. pose proof (F it (nth_error_In _ _ K0)) as [F1 F2]. rewrite A1, A2. split; auto. apply nth_error_Some. congruence. }
  apply Rle_trans with (sumR (map (f p') (hi_items h'))); [|apply Rle_trans with (sumR (map (f p) (hi_items h')))].
  - apply (sum_lists (fun it : @hitem A => h_adj it)); auto. intros k it it' d K K1 K2. destruct (GET k it K) as (it2 & g & K3 & _ & (A1 & _ & q & w & Q & _ & _ & A2)).
    assert (it2 = it') by congruence. subst it2. unfold f. rewrite A1, A2. destruct (EN _ _ Q) as (x' & Q' & _). rewrite Q'.
    rewrite Forall_forall in F. destruct (F it (nth_error_In _ _ K)) as [_ F2]. apply Rmult_le_compat_l; auto. apply (D' k it d K K2). eapply nth_error_In; eauto.
  - assert (LK : Forall (fun it => (h_likely it < length p)%nat) (hi_items h')) by (eapply Forall_impl; [|exact F']; cbv beta; tauto).
    rewrite !(group (length p) _ _ LK). apply sumR_le. intros j J. apply in_seq in J. destruct (nth_ex p j (length p) eq_refl) as (x & X); [lia|].
    destruct (EN j x X) as (x' & X' & S).
    assert (M : forall it, In it (members j (hi_items h')) -> In it (hi_items h') /\ h_likely it = j).
    { intros it I. unfold members in I. apply filter_In in I as [I I2]. apply Nat.eqb_eq in I2. auto. }
    rewrite (sumR_ext (f p') (fun it : @hitem A => (@h_adj A it : R) * diff (h_color it) (fst x'))) by (intros it I; destruct (M it I) as [_ Q]; unfold f; rewrite Q, X'; reflexivity).
    rewrite (sumR_ext (f p) (fun it : @hitem A => (@h_adj A it : R) * diff (h_color it) (fst x))) by (intros it I; destruct (M it I) as [_ Q]; unfold f; rewrite Q, X; reflexivity).
    eapply entry_better with (a := a); eauto.
    + rewrite Forall_forall in FP. apply FP. eapply nth_error_In; eauto.
    + apply Forall_forall. intros it I. destruct (M it I) as [I2 _]. rewrite Forall_forall in F'. apply F'. auto.
  - apply (sum_lists_ge (fun it : @hitem A => h_adj it)); auto. intros k it it' d K K1 K2. destruct (GET k it K) as (it2 & g & K3 & _ & (A1 & _ & q & w & Q & LE & _ & A2)).
    assert (it2 = it') by congruence. subst it2. unfold f. rewrite A1, A2, Q. cbn [fst].
    rewrite Forall_forall in F. destruct (F it (nth_error_In _ _ K)) as [_ F2]. apply Rmult_le_compat_l; auto.
    destruct (D k it d K K2) as [(x & X1 & ->) _]. destruct LE as [_ LE]. apply LE. exact X1.
Qed.
Lemma step_sum_better th (h : hint) (p : palf) e h' p' a s s' : (forall n, covers n (th n)) -> Forall (within p) (hi_items h) -> a <> 0 ->
  Forall (fun it => pa (h_color it) = a :> R /\ 0 <= (@h_adj A it : R)) (hi_items h) -> Forall (fun x => pa (fst x) = a :> R) p ->
  iteration_with th h p false = Ok (e, h', p') -> dist_sum p (hi_items h) s -> dist_sum p' (hi_items h) s' -> s' <= s.
Proof.
  intros C W NZ F FP E (ds & L & D & ->) (ds' & L' & D' & ->). eapply step_better; eauto.
Qed.
End R.
