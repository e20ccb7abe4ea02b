(** What follows from the description of median cut (C61). *)
From Verif Require Import Base BaseFacts Arith Order Pal World Attr Hist Nearest MedianCut Kmeans MedianFacts RealArith MedianReal NearReal SpecKmeans SpecHist SpecPromise BoundFacts HullReal QuantFacts Api HistTotal FewFacts StepReal SpecCut CutReal.
From Coq Require Import Reals Lra Permutation.
Open Scope R_scope.

Section E.
Context (big : R).
Local Notation A := (real big).
Local Hint Extern 0 Arith => exact (real big) : typeclass_instances.

Lemma cut_stop n limit goal bs bs' : @cut big n limit goal bs bs' ->
  (n <= length bs')%nat \/ (forall b, In b bs' -> (length (fst b) <= 1)%nat) \/ loss bs' <= goal.
Proof. induction 1; auto. Qed.
Lemma cut_keeps n limit goal bs bs' : @cut big n limit goal bs bs' -> Permutation (concat (map fst bs)) (concat (map fst bs')).
Proof.
  assert (ONE : forall b rest b1 b2 (bs : list (@sbox big)), Permutation bs (b :: rest) -> split_box b rest b1 b2 -> Permutation (concat (map fst bs)) (concat (map fst (rest ++ [b1; b2])))).
  { intros b rest b1 b2 l P ((PM & _) & _). rewrite map_app, concat_app. cbn [map concat]. rewrite app_nil_r, <- PM.
    transitivity (concat (map fst (b :: rest))); [|cbn [map concat]; apply Permutation_app_comm].
    apply (Permutation_map fst) in P. clear PM. induction P; cbn [concat]; auto; [apply Permutation_app_head; auto|rewrite !app_assoc; apply Permutation_app_tail, Permutation_app_comm|etransitivity; eauto]. }
  induction 1; auto; [eapply ONE; eauto|]. etransitivity; [eapply ONE; eauto|auto].
Qed.
(** What stands for a box is its mean or a colour nearest to it. *)
Definition central (b : @sbox big) : Prop :=
  snd b = centre (fst b) \/ exists c, In c (fst b) /\ snd b = wc_px c /\ forall c', In c' (fst b) -> diff (centre (fst b)) (wc_px c) <= diff (centre (fst b)) (wc_px c').
Lemma cut_central n limit goal bs bs' : @cut big n limit goal bs bs' -> Forall (fun b => fst b <> [] /\ central b) bs -> Forall (fun b => fst b <> [] /\ central b) bs'.
Proof.
  assert (ONE : forall b rest b1 b2 (bs : list (@sbox big)), Permutation bs (b :: rest) -> split_box b rest b1 b2 -> Forall (fun b => fst b <> [] /\ central b) bs ->
    Forall (fun b => fst b <> [] /\ central b) (rest ++ [b1; b2])).
  { intros b rest b1 b2 l P ((_ & N1 & N2 & _) & S1 & S2) F. eapply Permutation_Forall in F; [|exact P]. apply Forall_cons_iff in F as [_ F].
    apply Forall_app. split; auto. constructor; [|constructor; [|constructor]]; (split; [auto|]).
    - destruct S1 as [(_ & S)|(_ & _ & S)]; [right|left]; auto.
    - destruct S2 as [(_ & S)|(_ & _ & S)]; [right|left]; auto. }
  induction 1; intros F; auto; [eapply ONE; eauto|]. apply IHcut. eapply ONE; eauto.
Qed.
Lemma centre_one (c : @wcol big) : 0 < wc_adj c -> centre [c] = wc_px c.
Proof.
  intros H. unfold centre, total. cbn [map sumR]. destruct c as [[[c1 c2 c3 c4] a] p]. unfold wc_px, wc_adj in *. cbn [fst snd pa pr pg pb] in *.
  cbn [f32 real] in *. f_equal; field; lra.
Qed.
Lemma central_one c (r : @px A) : 0 < wc_adj c -> central ([c], r) -> r = wc_px c.
Proof. intros H [E|(d & [<-|[]] & E & _)]; cbn [fst snd] in *; auto. rewrite E. apply centre_one; auto. Qed.

Lemma starts_fine cl n l bs : @starts big cl n l bs -> Forall (fun c => (fst c <= snd c)%nat) cl -> l <> [] -> Forall (fun b => fst b <> [] /\ central b) bs.
Proof.
  intros (_ & C & L) CF NE. assert (Q : Forall (fun k => k <> 0%nat) (map (fun b => length (fst b)) bs)).
  { cbv zeta in L. rewrite L. destruct (Nat.leb _ _).
    - apply Forall_map, Forall_forall. intros x Hx. apply filter_In in Hx as [Hx H]. rewrite Forall_forall in CF. specialize (CF x Hx). destruct (Nat.eqb_spec (fst x) (snd x)); [discriminate|]. lia.
    - constructor; auto. destruct l; [congruence|discriminate]. }
  rewrite Forall_map in Q. rewrite Forall_forall in *. intros b Hb. split; [|left; auto]. intros E. apply (Q b Hb). rewrite E. reflexivity.
Qed.

Lemma sumR_le {T} (f g : T -> R) l : (forall x, In x l -> f x <= g x) -> sumR (map f l) <= sumR (map g l).
Proof.
  induction l as [|x l IH]; intros H; cbn [map sumR]; [lra|]. pose proof (H x (or_introl eq_refl)). pose proof (IH (fun y Hy => H y (or_intror Hy))). lra.
Qed.
(** The distances to the palette sum to at most the loss. *)
Lemma near_loss (bs : list (@sbox big)) (p : @palf A) : Forall (fun b => In (snd b) (map fst p)) bs -> Forall (fun c => 0 <= wc_pix c) (concat (map fst bs)) ->
  sumR (map (fun c => wc_pix c * near big p (wc_px c)) (concat (map fst bs))) <= loss bs.
Proof.
  unfold loss. induction 1 as [|b bs H F IH]; cbn [map concat]; intros W; [cbn; lra|].
  apply Forall_app in W as [W1 W2]. rewrite map_app, sumR_app. cbn [sumR]. apply Rplus_le_compat; auto.
  apply sumR_le. intros c Hc. rewrite Forall_forall in W1. specialize (W1 c Hc). rewrite Rmult_comm. apply Rmult_le_compat_r; auto.
  assert (NE : p <> []) by (intros ->; destruct H). apply in_map_iff in H as (e & E & He). rewrite <- E.
  destruct (near_least big p (wc_px c) NE) as [_ L]. eapply Rle_trans; [apply L; exact He|]. rewrite (diff_sym big). apply Rle_refl.
Qed.
Lemma nth_map_inv {T V} (f : T -> V) l j e : nth_error (map f l) j = Some e -> exists b, nth_error l j = Some b /\ e = f b.
Proof. rewrite nth_error_map. destruct (nth_error l j) as [b|]; cbn; intros H; [|discriminate]. exists b. split; congruence. Qed.

Lemma div_le (x y t : R) : 0 < y -> x <= t * y -> x / y <= t.
Proof. intros H L. apply Rmult_le_reg_r with y; auto. unfold Rdiv. rewrite Rmult_assoc, Rinv_l by lra. lra. Qed.
Section U.
Variable u : unspec.
Variable U : unspec_ok u.
Definition sound (it : @hitem A) : Prop := inbox (h_color it) /\ 0 < (h_adj it : R) /\ 0 <= (h_perc it : R).
Lemma sound_fine l : Forall sound l -> Forall (fine big) (cores big l).
Proof.
  intros F. apply Forall_map. eapply Forall_impl; [|exact F]. intros it ((I1 & I2 & I3 & I4) & H1 & H2).
  unfold fine, unitpx, wc_px, wc_adj, wc_pix, core. cbn [fst snd]. repeat split; lra.
Qed.
Lemma cut_described (h : @hint A) n t m p h' : clusters_fit (hi_clusters h) (length (hi_items h)) -> hi_items h <> [] -> (0 < n <= 256)%nat -> Forall sound (hi_items h) ->
  mediancut u h n t m = Ok (p, h') ->
  let coloured := map (fun it : @hitem A => (h_color it, h_adj it : R, h_perc it : R)) in
  exists bs bs', starts (hi_clusters h) n (coloured (hi_items h)) bs /\ cut n (Rmax m (quality_to_mse 20)) (t * hi_total h) bs bs' /\
    p = map (fun b => (snd b, sumR (map wc_pix (fst b)))) bs' /\
    forall k b, nth_error bs' k = Some b -> Permutation (fst b) (coloured (members k (hi_items h'))).
Proof. intros CF NE Hn F E. apply (mediancut_cut big u U h n t m p h'); auto. apply sound_fine; auto. Qed.

Lemma cut_entries (h : @hint A) n t m p h' j e : clusters_fit (hi_clusters h) (length (hi_items h)) -> hi_items h <> [] -> (0 < n <= 256)%nat -> Forall sound (hi_items h) ->
  mediancut u h n t m = Ok (p, h') -> nth_error p j = Some e ->
  let l := members j (hi_items h') in
  l <> [] /\ snd e = sumR (map (fun it : @hitem A => h_perc it : R) l) /\
  (fst e = mean l \/ exists it, In it l /\ fst e = h_color it /\ forall it', In it' l -> diff (mean l) (h_color it) <= diff (mean l) (h_color it')).
Proof.
  intros CF NE Hn F E N l. destruct (cut_described h n t m p h' CF NE Hn F E) as (bs & bs' & S & C & -> & M).
  apply nth_map_inv in N as (b & Nb & ->). specialize (M j b Nb). cbn [fst snd]. fold l in M.
  assert (NE2 : map (fun it : @hitem A => (h_color it, h_adj it : R, h_perc it : R)) (hi_items h) <> []) by (destruct (hi_items h); [congruence|discriminate]).
  pose proof (cut_central _ _ _ _ _ C (starts_fine _ _ _ _ S (proj1 CF) NE2)) as FC. rewrite Forall_forall in FC. destruct (FC b (nth_error_In _ _ Nb)) as [N1 N2].
  assert (CE : centre (fst b) = mean l).
  { assert (Q : forall f : @wcol big -> R, sumR (map f (fst b)) = sumR (map (fun it => f (h_color it, h_adj it : R, h_perc it : R)) l)).
    { intros f. rewrite (sumR_perm _ _ (Permutation_map f M)). rewrite map_map. reflexivity. }
    unfold centre, mean, total, weight. rewrite !Q. reflexivity. }
  split; [|split].
  - intros Q. rewrite Q in M. apply Permutation_sym, Permutation_nil in M. auto.
  - rewrite (sumR_perm _ _ (Permutation_map wc_pix M)). rewrite map_map. reflexivity.
  - destruct N2 as [N2|(c & I & N2 & L)]; [left; congruence|right]. rewrite CE in L.
    apply (Permutation_in _ M) in I. apply in_map_iff in I as (it & <- & I). exists it. split; auto. split; auto.
    intros it' I'. apply (L (h_color it', h_adj it' : R, h_perc it' : R)). eapply Permutation_in; [apply Permutation_sym; exact M|]. apply in_map_iff. exists it'. auto.
Qed.

Lemma cut_early (h : @hint A) n t m p h' : clusters_fit (hi_clusters h) (length (hi_items h)) -> hi_items h <> [] -> (0 < n <= 256)%nat -> Forall sound (hi_items h) ->
  (hi_total h : R) = sumR (map (fun it : @hitem A => h_perc it : R) (hi_items h)) -> 0 < (hi_total h : R) -> 0 <= t ->
  mediancut u h n t m = Ok (p, h') -> (length p < n)%nat ->
  exists d, mean_distance p (map (fun it : @hitem A => (h_color it, h_perc it : R)) (hi_items h)) d /\ d <= t.
Proof.
  intros CF NE Hn F HT HP Ht E L. destruct (cut_described h n t m p h' CF NE Hn F E) as (bs & bs' & S & C & EP & M).
  set (l := map (fun it : @hitem A => (h_color it, h_adj it : R, h_perc it : R)) (hi_items h)) in *.
  assert (NE2 : l <> []) by (unfold l; destruct (hi_items h); [congruence|discriminate]).
  pose proof (cut_central _ _ _ _ _ C (starts_fine _ _ _ _ S (proj1 CF) NE2)) as FC.
  assert (PL : Permutation l (concat (map fst bs'))) by (rewrite <- (proj1 S); eapply cut_keeps; eauto).
  assert (FL : Forall (fun c => 0 < wc_adj c /\ 0 <= wc_pix c) (concat (map fst bs'))).
  { eapply Permutation_Forall; [exact PL|]. apply Forall_map. eapply Forall_impl; [|exact F]. intros it (_ & H). exact H. }
  assert (NP : p <> []).
  { intros ->. symmetry in EP. apply map_eq_nil in EP. subst bs'. cbn in PL. apply Permutation_sym, Permutation_nil in PL. auto. }
  eexists. split; [apply (StepReal.mean_near big); auto|].
  rewrite !map_map. cbn [fst snd]. rewrite <- HT.
  assert (Q : sumR (map (fun it : @hitem A => (h_perc it : R) * near big p (h_color it)) (hi_items h)) = sumR (map (fun c => wc_pix c * near big p (wc_px c)) (concat (map fst bs')))).
  { rewrite <- (sumR_perm _ _ (Permutation_map _ PL)). unfold l. rewrite map_map. reflexivity. }
  cbn [f32 real] in *. rewrite Q.
  assert (G : sumR (map (fun c => wc_pix c * near big p (wc_px c)) (concat (map fst bs'))) <= t * hi_total h).
  { destruct (cut_stop _ _ _ _ _ C) as [H|[H|H]].
    - exfalso. rewrite EP in L. erewrite (map_length (fun b : @sbox big => _)) in L. apply (Nat.lt_irrefl n). eapply Nat.le_lt_trans; [exact H|exact L].
    - apply Rle_trans with (loss bs').
      + apply near_loss; [|eapply Forall_impl; [|exact FL]; intros c []; auto]. apply Forall_forall. intros b Hb. rewrite EP, map_map. cbn [fst]. apply in_map. auto.
      + apply Rle_trans with 0; [|apply Rmult_le_pos; [auto|apply Rlt_le; exact HP]]. unfold loss. apply Req_le.
        clear - H FC FL. induction bs' as [|b bs' IH]; cbn [map sumR]; auto. apply Forall_cons_iff in FC as [[N1 N2] FC]. cbn [map concat] in FL. apply Forall_app in FL as [F1 F2].
        rewrite IH; auto; [|intros b' Hb'; apply H; right; auto]. specialize (H b (or_introl eq_refl)). destruct b as [[|c [|c2 lb]] r]; cbn [fst snd length] in *; [congruence| |lia].
        apply Forall_cons_iff in F1 as [[F1 _] _]. rewrite (central_one c r F1 N2). cbn [map sumR]. rewrite (diff_self big). lra.
    - apply Rle_trans with (2 := H). apply near_loss; [|eapply Forall_impl; [|exact FL]; intros c []; auto]. apply Forall_forall. intros b Hb. rewrite EP, map_map. cbn [fst]. apply in_map. auto. }
  apply div_le; auto.
Qed.
Lemma reachable_sound h : hist_r h -> (hg_map h <> [] \/ hg_fixed h <> []) -> (exists e, In e (hg_map (insert_fixed u h)) /\ (0 < fst (snd e))%Z) ->
  let hi := fst (finalize_builder u h (used_gamma h)) in
  clusters_fit (hi_clusters hi) (length (hi_items hi)) /\ hi_items hi <> [] /\ Forall sound (hi_items hi) /\
  (hi_total hi : R) = sumR (map (fun it : @hitem A => h_perc it : R) (hi_items hi)) /\ 0 < (hi_total hi : R).
Proof.
  intros HR NE CNT hi. destruct (finalize_box big u h U HR NE CNT) as (((CF & L) & G & _) & PM & T). fold hi in CF, L, G, PM, T.
  assert (TS : (hi_total hi : R) = sumR (map (fun it : @hitem A => h_perc it : R) (hi_items hi))).
  { refine (eq_trans T _). etransitivity; [symmetry; exact (sumR_perm _ _ (Permutation_map snd PM))|]. rewrite map_map. reflexivity. }
  assert (GS : Forall (fun it : @hitem A => inbox (h_color it) /\ 0 < (h_adj it : R) /\ 0 < (h_perc it : R)) (hi_items hi)).
  { unfold good in G. rewrite Forall_map in G. exact G. }
  split; [exact CF|]. split; [intros Q; rewrite Q in L; cbn in L; lia|]. split; [|split; [exact TS|]].
  - eapply Forall_impl; [|exact GS]. intros it (X & Y & Z). split; auto. split; auto. apply Rlt_le. auto.
  - rewrite TS. clear - GS L. destruct (hi_items hi) as [|it l]; [cbn in L; lia|]. cbn [map sumR]. apply Forall_cons_iff in GS as [(_ & _ & G) GS].
    assert (0 <= sumR (map (fun it : @hitem A => h_perc it : R) l)). { apply sumR_pos, Forall_map. eapply Forall_impl; [|exact GS]. intros x (_ & _ & Z). apply Rlt_le. exact Z. }
    apply Rplus_lt_le_0_compat; auto.
Qed.
End U.
End E.
