(** Fixed colours take the places of the entries nearest to them. *)
From Verif Require Import Base BaseFacts Arith Pal Hist Nearest PalFacts SearchFacts RealArith CutReal SpecFixed.
From Coq Require Import Reals Lra Permutation.
Open Scope R_scope.
Section E.
Context (big : R).
Local Notation A := (real big).
Local Hint Extern 0 Arith => exact (real big) : typeclass_instances.

Lemma pinned_eq (w : R) : @pop_to_fixed A w = pinned w.
Proof.
  change (@pop_to_fixed A w) with (if (if Rlt_dec w 0 then true else false) then w else if (if Rlt_dec 0 w then true else false) then - w else - 1). unfold pinned.
  destruct (Rlt_dec w 0); destruct (Rle_dec w 0); try destruct (Rlt_dec 0 w); try lra; reflexivity.
Qed.
Lemma place_near (p : palf) i f p2 : (i < length p)%nat -> place_fixed p (i, f) = Ok p2 ->
  exists c w, Permutation (skipn i p) ((c, w) :: skipn (S i) p2) /\ (forall x, In x (skipn i p) -> diff c f <= diff (fst x) f) /\
    firstn i p2 = firstn i p /\ skipn i p2 = (f, pinned w) :: skipn (S i) p2 /\ length p2 = length p.
Proof.
  intros LI E. unfold place_fixed in E. set (cmp := fun x y : nat * px => fcmp (diff (snd x) f) (diff (snd y) f)) in E.
  destruct (min_by cmp (skipn i (enumerate (colors_of p)))) as [[j k]|] eqn:M; [|discriminate]. cbn [ok_or_panic bind fst] in E.
  assert (G := min_by_le cmp). specialize (G ltac:(intros x y z; unfold cmp; rewrite !(rcmp_not_gt big); apply Rle_trans)).
  specialize (G ltac:(intros x y H1; unfold cmp in *; rewrite (rcmp_not_gt big); apply Rnot_lt_le; intros H2; apply Rlt_le in H2; apply (rcmp_not_gt big) in H2; congruence) _ _ M).
  apply min_by_in in M. apply In_nth_error in M as (m & Hm). rewrite nth_error_skipn, nth_error_enumerate in Hm.
  destruct (nth_error (colors_of p) (i + m)) as [k'|] eqn:N; [|discriminate]. cbn in Hm. assert (j = (i + m)%nat /\ k' = k) as [-> ->] by (split; congruence). clear Hm.
  unfold colors_of in N. rewrite nth_error_map in N. destruct (nth_error p (i + m)) as [[c w]|] eqn:Nb; [|discriminate]. cbn in N. injection N as <-.
  destruct (swap p i (i + m)) as [p1| |] eqn:ES; try discriminate. cbn [bind] in E.
  destruct (idx p1 i) as [e| |] eqn:EI; try discriminate. cbn [bind] in E. unfold pal_set in E. apply set_idx_ok in E as [L ->].
  apply idx_ok in EI.
  assert (CE : e = (c, w)).
  { pose proof (swap_nth _ _ _ _ i ES) as SN. destruct (Nat.eqb_spec i (i + m)) as [Q|Q].
    - rewrite <- Q in Nb. congruence.
    - rewrite Nat.eqb_refl in SN. congruence. }
  subst e. pose proof (swap_length _ _ _ _ ES) as L1.
  assert (F1 : firstn i p1 = firstn i p).
  { apply list_eq_nth_error. intros k. rewrite !nth_error_firstn. destruct (Nat.ltb_spec k i); [|reflexivity]. rewrite (swap_nth _ _ _ _ k ES).
    destruct (Nat.eqb_spec k (i + m)); [lia|]. destruct (Nat.eqb_spec k i); [lia|reflexivity]. }
  assert (K1 : skipn i p1 = (c, w) :: skipn (S i) p1).
  { apply list_eq_nth_error. intros [|k]; rewrite nth_error_skipn; [rewrite Nat.add_0_r; exact EI|]. cbn [nth_error]. rewrite nth_error_skipn. f_equal. lia. }
  assert (K2 : skipn (S i) (upd p1 i (f, pop_to_fixed w)) = skipn (S i) p1).
  { apply list_eq_nth_error. intros k. rewrite !nth_error_skipn, nth_error_upd_neq by lia. reflexivity. }
  exists c, w. cbn [snd]. rewrite K2. split; [|split; [|split; [|split]]].
  - rewrite <- K1. apply (Permutation_app_inv_l (firstn i p)). rewrite firstn_skipn, <- F1, firstn_skipn. eapply swap_perm; eauto.
  - intros x X. rewrite Forall_forall in G. apply In_nth_error in X as (k & X). rewrite nth_error_skipn in X.
    apply (rcmp_not_gt big). apply (G ((i + k)%nat, fst x)). apply (nth_error_In _ k). rewrite nth_error_skipn, nth_error_enumerate. unfold colors_of. rewrite nth_error_map, X. reflexivity.
  - apply list_eq_nth_error. intros k. rewrite <- F1, !nth_error_firstn. destruct (Nat.ltb_spec k i); [|reflexivity]. apply nth_error_upd_neq. lia.
  - apply list_eq_nth_error. intros [|k]; rewrite nth_error_skipn.
    + rewrite Nat.add_0_r, nth_error_upd_eq by lia. cbn. rewrite pinned_eq. reflexivity.
    + rewrite nth_error_upd_neq by lia. cbn [nth_error]. rewrite nth_error_skipn. f_equal. lia.
  - rewrite upd_length. exact L1.
Qed.
Lemma place_all fs : forall i (p p' : palf), (i + length fs <= length p)%nat -> foldM place_fixed (combine (seq i (length fs)) fs) p = Ok p' ->
  firstn i p' = firstn i p /\ @placing big fs (skipn i p) (skipn i p').
Proof.
  induction fs as [|f fs IH]; intros i p p' L E; cbn [length seq combine foldM] in E.
  - inversion E; subst. split; [reflexivity|constructor; reflexivity].
  - destruct (place_fixed p (i, f)) as [p1| |] eqn:P; try discriminate. cbn [bind] in E. cbn [length] in L.
    destruct (place_near p i f p1 ltac:(lia) P) as (c & w & PP & NN & F & K & LL).
    destruct (IH (S i) p1 p' ltac:(lia) E) as [F2 G].
    assert (N : forall k, (k < S i)%nat -> nth_error p' k = nth_error p1 k).
    { intros k H. apply (f_equal (fun l => nth_error l k)) in F2. rewrite !nth_error_firstn in F2. destruct (Nat.ltb_spec k (S i)); [exact F2|lia]. }
    split.
    + rewrite <- F. apply list_eq_nth_error. intros k. rewrite !nth_error_firstn. destruct (Nat.ltb_spec k i); [apply N; lia|reflexivity].
    + assert (K' : skipn i p' = (f, pinned w) :: skipn (S i) p').
      { apply list_eq_nth_error. intros [|k]; rewrite nth_error_skipn.
        - rewrite Nat.add_0_r, N by lia. apply (f_equal (fun l => nth_error l 0)) in K. rewrite nth_error_skipn, Nat.add_0_r in K. exact K.
        - cbn [nth_error]. rewrite nth_error_skipn. f_equal. lia. }
      rewrite K'. econstructor; eauto.
Qed.
Lemma firstn_enumerate {T} (l : list T) k : firstn k (enumerate l) = combine (seq 0 (length (firstn k l))) (firstn k l).
Proof.
  fold (enumerate (firstn k l)). apply list_eq_nth_error. intros j. rewrite nth_error_firstn, !nth_error_enumerate, nth_error_firstn. destruct (Nat.ltb j k); reflexivity.
Qed.
Lemma firstn_all_len {T} (l : list T) n m : (m = n \/ (length l <= n /\ length l <= m))%nat -> firstn n l = firstn m l.
Proof. intros [->|[H1 H2]]; [reflexivity|]. rewrite !firstn_all2; auto. Qed.
(** The palette given to [with_fixed_colors] has at most [m] entries. *)
Lemma with_fixed_near (p : palf) m fixed p' : (length p <= m)%nat -> with_fixed_colors p m fixed = Ok p' ->
  @placing big (firstn m fixed) (p ++ map (fun c => (c, 0)) (firstn (Nat.min (length fixed) m - length p) fixed)) p'.
Proof.
  intros L E. destruct fixed as [|f0 fs].
  - inversion E; subst. rewrite !firstn_nil. cbn [map]. rewrite app_nil_r. constructor. reflexivity.
  - remember (f0 :: fs) as F eqn:EF. unfold with_fixed_colors in E. rewrite EF in E at 1. cbv zeta in E.
    assert (H : exists p1, p1 = p ++ map (fun c => (c, 0)) (firstn (Nat.min (length F) m - length p) F) /\ foldM place_fixed (firstn (length p1) (enumerate F)) p1 = Ok p').
    { destruct (Nat.ltb_spec (length p) (Nat.min (length F) m)) as [H|H].
      - unfold pal_extend in E. destruct (Nat.leb _ MAX_COLORS); [|discriminate]. cbn [bind] in E. eexists. split; [reflexivity|exact E].
      - cbn [bind] in E. exists p. split; [|exact E]. replace (Nat.min (length F) m - length p)%nat with 0%nat by lia. cbn. rewrite app_nil_r. reflexivity. }
    destruct H as (p1 & -> & H). clear E. set (p1 := p ++ _) in *. rewrite firstn_enumerate in H.
    assert (LE : length p1 = Nat.max (length p) (Nat.min (length F) m)).
    { unfold p1. rewrite app_length, map_length, firstn_length. lia. }
    rewrite (firstn_all_len F (length p1) m) in H by lia.
    apply place_all in H; [|cbn [plus]; rewrite firstn_length; lia]. exact (proj2 H).
Qed.
End E.
