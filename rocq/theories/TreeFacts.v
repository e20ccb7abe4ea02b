(** Shape of the vantage-point tree for any ordered arithmetic: near colours
    are at most at the radius, far colours at least; and a search started
    anywhere finds a colour of the tree that is identical to the needle. *)
From Verif Require Import Base BaseFacts Arith Order Pal Nearest SearchFacts NearFacts PalFacts.
From Coq Require Import Sorting.Sorted.
Open Scope nat_scope.

Section Tree.
Context {A : Arith}.

Lemma tree_indexes_pairs t : tree_indexes t = map fst (tree_pairs t).
Proof. induction t; cbn [tree_indexes tree_pairs map]; [auto|]. rewrite map_app, IHt1, IHt2. auto. Qed.
Lemma has_color_eq (p : palf) ic : has_color p ic <-> fst ic < length p /\ snd ic = pal_color p (fst ic).
Proof.
  unfold has_color, pal_color, colors_of. rewrite nth_error_map. destruct (nth_error p (fst ic)) as [e|] eqn:E; cbn [option_map].
  - split; [intros H; inversion H; split; auto; apply nth_error_Some; congruence|]. intros [_ ->]. auto.
  - split; [discriminate|]. intros [H _]. apply nth_error_Some in H. congruence.
Qed.
(** Exactly the given entries. *)
Lemma create_node_in fuel p is : is <> [] -> length is <= fuel -> Forall (fun i => i < length p) is ->
  forall ic, In ic (tree_pairs (create_node fuel p is)) <-> In (fst ic) is /\ snd ic = pal_color p (fst ic).
Proof.
  intros NE L F ic. pose proof (create_node_pairs fuel p is NE F) as C. pose proof (create_node_indexes fuel p is NE L) as P.
  rewrite tree_indexes_pairs in P. rewrite Forall_forall in C. split.
  - intros H. split; [eapply Permutation_in; [symmetry; exact P|apply in_map; auto]|]. apply has_color_eq. auto.
  - intros [H1 H2]. eapply Permutation_in in H1; [|exact P]. apply in_map_iff in H1 as (ic' & E & H). 
    assert (ic' = ic); [|subst; auto]. specialize (C _ H). apply has_color_eq in C as [_ C]. destruct ic, ic'; cbn in *. congruence.
Qed.
Lemma pal_diff_eq p vp i : i < length p -> pal_diff p vp i = diff vp (pal_color p i).
Proof. intros H. unfold pal_diff, pal_color. apply nth_error_Some in H. destruct (nth_error p i); [auto|congruence]. Qed.

Section Ordered.
Context {O : OrdLaws A}.
Fixpoint split_ok (t : node) : Prop :=
  match t with
  | Leaf _ _ _ => True
  | Inner vp _ rad rsq l r =>
      rad = fsqrt rsq /\ Forall (fun ic => (diff vp (snd ic) <=f rsq) = true) (tree_pairs l) /\
      Forall (fun ic => (rsq <=f diff vp (snd ic)) = true) (tree_pairs r) /\ split_ok l /\ split_ok r
  end.
(** All distances inside the palette are comparable (not NaN). *)
Definition clear_dists (p : palf) : Prop :=
  forall i j, i < length p -> j < length p ->
  (diff (pal_color p i) (pal_color p j) <=f diff (pal_color p i) (pal_color p j)) = true.

Lemma create_node_split p : clear_dists p -> forall fuel is, is <> [] -> length is <= fuel -> Forall (fun i => i < length p) is ->
  split_ok (create_node fuel p is).
Proof.
  intros CD. induction fuel as [|f IH]; intros is NE L F; [destruct is; [congruence|cbn in L; lia]|].
  destruct is as [|a [|b l]]; [congruence|cbn; auto|].
  cbn [create_node]. pose proof (swap_front_perm (a :: b :: l) (most_popular p (a :: b :: l))) as P.
  destruct (swap_front (a :: b :: l) (most_popular p (a :: b :: l))) as [|ref rest] eqn:E; [cbn; auto|].
  eapply Permutation_Forall in F; [|exact P]. apply Forall_cons_iff in F as [F1 F2]. apply Permutation_length in P. cbn [length] in P, L.
  set (vp := pal_color p ref). set (cmp := fun x y : nat => fcmp (pal_diff p vp x) (pal_diff p vp y)).
  set (srt := sort_by cmp rest). assert (Ps : Permutation rest srt) by apply sort_by_perm.
  assert (Ls : length srt = length rest) by (symmetry; apply Permutation_length; auto).
  destruct (Nat.leb_spec (length srt) LEAF_MAX_SIZE) as [Q|Q]; [cbn; auto|]. unfold LEAF_MAX_SIZE in Q.
  assert (R : forall i, i < length p -> (pal_diff p vp i <=f pal_diff p vp i) = true).
  { intros i Hi. rewrite pal_diff_eq by auto. apply CD; auto. }
  assert (S : StronglySorted (fun x y => (pal_diff p vp x <=f pal_diff p vp y) = true) srt).
  { assert (S1 : StronglySorted (fun x y => cmp x y <> Gt) srt).
    { apply (sort_by_on cmp (fun i => i < length p)); auto.
      - intros x y z X Y Z Q1 Q2. unfold cmp in *. apply fcmp_le; auto. apply (fle_trans _ (pal_diff p vp y)); apply fcmp_le; auto.
      - intros x y X Y Q1. unfold cmp in *. rewrite <- fcmp_opp, Q1. discriminate. }
    eapply Permutation_Forall in F2; [|exact Ps]. clear -S1 F2 R O. induction S1 as [|x m S1 IHs H]; constructor.
    - apply IHs. inversion F2; auto.
    - apply Forall_cons_iff in F2 as [X F2]. rewrite Forall_forall in *. intros y Hy. apply fcmp_le; auto. apply H; auto. }
  eapply Permutation_Forall in F2; [|exact Ps].
  set (k := length srt / 2).
  assert (1 <= k) by (apply Nat.div_le_lower_bound; lia).
  assert (k < length srt) by (apply Nat.div_lt; lia).
  assert (LF : length (firstn k srt) = k) by (rewrite firstn_length; lia).
  assert (LS : length (skipn k srt) = length srt - k) by (rewrite skipn_length; lia).
  rewrite <- (firstn_skipn k srt) in S, F2. apply Forall_app in F2 as [Fa Fb].
  destruct (skipn k srt) as [|m far] eqn:Ef; [cbn [length] in LS; lia|].
  assert (N1 : firstn k srt <> []) by (intros Z0; rewrite Z0 in LF; cbn [length] in LF; lia).
  cbn [split_ok]. split; auto.
  assert (SS : Forall (fun x => (pal_diff p vp x <=f pal_diff p vp m) = true) (firstn k srt) /\
               Forall (fun x => (pal_diff p vp m <=f pal_diff p vp x) = true) (m :: far)).
  { clear -S R Fb. split.
    - revert S. generalize (firstn k srt). intros nr. induction nr as [|x nr IH]; intros S; constructor.
      + cbn in S. apply StronglySorted_inv in S as [_ S]. rewrite Forall_forall in S. apply S. apply in_or_app. right. left. auto.
      + cbn in S. apply StronglySorted_inv in S as [S _]. auto.
    - constructor; [apply R; inversion Fb; auto|].
      revert S. generalize (firstn k srt). intros nr. induction nr as [|x nr IH]; intros S; cbn in S; apply StronglySorted_inv in S as [S1 S2]; auto. }
  destruct SS as [SS1 SS2]. rewrite Forall_forall in SS1, SS2, Fa. pose proof Fb as Fb'. rewrite Forall_forall in Fb'.
  split; [|split; [|split]].
  - apply Forall_forall. intros ic H1. apply create_node_in in H1 as [H1 H2]; auto; [|lia|apply Forall_forall; auto].
    rewrite H2, <- pal_diff_eq; auto.
  - apply Forall_forall. intros ic H1. apply create_node_in in H1 as [H1 H2]; auto; [|congruence|cbn [length] in *; lia].
    rewrite H2, <- pal_diff_eq; auto.
  - apply IH; auto; [lia|apply Forall_forall; auto].
  - apply IH; auto; [congruence|cbn [length] in *; lia].
Qed.
Lemma nearest_new_split p n : clear_dists p -> nearest_new p = Ok n -> split_ok (n_root n) /\
  (forall ic, In ic (tree_pairs (n_root n)) <-> has_color p ic).
Proof.
  intros CD H. destruct (nearest_new_tree p n H) as (E & _ & _). destruct (nearest_new_inv p n H) as (L & _). rewrite E.
  assert (F : Forall (fun i => i < length p) (seq 0 (length p))) by (apply Forall_forall; intros x Hx; apply in_seq in Hx; lia).
  assert (NE : seq 0 (length p) <> []) by (destruct p; [cbn in L; lia|discriminate]).
  split; [apply create_node_split; auto; rewrite seq_length; auto|].
  intros ic. rewrite create_node_in, has_color_eq; auto; [|rewrite seq_length; auto]. rewrite in_seq. intuition lia.
Qed.
End Ordered.
End Tree.
