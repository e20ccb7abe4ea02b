(** The distance a nearest-colour search reports is the distance to the
    colour it returns; for any arithmetic. *)
From Verif Require Import Base BaseFacts Arith Pal Nearest SearchFacts.
Open Scope nat_scope.

Section NearFacts.
Context {A : Arith}.

(** Indexes and colours stored in the tree. *)
Fixpoint tree_pairs (n : node) : list (nat * px) :=
  match n with
  | Leaf vp i es => (i, vp) :: es
  | Inner vp i _ _ l r => (i, vp) :: tree_pairs l ++ tree_pairs r
  end.
Definition has_color (p : palf) (ic : nat * px) : Prop := nth_error (colors_of p) (fst ic) = Some (snd ic).

Lemma pal_color_has p i : i < length p -> has_color p (i, pal_color p i).
Proof.
  intros H. unfold has_color, pal_color, colors_of. cbn [fst snd]. rewrite nth_error_map.
  apply nth_error_Some in H. destruct (nth_error p i); [auto|congruence].
Qed.
Lemma create_node_pairs fuel p : forall is, is <> [] -> Forall (fun i => i < length p) is -> Forall (has_color p) (tree_pairs (create_node fuel p is)).
Proof.
  induction fuel as [|f IH]; intros is NE F.
  - destruct is as [|a [|b l]]; [congruence|cbn; constructor; auto; apply pal_color_has; inversion F; auto|].
    cbn [create_node]. pose proof (swap_front_perm (a :: b :: l) (most_popular p (a :: b :: l))) as P.
    destruct (swap_front (a :: b :: l) (most_popular p (a :: b :: l))) as [|ref rest] eqn:E.
    + apply Permutation_length in P. discriminate.
    + eapply Permutation_Forall in F; [|exact P]. apply Forall_cons_iff in F as [F1 F2].
      cbn [tree_pairs]. constructor; [apply pal_color_has; auto|]. apply Forall_map.
      eapply Permutation_Forall; [apply sort_by_perm|]. eapply Forall_impl; [|exact F2]. intros i Hi. apply pal_color_has; auto.
  - destruct is as [|a [|b l]]; [congruence|cbn; constructor; auto; apply pal_color_has; inversion F; auto|].
    cbn [create_node]. pose proof (swap_front_perm (a :: b :: l) (most_popular p (a :: b :: l))) as P.
    destruct (swap_front (a :: b :: l) (most_popular p (a :: b :: l))) as [|ref rest] eqn:E.
    + apply Permutation_length in P. discriminate.
    + eapply Permutation_Forall in F; [|exact P]. apply Forall_cons_iff in F as [F1 F2].
      set (srt := sort_by _ rest). assert (Ps : Permutation rest srt) by apply sort_by_perm.
      eapply Permutation_Forall in F2; [|exact Ps].
      destruct (Nat.leb_spec (length srt) LEAF_MAX_SIZE) as [Q|Q].
      * cbn [tree_pairs]. constructor; [apply pal_color_has; auto|]. apply Forall_map.
        eapply Forall_impl; [|exact F2]. intros i Hi. apply pal_color_has; auto.
      * unfold LEAF_MAX_SIZE in Q. cbn [tree_pairs]. constructor; [apply pal_color_has; auto|].
        assert (1 <= length srt / 2) by (apply Nat.div_le_lower_bound; lia).
        assert (length srt / 2 < length srt) by (apply Nat.div_lt; lia).
        assert (LF : length (firstn (length srt / 2) srt) = length srt / 2) by (rewrite firstn_length; lia).
        assert (LS : length (skipn (length srt / 2) srt) = length srt - length srt / 2) by (rewrite skipn_length; lia).
        apply Forall_app. rewrite <- (firstn_skipn (length srt / 2) srt) in F2. apply Forall_app in F2 as [Fa Fb].
        split; apply IH; auto; intros Z0; rewrite Z0 in *; cbn [length] in *; lia.
Qed.

(** What the visitor holds is a palette colour at the distance it says. *)
Definition dist_to (c pc : px) (d : f32) : Prop := d = diff c pc \/ d = diff pc c.
Definition holds (p : palf) (c : px) (v : visitor) : Prop :=
  exists pc, nth_error (colors_of p) (v_idx v) = Some pc /\ dist_to c pc (v_dsq v) /\ v_dist v = fsqrt (v_dsq v).
Lemma visit_holds p c v i pc : holds p c v -> has_color p (i, pc) -> holds p c (visit v (fsqrt (diff pc c)) (diff pc c) i).
Proof.
  intros H C. unfold visit. destruct (_ && _)%bool; auto. exists pc. cbn. split; [exact C|]. split; [right; auto|auto].
Qed.
Lemma search_node_holds p c : forall t v, Forall (has_color p) (tree_pairs t) -> holds p c v -> holds p c (search_node t c v).
Proof.
  induction t as [vp i es|vp i r rs l IHl r0 IHr]; intros v F H; cbn [tree_pairs search_node] in *; apply Forall_cons_iff in F as [F1 F2].
  - assert (G : forall es v, Forall (has_color p) es -> holds p c v ->
        holds p c (fold_left (fun v (e : nat * px) => let d := diff (snd e) c in visit v (fsqrt d) d (fst e)) es v)).
    { clear. induction es as [|[j q] es IH]; intros v F H; cbn [fold_left] in *; auto. apply Forall_cons_iff in F as [F1 F2].
      apply IH; auto. apply visit_holds; auto. }
    apply G; auto. apply visit_holds; auto.
  - apply Forall_app in F2 as [Fl Fr]. destruct (diff vp c <f rs); cbv zeta.
    + destruct (_ <=f _); [apply IHr; auto|]; apply IHl; auto; apply visit_holds; auto.
    + destruct (_ <=f _); [apply IHl; auto|]; apply IHr; auto; apply visit_holds; auto.
Qed.
(** The visitor is unchanged or holds a palette colour. *)
Lemma search_node_found p c : forall t v, Forall (has_color p) (tree_pairs t) ->
  search_node t c v = v \/
  exists pc, nth_error (colors_of p) (v_idx (search_node t c v)) = Some pc /\ dist_to c pc (v_dsq (search_node t c v)).
Proof.
  assert (VF : forall v i pc, has_color p (i, pc) -> let v' := visit v (fsqrt (diff pc c)) (diff pc c) i in
     v' = v \/ exists q, nth_error (colors_of p) (v_idx v') = Some q /\ dist_to c q (v_dsq v')).
  { intros v i pc H. cbv zeta. unfold visit. destruct (_ && _)%bool; auto. right. exists pc. split; [exact H|right; auto]. }
  assert (G : forall es v, Forall (has_color p) es ->
        let v' := fold_left (fun v (e : nat * px) => let d := diff (snd e) c in visit v (fsqrt d) d (fst e)) es v in
        v' = v \/ exists q, nth_error (colors_of p) (v_idx v') = Some q /\ dist_to c q (v_dsq v')).
  { induction es as [|[j q] es IH]; intros v F; cbv zeta; cbn [fold_left]; auto. apply Forall_cons_iff in F as [F1 F2].
    destruct (IH (visit v (fsqrt (diff q c)) (diff q c) j) F2) as [E|E]; cbv zeta in *; cbn [fst snd]; auto. rewrite E. apply VF. auto. }
  induction t as [vp i es|vp i r rs l IHl r0 IHr]; intros v F; cbn [tree_pairs search_node] in *; apply Forall_cons_iff in F as [F1 F2].
  - cbv zeta. destruct (G es (visit v (fsqrt (diff vp c)) (diff vp c) i) F2) as [E|E]; auto. rewrite E. apply VF. auto.
  - apply Forall_app in F2 as [Fl Fr]. cbv zeta. set (v0 := visit v _ _ i).
    assert (H0 : v0 = v \/ exists q, nth_error (colors_of p) (v_idx v0) = Some q /\ dist_to c q (v_dsq v0)) by (apply VF; auto).
    assert (K : forall t1 t2, (forall v, search_node t1 c v = v \/ exists pc, nth_error (colors_of p) (v_idx (search_node t1 c v)) = Some pc /\ dist_to c pc (v_dsq (search_node t1 c v))) ->
       (forall v, search_node t2 c v = v \/ exists pc, nth_error (colors_of p) (v_idx (search_node t2 c v)) = Some pc /\ dist_to c pc (v_dsq (search_node t2 c v))) ->
       forall b : bool, let v' := (if b then search_node t2 c (search_node t1 c v0) else search_node t1 c v0) in
       v' = v \/ exists pc, nth_error (colors_of p) (v_idx v') = Some pc /\ dist_to c pc (v_dsq v')).
    { intros t1 t2 K1 K2 b. cbv zeta. assert (H1 : search_node t1 c v0 = v \/ exists pc, nth_error (colors_of p) (v_idx (search_node t1 c v0)) = Some pc /\ dist_to c pc (v_dsq (search_node t1 c v0))).
      { destruct (K1 v0) as [E|E]; auto. rewrite E. auto. }
      destruct b; auto. destruct (K2 (search_node t1 c v0)) as [E|E]; auto. rewrite E. auto. }
    destruct (diff vp c <f rs); apply K; auto.
Qed.
Lemma nearest_new_tree p n : nearest_new p = Ok n -> n_root n = create_node (length p) p (seq 0 (length p)) /\ n_pal n = colors_of p /\
  Forall (has_color p) (tree_pairs (n_root n)).
Proof.
  intros H. destruct (nearest_new_inv p n H) as (L & _ & E).
  assert (R : n_root n = create_node (length p) p (seq 0 (length p))).
  { unfold nearest_new in H. destruct (Nat.ltb_spec 256 (length p)); [discriminate|]. destruct p as [|e p]; [discriminate|].
    injection H as <-. reflexivity. }
  split; auto. split; auto. rewrite R. apply create_node_pairs.
  - intros Z0. apply (f_equal (@length _)) in Z0. rewrite seq_length in Z0. cbn in Z0. lia.
  - apply Forall_forall. intros x Hx. apply in_seq in Hx. lia.
Qed.
Lemma search_distance p n c g : nearest_new p = Ok n -> g < length p ->
  exists pc, nth_error (colors_of p) (fst (search n c g)) = Some pc /\ dist_to c pc (snd (search n c g)).
Proof.
  intros H G. destruct (nearest_new_tree p n H) as (_ & P & T). unfold search. rewrite P.
  destruct (nth_error (colors_of p) g) as [pc|] eqn:E.
  2:{ apply nth_error_None in E. unfold colors_of in E. rewrite map_length in E. lia. }
  cbv zeta. destruct (_ <f _); cbn [fst snd]; [exists pc; split; [auto|left; auto]|].
  destruct (search_node_holds p c (n_root n) (Visitor (fsqrt (diff c pc)) (diff c pc) g None) T) as (q & Q & D & _); eauto.
  exists pc. cbn. split; auto. split; [left; auto|auto].
Qed.
End NearFacts.
