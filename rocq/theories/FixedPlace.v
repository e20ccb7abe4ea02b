(** Placing fixed colours that the palette already has only reorders it, when
    the distance tells them from the other entries; for any arithmetic. *)
From Verif Require Import Base BaseFacts Arith Pal Hist Nearest SearchFacts PalFacts.
From Coq Require Import Permutation.
Open Scope nat_scope.

Lemma min_by_own {T} (cmp : T -> T -> comparison) (own other : T -> Prop) l a :
  (forall x y, own x -> other y -> cmp x y <> Gt /\ cmp y x = Gt) ->
  Forall (fun x => own x \/ other x) l -> Exists own l -> min_by cmp l = Some a -> own a.
Proof.
  intros H F E M. destruct l as [|b l]; cbn [min_by] in M; [discriminate|]. injection M as <-.
  apply Forall_cons_iff in F as [Fb F]. assert (E' : own b \/ Exists own l) by (inversion E; auto). clear E.
  revert b Fb E'. induction F as [|y l Fy F IH]; intros b Fb E'; cbn [fold_left].
  - destruct E' as [|X]; auto. inversion X.
  - destruct Fy as [Oy|Ty].
    + apply IH; [destruct (cmp b y); auto|]. left. destruct Fb as [Ob|Tb]; [destruct (cmp b y); auto|]. rewrite (proj2 (H y b Oy Tb)). auto.
    + apply IH; [destruct (cmp b y); auto|].
      destruct E' as [Ob|X]; [left; destruct (H b y Ob Ty) as [N _]; destruct (cmp b y); auto; contradiction|].
      inversion X as [? ? Oy|? ? X']; subst; [|auto]. left. destruct Fb as [Ob|Tb]; [destruct (cmp b y); auto|]. rewrite (proj2 (H y b Oy Tb)). auto.
Qed.

Section FixedPlace.
Context {A : Arith}.
Lemma fcmp_of (x y : f32) : (x <f y) = true -> (y <f x) = false -> fcmp x y <> Gt /\ fcmp y x = Gt.
Proof. intros L N. unfold fcmp. rewrite L, N. split; [discriminate|reflexivity]. Qed.
(** The distance tells [f] from the other colours of [p]. *)
Definition stands_out (p : palf) (f : px) : Prop :=
  Forall (fun k => k = f \/ fcmp (diff f f) (diff k f) <> Gt /\ fcmp (diff k f) (diff f f) = Gt) (colors_of p).

Lemma stands_out_perm (p p' : palf) f : Permutation (colors_of p) (colors_of p') -> stands_out p f -> stands_out p' f.
Proof. intros P F. eapply Permutation_Forall; eauto. Qed.

Lemma place_one (p : palf) i c p' : stands_out p c -> In c (skipn i (colors_of p)) -> place_fixed p (i, c) = Ok p' ->
  Permutation (colors_of p) (colors_of p').
Proof.
  intros SO IN E. unfold place_fixed in E.
  destruct (min_by _ (skipn i (enumerate (colors_of p)))) as [[j q]|] eqn:M; [|discriminate]. cbn [ok_or_panic bind fst] in E.
  assert (Q : q = c).
  { apply (min_by_own _ (fun ic : nat * px => snd ic = c)
      (fun ic => fcmp (diff c c) (diff (snd ic) c) <> Gt /\ fcmp (diff (snd ic) c) (diff c c) = Gt)) in M; auto.
    - intros x y -> H. exact H.
    - apply Forall_forall. intros [j' k] Hk. apply In_nth_error in Hk as (m & Hm). rewrite nth_error_skipn in Hm. apply nth_error_In in Hm.
      apply In_enumerate in Hm. unfold stands_out in SO. rewrite Forall_forall in SO. apply (SO k). eapply nth_error_In; eauto.
    - apply In_nth_error in IN as (m & Hm). rewrite nth_error_skipn in Hm. apply Exists_exists. exists (i + m, c). split; auto.
      apply (nth_error_In _ m). rewrite nth_error_skipn, nth_error_enumerate, Hm. reflexivity. }
  subst q. apply min_by_in in M. apply In_nth_error in M as (m & Hm). rewrite nth_error_skipn, nth_error_enumerate in Hm.
  destruct (nth_error (colors_of p) (i + m)) as [c'|] eqn:N; [|discriminate]. cbn in Hm. assert (j = i + m /\ c' = c) as [-> ->] by (split; congruence). clear Hm.
  destruct (swap p i (i + m)) as [p1| |] eqn:ES; try discriminate. cbn [bind] in E.
  destruct (idx p1 i) as [e| |] eqn:EI; try discriminate. cbn [bind] in E. unfold pal_set in E. apply set_idx_ok in E as [L ->].
  assert (NE : nth_error p1 i = Some e). { apply idx_ok in EI. exact EI. }
  assert (CE : fst e = c).
  { pose proof (swap_nth _ _ _ _ i ES) as SN. unfold colors_of in N. rewrite nth_error_map in N. destruct (nth_error p (i + m)) as [b|] eqn:Nb; [|discriminate].
    cbn in N. revert SN. destruct (Nat.eqb_spec i (i + m)) as [Q|Q]; intros SN.
    - rewrite <- Q in Nb. congruence.
    - rewrite Nat.eqb_refl in SN. congruence. }
  assert (CO : colors_of (upd p1 i (c, pop_to_fixed (snd e))) = colors_of p1).
  { unfold colors_of. apply list_eq_nth_error. intros k. rewrite !nth_error_map. destruct (Nat.eq_dec i k) as [<-|D].
    - rewrite nth_error_upd_eq by auto. rewrite NE. cbn. congruence.
    - rewrite nth_error_upd_neq by auto. reflexivity. }
  rewrite CO. unfold colors_of. apply Permutation_map. eapply swap_perm; eauto.
Qed.

Lemma place_many fixed : NoDup fixed -> forall (p : palf) k p', k <= length fixed -> length fixed <= length p -> Forall (stands_out p) fixed -> incl fixed (colors_of p) ->
  foldM place_fixed (firstn k (enumerate fixed)) p = Ok p' -> Permutation (colors_of p) (colors_of p').
Proof.
  intros ND p k. induction k as [|k IH]; intros p' Lk LP SO IN E.
  - cbn in E. injection E as <-. reflexivity.
  - destruct (nth_error fixed k) as [c|] eqn:Nk; [|apply nth_error_None in Nk; lia].
    assert (S : firstn (S k) (enumerate fixed) = firstn k (enumerate fixed) ++ [(k, c)]).
    { assert (X : nth_error (enumerate fixed) k = Some (k, c)) by (rewrite nth_error_enumerate, Nk; reflexivity).
      clear - X. revert X. generalize (k, c). generalize (enumerate fixed). intros l x. revert l.
      induction k as [|k IH]; intros [|y l] X; cbn in X; try discriminate; [injection X as <-; reflexivity|]. change (y :: firstn (S k) l = y :: (firstn k l ++ [x])). f_equal. apply IH. exact X. }
    rewrite S, foldM_app in E. destruct (place_all_ok fixed p k ltac:(lia)) as (p1 & E1 & L1 & F1).
    rewrite E1 in E. cbn [bind foldM] in E. destruct (place_fixed p1 (k, c)) as [p2| |] eqn:E2; try discriminate. cbn [bind] in E. injection E as <-.
    pose proof (IH p1 ltac:(lia) LP SO IN E1) as P1. etransitivity; [exact P1|]. eapply place_one; [| |exact E2].
    + eapply stands_out_perm; [exact P1|]. rewrite Forall_forall in SO. apply SO. eapply nth_error_In; eauto.
    + pose proof (IN c (nth_error_In _ _ Nk)) as Hc. apply (Permutation_in _ P1) in Hc. apply In_nth_error in Hc as (j & Hj).
      destruct (Nat.lt_ge_cases j k) as [Lj|Lj].
      * exfalso. destruct (nth_error fixed j) as [d|] eqn:Nj; [|apply nth_error_None in Nj; lia].
        destruct (F1 j d Lj Nj) as (w & W). unfold colors_of in Hj. rewrite nth_error_map, W in Hj. cbn in Hj. assert (d = c) by congruence. subst d.
        assert (j = k); [|lia]. apply (proj1 (NoDup_nth_error fixed) ND); [lia|congruence].
      * apply (nth_error_In _ (j - k)). rewrite nth_error_skipn. replace (k + (j - k)) with j by lia. exact Hj.
Qed.
Lemma with_fixed_perm (p p' : palf) m fixed : NoDup fixed -> Forall (stands_out p) fixed -> incl fixed (colors_of p) ->
  with_fixed_colors p m fixed = Ok p' -> Permutation (colors_of p) (colors_of p').
Proof.
  intros ND SO IN E. assert (LF : length fixed <= length p).
  { pose proof (NoDup_incl_length ND IN) as X. unfold colors_of in X. rewrite map_length in X. exact X. }
  unfold with_fixed_colors in E. destruct fixed as [|f fs]; [injection E as <-; reflexivity|]. set (fixed := f :: fs) in *. cbv zeta in E.
  destruct (Nat.ltb_spec (length p) (Nat.min (length fixed) m)); [lia|]. cbn [bind] in E.
  rewrite firstn_all2 in E by (rewrite enumerate_length; lia).
  eapply (place_many fixed ND p (length fixed)); eauto. rewrite firstn_all2 by (rewrite enumerate_length; lia). exact E.
Qed.
End FixedPlace.
