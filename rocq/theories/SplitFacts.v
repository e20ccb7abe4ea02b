(** Splitting a box leaves both halves non-empty, given that comparing with
    half of the total weight never fails for the whole slice ([P]); for any
    arithmetic. *)
From Verif Require Import Base BaseFacts Arith Pal World Attr Hist MedianCut MedianFacts.
From Coq Require Import ZifyBool.
Open Scope nat_scope.

Definition wts {A : Arith} (l : list hitem) : list f64 := map (fun c => f2d (h_mcw c)) l.

Section SplitFacts.
Context {A : Arith}.
Variable u : unspec.
Variable U : unspec_ok u.
Variable P : nat -> list f64 -> f64 -> Prop.
Hypothesis P_perm : forall k l l' h, Permutation l l' -> P k l h -> P k l' h.
Hypothesis P_step : forall k a b h, a <> [] -> P k (a ++ b) h -> (h <=d dsum a) = false -> b <> [] /\ P (S k) b (h -d dsum a).

Lemma sort_half_loop_edge fuel : forall k base half bi b i, 0 < length base <= fuel -> P k (wts base) half ->
  sort_half_loop u fuel base half bi = Ok (b, i) -> i < bi + length base.
Proof.
  induction fuel as [|f IH]; intros k base half bi b i H HP E; [discriminate|]. cbn [sort_half_loop] in E.
  destruct (qsort_partition_ok u U base) as (b1 & part & E1 & PM & Hp & _); [lia|]. rewrite E1 in E. cbn [bind] in E.
  pose proof (Permutation_length PM) as L. rewrite <- L in E.
  destruct (Nat.ltb_spec (length base) (part + 1)); [lia|].
  assert (LF : length (firstn (part + 1) b1) = part + 1) by (rewrite firstn_length; lia).
  assert (HP1 : P k (wts b1) half) by (eapply P_perm; [apply Permutation_map; exact PM|auto]).
  destruct (dle half _) eqn:D.
  - destruct (firstn part (firstn (part + 1) b1)) as [|x l'] eqn:F.
    + inversion E; subst. lia.
    + assert (L3 : length (x :: l') = part) by (rewrite <- F, firstn_length, LF; lia).
      destruct (sort_half_loop_ok u U f (x :: l') half bi) as (b3 & i3 & E3 & _ & B3); [cbn [length] in *; lia|].
      rewrite E3 in E. cbn [bind] in E. inversion E; subst. lia.
  - rewrite <- (firstn_skipn (part + 1) b1) in HP1. unfold wts in HP1. rewrite map_app in HP1.
    apply P_step in HP1 as [NE HP2]; auto.
    2:{ intros Q. apply (f_equal (@length _)) in Q. rewrite map_length, LF in Q. cbn in Q. lia. }
    assert (LS : length (skipn (part + 1) b1) = length base - (part + 1)) by (rewrite skipn_length; lia).
    destruct (skipn (part + 1) b1) as [|x r] eqn:F; [contradiction NE; auto|].
    apply bind_ok in E as ([b2 i2] & E2 & E). inversion E; subst.
    apply (IH (S k)) in E2; [|cbn [length] in *; lia|exact HP2]. cbn [length] in *. lia.
Qed.
Lemma sort_half_edge base half b i : 0 < length base -> P 0 (wts base) half -> sort_half u base half = Ok (b, i) -> i < length base.
Proof.
  intros H HP E. destruct base as [|x l]; [cbn in H; lia|]. unfold sort_half in E.
  apply (sort_half_loop_edge _ 0) in E; auto.
Qed.

(** The boxes for which the condition holds. *)
Variable Fair : list (px * f32 * f32) -> Prop.
Hypothesis Fair_parts : forall cs a b, Permutation cs (a ++ b) -> Fair cs -> Fair a /\ Fair b.
Hypothesis Fair_P : forall cs l mid, Fair cs -> 2 <= length cs -> Permutation cs (map core l) -> In mid (map (fun c => fst (fst c)) cs) ->
  Forall (fun c => h_mcw c = color_weight mid c) l -> P 0 (wts l) (dsum (wts l) /d dofZ 2).

Lemma box_split_nonempty b others b1 b2 : Fair (map core (b_items b)) -> 2 <= length (b_items b) ->
  box_split u b others = Ok [b1; b2] -> 0 < length (b_items b1) /\ 0 < length (b_items b2).
Proof.
  intros F L E. unfold box_split in E.
  destruct (prepare_weights_ok u U (prepare_sort (b_var b) (b_items b))) as (l1 & t & E1 & P1 & L1 & T & mid & M & W).
  { unfold prepare_sort. rewrite map_length. lia. }
  rewrite E1 in E. cbn [bind] in E. clear E1. unfold prepare_sort in L1. rewrite map_length in L1.
  destruct (sort_half_ok u U l1 (t /d dofZ 2)) as (l2 & edge & E2 & P2 & B2). rewrite E2 in E. cbn [bind] in E. cbv zeta in E.
  rewrite core_prepare in P1.
  assert (Q : edge < length l1).
  { eapply sort_half_edge; [lia| |exact E2]. subst t. apply Fair_P with (cs := map core (b_items b)) (mid := mid); auto.
    - rewrite map_length. auto.
    - rewrite map_map. unfold core. cbn [fst]. unfold prepare_sort in M. rewrite map_map in M. exact M. }
  pose proof (Permutation_length P2) as L2.
  destruct (Nat.ltb_spec (length l2) (Nat.max edge 1)); [lia|]. inversion E; subst.
  rewrite !(proj1 (box_new_s_items _ _ _ _)). rewrite firstn_length, skipn_length. lia.
Qed.

Definition full (bs : list mbox) : Prop := Forall (fun b => 0 < length (b_items b) /\ Fair (map core (b_items b))) bs.
Lemma full_items a b : map b_items a = map b_items b -> full a -> full b.
Proof.
  intros E F. unfold full in *. rewrite Forall_forall in *. intros x Hx. apply (in_map b_items) in Hx. rewrite <- E in Hx.
  apply in_map_iff in Hx as (y & Q & Hy). rewrite <- Q. auto.
Qed.
Lemma cut_loop_full fuel target tw tm mm : forall bs bs', cut_loop u fuel target tw tm mm bs = Ok bs' -> full bs -> full bs'.
Proof.
  induction fuel as [|f IH]; intros bs bs' H T; cbn [cut_loop] in H.
  - destruct (Nat.ltb _ _); [discriminate|]. inversion H; subst; auto.
  - destruct (Nat.ltb _ _); [|inversion H; subst; auto].
    cbv zeta in H. destruct (take_best bs _) as [i|] eqn:E; [|inversion H; subst; auto].
    destruct (take_best_ok _ _ _ E) as (b & Nb & Lb).
    destruct (swap_remove_ok bs i) as (b' & rest & E1 & Nb' & PM); [apply nth_error_Some; congruence|].
    rewrite E1 in H. rewrite Nb in Nb'. inversion Nb'; subst b'. cbn [bind] in H.
    destruct (box_split_ok u U b rest) as (b1 & b2 & E2 & P2 & L1 & _); [lia|]. rewrite E2 in H. cbn [bind] in H.
    assert (T1 : full (b :: rest)) by (eapply Permutation_Forall; [exact PM|exact T]).
    apply Forall_cons_iff in T1 as [[_ FB] TR].
    destruct (box_split_nonempty _ _ _ _ FB Lb E2) as [N1 N2].
    destruct (Fair_parts _ _ _ P2 FB) as [F1 F2].
    assert (T2 : full (rest ++ [b1; b2])) by (apply Forall_app; split; auto; repeat constructor; auto).
    destruct (below_target (rest ++ [b1; b2]) tm tw) as [bs1 below] eqn:B.
    assert (T3 : full bs1).
    { pose proof (below_target_items (rest ++ [b1; b2]) tm tw) as [Q1 _]. rewrite B in Q1. cbn [fst] in *.
      eapply full_items; [symmetry; exact Q1|exact T2]. }
    destruct below; [inversion H; subst; auto|eauto].
Qed.

Lemma cluster_boxes_full cl : forall off items bs, Forall (fun c => fst c < snd c) cl -> Fair (map core items) -> cluster_boxes cl off items = Ok bs -> full bs.
Proof.
  induction cl as [|[b e] cl IH]; intros off items bs FC F H; cbn [cluster_boxes] in H; [inversion H; constructor|].
  apply Forall_cons_iff in FC as [FC1 FC2]. cbn [fst snd] in FC1.
  destruct (Nat.ltb_spec (length items) (e - b)); [discriminate|]. apply bind_ok in H as (r & H1 & H2). inversion H2; subst.
  destruct (Fair_parts (map core items) (map core (firstn (e - b) items)) (map core (skipn (e - b) items))) as [F1 F2]; auto.
  { rewrite <- map_app, firstn_skipn. auto. }
  constructor; [|eapply IH; eauto]. rewrite (proj1 (box_new_items _ _)). split; auto. rewrite firstn_length. lia.
Qed.
Lemma cutter_new_full h target bs : clusters_fit (hi_clusters h) (length (hi_items h)) -> 0 < length (hi_items h) -> Fair (map core (hi_items h)) ->
  cutter_new h target = Ok bs -> full bs.
Proof.
  intros [C _] L F H. unfold cutter_new in H. cbv zeta in H. destruct (Nat.leb _ _).
  - eapply cluster_boxes_full; [|exact F|exact H]. apply Forall_forall. intros c Hc. apply filter_In in Hc as [Hc N].
    rewrite Forall_forall in C. specialize (C c Hc). unfold nonempty_cluster in N. destruct (Nat.eqb_spec (fst c) (snd c)); [discriminate|]. lia.
  - inversion H; subst. constructor; [|constructor]. rewrite (proj1 (box_new_items _ _)). auto.
Qed.

(** Median cut as a whole: a partition of the histogram in non-empty groups. *)
Lemma mediancut_nonempty h target t m : clusters_fit (hi_clusters h) (length (hi_items h)) -> 0 < target <= 256 -> 0 < length (hi_items h) ->
  Fair (map core (hi_items h)) ->
  exists (p : palf) (h' : hint) (groups : list (list hitem)), mediancut u h target t m = Ok (p, h') /\ 1 <= length p <= target /\
    Permutation (map core (hi_items h)) (map core (hi_items h')) /\
    grouped p (hi_items h') groups /\ Forall (fun g => g <> []) groups.
Proof.
  intros C Ht Hi F. unfold mediancut.
  destruct (cutter_new_ok h target C ltac:(lia) Hi) as (bs & EC & Lb & I). rewrite EC. cbn [bind]. cbv zeta.
  destruct (cut_loop_ok u U target target (hi_total h) t (dmax m (quality_to_mse 20)) bs (map core (hi_items h))) as (bs' & EL & Hh & Lb'); [unfold holds; rewrite I; auto|lia|].
  rewrite EL. pose proof (cut_loop_full _ _ _ _ _ _ _ EL (cutter_new_full _ _ _ C Hi F EC)) as FB.
  cbn [bind]. rewrite into_palette_ok by lia. cbn [bind].
  eexists _, _, (map b_items (map mark (enumerate bs'))). split; [reflexivity|]. cbn [hi_items].
  rewrite map_length. split; [lia|]. split; [|split].
  - rewrite <- Hh. unfold enumerate. erewrite <- core_mark with (b := 0). apply Permutation_map. apply reassemble_perm.
  - split; [apply reassemble_perm|]. split; [rewrite !map_length, enumerate_length; auto|].
    intros k g. rewrite map_map, nth_error_map, nth_error_enumerate. destruct (nth_error bs' k) as [b|] eqn:N; [|discriminate].
    cbn [option_map]. intros H; inversion H; subst g; clear H. cbn [mark snd fst b_items]. split.
    + apply Forall_forall. intros c Hc. apply in_map_iff in Hc as (c0 & <- & _). apply likely_set.
      assert (k < length bs') by (apply nth_error_Some; congruence). lia.
    + exists (b_avg b). rewrite nth_error_map, N. cbn [option_map]. unfold box_entry. rewrite map_map. reflexivity.
  - rewrite map_map. apply Forall_map, Forall_forall. intros [k b] Hk. cbn [mark snd fst b_items].
    apply In_enumerate in Hk. apply nth_error_In in Hk. unfold full in FB. rewrite Forall_forall in FB. destruct (FB b Hk) as [LB _].
    destruct (b_items b); [cbn in LB; lia|discriminate].
Qed.
End SplitFacts.
