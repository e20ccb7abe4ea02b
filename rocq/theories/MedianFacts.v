(** Median cut: no panics, sizes, and the partition of the histogram into
    boxes; for any arithmetic. *)
From Verif Require Import Base BaseFacts Arith Pal World Attr Hist MedianCut.
From Coq Require Import ZifyBool Sorted.
Open Scope nat_scope.

Section MedianFacts.
Context {A : Arith}.
Variable u : unspec.
Variable U : unspec_ok u.

(** What identifies a histogram entry: its colour and weights.  Sorting keys
    and cached split weights are scratch. *)
Definition core (i : hitem) : px * f32 * f32 := (h_color i, h_adj i, h_perc i).

(** * The in-place partition *)
Lemma qs_inner_ok fuel pivot base l r : l <= r -> r < length base -> r - l <= fuel ->
  exists r', qs_inner fuel pivot base l r = Ok r' /\ l <= r' <= r /\
    (forall k x, r' < k <= r -> nth_error base k = Some x -> (h_tmp x <= pivot)%Z) /\
    (forall x, l < r' -> nth_error base r' = Some x -> (pivot < h_tmp x)%Z).
Proof.
  revert r. induction fuel as [|f IH]; intros r Hl Hr Hf; cbn [qs_inner].
  - destruct (Nat.ltb_spec l r); [lia|]. exists r. split; auto. split; [lia|]. split; intros; lia.
  - destruct (Nat.ltb_spec l r).
    + destruct (idx_lt base r Hr) as (x & E & N). rewrite E. cbn [bind].
      destruct (Z.leb_spec (h_tmp x) pivot).
      * destruct (IH (r - 1)) as (r' & E' & B & P1 & P2); try lia. exists r'. split; auto. split; [lia|]. split; auto.
        intros k y Hk Hy. destruct (Nat.eq_dec k r) as [->|]; [congruence|]. apply (P1 k); auto. lia.
      * exists r. split; auto. split; [lia|]. split; [intros; lia|]. intros y _ Hy. congruence.
    + exists r. split; auto. split; [lia|]. split; intros; lia.
Qed.

(** Entries at [1..l) are at least the pivot, those from [r] on at most. *)
Definition split_at (pivot : Z) (base : list hitem) (l r : nat) : Prop :=
  (forall k x, 1 <= k < l -> nth_error base k = Some x -> (pivot <= h_tmp x)%Z) /\
  (forall k x, r <= k -> nth_error base k = Some x -> (h_tmp x <= pivot)%Z).

Lemma qs_outer_ok fuel pivot : forall base l r, 1 <= l <= r -> r <= length base -> r - l <= fuel -> split_at pivot base l r ->
  exists base' l', qs_outer fuel pivot base l r = Ok (base', l') /\ Permutation base base' /\ l <= l' <= r /\
    nth_error base' 0 = nth_error base 0 /\ split_at pivot base' l' l'.
Proof.
  induction fuel as [|f IH]; intros base l r Hl Hr Hf HS; cbn [qs_outer].
  - destruct (Nat.ltb_spec l r); [lia|]. replace l with r in * by lia. eexists _, _. split; [reflexivity|]. split; [auto|]. split; [lia|]. split; auto.
  - destruct (Nat.ltb_spec l r) as [Hlr|].
    2:{ replace l with r in * by lia. eexists _, _. split; [reflexivity|]. split; [auto|]. split; [lia|]. split; auto. }
    destruct (idx_lt base l ltac:(lia)) as (x & E & N). rewrite E. cbn [bind]. destruct HS as [S1 S2].
    destruct (Z.leb_spec pivot (h_tmp x)).
    + destruct (IH base (l + 1) r) as (b' & l' & E' & P & B & Z0 & SS); try lia.
      { split; auto. intros k y Hk Hy. destruct (Nat.eq_dec k l) as [->|]; [congruence|]. apply (S1 k); auto; lia. }
      exists b', l'. split; auto. split; auto. split; [lia|]. auto.
    + destruct (qs_inner_ok (length base) pivot base l (r - 1)) as (r' & E1 & B1 & Q1 & Q2); try lia.
      rewrite E1. cbn [bind]. destruct (swap_lt base l r') as (b1 & E2); try lia. rewrite E2. cbn [bind].
      assert (SN := fun k => swap_nth _ _ _ _ k E2).
      assert (L1 := swap_length _ _ _ _ E2).
      destruct (IH b1 l r') as (b' & l' & E' & P & B & Z0 & SS); try lia.
      { split.
        - intros k y Hk Hy. rewrite SN in Hy.
          destruct (Nat.eqb_spec k l); [lia|]. destruct (Nat.eqb_spec k r'); [lia|]. apply (S1 k); auto; lia.
        - intros k y Hk Hy. rewrite SN in Hy.
          destruct (Nat.eqb_spec k r').
          + assert (nth_error base l = Some y) by (destruct (Nat.eqb_spec k l); congruence). replace y with x by congruence. lia.
          + destruct (Nat.eqb_spec k l); [lia|].
            destruct (le_lt_dec r k); [apply (S2 k); auto|apply (Q1 k); auto; lia]. }
      exists b', l'. split; auto. split; [etransitivity; [eapply swap_perm; eauto|auto]|]. split; [lia|]. split; auto.
      rewrite Z0, SN. destruct (Nat.eqb_spec 0 l); [lia|]. destruct (Nat.eqb_spec 0 r'); [lia|]. auto.
Qed.

Lemma qsort_pivot_ok base : 0 < length base -> exists p, qsort_pivot u base = Ok p /\ p < length base.
Proof.
  intros H. unfold qsort_pivot. cbv zeta. destruct (Nat.ltb_spec (length base) 32).
  - eexists; split; [reflexivity|]. apply Nat.div_lt; lia.
  - assert (length base / 2 < length base) by (apply Nat.div_lt; lia).
    destruct (idx_lt base 8 ltac:(lia)) as (a & -> & _). cbn [bind].
    destruct (idx_lt base (length base / 2) ltac:(lia)) as (b & -> & _). cbn [bind].
    destruct (idx_lt base (length base - 1) ltac:(lia)) as (c & -> & _). cbn [bind].
    eexists; split; [reflexivity|]. destruct (uo_med3 u U (h_tmp a) (h_tmp b) (h_tmp c)) as [M _].
    destruct (u_med3 u (h_tmp a) (h_tmp b) (h_tmp c)) as [|[|[|m]]]; cbn [nth]; lia.
Qed.

(** The partition is a permutation; everything before the returned position is
    at least, everything after it at most the entry there. *)
Definition parted (l : list hitem) (k : nat) : Prop :=
  exists p, nth_error l k = Some p /\
    Forall (fun x => (h_tmp p <= h_tmp x)%Z) (firstn k l) /\ Forall (fun x => (h_tmp x <= h_tmp p)%Z) (skipn (k + 1) l).

Lemma qsort_partition_ok base : 0 < length base ->
  exists b k, qsort_partition u base = Ok (b, k) /\ Permutation base b /\ k < length base /\ parted b k.
Proof.
  intros H. unfold qsort_partition. destruct (qsort_pivot_ok base H) as (p & -> & Hp). cbn [bind].
  destruct (swap_lt base p 0) as (b1 & E1); auto. rewrite E1. cbn [bind].
  pose proof (swap_length _ _ _ _ E1) as L1.
  destruct (idx_lt b1 0 ltac:(lia)) as (p0 & E2 & N0). rewrite E2. cbn [bind].
  destruct (qs_outer_ok (length base) (h_tmp p0) b1 1 (length base)) as (b2 & l & E3 & P & B & Z0 & SS); try lia.
  { split; [intros; lia|]. intros k x Hk Hx. assert (k < length b1) by (apply nth_error_Some; congruence). lia. }
  rewrite E3. cbn [bind]. assert (L2 : length b2 = length base) by (rewrite <- (Permutation_length P); auto).
  destruct (swap_lt b2 (l - 1) 0) as (b3 & E4); try lia. rewrite E4. cbn [bind].
  eexists _, _. split; [reflexivity|].
  assert (SN := fun k => swap_nth _ _ _ _ k E4). assert (L3 := swap_length _ _ _ _ E4).
  split; [|split; [lia|]].
  - etransitivity; [eapply swap_perm; eauto|]. etransitivity; [exact P|]. eapply swap_perm; eauto.
  - destruct SS as [S1 S2]. rewrite N0 in Z0.
    assert (M : nth_error b3 (l - 1) = Some p0).
    { rewrite SN. destruct (Nat.eqb_spec (l - 1) 0) as [E|].
      - rewrite E, Z0. destruct (0 =? 0)%nat; reflexivity.
      - rewrite Nat.eqb_refl. auto. }
    exists p0. split; auto. split.
    + apply Forall_forall. intros x Hx. apply In_nth_error in Hx as (k & Hk).
      rewrite nth_error_firstn in Hk. destruct (Nat.ltb_spec k (l - 1)); [|discriminate].
      rewrite SN in Hk. destruct (Nat.eqb_spec k 0).
      * destruct (nth_error b2 (l - 1)) eqn:Q; [|discriminate]. inversion Hk; subst. apply (S1 (l - 1)); auto. lia.
      * destruct (Nat.eqb_spec k (l - 1)); [lia|]. apply (S1 k); auto. lia.
    + apply Forall_forall. intros x Hx. apply In_nth_error in Hx as (k & Hk).
      rewrite nth_error_skipn in Hk. rewrite SN in Hk.
      destruct (Nat.eqb_spec (l - 1 + 1 + k) 0); [lia|]. destruct (Nat.eqb_spec (l - 1 + 1 + k) (l - 1)); [lia|].
      apply (S2 (l - 1 + 1 + k)); auto. lia.
Qed.

Lemma sort_half_loop_ok fuel : forall base half bi, 0 < length base <= fuel ->
  exists b i, sort_half_loop u fuel base half bi = Ok (b, i) /\ Permutation base b /\ bi <= i <= bi + length base.
Proof.
  induction fuel as [|f IH]; intros base half bi H; [lia|]. cbn [sort_half_loop].
  destruct (qsort_partition_ok base) as (b1 & part & E & P & Hp & _); [lia|]. rewrite E. cbn [bind].
  pose proof (Permutation_length P) as L. rewrite <- L.
  destruct (Nat.ltb_spec (length base) (part + 1)); [lia|].
  assert (LF : length (firstn (part + 1) b1) = part + 1) by (rewrite firstn_length; lia).
  assert (LS : length (skipn (part + 1) b1) = length base - (part + 1)) by (rewrite skipn_length; lia).
  destruct (dle half _).
  - destruct (firstn part (firstn (part + 1) b1)) as [|x l'] eqn:F.
    + eexists _, _. split; [reflexivity|]. split; auto. lia.
    + assert (L3 : length (x :: l') = part) by (rewrite <- F, firstn_length, LF; lia).
      destruct (IH (x :: l') half bi) as (b2 & i & E2 & P2 & B2); [cbn [length] in *; lia|].
      rewrite E2. cbn [bind]. eexists _, _. split; [reflexivity|]. split; [|lia].
      etransitivity; [exact P|]. rewrite <- P2, <- F. rewrite app_assoc, firstn_skipn, firstn_skipn. auto.
  - destruct (skipn (part + 1) b1) as [|x r] eqn:F.
    + eexists _, _. split; [reflexivity|]. split; auto. rewrite LF. lia.
    + destruct (IH (x :: r) (half -d dsum (map (fun c => f2d (h_mcw c)) (firstn (part + 1) b1))) (bi + length (firstn (part + 1) b1))) as (b2 & i & E2 & P2 & B2); [cbn [length] in *; lia|].
      rewrite E2. cbn [bind]. eexists _, _. split; [reflexivity|]. split; [|lia].
      etransitivity; [exact P|]. rewrite <- (firstn_skipn (part + 1) b1) at 1. rewrite F. apply Permutation_app_head. auto.
Qed.
Lemma sort_half_ok base half : exists b i, sort_half u base half = Ok (b, i) /\ Permutation base b /\ i <= length base.
Proof.
  destruct base as [|x l]; [eexists _, _; split; [reflexivity|split; auto]|].
  unfold sort_half. destruct (sort_half_loop_ok (length (x :: l)) (x :: l) half 0) as (b & i & E & P & B); [cbn; lia|].
  exists b, i. split; auto. split; auto. lia.
Qed.

(** * Splitting a box *)
Lemma core_prepare v l : map core (prepare_sort v l) = map core l.
Proof. unfold prepare_sort. rewrite map_map. apply map_ext. intros []; reflexivity. Qed.
Lemma prepare_weights_ok l : 0 < length l -> exists l' t, prepare_color_weight_total u l = Ok (l', t) /\
  Permutation (map core l) (map core l') /\ length l' = length l /\
  t = dsum (map (fun c => f2d (h_mcw c)) l') /\
  (exists mid, In mid (map h_color l) /\ Forall (fun c => h_mcw c = color_weight mid c) l').
Proof.
  intros H. unfold prepare_color_weight_total. assert (D : length l / 2 < length l) by (apply Nat.div_lt; lia).
  destruct (Nat.ltb_spec (length l / 2) (length l)); [|lia].
  pose proof (uo_select_perm u U l _ D) as P.
  destruct (idx_lt (u_select u l (length l / 2)) (length l / 2)) as (m & E & N); [rewrite <- (Permutation_length P); auto|].
  rewrite E. cbn [bind]. eexists _, _. split; [reflexivity|]. split; [|split; [|split; [reflexivity|]]].
  - rewrite map_map. transitivity (map core (u_select u l (length l / 2))); [apply Permutation_map; auto|].
    apply Permutation_refl'. apply map_ext. reflexivity.
  - rewrite map_length. symmetry. apply Permutation_length; auto.
  - exists (h_color m). split.
    + apply in_map. apply nth_error_In in N. eapply Permutation_in; [apply Permutation_sym; exact P|auto].
    + apply Forall_forall. intros c Hc. apply in_map_iff in Hc as (c0 & <- & _). reflexivity.
Qed.

Lemma box_new_s_items off l w o : b_items (box_new_s off l w o) = l /\ b_off (box_new_s off l w o) = off.
Proof. unfold box_new_s, box_new_c. cbv zeta. destruct (box_stats l _). auto. Qed.
Lemma box_new_items off l : b_items (box_new off l) = l /\ b_off (box_new off l) = off.
Proof. unfold box_new, box_new_c. destruct (box_stats l _). auto. Qed.

Lemma box_split_ok b others : 0 < length (b_items b) ->
  exists b1 b2, box_split u b others = Ok [b1; b2] /\
    Permutation (map core (b_items b)) (map core (b_items b1) ++ map core (b_items b2)) /\
    0 < length (b_items b1) /\ b_off b1 = b_off b /\ b_off b2 = b_off b + length (b_items b1) /\
    length (b_items b1) + length (b_items b2) = length (b_items b).
Proof.
  intros H. unfold box_split.
  destruct (prepare_weights_ok (prepare_sort (b_var b) (b_items b))) as (l1 & t & -> & P1 & L1 & _).
  { unfold prepare_sort. rewrite map_length. auto. }
  cbn [bind]. destruct (sort_half_ok l1 (t /d dofZ 2)) as (l2 & edge & -> & P2 & B2). cbn [bind]. cbv zeta.
  pose proof (Permutation_length P2) as L2. unfold prepare_sort in L1. rewrite map_length in L1.
  destruct (Nat.ltb_spec (length l2) (Nat.max edge 1)); [lia|].
  eexists _, _. split; [reflexivity|].
  rewrite !(proj1 (box_new_s_items _ _ _ _)), !(proj2 (box_new_s_items _ _ _ _)).
  assert (LF : length (firstn (Nat.max edge 1) l2) = Nat.max edge 1) by (rewrite firstn_length; lia).
  split; [|split; [lia|split; [auto|split; [lia|rewrite LF, skipn_length; lia]]]].
  rewrite <- map_app, firstn_skipn. rewrite core_prepare in P1. rewrite P1. apply Permutation_map. auto.
Qed.

(** * Sets of boxes *)
Definition all_items (bs : list mbox) : list hitem := concat (map b_items bs).
Lemma all_items_app a b : all_items (a ++ b) = all_items a ++ all_items b.
Proof. unfold all_items. rewrite map_app, concat_app. auto. Qed.
Lemma perm_all_items a b : Permutation a b -> Permutation (all_items a) (all_items b).
Proof.
  intros P. unfold all_items. induction P; cbn; auto.
  - apply Permutation_app_head; auto.
  - rewrite !app_assoc. apply Permutation_app_tail. apply Permutation_app_comm.
  - etransitivity; eauto.
Qed.

Lemma firstn_upd_last {T} (l : list T) i x last : i < length l -> nth_error l i = Some x -> nth_error l (length l - 1) = Some last ->
  Permutation l (x :: firstn (length l - 1) (upd l i last)).
Proof.
  intros Hi Hx Hl. pose proof (upd_perm l i x last Hx) as P.
  assert (E : upd l i last = firstn (length l - 1) (upd l i last) ++ [last]).
  { rewrite <- (firstn_skipn (length l - 1) (upd l i last)) at 1. f_equal.
    apply list_eq_nth_error. intros k. rewrite nth_error_skipn. destruct k as [|k].
    - cbn. rewrite Nat.add_0_r, nth_error_upd. destruct (Nat.eqb_spec i (length l - 1)).
      + destruct (Nat.ltb_spec i (length l)); [auto|lia].
      + auto.
    - cbn. rewrite (proj2 (nth_error_None _ _)); [destruct k; auto|rewrite upd_length; lia]. }
  rewrite E in P. apply Permutation_cons_inv with (a := last). rewrite <- P. rewrite (Permutation_app_comm _ [last]). cbn.
  apply perm_swap.
Qed.

Lemma swap_remove_ok {T} (l : list T) i : i < length l ->
  exists x r, swap_remove l i = Ok (x, r) /\ nth_error l i = Some x /\ Permutation l (x :: r).
Proof.
  intros H. unfold swap_remove. destruct (idx_lt l i H) as (x & -> & N). cbn [bind].
  destruct (idx_lt l (length l - 1) ltac:(lia)) as (y & -> & N2). cbn [bind].
  eexists _, _. split; [reflexivity|]. split; auto. apply firstn_upd_last; auto.
Qed.

Lemma take_best_ok bs m i : take_best bs m = Some i -> exists b, nth_error bs i = Some b /\ 1 < length (b_items b).
Proof.
  unfold take_best. destruct (max_by _ _) as [[k s]|] eqn:E; [|discriminate]. cbn. intros H; inversion H; subst.
  apply max_by_in in E. apply in_map_iff in E as ([j b] & Q & Hin). inversion Q; subst.
  apply filter_In in Hin as [Hin L]. apply In_enumerate in Hin. cbn [snd] in L. apply Nat.ltb_lt in L. eauto.
Qed.

Lemma fill_errors_items bs : forall t g, map b_items (fst (fill_errors bs t g)) = map b_items bs /\
  map b_off (fst (fill_errors bs t g)) = map b_off bs.
Proof.
  induction bs as [|b bs IH]; intros t g; cbn [fill_errors]; auto.
  destruct (b_err b).
  - specialize (IH t g). destruct (fill_errors bs t g). cbn in *. destruct IH; split; congruence.
  - destruct (dlt g _); [auto|].
    specialize (IH (t +d compute_total_error b) g). destruct (fill_errors bs _ g). cbn in *. destruct IH; split; congruence.
Qed.
Lemma below_target_items bs g w : map b_items (fst (below_target bs g w)) = map b_items bs /\
  map b_off (fst (below_target bs g w)) = map b_off bs.
Proof. unfold below_target. destruct (dlt _ _); auto. apply fill_errors_items. Qed.

(** The boxes hold the items [l]. *)
Definition holds (bs : list mbox) (l : list (px * f32 * f32)) : Prop := Permutation (map core (all_items bs)) l.

Lemma cut_loop_ok fuel target tw tm mm : forall bs l, holds bs l -> target - length bs <= fuel ->
  exists bs', cut_loop u fuel target tw tm mm bs = Ok bs' /\ holds bs' l /\
    length bs <= length bs' <= Nat.max target (length bs).
Proof.
  induction fuel as [|f IH]; intros bs l Hh Hf; cbn [cut_loop].
  - destruct (Nat.ltb_spec (length bs) target); [lia|]. exists bs. split; auto. split; auto. lia.
  - destruct (Nat.ltb_spec (length bs) target); [|exists bs; split; auto; split; auto; lia].
    cbv zeta. destruct (take_best bs _) as [i|] eqn:E; [|exists bs; split; auto; split; auto; lia].
    destruct (take_best_ok _ _ _ E) as (b & Nb & Lb).
    destruct (swap_remove_ok bs i) as (b' & rest & -> & Nb' & P); [apply nth_error_Some; congruence|].
    rewrite Nb in Nb'. inversion Nb'; subst b'. cbn [bind].
    destruct (box_split_ok b rest) as (b1 & b2 & -> & P2 & L1 & _); [lia|]. cbn [bind].
    destruct (below_target (rest ++ [b1; b2]) tm tw) as [bs' below] eqn:B.
    assert (I : map b_items bs' = map b_items (rest ++ [b1; b2])).
    { pose proof (proj1 (below_target_items (rest ++ [b1; b2]) tm tw)) as Q. rewrite B in Q. auto. }
    assert (Lr : length bs = S (length rest)) by (apply Permutation_length in P; auto).
    assert (Lb' : length bs' = S (length bs)).
    { apply (f_equal (@length _)) in I. rewrite !map_length in I. rewrite I, app_length. cbn. lia. }
    assert (Hh' : holds bs' l).
    { unfold holds in *. rewrite <- Hh. unfold all_items at 1. rewrite I. fold (all_items (rest ++ [b1; b2])).
      transitivity (map core (all_items (b :: rest))); [|apply Permutation_map, Permutation_sym, perm_all_items; auto].
      rewrite all_items_app, map_app. etransitivity; [apply Permutation_app_comm|].
      unfold all_items. cbn [map concat]. rewrite app_nil_r, !map_app. apply Permutation_app_tail. symmetry. auto. }
    destruct below.
    + exists bs'. split; auto. split; auto. lia.
    + destruct (IH bs' l Hh') as (bs2 & E2 & H2 & B2); [lia|]. exists bs2. split; auto. split; auto. lia.
Qed.

(** * Starting boxes *)
(** Clusters tile the histogram: consecutive ranges whose sizes add up. *)
Definition clusters_fit (cl : list (nat * nat)) (n : nat) : Prop :=
  Forall (fun c => fst c <= snd c) cl /\ fold_right (fun c s => snd c - fst c + s) 0 cl = n.

Lemma cluster_boxes_ok cl : forall off items, fold_right (fun c s => snd c - fst c + s) 0 cl = length items ->
  exists bs, cluster_boxes cl off items = Ok bs /\ length bs = length cl /\ all_items bs = items.
Proof.
  induction cl as [|[b e] cl IH]; intros off items H; cbn [cluster_boxes fold_right fst snd] in *.
  - exists []. split; auto. split; auto. destruct items; [auto|discriminate].
  - destruct (Nat.ltb_spec (length items) (e - b)); [lia|].
    destruct (IH (off + (e - b)) (skipn (e - b) items)) as (bs & -> & L & I); [rewrite skipn_length; lia|]. cbn [bind].
    eexists; split; [reflexivity|]. split; [cbn; lia|]. unfold all_items in *. cbn [map concat]. rewrite (proj1 (box_new_items _ _)), I.
    apply firstn_skipn.
Qed.
Lemma filter_clusters cl : fold_right (fun c s => snd c - fst c + s) 0 (filter nonempty_cluster cl) =
  fold_right (fun c s => snd c - fst c + s) 0 cl.
Proof.
  induction cl as [|[b e] cl IH]; cbn [filter fold_right fst snd]; auto. unfold nonempty_cluster at 1. cbn [fst snd].
  destruct (Nat.eqb_spec b e); cbn [negb fold_right fst snd]; [|lia]. subst. lia.
Qed.
Lemma filter_clusters_len cl n : clusters_fit cl n -> 0 < n -> filter nonempty_cluster cl <> [].
Proof.
  intros [_ H] Hn E. rewrite <- filter_clusters, E in H. cbn in H. lia.
Qed.

Lemma cutter_new_ok h target : clusters_fit (hi_clusters h) (length (hi_items h)) -> 0 < target -> 0 < length (hi_items h) ->
  exists bs, cutter_new h target = Ok bs /\ 1 <= length bs <= target /\ all_items bs = hi_items h.
Proof.
  intros C Ht Hi. unfold cutter_new. cbv zeta. destruct (Nat.leb_spec (length (filter nonempty_cluster (hi_clusters h))) (target / 3)) as [L|L].
  - destruct (cluster_boxes_ok (filter nonempty_cluster (hi_clusters h)) 0 (hi_items h)) as (bs & E & Lb & I).
    { rewrite filter_clusters. apply C. }
    exists bs. split; auto. split; auto. rewrite Lb. pose proof (filter_clusters_len _ _ C Hi) as N.
    destruct (filter nonempty_cluster (hi_clusters h)); [congruence|]. cbn [length] in *.
    assert (target / 3 <= target) by (apply Nat.div_le_upper_bound; lia). lia.
  - eexists; split; [reflexivity|]. split; [cbn; lia|]. unfold all_items. cbn. rewrite (proj1 (box_new_items _ _)), app_nil_r. auto.
Qed.

(** * Palette of the boxes *)
Lemma push_all_ok {T} (f : T -> px * f32) l : forall p : palf, length p + length l <= 256 ->
  foldM (fun p b => pal_push p (fst (f b)) (snd (f b))) l p = Ok (p ++ map f l).
Proof.
  induction l as [|b l IH]; intros p H; cbn [foldM map]; [rewrite app_nil_r; auto|]. cbn [length] in H.
  unfold pal_push at 1, MAX_COLORS. destruct (Nat.ltb_spec (length p) 256); [|lia]. cbn [bind].
  rewrite IH; [|rewrite app_length; cbn; lia]. rewrite <- app_assoc. destruct (f b); auto.
Qed.

Definition mark (ib : nat * mbox) : mbox :=
  let b := snd ib in MBox (b_off b) (map (fun c => set_likely c (fst ib)) (b_items b)) (b_avg b) (b_var b) (b_wsum b) (b_err b) (b_max b).
Lemma into_palette_ok bs : length bs <= 256 -> into_palette bs = Ok (map box_entry bs, map mark (enumerate bs)).
Proof.
  intros H. unfold into_palette. rewrite (push_all_ok box_entry bs []) by (cbn; lia). cbn [bind]. reflexivity.
Qed.
Lemma core_mark bs : forall b, map core (all_items (map mark (combine (seq b (length bs)) bs))) = map core (all_items bs).
Proof.
  induction bs as [|x bs IH]; intros b; cbn [length seq combine map]; auto.
  unfold all_items in *. cbn [map concat]. rewrite !map_app, IH. f_equal. cbn [mark b_items snd fst]. rewrite map_map. auto.
Qed.

Lemma reassemble_perm bs : Permutation (all_items bs) (reassemble bs).
Proof. unfold reassemble. apply perm_all_items. apply sort_by_perm. Qed.

(** * The boxes are disjoint consecutive pieces of the histogram slice *)
Fixpoint contiguous (off : nat) (bs : list mbox) (n : nat) : Prop :=
  match bs with
  | [] => off = n
  | b :: t => b_off b = off /\ contiguous (off + length (b_items b)) t n
  end.
Definition tiles (bs : list mbox) (n : nat) : Prop := exists bs', Permutation bs bs' /\ contiguous 0 bs' n.

Lemma contiguous_app a : forall off b n, contiguous off (a ++ b) n <->
  exists m, contiguous off a m /\ contiguous m b n.
Proof.
  induction a as [|x a IH]; intros off b n; cbn [app contiguous].
  - split; [intros H; exists off; auto|intros (m & <- & H); auto].
  - split.
    + intros [E H]. apply IH in H as (m & H1 & H2). exists m. auto.
    + intros (m & [E H1] & H2). split; auto. apply IH. eauto.
Qed.
Lemma contiguous_split off a b b1 b2 c n : contiguous off (a ++ b :: c) n ->
  b_off b1 = b_off b -> b_off b2 = b_off b + length (b_items b1) ->
  length (b_items b1) + length (b_items b2) = length (b_items b) ->
  contiguous off (a ++ b1 :: b2 :: c) n.
Proof.
  intros H E1 E2 L. apply contiguous_app in H as (m & H1 & H2). apply contiguous_app. exists m. split; auto.
  cbn [contiguous] in *. destruct H2 as [E H2]. split; [congruence|]. split; [lia|].
  replace (m + length (b_items b1) + length (b_items b2)) with (m + length (b_items b)) by lia. auto.
Qed.
Lemma tiles_split b rest b1 b2 bs n : tiles bs n -> Permutation bs (b :: rest) ->
  b_off b1 = b_off b -> b_off b2 = b_off b + length (b_items b1) ->
  length (b_items b1) + length (b_items b2) = length (b_items b) ->
  tiles (rest ++ [b1; b2]) n.
Proof.
  intros (bs' & P & C) P2 E1 E2 L. rewrite P2 in P.
  assert (Hin : In b bs') by (eapply Permutation_in; [exact P|left; auto]).
  apply in_split in Hin as (x & y & ->). exists (x ++ b1 :: b2 :: y). split; [|eapply contiguous_split; eauto].
  apply Permutation_cons_app_inv in P. rewrite P. rewrite <- app_assoc. apply Permutation_app_head.
  rewrite Permutation_app_comm. auto.
Qed.

Lemma cluster_boxes_tile cl : forall off items bs, cluster_boxes cl off items = Ok bs ->
  fold_right (fun c s => snd c - fst c + s) 0 cl = length items -> contiguous off bs (off + length items).
Proof.
  induction cl as [|[b e] cl IH]; intros off items bs H E; cbn [cluster_boxes fold_right fst snd] in *.
  - inversion H; subst. cbn. lia.
  - destruct (Nat.ltb_spec (length items) (e - b)); [discriminate|]. apply bind_ok in H as (r & H1 & H2). inversion H2; subst.
    apply IH in H1; [|rewrite skipn_length; lia]. cbn [contiguous].
    rewrite (proj1 (box_new_items _ _)), (proj2 (box_new_items _ _)). split; auto.
    rewrite firstn_length, Nat.min_l by lia. rewrite skipn_length in H1.
    replace (off + length items) with (off + (e - b) + (length items - (e - b))) by lia. auto.
Qed.
Lemma cutter_new_tiles h target bs : clusters_fit (hi_clusters h) (length (hi_items h)) -> cutter_new h target = Ok bs ->
  tiles bs (length (hi_items h)).
Proof.
  intros C H. exists bs. split; auto. unfold cutter_new in H. cbv zeta in H. destruct (Nat.leb _ _).
  - eapply cluster_boxes_tile in H; [exact H|]. rewrite filter_clusters. apply C.
  - inversion H; subst. cbn [contiguous]. rewrite (proj1 (box_new_items _ _)), (proj2 (box_new_items _ _)). auto.
Qed.

(** Only items and offsets matter. *)
Definition shape (b : mbox) : nat * nat := (b_off b, length (b_items b)).
Lemma contiguous_shape a : forall b off n, map shape a = map shape b -> contiguous off a n -> contiguous off b n.
Proof.
  induction a as [|x a IH]; intros [|y b] off n E C; cbn in E; try discriminate; auto.
  inversion E as [[E1 E2 E3]]. cbn [contiguous] in *. destruct C as [C1 C2]. split; [congruence|]. rewrite <- E2. eapply IH; eauto.
Qed.
Lemma tiles_shape a b n : map shape a = map shape b -> tiles a n -> tiles b n.
Proof.
  intros E (a' & P & C). pose proof (Permutation_map shape P) as PS. rewrite E in PS.
  apply Permutation_sym in PS. apply Permutation_map_inv in PS as (b' & E' & P'). exists b'. split; auto.
  eapply contiguous_shape; eauto.
Qed.
Lemma shape_items_off a b : map b_items a = map b_items b -> map b_off a = map b_off b -> map shape a = map shape b.
Proof.
  revert b. induction a as [|x a IH]; intros [|y b] E F; cbn in *; try discriminate; auto.
  inversion E; inversion F. unfold shape at 1 3. f_equal; [congruence|]. apply IH; auto.
Qed.

Lemma cut_loop_tiles fuel target tw tm mm n : forall bs bs', cut_loop u fuel target tw tm mm bs = Ok bs' -> tiles bs n -> tiles bs' n.
Proof.
  induction fuel as [|f IH]; intros bs bs' H T; cbn [cut_loop] in H.
  - destruct (Nat.ltb _ _); [discriminate|]. inversion H; subst; auto.
  - destruct (Nat.ltb _ _); [|inversion H; subst; auto].
    cbv zeta in H. destruct (take_best bs _) as [i|] eqn:E; [|inversion H; subst; auto].
    destruct (take_best_ok _ _ _ E) as (b & Nb & Lb).
    destruct (swap_remove_ok bs i) as (b' & rest & E1 & Nb' & P); [apply nth_error_Some; congruence|].
    rewrite E1 in H. rewrite Nb in Nb'. inversion Nb'; subst b'. cbn [bind] in H.
    destruct (box_split_ok b rest) as (b1 & b2 & E2 & P2 & L1 & O1 & O2 & L2); [lia|]. rewrite E2 in H. cbn [bind] in H.
    pose proof (tiles_split _ _ _ _ _ _ T P O1 O2 L2) as T2.
    destruct (below_target (rest ++ [b1; b2]) tm tw) as [bs1 below] eqn:B.
    assert (T3 : tiles bs1 n).
    { pose proof (below_target_items (rest ++ [b1; b2]) tm tw) as [Q1 Q2]. rewrite B in Q1, Q2. cbn [fst] in *.
      eapply tiles_shape; [|exact T2]. symmetry. apply shape_items_off; auto. }
    destruct below; [inversion H; subst; auto|eauto].
Qed.
Lemma mark_shape bs : forall k, map shape (map mark (combine (seq k (length bs)) bs)) = map shape bs.
Proof.
  induction bs as [|b bs IH]; intros k; cbn [length seq combine map]; auto. rewrite IH. f_equal.
  unfold shape. cbn [mark b_off b_items snd]. rewrite map_length. auto.
Qed.

(** Sorting consecutive pieces by offset recovers their order, up to empty pieces. *)
Definition filled (b : mbox) : bool := negb (Nat.eqb (length (b_items b)) 0).
Lemma filled_items bs : all_items (filter filled bs) = all_items bs.
Proof.
  unfold all_items. induction bs as [|b bs IH]; cbn [filter map concat]; auto. unfold filled at 1.
  destruct (b_items b) eqn:E; cbn [length Nat.eqb negb map concat app]; rewrite ?IH, ?E; auto.
Qed.
Lemma contiguous_filled off bs n : contiguous off bs n -> contiguous off (filter filled bs) n.
Proof.
  revert off. induction bs as [|b bs IH]; intros off H; cbn [contiguous filter] in *; auto. destruct H as [E H]. apply IH in H.
  unfold filled at 1. destruct (Nat.eqb_spec (length (b_items b)) 0) as [Z0|]; cbn [negb]; [rewrite Z0, Nat.add_0_r in H; auto|].
  cbn [contiguous]. auto.
Qed.
Lemma contiguous_ge off bs n : contiguous off bs n -> Forall (fun b => off <= b_off b) bs.
Proof.
  revert off. induction bs as [|b bs IH]; intros off H; cbn [contiguous] in H; constructor; [lia|].
  destruct H as [E H]. apply IH in H. eapply Forall_impl; [|exact H]. cbn. intros; lia.
Qed.
Lemma contiguous_strict off bs n : contiguous off bs n -> Forall (fun b => filled b = true) bs ->
  StronglySorted (fun a b => b_off a < b_off b) bs.
Proof.
  revert off. induction bs as [|b bs IH]; intros off H F; cbn [contiguous] in H; constructor; apply Forall_cons_iff in F as [F1 F2]; destruct H as [E H].
  - eapply IH; eauto.
  - apply contiguous_ge in H. unfold filled in F1. destruct (Nat.eqb_spec (length (b_items b)) 0); [discriminate|].
    eapply Forall_impl; [|exact H]. cbn. intros; lia.
Qed.
Lemma strict_perm_eq a : forall b, StronglySorted (fun x y => b_off x < b_off y) a ->
  StronglySorted (fun x y => b_off x < b_off y) b -> Permutation a b -> a = b.
Proof.
  induction a as [|x a IH]; intros b Sa Sb P; [apply Permutation_nil in P; auto|].
  destruct b as [|y b]; [apply Permutation_sym, Permutation_nil in P; discriminate|].
  apply StronglySorted_inv in Sa as [Sa Fa]. apply StronglySorted_inv in Sb as [Sb Fb].
  rewrite Forall_forall in Fa, Fb.
  assert (x = y).
  { assert (Hx : In x (y :: b)) by (eapply Permutation_in; [exact P|left; auto]).
    assert (Hy : In y (x :: a)) by (eapply Permutation_in; [apply Permutation_sym; exact P|left; auto]).
    destruct Hx as [|Hx]; auto. destruct Hy as [|Hy]; auto. apply Fb in Hx. apply Fa in Hy. lia. }
  subst. f_equal. apply IH; auto. eapply Permutation_cons_inv; eauto.
Qed.
Lemma filter_perm {T} (f : T -> bool) a b : Permutation a b -> Permutation (filter f a) (filter f b).
Proof.
  induction 1; cbn [filter]; auto.
  - destruct (f x); auto.
  - destruct (f x), (f y); auto. apply perm_swap.
  - etransitivity; eauto.
Qed.
Lemma sorted_filter {T} (R : T -> T -> Prop) f l : StronglySorted R l -> StronglySorted R (filter f l).
Proof.
  induction 1; cbn [filter]; [constructor|]. destruct (f a); auto. constructor; auto.
  rewrite Forall_forall in *. intros x Hx. apply filter_In in Hx as [Hx _]. auto.
Qed.

Lemma sort_filled bs n : tiles bs n -> exists l, filter filled (sort_by (fun x y => Nat.compare (b_off x) (b_off y)) bs) = l /\ contiguous 0 l n.
Proof.
  intros (bs' & P & C). exists (filter filled bs'). split; [|apply contiguous_filled; auto].
  assert (FF : forall l, Forall (fun b => filled b = true) (filter filled l)).
  { intros l. apply Forall_forall. intros x Hx. apply filter_In in Hx; tauto. }
  pose proof (contiguous_strict _ _ _ (contiguous_filled _ _ _ C) (FF bs')) as S1.
  set (srt := sort_by _ bs).
  assert (Ps : Permutation (filter filled bs') (filter filled srt)).
  { apply filter_perm. rewrite <- P. apply sort_by_perm. }
  apply strict_perm_eq; auto; [|symmetry; auto].
  assert (S2 : StronglySorted (fun x y => Nat.compare (b_off x) (b_off y) <> Gt) srt).
  { apply (sort_by_strongly (fun x y => Nat.compare (b_off x) (b_off y))); intros *; rewrite !Nat.compare_gt_iff; lia. }
  apply sorted_filter with (f := filled) in S2.
  assert (ND : NoDup (map b_off (filter filled srt))).
  { eapply Permutation_NoDup; [apply Permutation_map; exact Ps|].
    clear - S1. induction S1 as [|x l S IH F]; cbn; constructor; auto.
    intros Hin. apply in_map_iff in Hin as (y & E & Hy). rewrite Forall_forall in F. apply F in Hy. lia. }
  clear - S2 ND. induction S2 as [|x l S IH F]; constructor; cbn [map] in ND; apply NoDup_cons_iff in ND as [N1 N2]; auto.
  rewrite Forall_forall in *. intros y Hy. specialize (F y Hy). rewrite Nat.compare_gt_iff in F.
  assert (b_off y <> b_off x) by (intros E; apply N1; rewrite <- E; apply in_map; auto). lia.
Qed.

(** After the boxes are released every box's items are at its own place of the slice. *)
Lemma contiguous_nth l : forall off n b j, contiguous off l n -> In b l -> j < length (b_items b) ->
  off <= b_off b /\ nth_error (all_items l) (b_off b - off + j) = nth_error (b_items b) j.
Proof.
  induction l as [|x l IH]; intros off n b j C Hin Hj; [destruct Hin|]. cbn [contiguous] in C. destruct C as [E C].
  unfold all_items in *. cbn [map concat]. destruct Hin as [->|Hin].
  - rewrite E, Nat.sub_diag. cbn [Nat.add]. split; [lia|]. apply nth_error_app1; auto.
  - destruct (IH _ _ _ _ C Hin Hj) as [B N]. split; [lia|]. rewrite nth_error_app2 by lia. rewrite <- N. f_equal. lia.
Qed.
Lemma reassemble_places bs n b j : tiles bs n -> In b bs -> j < length (b_items b) ->
  nth_error (reassemble bs) (b_off b + j) = nth_error (b_items b) j.
Proof.
  intros T Hin Hj. destruct (sort_filled bs n T) as (l & E & C). unfold reassemble. fold (all_items (sort_by (fun x y => Nat.compare (b_off x) (b_off y)) bs)).
  rewrite <- filled_items, E. destruct (contiguous_nth l 0 n b j C) as [_ N]; auto; [|rewrite Nat.sub_0_r in N; auto].
  rewrite <- E. apply filter_In. split; [eapply Permutation_in; [apply sort_by_perm|auto]|].
  unfold filled. destruct (length (b_items b)); [lia|auto].
Qed.

Lemma likely_set i k : k < 256 -> h_likely (set_likely i k) = k.
Proof.
  intros Hk. unfold h_likely, set_likely. cbn [h_tmp].
  replace (h_tmp i - h_tmp i mod 256)%Z with (256 * (h_tmp i / 256))%Z by (pose proof (Z.div_mod (h_tmp i) 256); lia).
  rewrite Z.add_comm, Z.mul_comm, Z_mod_plus_full, Z.mod_mod by lia. rewrite Z.mod_small by lia. lia.
Qed.

(** Every histogram entry is in exactly one group, group [k] is marked [k] and
    its weight is the popularity of palette entry [k]. *)
Definition grouped (p : palf) (items : list hitem) (groups : list (list hitem)) : Prop :=
  Permutation (concat groups) items /\ length groups = length p /\
  forall k g, nth_error groups k = Some g -> Forall (fun c => h_likely c = k) g /\
    exists c, nth_error p k = Some (c, d2f (dsum (map (fun i => f2d (h_perc i)) g))).

(** * Median cut as a whole *)
Lemma mediancut_ok h target t m : clusters_fit (hi_clusters h) (length (hi_items h)) -> 0 < target <= 256 -> 0 < length (hi_items h) ->
  exists p h', mediancut u h target t m = Ok (p, h') /\ 1 <= length p <= target /\
    Permutation (map core (hi_items h)) (map core (hi_items h')) /\
    hi_total h' = hi_total h /\ hi_clusters h' = hi_clusters h /\ hi_fixed h' = hi_fixed h /\
    exists groups, grouped p (hi_items h') groups.
Proof.
  intros C Ht Hi. unfold mediancut.
  destruct (cutter_new_ok h target C ltac:(lia) Hi) as (bs & -> & Lb & I). cbn [bind]. cbv zeta.
  destruct (cut_loop_ok target target (hi_total h) t (dmax m (quality_to_mse 20)) bs (map core (hi_items h))) as (bs' & -> & Hh & Lb'); [unfold holds; rewrite I; auto|lia|].
  cbn [bind]. rewrite into_palette_ok by lia. cbn [bind].
  eexists _, _. split; [reflexivity|]. cbn [hi_items hi_total hi_clusters hi_fixed].
  rewrite map_length. split; [lia|]. split; [|split; [auto|split; [auto|split; [auto|]]]].
  - rewrite <- Hh. unfold enumerate. erewrite <- core_mark with (b := 0). apply Permutation_map. apply reassemble_perm.
  - exists (map b_items (map mark (enumerate bs'))). split; [apply reassemble_perm|]. split; [rewrite !map_length, enumerate_length; auto|].
    intros k g. rewrite map_map, nth_error_map, nth_error_enumerate. destruct (nth_error bs' k) as [b|] eqn:N; [|discriminate].
    cbn [option_map]. intros H; inversion H; subst g; clear H. cbn [mark snd fst b_items]. split.
    + apply Forall_forall. intros c Hc. apply in_map_iff in Hc as (c0 & <- & _). apply likely_set.
      assert (k < length bs') by (apply nth_error_Some; congruence). lia.
    + exists (b_avg b). rewrite nth_error_map, N. cbn [option_map]. unfold box_entry. rewrite map_map. reflexivity.
Qed.
End MedianFacts.
