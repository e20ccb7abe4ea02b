(** Nearest-colour search, palette edits and k-means: indices stay in range,
    sizes are kept, nothing panics; for any arithmetic. *)
From Verif Require Import Base BaseFacts Arith Pal World Attr Hist MedianCut Nearest Kmeans MedianFacts.
Open Scope nat_scope.

Section SearchFacts.
Context {A : Arith}.

(** * The tree only holds the given indexes *)
Fixpoint tree_indexes (n : node) : list nat :=
  match n with
  | Leaf _ i es => i :: map fst es
  | Inner _ i _ _ l r => i :: tree_indexes l ++ tree_indexes r
  end.

Lemma swap_front_perm l n : Permutation l (swap_front l n).
Proof.
  unfold swap_front. destruct (nth_error l n) as [x|] eqn:E; auto. destruct l as [|y l]; auto.
  pose proof (upd_perm (y :: l) n x y E) as P.
  destruct n as [|n]; cbn in E; [inversion E; subst; auto|].
  cbn [upd] in P |- *. apply Permutation_cons_inv with (a := y). rewrite <- P. apply perm_swap.
Qed.

(** Every index appears exactly once. *)
Lemma create_node_indexes fuel p : forall is, is <> [] -> length is <= fuel -> Permutation is (tree_indexes (create_node fuel p is)).
Proof.
  induction fuel as [|f IH]; intros is H L; [destruct is; [congruence|cbn in L; lia]|].
  destruct is as [|a [|b l]]; [congruence|cbn; auto|].
  cbn [create_node]. pose proof (swap_front_perm (a :: b :: l) (most_popular p (a :: b :: l))) as P.
  destruct (swap_front (a :: b :: l) (most_popular p (a :: b :: l))) as [|ref rest] eqn:E.
  - apply Permutation_length in P. discriminate.
  - set (srt := sort_by _ rest). assert (Ps : Permutation rest srt) by apply sort_by_perm.
    assert (L2 : length srt = S (length l)).
    { rewrite <- (Permutation_length Ps). apply Permutation_length in P. cbn in P. lia. }
    cbn [length] in L.
    destruct (Nat.leb_spec (length srt) LEAF_MAX_SIZE) as [Q|Q].
    + cbn [tree_indexes]. rewrite map_map. cbn [fst]. rewrite map_id. rewrite P. constructor. auto.
    + cbn [tree_indexes]. unfold LEAF_MAX_SIZE in Q.
      assert (1 <= length srt / 2) by (apply Nat.div_le_lower_bound; lia).
      assert (length srt / 2 < length srt) by (apply Nat.div_lt; lia).
      assert (LF : length (firstn (length srt / 2) srt) = length srt / 2) by (rewrite firstn_length; lia).
      assert (LS : length (skipn (length srt / 2) srt) = length srt - length srt / 2) by (rewrite skipn_length; lia).
      rewrite P. constructor. transitivity (firstn (length srt / 2) srt ++ skipn (length srt / 2) srt); [rewrite firstn_skipn; auto|].
      apply Permutation_app; apply IH; try lia; intros Z0; rewrite Z0 in *; cbn [length] in *; lia.
Qed.

Lemma visit_idx v d dsq i n : i < n -> v_idx v < n -> v_idx (visit v d dsq i) < n.
Proof. intros. unfold visit. destruct (_ && _)%bool; auto. Qed.
Lemma search_node_idx c n : forall t v, Forall (fun i => i < n) (tree_indexes t) -> v_idx v < n -> v_idx (search_node t c v) < n.
Proof.
  induction t as [vp i es|vp i r rs l IHl r0 IHr]; intros v F H; cbn [tree_indexes search_node] in *; apply Forall_cons_iff in F as [F1 F2].
  - assert (G : forall es v, Forall (fun i => i < n) (map fst es) -> v_idx v < n ->
        v_idx (fold_left (fun v (e : nat * px) => let d := diff (snd e) c in visit v (fsqrt d) d (fst e)) es v) < n).
    { clear. induction es as [|[j q] es IH]; intros v F H; cbn [fold_left map] in *; auto. apply Forall_cons_iff in F as [F1 F2].
      apply IH; auto. apply visit_idx; auto. }
    apply G; auto. apply visit_idx; auto.
  - apply Forall_app in F2 as [Fl Fr]. destruct (diff vp c <f rs); cbv zeta.
    + destruct (_ <=f _); [apply IHr; auto|]; apply IHl; auto; apply visit_idx; auto.
    + destruct (_ <=f _); [apply IHl; auto|]; apply IHr; auto; apply visit_idx; auto.
Qed.

Definition near_ok (n : nearest) (k : nat) : Prop :=
  length (n_pal n) = k /\ 0 < k /\ Forall (fun i => i < k) (tree_indexes (n_root n)).

Lemma nearest_new_ok (p : palf) : 0 < length p <= 256 -> exists n, nearest_new p = Ok n /\ near_ok n (length p) /\ n_pal n = colors_of p.
Proof.
  intros H. unfold nearest_new. destruct (Nat.ltb_spec 256 (length p)); [lia|].
  destruct p as [|e p]; [cbn in H; lia|]. eexists; split; [reflexivity|]. split; [|reflexivity].
  split; [cbn [n_pal]; unfold colors_of; rewrite map_length; auto|]. split; [cbn; lia|]. cbn [n_root].
  eapply Permutation_Forall; [apply create_node_indexes; [cbn; congruence|rewrite seq_length; auto]|].
  apply Forall_forall. intros x Hx. apply in_seq in Hx. cbn [length] in *. lia.
Qed.
Lemma nearest_new_inv p n : nearest_new p = Ok n -> 0 < length p <= 256 /\ near_ok n (length p) /\ n_pal n = colors_of p.
Proof.
  intros H. assert (0 < length p <= 256).
  { unfold nearest_new in H. destruct (Nat.ltb_spec 256 (length p)); [discriminate|]. destruct p; [discriminate|]. cbn [length] in *; lia. }
  destruct (nearest_new_ok p H0) as (n' & E & R). rewrite H in E. inversion E; subst. auto.
Qed.

Lemma search_idx n k c l : near_ok n k -> fst (search n c l) < k.
Proof.
  intros (L & K & F). unfold search. destruct (nth_error (n_pal n) l) as [pc|] eqn:E.
  - assert (l < k) by (rewrite <- L; apply nth_error_Some; congruence).
    cbv zeta. destruct (_ <f _); cbn [fst]; auto. apply search_node_idx; auto.
  - cbv zeta. cbn [fst]. apply search_node_idx; auto.
Qed.

(** * Fixed colours *)
Lemma place_fixed_ok (p : palf) i c : i < length p -> exists p' j e, place_fixed p (i, c) = Ok p' /\ length p' = length p /\
  i <= j < length p /\ swap p i j = Ok e /\ (exists q, nth_error p j = Some q /\ p' = upd e i (c, pop_to_fixed (snd q))).
Proof.
  intros H. unfold place_fixed.
  assert (NE : skipn i (enumerate (colors_of p)) <> []).
  { intros E. apply (f_equal (@length _)) in E. rewrite skipn_length, enumerate_length in E. unfold colors_of in E. rewrite map_length in E. cbn in E. lia. }
  destruct (min_by_some (fun x y => fcmp (diff (snd x) c) (diff (snd y) c)) _ NE) as ([j q] & E). rewrite E. cbn [ok_or_panic bind].
  apply min_by_in in E. apply In_nth_error in E as (k & Ek). rewrite nth_error_skipn, nth_error_enumerate in Ek.
  destruct (nth_error (colors_of p) (i + k)) eqn:N; [|discriminate]. cbn in Ek. inversion Ek; subst j q.
  assert (i + k < length p). { rewrite <- (map_length fst). apply nth_error_Some. unfold colors_of in N. congruence. }
  cbn [fst]. destruct (swap_lt p i (i + k) H) as (p1 & E1); auto. rewrite E1. cbn [bind].
  pose proof (swap_length _ _ _ _ E1) as L1.
  destruct (idx_lt p1 i ltac:(lia)) as (e & -> & Ne). cbn [bind]. unfold pal_set. rewrite set_idx_lt by lia.
  eexists _, (i + k), p1. split; [reflexivity|]. rewrite upd_length. split; auto. split; [lia|]. split; auto.
  rewrite (swap_nth _ _ _ _ i E1) in Ne. exists e. split; auto.
  destruct (Nat.eqb_spec i (i + k)) as [Q|Q]; [|rewrite Nat.eqb_refl in Ne; auto].
  rewrite <- Q in *. auto.
Qed.

(** The first [k] entries are the first [k] fixed colours, all marked fixed. *)
Definition has_fixed (p : palf) (fixed : list px) (k : nat) : Prop :=
  forall i c, i < k -> nth_error fixed i = Some c -> exists w, nth_error p i = Some (c, pop_to_fixed w).

Lemma place_all_ok fixed : forall (p : palf) k, k <= length p ->
  exists p', foldM place_fixed (firstn k (enumerate fixed)) p = Ok p' /\ length p' = length p /\ has_fixed p' fixed k.
Proof.
  intros p k. revert p. induction k as [|k IH]; intros p H.
  - exists p. split; auto. split; auto. intros i c Hi; lia.
  - destruct (IH p ltac:(lia)) as (p1 & E1 & L1 & F1).
    destruct (nth_error (enumerate fixed) k) as [[i c]|] eqn:N.
    + assert (S : firstn (S k) (enumerate fixed) = firstn k (enumerate fixed) ++ [(i, c)]).
      { apply list_eq_nth_error. intros j. rewrite nth_error_firstn.
        assert (Lk : length (firstn k (enumerate fixed)) = k).
        { rewrite firstn_length. assert (k < length (enumerate fixed)) by (apply nth_error_Some; congruence). lia. }
        destruct (Nat.ltb_spec j (S k)).
        - destruct (Nat.eq_dec j k) as [->|].
          + rewrite nth_error_app2, Lk, Nat.sub_diag by lia. auto.
          + rewrite nth_error_app1 by lia. rewrite nth_error_firstn. destruct (Nat.ltb_spec j k); [auto|lia].
        - symmetry. apply nth_error_None. rewrite app_length, Lk. cbn. lia. }
      rewrite S, foldM_app, E1. cbn [bind foldM].
      rewrite nth_error_enumerate in N. destruct (nth_error fixed k) as [c'|] eqn:Nk; [|discriminate]. cbn in N. inversion N; subst i c'.
      destruct (place_fixed_ok p1 k c ltac:(lia)) as (p2 & j & e & E2 & L2 & Hj & Es & q & Nq & ->). rewrite E2. cbn [bind].
      eexists; split; [reflexivity|]. split; [lia|]. intros i d Hi Nd.
      pose proof (swap_length _ _ _ _ Es) as Le.
      destruct (Nat.eq_dec i k) as [->|].
      * rewrite Nk in Nd. inversion Nd; subst d. exists (snd q). apply nth_error_upd_eq. lia.
      * rewrite nth_error_upd_neq by auto. rewrite (swap_nth _ _ _ _ i Es).
        destruct (Nat.eqb_spec i k); [lia|]. destruct (Nat.eqb_spec i j); [lia|]. apply F1; auto. lia.
    + assert (NL : length fixed <= k) by (apply nth_error_None in N; rewrite enumerate_length in N; auto).
      exists p1. rewrite firstn_all2 in E1 by (rewrite enumerate_length; lia). rewrite firstn_all2 by (rewrite enumerate_length; lia).
      split; auto. split; auto. intros i c Hi Ni. assert (i < length fixed) by (apply nth_error_Some; congruence). apply F1; auto. lia.
Qed.

Lemma with_fixed_colors_ok (p : palf) m fixed : length p <= 256 -> m <= 256 ->
  exists p', with_fixed_colors p m fixed = Ok p' /\ length p' = Nat.max (length p) (Nat.min (length fixed) m) /\
    has_fixed p' fixed (length p').
Proof.
  intros Hp Hm. unfold with_fixed_colors. destruct fixed as [|q fs].
  - exists p. split; auto. split; [cbn; lia|]. intros i c Hi H. destruct i; discriminate.
  - cbv zeta. set (fixed := q :: fs). set (mf := Nat.min (length fixed) m).
    assert (E : exists p1, (if Nat.ltb (length p) mf then pal_extend p (map (fun c => (c, f0)) (firstn (mf - length p) fixed)) else Ok p) = Ok p1
                /\ length p1 = Nat.max (length p) mf).
    { destruct (Nat.ltb_spec (length p) mf).
      - unfold pal_extend. rewrite map_length, firstn_length. unfold MAX_COLORS.
        destruct (Nat.leb_spec (length p + Nat.min (mf - length p) (length fixed)) 256); [|unfold mf in *; lia].
        eexists; split; [reflexivity|]. rewrite app_length, map_length, firstn_length. unfold mf in *; lia.
      - eexists; split; [reflexivity|]. lia. }
    destruct E as (p1 & -> & L1). cbn [bind].
    destruct (place_all_ok fixed p1 (length p1) ltac:(lia)) as (p2 & -> & L2 & HF).
    exists p2. split; auto. split; [lia|]. rewrite L2. auto.
Qed.

(** * k-means *)
Lemma update_color_ok k p w m : m < length (k_avg k) -> exists k', update_color k p w m = Ok k' /\ length (k_avg k') = length (k_avg k).
Proof.
  intros H. unfold update_color. destruct (idx_lt _ _ H) as (c & -> & _). cbn [bind].
  eexists; split; [reflexivity|]. cbn [k_avg]. apply upd_length.
Qed.

(** What the iteration never changes about a histogram entry. *)
Definition core2 (i : hitem) : px * f32 := (h_color i, h_perc i).

Lemma iterate_item_ok n k adjust it : near_ok n k -> exists it' p w m e, iterate_item n adjust it = Ok (it', (p, w, m), e) /\ m < k /\ core2 it' = core2 it.
Proof.
  intros N. unfold iterate_item. destruct (search n (h_color it) (h_likely it)) as [m d] eqn:E.
  assert (m < k) by (pose proof (search_idx n k (h_color it) (h_likely it) N) as Q; rewrite E in Q; auto).
  destruct adjust.
  - destruct (idx_lt (n_pal n) m) as (rm & -> & _); [destruct N; lia|]. cbn [bind].
    repeat eexists; auto.
  - cbn [bind]. repeat eexists; auto.
Qed.

Lemma iterate_batch_ok n k adjust km batch : near_ok n k -> length (k_avg km) = k ->
  exists km' b', iterate_batch n adjust km batch = Ok (km', b') /\ length (k_avg km') = k /\ map core2 b' = map core2 batch.
Proof.
  intros N L. unfold iterate_batch.
  assert (G : forall batch km items sum, length (k_avg km) = k -> exists km' items' sum',
     foldM (fun '(k, items, sum) it => ' (it', (p, w, m), e) <- iterate_item n adjust it ;;
             k' <- update_color k p w m ;; Ok (k', items ++ [it'], sum +d e)) batch (km, items, sum) = Ok (km', items', sum') /\
     length (k_avg km') = k /\ map core2 items' = map core2 items ++ map core2 batch).
  { clear batch km L. induction batch as [|it batch IH]; intros km items sum L; cbn [foldM map].
    - eexists _, _, _. split; [reflexivity|]. rewrite app_nil_r. auto.
    - destruct (iterate_item_ok n k adjust it N) as (it' & p & w & m & e & -> & Hm & C). cbn [bind].
      destruct (update_color_ok km p w m) as (km1 & -> & L1); [lia|]. cbn [bind].
      destruct (IH km1 (items ++ [it']) (sum +d e)) as (km' & items' & sum' & E & L' & C'); [lia|].
      eexists _, _, _. split; [exact E|]. split; auto. rewrite C', map_app, <- app_assoc. cbn. congruence. }
  destruct (G batch km [] d0 L) as (km' & items' & sum' & -> & L' & C'). cbn [bind].
  eexists _, _. split; [reflexivity|]. auto.
Qed.

Definition cores (bs : list (list hitem)) := map (map core2) bs.

Lemma run_worker_ok n k adjust work : forall bs ks, near_ok n k -> Forall (fun i => i < length bs) work -> Forall (fun km => length (k_avg km) = k) ks ->
  exists bs' km, run_worker n adjust k (bs, ks) work = Ok (bs', ks ++ [km]) /\ cores bs' = cores bs /\ length (k_avg km) = k.
Proof.
  intros bs ks N F L. unfold run_worker. cbn [fst snd].
  assert (G : forall work bs km, Forall (fun i => i < length bs) work -> length (k_avg km) = k -> exists bs' km',
    foldM (fun '(bs, k) i => b <- idx bs i ;; ' (k', b') <- iterate_batch n adjust k b ;; Ok (upd bs i b', k')) work (bs, km) = Ok (bs', km') /\
    cores bs' = cores bs /\ length (k_avg km') = k).
  { clear - N. induction work as [|i work IH]; intros bs km F L; cbn [foldM].
    - eexists _, _. split; [reflexivity|]. auto.
    - apply Forall_cons_iff in F as [F1 F2]. destruct (idx_lt bs i F1) as (b & -> & Nb). cbn [bind].
      destruct (iterate_batch_ok n k adjust km b N L) as (km1 & b' & -> & L1 & C). cbn [bind].
      destruct (IH (upd bs i b') km1) as (bs' & km' & -> & C' & L'); auto; [rewrite upd_length; auto|].
      eexists _, _. split; [reflexivity|]. split; auto. rewrite C'. unfold cores. rewrite map_upd, C. apply upd_id.
      rewrite nth_error_map, Nb. auto. }
  destruct (G work bs (km_new k) F) as (bs' & km' & -> & C & L'); [cbn [km_new k_avg]; apply repeat_length|].
  cbn [bind]. eexists _, _. split; [reflexivity|]. auto.
Qed.

Lemma run_workers_ok n k adjust threads : forall bs ks, near_ok n k -> Forall (Forall (fun i => i < length bs)) threads -> Forall (fun km => length (k_avg km) = k) ks ->
  exists bs' ks', foldM (run_worker n adjust k) threads (bs, ks) = Ok (bs', ks ++ ks') /\ cores bs' = cores bs /\
    length ks' = length threads /\ Forall (fun km => length (k_avg km) = k) (ks ++ ks').
Proof.
  induction threads as [|w threads IH]; intros bs ks N F L; cbn [foldM].
  - exists bs, []. rewrite app_nil_r. auto.
  - apply Forall_cons_iff in F as [F1 F2]. destruct (run_worker_ok n k adjust w bs ks N F1 L) as (bs1 & km & -> & C & Lk). cbn [bind].
    assert (length bs1 = length bs) by (apply (f_equal (@length _)) in C; unfold cores in C; rewrite !map_length in C; auto).
    destruct (IH bs1 (ks ++ [km])) as (bs' & ks' & E & C' & L' & F'); auto.
    { rewrite H; auto. }
    { apply Forall_app. split; auto. }
    exists bs', (km :: ks'). rewrite E, <- app_assoc. cbn [app]. split; auto. split; [congruence|]. split; [cbn; lia|].
    rewrite <- app_assoc in F'. auto.
Qed.

Lemma km_merge_length a b k : length (k_avg a) = k -> length (k_avg b) = k -> length (k_avg (km_merge a b)) = k.
Proof.
  intros La Lb. unfold km_merge. cbn [k_avg]. rewrite app_length, map_length, combine_length, skipn_length. lia.
Qed.
Lemma km_reduce_length ks km k : Forall (fun km => length (k_avg km) = k) ks -> km_reduce ks = Some km -> length (k_avg km) = k.
Proof.
  intros F H. destruct ks as [|a ks]; [discriminate|]. cbn in H. inversion H; subst. apply Forall_cons_iff in F as [Fa F].
  revert a Fa H. induction F as [|b ks Fb F IH]; intros a Fa H; cbn [fold_left]; auto. apply IH; auto. apply km_merge_length; auto.
Qed.
Lemma km_finalize_length km p : length (k_avg km) = length p -> length (fst (km_finalize km p)) = length p.
Proof.
  intros H. unfold km_finalize. cbn [fst]. rewrite app_length, map_length, combine_length, skipn_length. lia.
Qed.

(** Fixed entries never change. *)
Definition keeps_fixed (p p' : palf) : Prop :=
  length p' = length p /\
  forall i c w, nth_error p i = Some (c, w) -> pop_is_fixed w = true -> nth_error p' i = Some (c, w).
Lemma keeps_fixed_refl p : keeps_fixed p p.
Proof. split; auto. Qed.
Lemma keeps_fixed_trans p q r : keeps_fixed p q -> keeps_fixed q r -> keeps_fixed p r.
Proof. intros [L1 F1] [L2 F2]. split; [congruence|]. eauto. Qed.

Lemma km_finalize_fixed km p : length (k_avg km) = length p -> keeps_fixed p (fst (km_finalize km p)).
Proof.
  intros H. split; [apply km_finalize_length; auto|]. intros i c w N F. unfold km_finalize. cbn [fst].
  assert (i < length p) by (apply nth_error_Some; congruence).
  rewrite nth_error_app1 by (rewrite map_length, combine_length; lia).
  rewrite nth_error_map, nth_error_combine, N. destruct (nth_error (k_avg km) i) as [a|] eqn:Na.
  - cbn. rewrite F. auto.
  - apply nth_error_None in Na. lia.
Qed.

Lemma replace_unused_ok items (p : palf) : 0 < length p <= 256 -> exists p', replace_unused items p = Ok p' /\ keeps_fixed p p'.
Proof.
  intros H. unfold replace_unused.
  assert (G : forall is q, Forall (fun i => i < length p) is -> keeps_fixed p q -> exists p',
    foldM (fun p i => e <- idx p i ;;
     if ((popularity (snd e) =f f0) && negb (pop_is_fixed (snd e)))%bool then
       n <- nearest_new p ;;
       match snd (fold_left (worst_step n (colors_of p)) items (f0, None)) with
       | Some w => pal_set p i (h_color w) (h_adj w)
       | None => Ok p
       end
     else Ok p) is q = Ok p' /\ keeps_fixed p p').
  { induction is as [|i is IH]; intros q F K; cbn [foldM].
    - eauto.
    - apply Forall_cons_iff in F as [F1 F2]. pose proof K as [L KF]. destruct (idx_lt q i ltac:(lia)) as ([c w] & -> & N). cbn [bind snd].
      destruct (_ && _)%bool eqn:E.
      + destruct (nearest_new_ok q ltac:(lia)) as (n & -> & _). cbn [bind].
        destruct (snd (fold_left _ items _)) as [it|].
        * unfold pal_set. rewrite set_idx_lt by lia. cbn [bind]. apply IH; auto. split; [rewrite upd_length; auto|].
          intros j d v Nj Fj. destruct (Nat.eq_dec i j) as [<-|]; [|rewrite nth_error_upd_neq; eauto].
          exfalso. apply andb_true_iff in E as [_ E]. rewrite (KF _ _ _ Nj Fj) in N. inversion N; subst. rewrite Fj in E. discriminate.
        * cbn [bind]. apply IH; auto.
      + cbn [bind]. apply IH; auto. }
  apply G; [|apply keeps_fixed_refl]. apply Forall_forall. intros x Hx. apply in_seq in Hx. lia.
Qed.

Lemma covers_lt n threads : covers n threads -> Forall (Forall (fun i => i < n)) threads.
Proof.
  intros C. apply Forall_forall. intros w Hw. apply Forall_forall. intros i Hi.
  assert (In i (seq 0 n)); [|apply in_seq in H; lia]. eapply Permutation_in; [exact C|]. apply in_concat. eauto.
Qed.

(** One k-means round over a histogram: total, sizes kept, the histogram's
    colours and importances kept in place, fixed palette entries kept. *)
Definition same_colors (h h' : hint) : Prop :=
  map core2 (hi_items h') = map core2 (hi_items h) /\ hi_total h' = hi_total h /\ hi_clusters h' = hi_clusters h /\ hi_fixed h' = hi_fixed h.

Lemma iteration_with_ok threads h (p : palf) adjust : 0 < length p <= 256 -> (forall n, covers n (threads n)) ->
  exists e h' p', iteration_with threads h p adjust = Ok (e, h', p') /\ same_colors h h' /\ keeps_fixed p p'.
Proof.
  intros H C. unfold iteration_with. destruct (hi_items h) as [|it items] eqn:I.
  - eexists _, _, _. split; [reflexivity|]. split; [repeat split; auto|apply keeps_fixed_refl].
  - rewrite <- I. clear I. destruct (nearest_new_ok p H) as (n & -> & N & _). cbn [bind].
    set (bs := chunks 256 (hi_items h)).
    destruct (run_workers_ok n (length p) adjust (threads (length bs)) bs [] N (covers_lt _ _ (C _))) as (bs' & ks & -> & Cb & _ & F); [constructor|].
    cbn [app] in *. cbn [bind]. cbv zeta.
    set (h' := HInt (concat bs') (hi_total h) (hi_clusters h) (hi_fixed h)).
    assert (S : same_colors h h').
    { split; [|auto]. cbn [hi_items h']. unfold cores in Cb.
      rewrite concat_map, Cb, <- concat_map. unfold bs. rewrite chunks_concat by lia. auto. }
    assert (E : exists p1 df, match km_reduce ks with None => (p, d0) | Some k => let '(p1, s) := km_finalize k p in (p1, s /d hi_total h) end = (p1, df) /\ keeps_fixed p p1).
    { destruct (km_reduce ks) as [km|] eqn:R.
      - pose proof (km_reduce_length _ _ _ F R) as L. destruct (km_finalize km p) as [p1 s] eqn:Ef.
        eexists _, _. split; [reflexivity|]. pose proof (km_finalize_fixed km p L) as K. rewrite Ef in K. auto.
      - eexists _, _. split; [reflexivity|]. apply keeps_fixed_refl. }
    destruct E as (p1 & df & -> & K).
    destruct (replace_unused_ok (hi_items h') p1) as (p2 & E2 & K2); [destruct K; lia|].
    rewrite E2. cbn [bind]. eexists _, _, _. split; [reflexivity|]. split; auto. eapply keeps_fixed_trans; eauto.
Qed.
End SearchFacts.
