(** In exact arithmetic a k-means round gives the same palette and error for
    every schedule, and so does the whole palette search. *)
From Verif Require Import Base BaseFacts Arith Pal World Attr Hist Nearest MedianCut Kmeans Blur ImageM Quant NearFacts SearchFacts KmeansSched RealArith MedianReal.
From Coq Require Import Reals Lra FunctionalExtensionality.
Open Scope R_scope.

Section R.
Variable big : R.
Let A : Arith := real big.
Existing Instance A.

Definition cplus (x y : coloravg) : coloravg := CAvg (dpx_add (c_sum x) (c_sum y)) (c_total x + c_total y).
Definition part (p : px) (w : R) : coloravg := CAvg (dpx_of (px_scale p w)) w.
Lemma avg_add_part c p w : avg_add c p w = cplus c (part p w).
Proof. reflexivity. Qed.
Lemma cplus_comm x y : cplus x y = cplus y x.
Proof.
  destruct x as [[xa xr xg xb] xt], y as [[ya yr yg yb] yt].
  change (CAvg (DPx (xa + ya) (xr + yr) (xg + yg) (xb + yb)) (xt + yt) = CAvg (DPx (ya + xa) (yr + xr) (yg + xg) (yb + xb)) (yt + xt)).
  f_equal; [f_equal|]; apply Rplus_comm.
Qed.
Lemma cplus_assoc x y z : cplus (cplus x y) z = cplus x (cplus y z).
Proof.
  destruct x as [[xa xr xg xb] xt], y as [[ya yr yg yb] yt], z as [[za zr zg zb] zt].
  change (CAvg (DPx (xa + ya + za) (xr + yr + zr) (xg + yg + zg) (xb + yb + zb)) (xt + yt + zt) =
          CAvg (DPx (xa + (ya + za)) (xr + (yr + zr)) (xg + (yg + zg)) (xb + (yb + zb))) (xt + (yt + zt))).
  f_equal; [f_equal|]; apply Rplus_assoc.
Qed.
Lemma cplus_0 x : cplus x c0 = x.
Proof.
  destruct x as [[xa xr xg xb] xt]. change (CAvg (DPx (xa + 0) (xr + 0) (xg + 0) (xb + 0)) (xt + 0) = CAvg (DPx xa xr xg xb) xt).
  f_equal; [f_equal|]; apply Rplus_0_r.
Qed.

Definition add1 (a : list coloravg) (g : px * R * nat) : list coloravg := upd a (snd g) (cplus (nth (snd g) a c0) (part (fst (fst g)) (snd (fst g)))).
Lemma adds_fold gs : forall avg, adds avg gs = fold_left add1 gs avg.
Proof. unfold adds. induction gs as [|[[p w] m] gs IH]; intros avg; cbn [fold_left]; auto. Qed.
Lemma nth_upd_neq {T} (l : list T) i j x d : i <> j -> nth j (upd l i x) d = nth j l d.
Proof. revert i j. induction l as [|y l IH]; intros [|i] [|j] H; cbn; auto; try congruence. Qed.
Lemma nth_upd_eq {T} (l : list T) i x d : (i < length l)%nat -> nth i (upd l i x) d = x.
Proof. revert i. induction l as [|y l IH]; intros [|i] H; cbn in *; auto; try lia. apply IH. lia. Qed.
Lemma add1_comm a g g' : add1 (add1 a g) g' = add1 (add1 a g') g.
Proof.
  unfold add1. destruct g as [[p w] m], g' as [[p' w'] m']. cbn [fst snd]. destruct (Nat.eq_dec m m') as [<-|NE].
  - destruct (Nat.lt_ge_cases m (length a)) as [H|H].
    + rewrite !nth_upd_eq, !upd_upd by auto. f_equal. rewrite !cplus_assoc. f_equal. apply cplus_comm.
    + rewrite !(upd_out a) by auto. reflexivity.
  - rewrite !nth_upd_neq by auto. apply upd_comm; auto.
Qed.
Lemma adds_perm gs gs' : Permutation gs gs' -> forall avg, adds avg gs = adds avg gs'.
Proof.
  intros P avg. rewrite !adds_fold. revert avg. induction P; intros avg; cbn [fold_left]; auto.
  - rewrite add1_comm. reflexivity.
  - rewrite IHP1. apply IHP2.
Qed.

Definition addv (x y : list coloravg) : list coloravg := map (fun xy => cplus (fst xy) (snd xy)) (combine x y).
Lemma addv_length x y : length x = length y -> length (addv x y) = length x.
Proof. intros H. unfold addv. rewrite map_length, combine_length. lia. Qed.
Lemma nth_addv x y i : length x = length y -> nth i (addv x y) c0 = cplus (nth i x c0) (nth i y c0).
Proof.
  revert y i. induction x as [|a x IH]; intros [|b y] [|i] H; cbn [length] in H; try lia; cbn [addv map combine nth fst snd]; auto;
    try (symmetry; apply cplus_0). apply IH. lia.
Qed.
Lemma addv_add1 x y g : length x = length y -> addv x (add1 y g) = add1 (addv x y) g.
Proof.
  intros L. destruct g as [[p w] m]. unfold add1. cbn [fst snd]. rewrite nth_addv, cplus_assoc by auto.
  generalize (cplus (nth m y c0) (part p w)). intros z. revert y m L. induction x as [|a x IH]; intros [|b y] [|m] L; cbn [length] in L; try lia; auto.
  cbn [upd nth]. unfold addv in *. cbn [combine map fst snd]. rewrite IH by lia. reflexivity.
Qed.
Lemma addv_adds gs : forall x y, length x = length y -> addv x (adds y gs) = adds (addv x y) gs.
Proof.
  intros x y. rewrite !adds_fold. revert x y. induction gs as [|g gs IH]; intros x y L; cbn [fold_left]; auto.
  rewrite IH by (unfold add1; rewrite upd_length; auto). rewrite addv_add1; auto.
Qed.
Lemma addv_0 x : addv x (repeat c0 (length x)) = x.
Proof. induction x as [|a x IH]; cbn [length repeat]; auto. unfold addv in *. cbn [combine map fst snd]. rewrite IH, cplus_0. reflexivity. Qed.

(** All that the entries [l] contribute. *)
Definition total n adj k (l : list hitem) : kmeans := KM (adds (repeat c0 k) (map (gain n adj) l)) (sumR (map (miss n adj) l)).
Lemma total_perm n adj k l l' : Permutation l l' -> total n adj k l = total n adj k l'.
Proof.
  intros P. unfold total. rewrite (adds_perm _ _ (Permutation_map (gain n adj) P)), (sumR_perm _ _ (Permutation_map (miss n adj) P)). reflexivity.
Qed.
Lemma total_merge n adj k a b : km_merge (total n adj k a) (total n adj k b) = total n adj k (a ++ b).
Proof.
  unfold km_merge, total. cbn [k_avg k_diff]. rewrite !map_app, sumR_app, adds_app.
  assert (L : forall x, length (adds (repeat c0 k) (map (gain n adj) x)) = k) by (intros x; rewrite adds_length, repeat_length; auto).
  rewrite skipn_all2 by (rewrite !L; auto). rewrite app_nil_r. f_equal.
  transitivity (addv (adds (repeat c0 k) (map (gain n adj) a)) (adds (repeat c0 k) (map (gain n adj) b))); [reflexivity|].
  rewrite addv_adds by (rewrite L, repeat_length; auto). f_equal. rewrite <- (L a) at 2. apply addv_0.
Qed.
Lemma fold_sums n adj bs work : forall acc, fold_left (fun (d : R) i => d + fold_left Rplus (map (miss n adj) (nth i bs [])) 0) work acc =
  acc + sumR (map (miss n adj) (share bs work)).
Proof.
  unfold share. induction work as [|i work IH]; intros acc; cbn [fold_left map concat sumR]; [lra|].
  rewrite IH, map_app, sumR_app, fold_sumR. lra.
Qed.
Lemma worker_total n adj k bs work : worker_km n adj k bs work = total n adj k (share bs work).
Proof.
  unfold worker_km, total. f_equal. transitivity (0 + sumR (map (miss n adj) (share bs work))); [|lra].
  exact (fold_sums n adj bs work 0).
Qed.
Lemma reduce_total n adj k bs w threads : km_reduce (map (worker_km n adj k bs) (w :: threads)) = Some (total n adj k (share bs (concat (w :: threads)))).
Proof.
  cbn [km_reduce map concat]. f_equal. rewrite worker_total. revert w. induction threads as [|v threads IH]; intros w; cbn [map fold_left concat].
  - rewrite app_nil_r. reflexivity.
  - rewrite worker_total, total_merge. assert (E : share bs w ++ share bs v = share bs (w ++ v)) by (unfold share; rewrite map_app, concat_app; reflexivity).
    rewrite E, IH, <- app_assoc. reflexivity.
Qed.
Lemma share_perm bs a b : Permutation a b -> Permutation (share bs a) (share bs b).
Proof. intros P. unfold share. induction P; cbn [map concat]; auto; [apply Permutation_app_head; auto| |eapply Permutation_trans; eauto].
  rewrite !app_assoc. apply Permutation_app_tail, Permutation_app_comm. Qed.
Lemma share_all bs : share bs (seq 0 (length bs)) = concat bs.
Proof.
  unfold share. f_equal. apply list_eq_nth_error. intros i. rewrite nth_error_map, nth_error_seq.
  destruct (Nat.ltb_spec i (length bs)); cbn [option_map].
  - rewrite (nth_error_nth' bs [] H). reflexivity.
  - symmetry. apply nth_error_None. auto.
Qed.
Lemma reduce_all n adj k bs threads : bs <> [] -> covers (length bs) threads ->
  km_reduce (map (worker_km n adj k bs) threads) = Some (total n adj k (concat bs)).
Proof.
  intros NE C. destruct threads as [|w threads].
  - unfold covers in C. cbn in C. apply Permutation_nil in C. destruct bs; [congruence|discriminate].
  - rewrite reduce_total. f_equal. rewrite <- (share_all bs). apply total_perm, share_perm. exact C.
Qed.

(** The round, without threads. *)
Definition round (h : hint) (p : palf) (adj : bool) : res (R * hint * palf) :=
  match hi_items h with
  | [] => Ok (0, h, p)
  | items =>
      n <- nearest_new p ;;
      let h' := HInt (map (moved n adj) items) (hi_total h) (hi_clusters h) (hi_fixed h) in
      let '(p1, s) := km_finalize (total n adj (length p) items) p in
      p2 <- replace_unused (hi_items h') p1 ;;
      Ok (s / hi_total h, h', p2)
  end.
Lemma iteration_round threads h p adj : (forall n, covers n (threads n)) -> iteration_with threads h p adj = round h p adj.
Proof.
  intros C. rewrite iteration_with_eq by auto. unfold round. destruct (hi_items h) as [|x l]; [reflexivity|].
  destruct (nearest_new p) as [n| |]; cbn [bind]; auto. cbv zeta.
  rewrite reduce_all; [|rewrite chunks_cons by (auto; try lia; discriminate); discriminate|apply C].
  rewrite chunks_concat by lia. destruct (km_finalize _ p) as [p1 s]. reflexivity.
Qed.

(** * The whole search *)
Definition with_batches (u : unspec) (b : nat -> nat -> list (list nat)) : unspec := {|
  u_map := u_map u; u_set := u_set u; u_select := u_select u; u_med3 := u_med3 u; u_batches := b;
  u_rows := u_rows u; u_main := u_main u; u_sum := u_sum u; u_cpus := u_cpus u; u_scratch := u_scratch u |}.

Section Search.
Variable u : unspec.
Variable U : unspec_ok u.
Variable b : nat -> nat -> list (list nat).
Variable B : forall t n, covers n (b t n).
Variable cb : callback.

Lemma iteration_batches : iteration (with_batches u b) = iteration u.
Proof.
  extensionality h. extensionality p. extensionality adj. unfold iteration. apply (f_equal (sbind tick)). extensionality t. f_equal.
  cbn [u_batches with_batches]. rewrite !iteration_round; auto. apply (uo_batches u U).
Qed.
Lemma refine_batches : refine_loop (with_batches u b) cb = refine_loop u cb.
Proof.
  extensionality fuel. induction fuel as [|f IH]; [reflexivity|]. cbn [refine_loop]. rewrite iteration_batches. rewrite IH. reflexivity.
Qed.
Lemma search_batches : search_loop (with_batches u b) cb = search_loop u cb.
Proof.
  extensionality fuel. induction fuel as [|f IH]; [reflexivity|]. cbn [search_loop]. rewrite iteration_batches. rewrite IH.
  change (mediancut (with_batches u b)) with (mediancut u). reflexivity.
Qed.
Lemma find_batches : find_best_palette (with_batches u b) cb = find_best_palette u cb.
Proof. unfold find_best_palette, refine_palette. rewrite search_batches, refine_batches. reflexivity. Qed.
Lemma result_batches : result_new (with_batches u b) cb = result_new u cb.
Proof. unfold result_new. rewrite find_batches. reflexivity. Qed.
Lemma quantize_internal_batches : quantize_internal (with_batches u b) cb = quantize_internal u cb.
Proof. unfold quantize_internal. rewrite result_batches. reflexivity. Qed.
Lemma hist_quantize_batches : hist_quantize (with_batches u b) cb = hist_quantize u cb.
Proof. unfold hist_quantize. rewrite quantize_internal_batches. reflexivity. Qed.
Lemma quantize_batches : quantize (with_batches u b) cb = quantize u cb.
Proof. unfold quantize. rewrite quantize_internal_batches. reflexivity. Qed.
End Search.
End R.
