(** One k-means round in closed form, for any assignment of batches to threads. *)
From Verif Require Import Base BaseFacts Arith Pal World Hist Nearest Kmeans NearFacts SearchFacts.
Open Scope nat_scope.

Section Sched.
Context {A : Arith}.

Definition c0 : coloravg := CAvg dpx0 d0.
(** What happens to one histogram entry, what it adds to which palette entry,
    and what it adds to the error. *)
Definition moved (n : nearest) (adj : bool) (it : hitem) : hitem :=
  match iterate_item n adj it with Ok (it', _, _) => it' | _ => it end.
Definition gain (n : nearest) (adj : bool) (it : hitem) : px * f32 * nat :=
  match iterate_item n adj it with Ok (_, g, _) => g | _ => (h_color it, h_adj it, 0) end.
Definition miss (n : nearest) (adj : bool) (it : hitem) : f64 :=
  match iterate_item n adj it with Ok (_, _, e) => e | _ => d0 end.
Definition adds (avg : list coloravg) (gs : list (px * f32 * nat)) : list coloravg :=
  fold_left (fun a '(p, w, m) => upd a m (avg_add (nth m a c0) p w)) gs avg.

Lemma adds_length gs : forall avg, length (adds avg gs) = length avg.
Proof.
  unfold adds. induction gs as [|[[p w] m] gs IH]; intros avg; cbn [fold_left]; auto. rewrite IH. apply upd_length.
Qed.
Lemma adds_app avg a b : adds avg (a ++ b) = adds (adds avg a) b.
Proof. unfold adds. apply fold_left_app. Qed.
Lemma iterate_item_eq n k adj it : near_ok n k -> iterate_item n adj it = Ok (moved n adj it, gain n adj it, miss n adj it) /\ snd (gain n adj it) < k.
Proof.
  intros N. unfold moved, gain, miss. destruct (iterate_item_ok n k adj it N) as (it' & p & w & m & e & -> & Hm & _). auto.
Qed.

Lemma idx_nth {T} (l : list T) i d : i < length l -> idx l i = Ok (nth i l d).
Proof. intros H. unfold idx. rewrite (nth_error_nth' _ d H). reflexivity. Qed.

Lemma iterate_batch_eq n k adj km batch : near_ok n k -> length (k_avg km) = k ->
  iterate_batch n adj km batch = Ok (KM (adds (k_avg km) (map (gain n adj) batch)) (k_diff km +d fold_left dadd (map (miss n adj) batch) d0), map (moved n adj) batch).
Proof.
  intros N L. unfold iterate_batch.
  assert (G : forall batch km items sum, length (k_avg km) = k ->
     foldM (fun '(k, items, sum) it => ' (it', (p, w, m), e) <- iterate_item n adj it ;;
             k' <- update_color k p w m ;; Ok (k', items ++ [it'], sum +d e)) batch (km, items, sum) =
     Ok (KM (adds (k_avg km) (map (gain n adj) batch)) (k_diff km), items ++ map (moved n adj) batch, fold_left dadd (map (miss n adj) batch) sum)).
  { clear batch km L. induction batch as [|it batch IH]; intros km items sum L; cbn [foldM map fold_left].
    - rewrite app_nil_r. destruct km. reflexivity.
    - destruct (iterate_item_eq n k adj it N) as [-> Hm]. cbn [bind]. destruct (gain n adj it) as [[p w] m]. cbn [snd] in Hm.
      unfold update_color. rewrite (idx_nth _ _ c0) by lia. cbn [bind]. rewrite IH by (cbn [k_avg]; rewrite upd_length; auto).
      cbn [k_avg k_diff]. rewrite <- app_assoc. reflexivity. }
  rewrite G by auto. reflexivity.
Qed.

(** The batches after those in [done] have been processed. *)
Definition after n adj (done : list nat) (bs : list (list hitem)) : list (list hitem) :=
  map (fun ib => if existsb (Nat.eqb (fst ib)) done then map (moved n adj) (snd ib) else snd ib) (enumerate bs).
Lemma nth_error_after n adj done bs i : nth_error (after n adj done bs) i =
  option_map (fun b => if existsb (Nat.eqb i) done then map (moved n adj) b else b) (nth_error bs i).
Proof. unfold after. rewrite nth_error_map, nth_error_enumerate. destruct (nth_error bs i); reflexivity. Qed.
Lemma after_length n adj done bs : length (after n adj done bs) = length bs.
Proof. unfold after. rewrite map_length. apply enumerate_length. Qed.
Lemma existsb_eqb i l : existsb (Nat.eqb i) l = true <-> In i l.
Proof.
  rewrite existsb_exists. split; [intros (x & Hx & E); apply Nat.eqb_eq in E; subst; auto|intros H; exists i; split; auto; apply Nat.eqb_refl].
Qed.
Lemma after_all n adj done bs : (forall i, i < length bs -> In i done) -> after n adj done bs = map (map (moved n adj)) bs.
Proof.
  intros H. apply list_eq_nth_error. intros i. rewrite nth_error_after, nth_error_map. destruct (nth_error bs i) eqn:E; cbn [option_map]; auto.
  assert (i < length bs) by (apply nth_error_Some; congruence). apply H, existsb_eqb in H0. rewrite H0. reflexivity.
Qed.

Definition share (bs : list (list hitem)) (work : list nat) : list hitem := concat (map (fun i => nth i bs []) work).
Definition worker_km n adj k bs (work : list nat) : kmeans :=
  KM (adds (repeat c0 k) (map (gain n adj) (share bs work)))
     (fold_left (fun d i => d +d fold_left dadd (map (miss n adj) (nth i bs [])) d0) work d0).

Lemma run_worker_eq n k adj bs work done ks : near_ok n k -> Forall (fun i => i < length bs) work -> NoDup (done ++ work) ->
  run_worker n adj k (after n adj done bs, ks) work = Ok (after n adj (done ++ work) bs, ks ++ [worker_km n adj k bs work]).
Proof.
  intros N F D. unfold run_worker. cbn [fst snd].
  assert (G : forall work done km, Forall (fun i => i < length bs) work -> NoDup (done ++ work) -> length (k_avg km) = k ->
    foldM (fun '(bs, k) i => b <- idx bs i ;; ' (k', b') <- iterate_batch n adj k b ;; Ok (upd bs i b', k')) work (after n adj done bs, km) =
    Ok (after n adj (done ++ work) bs, KM (adds (k_avg km) (map (gain n adj) (share bs work)))
          (fold_left (fun d i => d +d fold_left dadd (map (miss n adj) (nth i bs [])) d0) work (k_diff km)))).
  { clear - N. induction work as [|i work IH]; intros done km F D L; cbn [foldM].
    - rewrite app_nil_r. destruct km. reflexivity.
    - apply Forall_cons_iff in F as [F1 F2].
      assert (NI : ~ In i done) by (apply NoDup_remove_2 in D; intros Hi; apply D, in_or_app; auto).
      assert (EX : existsb (Nat.eqb i) done = false).
      { destruct (existsb (Nat.eqb i) done) eqn:E; auto. apply existsb_eqb in E. contradiction. }
      assert (EI : idx (after n adj done bs) i = Ok (nth i bs [])).
      { unfold idx. rewrite nth_error_after, (nth_error_nth' bs [] F1). cbn [option_map]. rewrite EX. reflexivity. }
      rewrite EI. cbn [bind]. rewrite (iterate_batch_eq n k) by auto. cbn [bind].
      assert (EU : upd (after n adj done bs) i (map (moved n adj) (nth i bs [])) = after n adj (done ++ [i]) bs).
      { apply list_eq_nth_error. intros j. rewrite nth_error_after.
        destruct (Nat.eq_dec i j) as [<-|NE].
        - rewrite nth_error_upd_eq by (rewrite after_length; auto). rewrite (nth_error_nth' bs [] F1). cbn [option_map].
          assert (existsb (Nat.eqb i) (done ++ [i]) = true) by (apply existsb_eqb, in_or_app; cbn; auto). rewrite H. reflexivity.
        - rewrite nth_error_upd_neq, nth_error_after by auto. rewrite existsb_app. cbn [existsb].
          destruct (Nat.eqb_spec j i); [congruence|]. rewrite !orb_false_r. reflexivity. }
      rewrite EU, IH; auto.
      + cbn [k_avg k_diff fold_left]. rewrite <- app_assoc. cbn [app]. unfold share. cbn [map concat]. rewrite map_app, adds_app. reflexivity.
      + rewrite <- app_assoc. exact D.
      + cbn [k_avg]. rewrite adds_length. auto. }
  rewrite (G work done (km_new k) F D) by (cbn [km_new k_avg]; apply repeat_length). reflexivity.
Qed.

Lemma NoDup_l {T} (a b : list T) : NoDup (a ++ b) -> NoDup a.
Proof.
  induction a as [|x a IH]; cbn [app]; intros H; [constructor|]. inversion H; subst. constructor; auto. intros Hx. apply H2, in_or_app; auto.
Qed.
Lemma run_workers_eq n k adj bs threads : forall done ks, near_ok n k -> Forall (Forall (fun i => i < length bs)) threads -> NoDup (done ++ concat threads) ->
  foldM (run_worker n adj k) threads (after n adj done bs, ks) = Ok (after n adj (done ++ concat threads) bs, ks ++ map (worker_km n adj k bs) threads).
Proof.
  induction threads as [|w threads IH]; intros done ks N F D; cbn [foldM concat map].
  - rewrite !app_nil_r. reflexivity.
  - apply Forall_cons_iff in F as [F1 F2]. cbn [concat] in D. rewrite app_assoc in D.
    rewrite run_worker_eq; auto.
    + cbn [bind]. rewrite IH; auto. rewrite <- !app_assoc. reflexivity.
    + apply NoDup_l in D. exact D.
Qed.

(** The whole round. *)
Lemma iteration_with_eq threads (h : hint) (p : palf) adj : (forall n, covers n (threads n)) ->
  iteration_with threads h p adj =
  match hi_items h with
  | [] => Ok (d0, h, p)
  | items =>
      n <- nearest_new p ;;
      let bs := chunks 256 items in
      let h' := HInt (map (moved n adj) items) (hi_total h) (hi_clusters h) (hi_fixed h) in
      let '(p1, df) := match km_reduce (map (worker_km n adj (length p) bs) (threads (length bs))) with
                       | None => (p, d0)
                       | Some k => let '(p1, s) := km_finalize k p in (p1, s /d hi_total h)
                       end in
      p2 <- replace_unused (hi_items h') p1 ;;
      Ok (df, h', p2)
  end.
Proof.
  intros C. unfold iteration_with. destruct (hi_items h) as [|x l] eqn:I; auto. rewrite <- I. clear I.
  destruct (nearest_new p) as [n| |] eqn:E; cbn [bind]; auto. destruct (nearest_new_inv _ _ E) as (_ & N & _). cbv zeta.
  set (bs := chunks 256 (hi_items h)). pose proof (C (length bs)) as Cb. unfold covers in Cb.
  assert (B0 : bs = after n adj [] bs).
  { unfold after. cbn [existsb]. apply list_eq_nth_error. intros i. rewrite nth_error_map, nth_error_enumerate. destruct (nth_error bs i); reflexivity. }
  assert (R : foldM (run_worker n adj (length p)) (threads (length bs)) (bs, []) =
              Ok (map (map (moved n adj)) bs, map (worker_km n adj (length p) bs) (threads (length bs)))).
  { rewrite B0 at 2. rewrite run_workers_eq; auto.
    - cbn [app]. rewrite after_all; auto. intros i Hi. eapply Permutation_in; [apply Permutation_sym; exact Cb|]. apply in_seq. lia.
    - apply covers_lt. exact (C _).
    - cbn [app]. eapply Permutation_NoDup; [apply Permutation_sym; exact Cb|]. apply seq_NoDup. }
  rewrite R. cbn [bind].
  assert (Q : concat (map (map (moved n adj)) bs) = map (moved n adj) (hi_items h)).
  { rewrite <- concat_map. unfold bs. rewrite chunks_concat by lia. reflexivity. }
  rewrite Q. reflexivity.
Qed.

(** The new histogram does not depend on the schedule, in any arithmetic. *)
Lemma iteration_items th1 th2 (h : hint) (p : palf) adj e1 e2 h1 h2 p1 p2 : (forall n, covers n (th1 n)) -> (forall n, covers n (th2 n)) ->
  iteration_with th1 h p adj = Ok (e1, h1, p1) -> iteration_with th2 h p adj = Ok (e2, h2, p2) -> h1 = h2.
Proof.
  intros C1 C2. rewrite !iteration_with_eq by auto. destruct (hi_items h) as [|x l]; [congruence|]. intros E1 E2.
  apply bind_ok in E1 as (n & N & E1). rewrite N in E2. cbn [bind] in E2. cbv zeta in *.
  destruct (match km_reduce (map (worker_km n adj (length p) (chunks 256 (x :: l))) (th1 _)) with None => _ | Some _ => _ end) as [q1 f1].
  destruct (match km_reduce (map (worker_km n adj (length p) (chunks 256 (x :: l))) (th2 _)) with None => _ | Some _ => _ end) as [q2 f2].
  apply bind_ok in E1 as (r1 & _ & E1). apply bind_ok in E2 as (r2 & _ & E2). congruence.
Qed.
End Sched.
