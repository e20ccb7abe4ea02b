(** Lemmas about the shared vocabulary of [Base.v]. *)
From Verif Require Import Base.
From Coq Require Import Sorted ZifyBool ZifyNat.

Ltac binv H :=
  match type of H with
  | bind ?m ?k = _ =>
      let E := fresh "E" in destruct m eqn:E; cbn [bind] in H; try discriminate H
  end.

Lemma bind_ok {A B} (m : res A) (k : A -> res B) b :
  bind m k = Ok b -> exists a, m = Ok a /\ k a = Ok b.
Proof. destruct m; cbn; intros H; try discriminate; eauto. Qed.

Lemma bind_panic {A B} (m : res A) (k : A -> res B) :
  bind m k = Panic -> m = Panic \/ exists a, m = Ok a /\ k a = Panic.
Proof. destruct m; cbn; intros H; try discriminate; eauto. Qed.

(** * idx / upd / set_idx / swap *)
Section Upd.
Context {A : Type}.
Implicit Types l : list A.

Lemma idx_ok l i x : idx l i = Ok x <-> nth_error l i = Some x.
Proof. unfold idx, ok_or_panic. destruct (nth_error l i); split; intros H; inversion H; auto. Qed.

Lemma idx_lt l i : i < length l -> exists x, idx l i = Ok x /\ nth_error l i = Some x.
Proof.
  intros H. destruct (nth_error l i) eqn:E.
  - exists a. split; auto. apply idx_ok; auto.
  - apply nth_error_None in E. lia.
Qed.

Lemma idx_ok_lt l i x : idx l i = Ok x -> i < length l.
Proof. intros H. apply idx_ok in H. apply nth_error_Some. congruence. Qed.

Lemma idx_not_err l i e : idx l i <> Err e.
Proof. unfold idx, ok_or_panic. destruct (nth_error l i); discriminate. Qed.

Lemma upd_length l i x : length (upd l i x) = length l.
Proof. revert i; induction l as [|y l IH]; intros [|i]; cbn; auto. Qed.

Lemma nth_error_upd_eq l i x : i < length l -> nth_error (upd l i x) i = Some x.
Proof. revert i; induction l as [|y l IH]; intros [|i] H; cbn in *; try lia; auto. apply IH; lia. Qed.

Lemma nth_error_upd_neq l i j x : i <> j -> nth_error (upd l i x) j = nth_error l j.
Proof. revert i j; induction l as [|y l IH]; intros [|i] [|j] H; cbn in *; try lia; auto. Qed.

Lemma nth_error_upd l i j x :
  nth_error (upd l i x) j = if Nat.eqb i j then (if Nat.ltb i (length l) then Some x else None) else nth_error l j.
Proof.
  destruct (Nat.eqb_spec i j) as [->|H].
  - destruct (Nat.ltb_spec j (length l)).
    + apply nth_error_upd_eq; auto.
    + apply nth_error_None. rewrite upd_length. lia.
  - apply nth_error_upd_neq; auto.
Qed.

Lemma upd_out l i x : length l <= i -> upd l i x = l.
Proof. revert i; induction l as [|y l IH]; intros [|i] H; cbn in *; try lia; auto. f_equal. apply IH; lia. Qed.

Lemma upd_id l i x : nth_error l i = Some x -> upd l i x = l.
Proof. revert i; induction l as [|y l IH]; intros [|i] H; cbn in *; try discriminate.
  - congruence.
  - f_equal; auto.
Qed.

Lemma upd_upd l i x y : upd (upd l i x) i y = upd l i y.
Proof. revert i; induction l as [|z l IH]; intros [|i]; cbn; auto. f_equal; auto. Qed.

Lemma upd_comm l i j x y : i <> j -> upd (upd l i x) j y = upd (upd l j y) i x.
Proof. revert i j; induction l as [|z l IH]; intros [|i] [|j] H; cbn; auto; try lia. f_equal; apply IH; lia. Qed.

Lemma map_upd {B} (f : A -> B) l i x : map f (upd l i x) = upd (map f l) i (f x).
Proof. revert i; induction l as [|y l IH]; intros [|i]; cbn; auto. f_equal; auto. Qed.

Lemma upd_app_l l m i x : i < length l -> upd (l ++ m) i x = upd l i x ++ m.
Proof. revert i; induction l as [|y l IH]; intros [|i] H; cbn in *; try lia; auto. f_equal; apply IH; lia. Qed.

Lemma upd_split l i x : i < length l -> upd l i x = firstn i l ++ x :: skipn (S i) l.
Proof. revert i; induction l as [|y l IH]; intros [|i] H; cbn in *; try lia; auto. f_equal; apply IH; lia. Qed.

Lemma In_upd l i x y : In y (upd l i x) -> y = x \/ In y l.
Proof. revert i; induction l as [|z l IH]; intros [|i]; cbn; auto.
  - intros [->|H]; auto.
  - intros [->|H]; auto. destruct (IH _ H); auto.
Qed.

Lemma Forall_upd (P : A -> Prop) l i x : Forall P l -> P x -> Forall P (upd l i x).
Proof. intros H Hx. apply Forall_forall. intros y Hy. apply In_upd in Hy as [->|Hy]; auto.
  eapply Forall_forall in H; eauto. Qed.

Lemma set_idx_ok l i x l' : set_idx l i x = Ok l' <-> i < length l /\ l' = upd l i x.
Proof. unfold set_idx. destruct (Nat.ltb_spec i (length l)); split; intros H1.
  - inversion H1; auto.
  - destruct H1; subst; auto.
  - discriminate.
  - lia.
Qed.

Lemma set_idx_lt l i x : i < length l -> set_idx l i x = Ok (upd l i x).
Proof. intros; apply set_idx_ok; auto. Qed.

Lemma set_idx_not_err l i x e : set_idx l i x <> Err e.
Proof. unfold set_idx. destruct (Nat.ltb i (length l)); discriminate. Qed.

Lemma swap_ok l i j l' : swap l i j = Ok l' ->
  exists x y, nth_error l i = Some x /\ nth_error l j = Some y /\ l' = upd (upd l i y) j x.
Proof.
  unfold swap. intros H. binv H. binv H. inversion H; subst.
  exists a, a0. repeat split; auto; apply idx_ok; auto.
Qed.

Lemma swap_lt l i j : i < length l -> j < length l -> exists l', swap l i j = Ok l'.
Proof.
  intros Hi Hj. unfold swap. destruct (idx_lt l i Hi) as (x & -> & _).
  destruct (idx_lt l j Hj) as (y & -> & _). cbn. eauto.
Qed.

Lemma swap_length l i j l' : swap l i j = Ok l' -> length l' = length l.
Proof. intros H. apply swap_ok in H as (x & y & _ & _ & ->). rewrite !upd_length. auto. Qed.

Lemma nth_error_split_at l i x : nth_error l i = Some x -> l = firstn i l ++ x :: skipn (S i) l.
Proof. revert i; induction l as [|y l IH]; intros [|i] H; cbn in *; try discriminate.
  - inversion H; auto.
  - f_equal; auto.
Qed.

Lemma upd_perm l i x y : nth_error l i = Some x -> Permutation (x :: upd l i y) (y :: l).
Proof.
  revert i; induction l as [|z l IH]; intros [|i] H; cbn in *; try discriminate.
  - inversion H; subst. constructor.
  - transitivity (z :: x :: upd l i y); [constructor|].
    transitivity (z :: y :: l); [constructor; auto|constructor].
Qed.

Lemma swap_perm l i j l' : swap l i j = Ok l' -> Permutation l l'.
Proof.
  intros H. apply swap_ok in H as (x & y & Hx & Hy & ->).
  destruct (Nat.eq_dec i j) as [->|Hne].
  - replace y with x by congruence. rewrite (upd_id l j x), (upd_id l j x); auto.
  - assert (H1 : Permutation (x :: upd l i y) (y :: l)) by (apply upd_perm; auto).
    assert (H2 : Permutation (y :: upd (upd l i y) j x) (x :: upd l i y)).
    { apply upd_perm. rewrite nth_error_upd_neq; auto. }
    apply Permutation_cons_inv with (a := y). symmetry. etransitivity; eauto.
Qed.

Lemma swap_nth l i j l' k : swap l i j = Ok l' ->
  nth_error l' k = if Nat.eqb k j then nth_error l i else if Nat.eqb k i then nth_error l j else nth_error l k.
Proof.
  intros H. apply swap_ok in H as (x & y & Hx & Hy & ->).
  assert (Hi : i < length l) by (apply nth_error_Some; congruence).
  assert (Hj : j < length l) by (apply nth_error_Some; congruence).
  rewrite nth_error_upd, upd_length, nth_error_upd.
  rewrite (Nat.eqb_sym k j), (Nat.eqb_sym k i).
  destruct (Nat.eqb_spec j k); subst.
  - destruct (Nat.ltb_spec k (length l)); [congruence|lia].
  - destruct (Nat.eqb_spec i k); subst; auto.
    destruct (Nat.ltb_spec k (length l)); [congruence|lia].
Qed.
End Upd.

(** * foldM / mapM *)
Section FoldM.
Context {A S : Type}.
Variable f : S -> A -> res S.

Lemma foldM_app l m s : foldM f (l ++ m) s = (s' <- foldM f l s ;; foldM f m s').
Proof. revert s; induction l as [|a l IH]; intros s; cbn; auto.
  destruct (f s a); cbn; auto. Qed.

Lemma foldM_inv (P : S -> Prop) l s s' :
  (forall s a s', In a l -> P s -> f s a = Ok s' -> P s') ->
  P s -> foldM f l s = Ok s' -> P s'.
Proof.
  revert s; induction l as [|a l IH]; intros s H HP E; cbn in E.
  - congruence.
  - binv E. eapply IH; [|eapply H; eauto; left; auto|eauto].
    intros; eapply H; eauto; right; auto.
Qed.

Lemma foldM_total (P : S -> Prop) l s :
  (forall s a, In a l -> P s -> exists s', f s a = Ok s' /\ P s') ->
  P s -> exists s', foldM f l s = Ok s' /\ P s'.
Proof.
  revert s; induction l as [|a l IH]; intros s H HP; cbn.
  - eauto.
  - destruct (H s a) as (s1 & -> & H1); auto; [left; auto|]. cbn.
    apply IH; auto. intros; apply H; auto; right; auto.
Qed.

End FoldM.

(** Invariant indexed by the number of processed elements. *)
Lemma foldM_seq_total {S} (P : nat -> S -> Prop) (g : S -> nat -> res S) n b s :
  (forall i s, b <= i < b + n -> P i s -> exists s', g s i = Ok s' /\ P (i + 1) s') ->
  P b s -> exists s', foldM g (seq b n) s = Ok s' /\ P (b + n) s'.
Proof.
  revert b s; induction n as [|n IH]; intros b s H HP; cbn.
  - rewrite Nat.add_0_r. eauto.
  - destruct (H b s) as (s1 & -> & H1); auto; [lia|]. cbn.
    replace (b + 1) with (Datatypes.S b) in H1 by lia.
    destruct (IH (Datatypes.S b) s1) as (s2 & -> & H2); auto.
    { intros; apply H; auto; lia. }
    exists s2; split; auto. replace (b + Datatypes.S n) with (Datatypes.S b + n) by lia. auto.
Qed.

Lemma foldM_ext {A S} (f g : S -> A -> res S) l s :
  (forall s a, In a l -> f s a = g s a) -> foldM f l s = foldM g l s.
Proof.
  revert s; induction l as [|a l IH]; intros s H; cbn; auto.
  rewrite H by (left; auto). destruct (g s a); cbn; auto. apply IH. intros; apply H; right; auto.
Qed.

Lemma foldM_fold_left {A S} (f : S -> A -> S) l s :
  foldM (fun s a => Ok (f s a)) l s = Ok (fold_left f l s).
Proof. revert s; induction l; intros; cbn; auto. Qed.

Lemma mapM_ok {A B} (f : A -> res B) l bs :
  mapM f l = Ok bs <-> Forall2 (fun a b => f a = Ok b) l bs.
Proof.
  revert bs; induction l as [|a l IH]; intros bs; cbn; split; intros H.
  - inversion H; constructor.
  - inversion H; auto.
  - binv H. binv H. inversion H; subst. constructor; auto. apply IH; auto.
  - inversion H; subst. rewrite H2. cbn. apply IH in H4. rewrite H4. auto.
Qed.

Lemma Forall2_len {A B} (R : A -> B -> Prop) l m : Forall2 R l m -> length l = length m.
Proof. induction 1; cbn; auto. Qed.

Lemma mapM_length {A B} (f : A -> res B) l bs : mapM f l = Ok bs -> length bs = length l.
Proof. intros H. apply mapM_ok in H. symmetry. eapply Forall2_len; eauto. Qed.

Lemma Forall2_nth_error {A B} (R : A -> B -> Prop) l m i a :
  Forall2 R l m -> nth_error l i = Some a -> exists b, nth_error m i = Some b /\ R a b.
Proof.
  intros H; revert i; induction H; intros [|i] E; cbn in *; try discriminate.
  - inversion E; subst. eauto.
  - eauto.
Qed.

Lemma mapM_nth {A B} (f : A -> res B) l bs i a :
  mapM f l = Ok bs -> nth_error l i = Some a -> exists b, nth_error bs i = Some b /\ f a = Ok b.
Proof. intros H E. apply mapM_ok in H. eapply Forall2_nth_error in H; eauto. Qed.

Lemma mapM_total {A B} (f : A -> res B) l :
  (forall a, In a l -> exists b, f a = Ok b) -> exists bs, mapM f l = Ok bs.
Proof.
  induction l as [|a l IH]; intros H; cbn; eauto.
  destruct (H a) as (b & ->); [left; auto|]. cbn.
  destruct IH as (bs & ->); [intros; apply H; right; auto|]. cbn. eauto.
Qed.

Lemma mapM_map {A B} (f : A -> res B) (g : A -> B) l :
  (forall a, In a l -> f a = Ok (g a)) -> mapM f l = Ok (map g l).
Proof.
  induction l as [|a l IH]; intros H; cbn; auto.
  rewrite H by (left; auto). cbn. rewrite IH by (intros; apply H; right; auto). auto.
Qed.

Lemma mapM_ext {A B} (f g : A -> res B) l :
  (forall a, In a l -> f a = g a) -> mapM f l = mapM g l.
Proof.
  induction l as [|a l IH]; intros H; cbn; auto.
  rewrite H by (left; auto). rewrite IH by (intros; apply H; right; auto). auto.
Qed.

(** * enumerate *)
Lemma enumerate_length {A} (l : list A) : length (enumerate l) = length l.
Proof. unfold enumerate. rewrite combine_length, seq_length. lia. Qed.

Lemma nth_error_combine {A B} (l : list A) (m : list B) i :
  nth_error (combine l m) i =
  match nth_error l i, nth_error m i with Some a, Some b => Some (a, b) | _, _ => None end.
Proof.
  revert m i; induction l as [|a l IH]; intros [|b m] [|i]; cbn; auto.
  destruct (nth_error l i); auto.
Qed.

Lemma nth_error_seq b n i : nth_error (seq b n) i = if Nat.ltb i n then Some (b + i) else None.
Proof.
  revert b i; induction n as [|n IH]; intros b [|i].
  - reflexivity.
  - reflexivity.
  - cbn. rewrite Nat.add_0_r. reflexivity.
  - cbn [seq nth_error]. rewrite IH. change (S i <? S n) with (i <? n).
    destruct (i <? n); auto. rewrite <- plus_n_Sm. auto.
Qed.

Lemma nth_error_enumerate {A} (l : list A) i :
  nth_error (enumerate l) i = option_map (fun x => (i, x)) (nth_error l i).
Proof.
  unfold enumerate. rewrite nth_error_combine, nth_error_seq.
  destruct (Nat.ltb_spec i (length l)).
  - destruct (nth_error l i); auto.
  - replace (nth_error l i) with (@None A); auto. symmetry; apply nth_error_None; lia.
Qed.

Lemma map_snd_enumerate {A} (l : list A) : map snd (enumerate l) = l.
Proof.
  unfold enumerate. assert (H : length (seq 0 (length l)) = length l) by apply seq_length.
  revert H. generalize (seq 0 (length l)). induction l as [|a l IH]; intros [|b m] H; cbn in *; try lia; auto.
  f_equal. apply IH. lia.
Qed.

Lemma map_fst_enumerate {A} (l : list A) : map fst (enumerate l) = seq 0 (length l).
Proof.
  unfold enumerate. assert (H : length (seq 0 (length l)) = length l) by apply seq_length.
  revert H. generalize (seq 0 (length l)). induction l as [|a l IH]; intros [|b m] H; cbn in *; try lia; auto.
  f_equal. apply IH. lia.
Qed.

Lemma In_enumerate {A} (l : list A) i x : In (i, x) (enumerate l) <-> nth_error l i = Some x.
Proof.
  split; intros H.
  - apply In_nth_error in H as (k & H). rewrite nth_error_enumerate in H.
    destruct (nth_error l k) eqn:E; cbn in H; [|discriminate]. inversion H; subst; auto.
  - eapply nth_error_In with (n := i). rewrite nth_error_enumerate, H. auto.
Qed.

Lemma enumerate_app {A} (l m : list A) :
  enumerate (l ++ m) = enumerate l ++ map (fun ix => (length l + fst ix, snd ix)) (enumerate m).
Proof.
  unfold enumerate. rewrite app_length, seq_app. cbn [Nat.add].
  assert (H : forall b, combine (seq b (length l) ++ seq (b + length l) (length m)) (l ++ m)
     = combine (seq b (length l)) l ++ map (fun ix : nat * A => (b + length l + fst ix, snd ix)) (combine (seq 0 (length m)) m)).
  { induction l as [|a l IH]; intros b; cbn.
    - rewrite Nat.add_0_r. clear. 
      assert (G : forall c, combine (seq (b + c) (length m)) m =
         map (fun ix : nat * A => (b + fst ix, snd ix)) (combine (seq c (length m)) m)).
      { induction m as [|a m IH]; intros c; cbn; auto. f_equal. 
        rewrite <- (IH (S c)). rewrite <- plus_n_Sm. auto. }
      pose proof (G 0) as G0. rewrite Nat.add_0_r in G0. exact G0.
    - f_equal. replace (b + S (length l)) with (S b + length l) by lia. rewrite IH. auto. }
  apply (H 0).
Qed.

Lemma skipn_skipn' {A} a b (l : list A) : skipn a (skipn b l) = skipn (a + b) l.
Proof.
  rewrite Nat.add_comm. revert l; induction b as [|b IH]; intros [|x l]; cbn; auto.
  destruct a; auto.
Qed.

(** * chunks *)
Lemma chunks_fuel_more {A} n (l : list A) f : 0 < n -> length l <= f ->
  chunks_fuel f n l = chunks n l.
Proof.
  intros Hn. unfold chunks. revert l. 
  assert (G : forall f g (l : list A), length l <= f -> length l <= g -> chunks_fuel f n l = chunks_fuel g n l).
  { induction f0 as [|f0 IH]; intros [|g] l Hf Hg; cbn; auto.
    - destruct l; cbn in *; auto; lia.
    - destruct l; cbn in *; auto; lia.
    - destruct l as [|a l]; auto. f_equal. apply IH; rewrite skipn_length; cbn [length] in *; lia. }
  intros l H. apply G; lia.
Qed.

Lemma chunks_nil {A} n : chunks n (@nil A) = [].
Proof. reflexivity. Qed.

Lemma chunks_cons {A} n (l : list A) : 0 < n -> l <> [] ->
  chunks n l = firstn n l :: chunks n (skipn n l).
Proof.
  intros Hn Hl. unfold chunks at 1. destruct l as [|a l]; [congruence|].
  cbn [chunks_fuel length]. f_equal. apply chunks_fuel_more; auto.
  rewrite skipn_length. cbn [length]. lia.
Qed.

Lemma chunks_ind {A} n (Hn : 0 < n) (P : list A -> Prop) :
  P [] -> (forall l, l <> [] -> P (skipn n l) -> P l) -> forall l, P l.
Proof.
  intros H0 H1.
  assert (G : forall k l, length l <= k -> P l).
  { induction k as [|k IH]; intros l Hk.
    - destruct l; auto; cbn in Hk; lia.
    - destruct l as [|a l]; auto. apply H1; [congruence|]. apply IH. rewrite skipn_length. cbn [length] in *. lia. }
  intros l; apply (G (length l)); lia.
Qed.

Lemma chunks_concat {A} n (l : list A) : 0 < n -> concat (chunks n l) = l.
Proof.
  intros Hn. induction l as [|l Hl IH] using (chunks_ind n Hn); auto.
  rewrite chunks_cons by auto. cbn [concat]. rewrite IH. apply firstn_skipn.
Qed.

Lemma chunks_length {A} n (l : list A) : 0 < n -> length (chunks n l) = (length l + n - 1) / n.
Proof.
  intros Hn. induction l as [|l Hl IH] using (chunks_ind n Hn); auto.
  - cbn. rewrite Nat.div_small; lia.
  - rewrite chunks_cons by auto. cbn [length]. rewrite IH, skipn_length.
    destruct (Nat.le_gt_cases (length l) n) as [H|H].
    + replace (length l - n) with 0 by lia. cbn [Nat.add].
      rewrite (Nat.div_small (n - 1)) by lia.
      destruct l as [|a l]; [congruence|]. cbn [length] in *.
      replace (S (length l) + n - 1) with (length l + 1 * n) by lia.
      rewrite Nat.div_add by lia. rewrite Nat.div_small by lia. auto.
    + replace (length l + n - 1) with (length l - n + n - 1 + 1 * n) by lia.
      rewrite Nat.div_add by lia. lia.
Qed.

Lemma nth_error_chunks {A} n (l : list A) k c : 0 < n ->
  nth_error (chunks n l) k = Some c -> c = firstn n (skipn (k * n) l) /\ k * n < length l.
Proof.
  intros Hn. revert k. induction l as [|l Hl IH] using (chunks_ind n Hn); auto; intros k H.
  - destruct k; discriminate.
  - rewrite chunks_cons in H by auto. destruct k as [|k]; cbn in H.
    + inversion H; subst. cbn. split; auto. destruct l; cbn; [congruence|lia].
    + apply IH in H as [-> H]. rewrite skipn_length in H. split; [|cbn; lia].
      rewrite skipn_skipn'. f_equal. f_equal. lia.
Qed.

Lemma nth_error_chunks_some {A} n (l : list A) k : 0 < n -> k * n < length l ->
  nth_error (chunks n l) k = Some (firstn n (skipn (k * n) l)).
Proof.
  intros Hn H. destruct (nth_error (chunks n l) k) eqn:E.
  - apply nth_error_chunks in E as [-> _]; auto.
  - apply nth_error_None in E. rewrite chunks_length in E by auto.
    assert (S k <= (length l + n - 1) / n). { apply Nat.div_le_lower_bound; nia. } lia.
Qed.

Lemma Forall_chunks_le {A} n (l : list A) : 0 < n -> Forall (fun c => length c <= n) (chunks n l).
Proof.
  intros Hn. induction l as [|l Hl IH] using (chunks_ind n Hn); auto.
  - constructor.
  - rewrite chunks_cons by auto. constructor; auto. rewrite firstn_length. lia.
Qed.

(** Chunks of a list whose length is a multiple of [n]. *)
Lemma chunks_exact_mul {A} n h (l : list A) : 0 < n -> length l = n * h ->
  Forall (fun c => length c = n) (chunks n l) /\ length (chunks n l) = h.
Proof.
  intros Hn. revert l. induction h as [|h IH]; intros l Hl.
  - destruct l; [|cbn in Hl; lia]. split; [constructor|reflexivity].
  - assert (l <> []) by (destruct l; cbn in Hl; [lia|congruence]).
    rewrite chunks_cons by auto. destruct (IH (skipn n l)) as [H1 H2].
    { rewrite skipn_length; lia. }
    split; [constructor; auto; rewrite firstn_length; lia|cbn; lia].
Qed.

Lemma filter_all {A} (p : A -> bool) l : Forall (fun x => p x = true) l -> filter p l = l.
Proof. induction 1; cbn; auto. rewrite H. f_equal; auto. Qed.

Lemma chunks_exact_eq {A} n h (l : list A) : 0 < n -> length l = n * h -> chunks_exact n l = chunks n l.
Proof.
  intros Hn Hl. unfold chunks_exact. apply filter_all.
  destruct (chunks_exact_mul n h l) as [H _]; auto.
  eapply Forall_impl; [|eauto]. intros; apply Nat.eqb_eq; auto.
Qed.

(** * min_by / max_by *)
Section MinBy.
Context {A : Type}.
Variable cmp : A -> A -> comparison.

Lemma fold_pick_in (sel : A -> A -> bool) l a :
  In (fold_left (fun x y => if sel x y then y else x) l a) (a :: l).
Proof.
  revert a; induction l as [|b l IH]; intros a; cbn [fold_left]; [left; auto|].
  destruct (IH (if sel a b then b else a)) as [H|H].
  - destruct (sel a b); [right; left|left]; auto.
  - right; right; auto.
Qed.

Lemma min_by_in l a : min_by cmp l = Some a -> In a l.
Proof.
  destruct l as [|b l]; cbn; [discriminate|]. intros H; inversion H; subst; clear H.
  revert b; induction l as [|c l IH]; intros b; cbn [fold_left]; [left; auto|].
  specialize (IH (match cmp b c with Gt => c | _ => b end)).
  destruct IH as [H|H]; [|right; right; auto].
  rewrite <- H. destruct (cmp b c); [left|left|right; left]; auto.
Qed.

Lemma max_by_in l a : max_by cmp l = Some a -> In a l.
Proof.
  destruct l as [|b l]; cbn; [discriminate|]. intros H; inversion H; subst; clear H.
  revert b; induction l as [|c l IH]; intros b; cbn [fold_left]; [left; auto|].
  specialize (IH (match cmp b c with Gt => b | _ => c end)).
  destruct IH as [H|H]; [|right; right; auto].
  rewrite <- H. destruct (cmp b c); [right; left|right; left|left]; auto.
Qed.

Lemma min_by_none l : min_by cmp l = None -> l = [].
Proof. destruct l; cbn; [auto|discriminate]. Qed.
Lemma min_by_some l : l <> [] -> exists a, min_by cmp l = Some a.
Proof. destruct l; cbn; [congruence|eauto]. Qed.
Lemma max_by_some l : l <> [] -> exists a, max_by cmp l = Some a.
Proof. destruct l; cbn; [congruence|eauto]. Qed.

Hypothesis ge_trans : forall x y z, cmp x y <> Gt -> cmp y z <> Gt -> cmp x z <> Gt.
Hypothesis total : forall x y, cmp x y = Gt -> cmp y x <> Gt.

Lemma cmp_refl_not_gt x : cmp x x <> Gt.
Proof. intros H. apply (total _ _ H). auto. Qed.

Lemma min_by_le l a : min_by cmp l = Some a -> Forall (fun y => cmp a y <> Gt) l.
Proof.
  destruct l as [|b l]; cbn; [discriminate|]. intros H; inversion H; subst; clear H.
  assert (G : forall l b, let m := fold_left (fun x y => match cmp x y with Gt => y | _ => x end) l b in
             cmp m b <> Gt /\ Forall (fun y => cmp m y <> Gt) l).
  { clear l b. induction l as [|c l IH]; intros b; cbn [fold_left].
    - cbn. split; auto using cmp_refl_not_gt.
    - destruct (cmp b c) eqn:E.
      + destruct (IH b) as [H1 H2]. split; auto. constructor; auto. eapply ge_trans; eauto. congruence.
      + destruct (IH b) as [H1 H2]. split; auto. constructor; auto. eapply ge_trans; eauto. congruence.
      + destruct (IH c) as [H1 H2]. split; [|constructor; auto]. eapply ge_trans; eauto. }
  destruct (G l b). constructor; auto.
Qed.

Lemma max_by_ge l a : max_by cmp l = Some a -> Forall (fun y => cmp y a <> Gt) l.
Proof.
  destruct l as [|b l]; cbn; [discriminate|]. intros H; inversion H; subst; clear H.
  assert (G : forall l b, let m := fold_left (fun x y => match cmp x y with Gt => x | _ => y end) l b in
             cmp b m <> Gt /\ Forall (fun y => cmp y m <> Gt) l).
  { clear l b. induction l as [|c l IH]; intros b; cbn [fold_left].
    - cbn. split; auto using cmp_refl_not_gt.
    - destruct (cmp b c) eqn:E.
      + destruct (IH c) as [H1 H2]. split; [|constructor; auto]. eapply ge_trans; eauto. congruence.
      + destruct (IH c) as [H1 H2]. split; [|constructor; auto]. eapply ge_trans; eauto. congruence.
      + destruct (IH b) as [H1 H2]. split; auto. constructor; auto. eapply ge_trans; [|eauto]. auto. }
  destruct (G l b). constructor; auto.
Qed.

(** * sort_by *)
Lemma insert_by_sorted x l :
  Sorted (fun a b => cmp a b <> Gt) l -> Sorted (fun a b => cmp a b <> Gt) (insert_by cmp x l).
Proof.
  induction 1 as [|y l Hs IH Hd]; cbn; [constructor; constructor|].
  destruct (cmp x y) eqn:E.
  - constructor; [constructor; auto|]. constructor. congruence.
  - constructor; [constructor; auto|]. constructor. congruence.
  - constructor; auto. destruct l as [|z l]; cbn.
    + constructor. auto.
    + inversion Hd; subst. destruct (cmp x z); constructor; auto.
Qed.

Lemma sort_by_sorted l : Sorted (fun a b => cmp a b <> Gt) (sort_by cmp l).
Proof. induction l; cbn; [constructor|apply insert_by_sorted; auto]. Qed.

Lemma sort_by_strongly l : StronglySorted (fun a b => cmp a b <> Gt) (sort_by cmp l).
Proof.
  apply Sorted_StronglySorted; [|apply sort_by_sorted].
  intros x y z H1 H2. eapply ge_trans; eauto.
Qed.
End MinBy.

Lemma insert_by_perm {A} (cmp : A -> A -> comparison) x l : Permutation (x :: l) (insert_by cmp x l).
Proof.
  induction l as [|y l IH]; cbn; auto.
  destruct (cmp x y); auto. etransitivity; [apply perm_swap|]. constructor; auto.
Qed.
Lemma sort_by_perm {A} (cmp : A -> A -> comparison) l : Permutation l (sort_by cmp l).
Proof. induction l; cbn; auto. etransitivity; [|apply insert_by_perm]. constructor; auto. Qed.
Lemma sort_by_length {A} (cmp : A -> A -> comparison) l : length (sort_by cmp l) = length l.
Proof. symmetry. apply Permutation_length, sort_by_perm. Qed.

(** * Misc lists *)
Lemma firstn_In {A} n (l : list A) x : In x (firstn n l) -> In x l.
Proof. intros H. rewrite <- (firstn_skipn n l). apply in_or_app; auto. Qed.
Lemma skipn_In {A} n (l : list A) x : In x (skipn n l) -> In x l.
Proof. intros H. rewrite <- (firstn_skipn n l). apply in_or_app; auto. Qed.
Lemma nth_error_skipn {A} n (l : list A) i : nth_error (skipn n l) i = nth_error l (n + i).
Proof. revert l; induction n as [|n IH]; intros [|a l]; cbn; auto. destruct i; auto. Qed.
Lemma nth_error_firstn {A} n (l : list A) i :
  nth_error (firstn n l) i = if Nat.ltb i n then nth_error l i else None.
Proof.
  revert l i; induction n as [|n IH]; intros [|a l] [|i]; try reflexivity.
  - cbn [firstn nth_error]. destruct (Nat.ltb (S i) (S n)); auto.
  - cbn [firstn nth_error]. rewrite IH. reflexivity.
Qed.

Lemma NoDup_nth_error_inj {A} (l : list A) i j x :
  NoDup l -> nth_error l i = Some x -> nth_error l j = Some x -> i = j.
Proof.
  intros H Hi Hj. eapply NoDup_nth_error; eauto; [|congruence]. apply nth_error_Some; congruence.
Qed.

Lemma list_eq_nth_error {A} (l m : list A) :
  (forall i, nth_error l i = nth_error m i) -> l = m.
Proof.
  revert m; induction l as [|a l IH]; intros [|b m] H; auto.
  - specialize (H 0); discriminate.
  - specialize (H 0); discriminate.
  - f_equal. + specialize (H 0). cbn in H. congruence. + apply IH. intros i. apply (H (S i)).
Qed.
