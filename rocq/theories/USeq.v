(** The contract [unspec_ok] is satisfiable: a sequential execution (one
    worker, iteration in insertion order, sorting as selection). *)
From Verif Require Import Base Arith Pal World BaseFacts.
From Coq Require Import ZifyBool.
Section USeq.
Context {A : Arith}.

Definition med3_pos (a b c : Z) : nat :=
  let m := Z.max (Z.min a b) (Z.min (Z.max a b) c) in
  if (a =? m)%Z then 0 else if (b =? m)%Z then 1 else 2.

Definition u_seq (cpus : nat) (scratch : nat -> nat -> nat) : unspec := {|
  u_map := fun l => l;
  u_set := fun l => l;
  u_select := fun l _ => sort_by (fun x y => Z.compare (h_tmp x) (h_tmp y)) l;
  u_med3 := med3_pos;
  u_batches := fun _ n => [seq 0 n];
  u_rows := fun _ n => [seq 0 n];
  u_main := fun _ _ => 0;
  u_sum := fun _ n => fold_left (fun t i => SNode t (SLeaf i)) (seq 0 n) SZero;
  u_cpus := cpus;
  u_scratch := scratch
|}.

Lemma fold_leaves l t : stree_leaves (fold_left (fun t i => SNode t (SLeaf i)) l t) = stree_leaves t ++ l.
Proof.
  revert t. induction l as [|i l IH]; intros t; cbn [fold_left]; [rewrite app_nil_r; auto|].
  rewrite IH. cbn. rewrite <- app_assoc. auto.
Qed.

Lemma sorted_split {T} (R : T -> T -> Prop) (Rrefl : forall x, R x x) (l : list T) n m :
  Sorted.StronglySorted R l -> nth_error l n = Some m ->
  Forall (fun x => R x m) (firstn n l) /\ Forall (fun x => R m x) (skipn n l).
Proof.
  intros H. revert n. induction H as [|a l H IH Ha]; intros n E.
  - destruct n; discriminate.
  - destruct n as [|n]; cbn in E |- *.
    + inversion E; subst. split; constructor; auto.
    + destruct (IH n E) as [I1 I2]. split; auto. constructor; auto.
      rewrite Forall_forall in Ha. apply Ha. apply nth_error_In in E. auto.
Qed.

Lemma u_seq_ok cpus scratch : (1 <= cpus)%nat -> (forall t c, (scratch t c < 256)%nat) -> unspec_ok (u_seq cpus scratch).
Proof.
  intros Hc Hs. constructor; cbn [u_map u_set u_select u_med3 u_batches u_rows u_main u_sum u_cpus u_scratch u_seq]; auto.
  - intros l n _. apply sort_by_perm.
  - intros l n m Hn E.
    assert (S : Sorted.StronglySorted (fun a b => (h_tmp a <= h_tmp b)%Z)
                 (sort_by (fun x y => Z.compare (h_tmp x) (h_tmp y)) l)).
    { assert (S2 : Sorted.StronglySorted (fun a b => Z.compare (h_tmp a) (h_tmp b) <> Gt)
                 (sort_by (fun x y => Z.compare (h_tmp x) (h_tmp y)) l)).
      { apply sort_by_strongly.
        - intros x y z H1 H2. rewrite Z.compare_le_iff in *. lia.
        - intros x y H1. apply Z.compare_gt_iff in H1. apply Z.compare_le_iff. lia. }
      clear - S2. induction S2 as [|x l' S2 IH Hx]; constructor; auto. }
    apply sorted_split with (R := fun a b => (h_tmp a <= h_tmp b)%Z); auto. intros; lia.
  - intros a b c. unfold med3_pos. cbv zeta.
    destruct (a =? Z.max (Z.min a b) (Z.min (Z.max a b) c))%Z eqn:E1; [cbn; lia|].
    destruct (b =? Z.max (Z.min a b) (Z.min (Z.max a b) c))%Z eqn:E2; cbn; lia.
  - intros t n. unfold covers. cbn. rewrite app_nil_r. auto.
  - intros t n. unfold covers. cbn. rewrite app_nil_r. auto.
  - intros t n. rewrite fold_leaves. auto.
Qed.
End USeq.
