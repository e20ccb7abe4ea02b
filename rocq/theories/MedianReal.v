(** The halves of a box are never empty in exact arithmetic, whatever the weights. *)
From Verif Require Import Base BaseFacts Arith Pal World Attr Hist MedianCut MedianFacts SplitFacts RealArith.
From Coq Require Import Reals Lra.
Open Scope R_scope.

Section R.
Variable big : R.
Let A : Arith := real big.
Existing Instance A.

Fixpoint sumR (l : list R) : R := match l with [] => 0 | x :: r => x + sumR r end.
Lemma sumR_app a b : sumR (a ++ b) = sumR a + sumR b.
Proof. induction a; cbn [app sumR]; lra. Qed.
Lemma sumR_perm a b : Permutation a b -> sumR a = sumR b.
Proof. induction 1; cbn [sumR]; lra. Qed.
Lemma sumR_pos l : Forall (fun x => 0 <= x) l -> 0 <= sumR l.
Proof. induction 1; cbn [sumR]; lra. Qed.
Lemma fold_sumR l : forall acc, fold_left Rplus l acc = acc + sumR l.
Proof. induction l as [|x l IH]; intros acc; cbn [fold_left sumR]; [lra|]. rewrite IH. lra. Qed.
Lemma dsum_sumR (l : list R) : @dsum A l = sumR l.
Proof. transitivity (fold_left Rplus l 0); [reflexivity|]. rewrite fold_sumR. lra. Qed.

Definition reaches (_ : nat) (l : list R) (h : R) : Prop := h <= sumR l.
Lemma reaches_perm k l l' h : Permutation l l' -> reaches k l h -> reaches k l' h.
Proof. unfold reaches. intros P H. rewrite <- (sumR_perm _ _ P). auto. Qed.
Lemma reaches_step k (a b : list R) h : a <> [] -> reaches k (a ++ b) h -> Rleb h (@dsum A a) = false -> b <> [] /\ reaches (S k) b (h - @dsum A a).
Proof.
  intros _ H D. rewrite dsum_sumR in *. unfold reaches in *. rewrite sumR_app in H. rbool. split; [|lra].
  intros ->. cbn [sumR] in H. lra.
Qed.
Lemma reaches_start (cs : list (px * R * R)) (l : list hitem) mid : True -> (2 <= length cs)%nat -> Permutation cs (map core l) ->
  In mid (map (fun c => fst (fst c)) cs) -> Forall (fun c => h_mcw c = color_weight mid c) l -> reaches 0 (wts l) (@dsum A (wts l) / 2).
Proof.
  intros _ _ _ _ W. rewrite dsum_sumR. unfold reaches. enough (0 <= sumR (wts l)) by lra.
  apply sumR_pos. unfold wts. apply Forall_map. eapply Forall_impl; [|exact W]. intros c E. cbv beta. rewrite E.
  change (0 <= sqrt (diff mid (h_color c)) * sqrt (1 + h_adj c)). apply Rmult_le_pos; apply sqrt_pos.
Qed.

Lemma mediancut_nonempty_real (u : unspec) (h : hint) target t m : unspec_ok u ->
  clusters_fit (hi_clusters h) (length (hi_items h)) -> (0 < target <= 256)%nat -> (0 < length (hi_items h))%nat ->
  exists (p : palf) (h' : hint) (groups : list (list hitem)), mediancut u h target t m = Ok (p, h') /\ (1 <= length p <= target)%nat /\
    Permutation (map core (hi_items h)) (map core (hi_items h')) /\
    grouped p (hi_items h') groups /\ Forall (fun g => g <> []) groups.
Proof.
  intros U C T L.
  exact (mediancut_nonempty u U reaches reaches_perm reaches_step (fun _ => True) (fun _ _ _ _ _ => conj I I) reaches_start h target t m C T L I).
Qed.
Lemma box_split_nonempty_real (u : unspec) b others b1 b2 : unspec_ok u -> (2 <= length (b_items b))%nat ->
  box_split u b others = Ok [b1; b2] -> (0 < length (b_items b1) /\ 0 < length (b_items b2))%nat.
Proof.
  intros U. exact (box_split_nonempty u U reaches reaches_perm reaches_step (fun _ => True) reaches_start b others b1 b2 I).
Qed.
End R.
