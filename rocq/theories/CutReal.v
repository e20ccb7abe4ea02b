(** Median cut splits the worst box at its weighted median (C61). *)
From Verif Require Import Base BaseFacts Arith Order Pal World Attr Hist MedianCut MedianFacts SplitFacts RealArith MedianReal NearReal FixedFacts SpecCut.
From Coq Require Import Reals Lra ZifyBool Sorted.
Open Scope R_scope.

Section Half.
Context (big : R).
Local Notation A := (real big).
Local Hint Extern 0 Arith => exact (real big) : typeclass_instances.
Variable u : unspec.
Variable U : unspec_ok u.

Definition above (a b : list (@hitem A)) : Prop := forall x y, In x a -> In y b -> (h_tmp y <= h_tmp x)%Z.
Definition mw (l : list (@hitem A)) : R := sumR (map (fun c => (h_mcw c : R)) l).
Lemma mw_app a b : mw (a ++ b) = mw a + mw b.
Proof. unfold mw. rewrite map_app. apply sumR_app. Qed.
Lemma mw_dsum l : @dsum A (map (fun c => f2d (h_mcw c)) l) = mw l.
Proof. apply dsum_sumR. Qed.
Lemma mw_perm a b : Permutation a b -> mw a = mw b.
Proof. intros P. apply sumR_perm, Permutation_map, P. Qed.
Lemma above_perm a a' b b' : Permutation a a' -> Permutation b b' -> above a b -> above a' b'.
Proof. intros P Q H x y X Y. apply H; [apply (Permutation_in _ (Permutation_sym P) X)|apply (Permutation_in _ (Permutation_sym Q) Y)]. Qed.
Lemma above_app a b c d : above a b -> above a d -> above c b -> above c d -> above (a ++ c) (b ++ d).
Proof. intros H1 H2 H3 H4 x y X Y. apply in_app_or in X, Y. destruct X, Y; auto. Qed.
Lemma above_nil_r a : above a []. Proof. intros x y _ []. Qed.
Lemma above_nil_l a : above [] a. Proof. intros x y []. Qed.

(** The edge: [l1] before it; the next colour, if any, reaches half. *)
Definition edge_at (half : R) (l1 l2 : list (@hitem A)) : Prop :=
  (l1 = [] \/ mw l1 < half) /\ above l1 l2 /\ match l2 with [] => True | x :: t => half <= mw (l1 ++ [x]) /\ above [x] t end.
Lemma sort_half_loop_at fuel : forall base half bi b i, (0 < length base <= fuel)%nat ->
  sort_half_loop u fuel base half bi = Ok (b, i) ->
  exists l1 l2, b = l1 ++ l2 /\ Permutation base b /\ i = (bi + length l1)%nat /\ edge_at half l1 l2.
Proof.
  induction fuel as [|f IH]; intros base half bi b i H E; [discriminate|]. cbn [sort_half_loop] in E.
  destruct (qsort_partition_ok u U base) as (b1 & part & E1 & PM & Hp & p & Np & F1 & F2); [lia|]. rewrite E1 in E. cbn [bind] in E.
  pose proof (Permutation_length PM) as L. rewrite <- L in E.
  destruct (Nat.ltb_spec (length base) (part + 1)); [lia|].
  pose proof (nth_error_split_at b1 part p Np) as B1. rewrite <- Nat.add_1_r in B1.
  assert (LF : length (firstn part b1) = part) by (rewrite firstn_length; lia).
  assert (Q1 : firstn (part + 1) b1 = firstn part b1 ++ [p]).
  { rewrite B1 at 1. rewrite <- LF at 1. rewrite firstn_app_2. reflexivity. }
  remember (firstn part b1) as lf eqn:Elf. remember (skipn (part + 1) b1) as rt eqn:Ert. rewrite Q1 in E. clear Elf Ert Q1 Np.
  rewrite Forall_forall in F1, F2.
  assert (A1 : above lf (p :: rt)). { intros x y X [<-|Y]; [apply F1; auto|]. specialize (F1 x X). specialize (F2 y Y). lia. }
  assert (A2 : above [p] rt). { intros x y [<-|[]] Y. apply F2; auto. }
  assert (PF : firstn part (lf ++ [p]) = lf). { rewrite <- LF at 1. rewrite <- (Nat.add_0_r (length lf)). rewrite firstn_app_2. apply app_nil_r. }
  assert (PS : skipn part (lf ++ [p]) = [p]). { rewrite <- LF at 1. rewrite skipn_app, skipn_all, Nat.sub_diag. reflexivity. }
  rewrite PF, PS in E. rewrite mw_dsum in E. cbv zeta in E. rewrite mw_app in E.
  assert (LB : length base = (length lf + 1 + length rt)%nat) by (rewrite L, B1, app_length; cbn [length]; lia).
  destruct (@dle A half (mw lf + mw [p])) eqn:D; cbn [dle real] in D; rbool.
  - destruct lf as [|x l'].
    + injection E as <- <-. exists [], b1. split; auto. split; auto. split; [cbn [length]; lia|]. split; auto.
      split; auto using above_nil_l. rewrite B1. cbn [app]. split; auto. unfold mw in *. cbn [map sumR app] in *. lra.
    + apply bind_ok in E as ([l'' i2] & E2 & E). injection E as <- <-.
      apply IH in E2 as (l1 & l2 & -> & P2 & -> & O & A3 & X); [|cbn [length] in *; lia].
      assert (A5 : above (l1 ++ l2) (p :: rt)) by (eapply above_perm; [exact P2|apply Permutation_refl|exact A1]).
      exists l1, (l2 ++ p :: rt). split; [rewrite <- app_assoc; reflexivity|]. split.
      { rewrite PM, B1, P2. reflexivity. }
      split; auto. split; auto. split.
      { intros a b Ha Hb. apply in_app_or in Hb as [Hb|Hb]; [apply A3; auto|]. apply A5; auto. apply in_or_app; auto. }
      destruct l2 as [|y l2].
      { cbn [app]. rewrite app_nil_r in P2. split; auto. rewrite mw_app, <- (mw_perm _ _ P2). auto. }
      cbn [app]. destruct X as [X1 X2]. split; auto.
      intros a b [<-|[]] Hb. apply in_app_or in Hb as [Hb|Hb]; [apply X2; auto; left; auto|]. apply A5; auto. apply in_or_app; right; left; auto.
  - assert (LP : length (lf ++ [p]) = (length lf + 1)%nat) by (rewrite app_length; reflexivity).
    destruct rt as [|x r'].
    + injection E as <- <-. exists b1, []. rewrite app_nil_r. split; auto. split; auto. split; [rewrite LP; cbn [length] in *; lia|].
      split; [right; rewrite B1, mw_app; auto|]. split; auto using above_nil_r.
    + apply bind_ok in E as ([r'' i2] & E2 & E). injection E as <- <-.
      apply IH in E2 as (l1 & l2 & -> & P2 & -> & O & A3 & X); [|cbn [length] in *; lia].
      assert (A5 : above (lf ++ [p]) (l1 ++ l2)).
      { eapply above_perm; [apply Permutation_refl|exact P2|]. intros a b Ha Hb. apply in_app_or in Ha as [Ha|Ha]; [apply A1; auto; right; auto|apply A2; auto]. }
      exists ((lf ++ [p]) ++ l1), l2. split; [rewrite app_assoc; reflexivity|]. split.
      { rewrite PM, B1, <- P2, <- app_assoc. reflexivity. }
      split; [rewrite !app_length; cbn [length]; lia|]. split; [|split].
      { right. rewrite !mw_app. destruct O as [->|O]; [unfold mw at 3; cbn [map sumR]; lra|]. cbn [dsub real] in O. lra. }
      { intros a b Ha Hb. apply in_app_or in Ha as [Ha|Ha]; [apply A5; auto; apply in_or_app; auto|apply A3; auto]. }
      destruct l2 as [|y l2]; auto. destruct X as [X1 X2]. split; auto. rewrite !mw_app in *. cbn [dsub real] in X1. lra.
Qed.

(** * The sort key *)
Definition unitpx (c : @px A) : Prop := 0 <= (pa c : R) <= 1 /\ 0 <= (pr c : R) <= 1 /\ 0 <= (pg c : R) <= 1 /\ 0 <= (pb c : R) <= 1.
Lemma chan_unit (c : @px A) k : unitpx c -> 0 <= (MedianCut.chan c k : R) <= 1.
Proof. intros (H1 & H2 & H3 & H4). destruct k as [|[|[|k]]]; cbn [MedianCut.chan]; auto. Qed.
Lemma int_part_lt x : IZR (Int_part x) <= x < IZR (Int_part x) + 1.
Proof. pose proof (base_Int_part x). lra. Qed.
Lemma to_uint_eq x m : 0 <= x -> x < IZR m + 1 -> to_uint m x = Int_part x.
Proof.
  intros H0 H1. pose proof (int_part_lt x) as [B1 B2]. unfold to_uint.
  assert (-1 < Int_part x)%Z by (apply lt_IZR; lra). assert (Int_part x < m + 1)%Z by (apply lt_IZR; rewrite plus_IZR; lra). lia.
Qed.
Lemma key_high (v c : @px A) : unitpx c -> let k := Int_part (MedianCut.chan c (nth 0 (channel_order v) 0%nat) * 65535) in
  (k <= Z.shiftr (sort_value v c) 16 <= k + 1)%Z.
Proof.
  intros Hc k. set (ch := fun i => MedianCut.chan c (nth i (channel_order v) 0%nat)).
  assert (C : forall i, 0 <= (ch i : R) <= 1) by (intros i; apply chan_unit; auto).
  pose proof (C 0%nat) as C0. pose proof (C 1%nat) as C1. pose proof (C 2%nat) as C2. pose proof (C 3%nat) as C3.
  change (MedianCut.chan c (nth 0 (channel_order v) 0%nat)) with (ch 0%nat) in k.
  change (sort_value v c) with (Z.lor (wrap32 (Z.shiftl (to_uint U32_MAX (ch 0%nat * 65535)) 16))
    (to_uint U32_MAX ((ch 2%nat + ch 1%nat / 2 + ch 3%nat / 4) * 65535))).
  rewrite !to_uint_eq; try (unfold U32_MAX; lra). fold k.
  pose proof (int_part_lt (ch 0%nat * 65535)) as K. fold k in K.
  assert (0 <= k <= 65535)%Z. { split; apply le_IZR + apply Z.lt_succ_r, lt_IZR; unfold Z.succ; rewrite ?plus_IZR; lra. }
  set (o := Int_part _). pose proof (int_part_lt ((ch 2%nat + ch 1%nat / 2 + ch 3%nat / 4) * 65535)) as O. fold o in O.
  assert (0 <= o < 131072)%Z.
  { split; [apply Z.lt_succ_r|]; apply lt_IZR; unfold Z.succ; rewrite ?plus_IZR; lra. }
  unfold wrap32. rewrite Z.shiftl_mul_pow2 by lia. rewrite Z.mod_small by lia.
  rewrite Z.shiftr_lor. rewrite <- Z.shiftl_mul_pow2 by lia. rewrite Z.shiftr_shiftl_l by lia. cbn [Z.sub Z.shiftl]. 
  change (Z.shiftl k (16 - 16)) with k.
  assert (S : Z.shiftr o 16 = 0%Z \/ Z.shiftr o 16 = 1%Z). { rewrite Z.shiftr_div_pow2 by lia. change (2 ^ 16)%Z with 65536%Z. lia. }
  destruct S as [->| ->]; [rewrite Z.lor_0_r; lia|].
  destruct k as [|q|q]; [cbn; lia| |lia]. destruct q; cbn; lia.
Qed.
Lemma key_later (v x y : @px A) : unitpx x -> unitpx y -> (sort_value v y <= sort_value v x)%Z ->
  let ch c := MedianCut.chan c (nth 0 (channel_order v) 0%nat) : R in ch y <= ch x + 2 / 65535.
Proof.
  intros Hx Hy L ch. pose proof (key_high v x Hx) as Kx. pose proof (key_high v y Hy) as Ky. cbv zeta in *.
  fold (ch x) in Kx. fold (ch y) in Ky.
  pose proof (int_part_lt (ch x * 65535)) as X. pose proof (int_part_lt (ch y * 65535)) as Y.
  assert (Z.shiftr (sort_value v y) 16 <= Z.shiftr (sort_value v x) 16)%Z by (rewrite !Z.shiftr_div_pow2 by lia; apply Z.div_le_mono; lia).
  assert (Q : (Int_part (ch y * 65535) <= Int_part (ch x * 65535) + 1)%Z) by lia.
  apply IZR_le in Q. rewrite plus_IZR in Q. lra.
Qed.
Lemma rcmp_not_gt (a b : R) : @fcmp A a b <> Gt <-> a <= b.
Proof. unfold fcmp. cbn [flt real]. destruct (Rltb a b) eqn:E; [rbool; split; intros; [lra|discriminate]|]. destruct (Rltb b a) eqn:F; rbool; split; intros; try congruence; try discriminate; lra. Qed.
Lemma rdcmp_not_gt (a b : R) : @dcmp A a b <> Gt <-> a <= b.
Proof. exact (rcmp_not_gt a b). Qed.
Lemma order_first (v : @px A) : let j := nth 0 (channel_order v) 0%nat in In j [0; 1; 2; 3]%nat /\
  forall i, In i [0; 1; 2; 3]%nat -> (MedianCut.chan v i : R) <= MedianCut.chan v j.
Proof.
  unfold channel_order. set (cmp := fun i j => cmp_rev (@fcmp A (MedianCut.chan v i) (MedianCut.chan v j))). cbv zeta.
  assert (CN : forall x y, cmp x y <> Gt <-> (MedianCut.chan v y : R) <= MedianCut.chan v x).
  { intros x y. unfold cmp. rewrite <- rcmp_not_gt. unfold fcmp. cbn [flt real].
    destruct (Rltb (MedianCut.chan v x) (MedianCut.chan v y)) eqn:E1; destruct (Rltb (MedianCut.chan v y) (MedianCut.chan v x)) eqn:E2; cbn [cmp_rev]; rbool; try lra; try tauto; split; intros; discriminate. }
  pose proof (sort_by_perm cmp [0; 1; 2; 3]%nat) as P.
  pose proof (sort_by_strongly cmp) as SS. specialize (SS ltac:(intros x y z; rewrite !CN; intros; lra)).
  specialize (SS ltac:(intros x y G; rewrite CN; destruct (Rle_dec (MedianCut.chan v x) (MedianCut.chan v y)) as [|N]; auto; exfalso; apply Rnot_le_lt, Rlt_le in N; apply CN in N; congruence) [0; 1; 2; 3]%nat).
  destruct (sort_by cmp [0; 1; 2; 3]%nat) as [|j l] eqn:E; [apply Permutation_sym, Permutation_nil in P; discriminate|]. cbn [nth].
  inversion SS as [|? ? S1 S2]; subst. split; [eapply Permutation_in; [apply Permutation_sym; exact P|left; auto]|].
  intros i Hi. apply (Permutation_in _ P) in Hi. destruct Hi as [->|Hi]; [lra|]. rewrite Forall_forall in S2. apply CN. auto.
Qed.

(** * A box and what it stands for *)
Definition fine (c : @wcol big) : Prop := unitpx (wc_px c) /\ 0 <= wc_adj c /\ 0 <= wc_pix c.
Definition cores (l : list (@hitem A)) : list (@wcol big) := map core l.
Definition box_loss (b : @sbox big) : R := sumR (map (fun c => diff (snd b) (wc_px c) * wc_pix c) (fst b)).
Definition abs (b : @mbox A) : @sbox big := (cores (b_items b), b_avg b).
Definition binv (b : @mbox A) : Prop :=
  b_items b <> [] /\ Forall fine (cores (b_items b)) /\
  (forall i, In i [0; 1; 2; 3]%nat -> (MedianCut.chan (b_var b) i : R) = spread (b_avg b) (cores (b_items b)) (fun c => MedianCut.chan c i)) /\
  furthest (b_avg b) (cores (b_items b)) (b_max b) /\ b_wsum b = total (cores (b_items b)) /\
  (forall e, b_err b = Some e -> e = box_loss (abs b)).

Lemma sumR_zero l : Forall (fun x => 0 <= x) l -> sumR l = 0 -> Forall (fun x => x = 0) l.
Proof.
  induction 1 as [|x l H F IH]; cbn [sumR]; intros E; constructor.
  - pose proof (sumR_pos _ F). lra.
  - apply IH. pose proof (sumR_pos _ F). lra.
Qed.
Lemma average_fold (l : list (@hitem A)) : forall t s, fold_left (fun '(t, s) c => (px_add t (px_scale (h_color c) (h_adj c)), (s +f h_adj c)%flt)) l (t, s) =
  (@Px A (pa t + sumR (map (fun c => wc_adj c * pa (wc_px c)) (cores l))) (pr t + sumR (map (fun c => wc_adj c * pr (wc_px c)) (cores l)))
         (pg t + sumR (map (fun c => wc_adj c * pg (wc_px c)) (cores l))) (pb t + sumR (map (fun c => wc_adj c * pb (wc_px c)) (cores l))),
   s + total (cores l)).
Proof.
  induction l as [|c l IH]; intros t s; cbn [fold_left].
  - unfold total. cbn [cores map sumR]. destruct t as [t1 t2 t3 t4]. cbn [pa pr pg pb]. f_equal; [f_equal|]; cbn [f32 real] in *; lra.
  - rewrite IH. unfold total, cores, wc_adj, wc_px, px_add, px_scale, core. destruct c as [[c1 c2 c3 c4] aw pw mw0 tm].
    cbn [map sumR fst snd pa pr pg pb h_color h_adj h_perc]. cbn [fadd fmul real].
    f_equal; [f_equal|]; cbn [f32 real] in *; lra.
Qed.

Lemma adj_pos l : Forall fine (cores l) -> Forall (fun x => 0 <= x) (map wc_adj (cores l)).
Proof. intros F. apply Forall_map. eapply Forall_impl; [|exact F]. intros c (_ & H & _). exact H. Qed.
Lemma div_zero (l : list (@wcol big)) ch : Forall (fun x => 0 <= x) (map wc_adj l) -> total l = 0 ->
  sumR (map (fun c => wc_adj c * ch (wc_px c)) l) / total l = 0 + sumR (map (fun c => wc_adj c * ch (wc_px c)) l).
Proof.
  intros F E. assert (S : sumR (map (fun c => wc_adj c * ch (wc_px c)) l) = 0).
  { apply sumR_zero in E; auto. rewrite Forall_map in E. clear F. induction E as [|c l H F IH]; cbn [map sumR]; auto. rewrite H, IH. lra. }
  rewrite S. unfold Rdiv. lra.
Qed.
Lemma average_eq l : Forall fine (cores l) -> weighed_average_color l = centre (cores l).
Proof.
  intros F. apply adj_pos in F.
  change (weighed_average_color l) with (let '(t, sum) := fold_left (fun '(t, s) c => (px_add t (px_scale (h_color c) (h_adj c)), (s +f h_adj c)%flt)) l (px0, f0) in
     if negb (Reqb sum 0) then px_divs t sum else t).
  rewrite average_fold. change (@f0 A) with 0. rewrite Rplus_0_l. unfold px0. change (@f0 A) with 0. cbn [pa pr pg pb].
  destruct (Reqb (total (cores l)) 0) eqn:E; cbn [negb]; rbool.
  - unfold centre. f_equal; symmetry; apply div_zero; auto.
  - unfold centre, px_divs. cbn [pa pr pg pb fdiv real]. f_equal; f_equal; apply Rplus_0_l.
Qed.

Lemma stats_fold (avg : @px A) (l : list (@hitem A)) : forall v m,
  let r := fold_left (fun '(v, m) c =>
      let v' := px_add v (px_scale (px_map (fun x => x *f x)%flt (px_sub avg (h_color c))) (h_adj c)) in
      let d := diff avg (h_color c) in (v', if (m <f d)%flt then d else m)) l (v, m) in
  (forall i, In i [0; 1; 2; 3]%nat -> (MedianCut.chan (fst r) i : R) = MedianCut.chan v i + spread avg (cores l) (fun c => MedianCut.chan c i)) /\
  (snd r = m \/ exists c, In c (cores l) /\ snd r = diff avg (wc_px c)) /\ (m : R) <= snd r /\ forall c, In c (cores l) -> (diff avg (wc_px c) : R) <= snd r.
Proof.
  induction l as [|c l IH]; intros v m; cbn [fold_left]; cbv zeta.
  - cbn [fst snd]. split; [|split; [auto|split; [apply Rle_refl|intros c []]]]. intros i _. unfold spread. cbn [cores map sumR]. change (@eq R (MedianCut.chan v i) (MedianCut.chan v i + 0)). lra.
  - set (v1 := px_add _ _). set (m1 := if (m <f diff avg (h_color c))%flt then diff avg (h_color c) else m).
    destruct (IH v1 m1) as (V & O & M & Z). cbv zeta in V, O, M, Z. split; [|split; [|split]].
    + intros i Hi. rewrite (V i Hi). unfold spread. cbn [cores map sumR]. unfold wc_adj, wc_px, core. cbn [fst snd].
      change (map (fun i0 : hitem => (h_color i0, h_adj i0, h_perc i0)) l) with (cores l).
      enough (Q : (MedianCut.chan v1 i : R) = MedianCut.chan v i + (h_adj c : R) * ((MedianCut.chan avg i - MedianCut.chan (h_color c) i) * (MedianCut.chan avg i - MedianCut.chan (h_color c) i))).
      { rewrite Q. cbn [f32 real]. lra. }
      unfold v1. clear. destruct v as [v1 v2 v3 v4], avg as [a1 a2 a3 a4], (h_color c) as [c1 c2 c3 c4].
      destruct i as [|[|[|i]]]; cbn [MedianCut.chan px_add px_scale px_map px_sub pa pr pg pb fadd fsub fmul real f32]; lra.
    + destruct O as [O|(c' & I & O)]; [|right; exists c'; split; [right; auto|auto]].
      unfold m1 in O. destruct (flt m (diff avg (h_color c))); [right|left; auto]. exists (core c). split; [left; auto|exact O].
    + apply Rle_trans with (2 := M). unfold m1. cbn [flt real]. destruct (Rltb m (diff avg (h_color c))) eqn:E; rbool; lra.
    + intros c' [<-|I]; [|apply Z; auto]. apply Rle_trans with (2 := M). unfold m1. cbn [flt real]. unfold wc_px, core. cbn [fst].
      destruct (Rltb m (diff avg (h_color c))) eqn:E; rbool; lra.
Qed.
Lemma box_new_c_inv off l w avg : l <> [] -> Forall fine (cores l) -> w = total (cores l) -> binv (box_new_c off l w avg) /\ abs (box_new_c off l w avg) = (cores l, avg).
Proof.
  intros NE F W. unfold box_new_c. destruct (box_stats l avg) as [v m] eqn:E.
  pose proof (stats_fold avg l px0 f0) as S. cbv zeta in S. unfold box_stats in E. rewrite E in S. cbn [fst snd] in S. destruct S as (V & O & M & Z).
  split; [|reflexivity]. unfold binv. cbn [b_items b_avg b_var b_wsum b_err b_max].
  split; auto. split; auto. split; [|split; [|split; [auto|intros; discriminate]]].
  - intros i Hi. rewrite (V i Hi). destruct Hi as [<-|[<-|[<-|[<-|[]]]]]; cbn [MedianCut.chan px0 pa pr pg pb]; change (@f0 A) with 0; cbn [f32 real]; lra.
  - split; [|exact Z]. destruct O as [O|O]; auto. destruct l as [|c l]; [congruence|]. exists (core c). split; [left; auto|].
    change (@f0 A) with 0 in *. specialize (Z (core c) (or_introl eq_refl)). pose proof (diff_pos big avg (wc_px (core c))) as D. subst m.
    apply Rle_antisym; auto.
Qed.
Lemma adj_sum (l : list (@hitem A)) : @dsum A (map (fun c => f2d (h_adj c)) l) = total (cores l).
Proof. rewrite dsum_sumR. unfold total, cores. rewrite map_map. reflexivity. Qed.
Lemma box_new_inv off l : l <> [] -> Forall fine (cores l) -> binv (box_new off l) /\ abs (box_new off l) = (cores l, centre (cores l)).
Proof. intros NE F. unfold box_new. rewrite adj_sum, average_eq by auto. apply box_new_c_inv; auto. Qed.

Lemma useless_iff avg l (others : list (@mbox A)) : is_useless_color avg l others = true <->
  forall c, In c (cores l) -> exists o, In o (map abs others) /\ diff (snd o) (wc_px c) < diff avg (wc_px c).
Proof.
  unfold is_useless_color. rewrite forallb_forall. split.
  - intros H c Hc. apply in_map_iff in Hc as (it & <- & Hi). apply H, existsb_exists in Hi as (o & Ho & D). exists (abs o). split; [apply in_map; auto|].
    cbn [flt real] in D. rbool. exact D.
  - intros H it Hi. destruct (H (core it) (in_map _ _ _ Hi)) as (o & Ho & D). apply in_map_iff in Ho as (b & <- & Hb). apply existsb_exists. exists b. split; auto.
    cbn [flt real]. rbool. exact D.
Qed.
Lemma box_new_s_inv off l w others : l <> [] -> Forall fine (cores l) -> w = total (cores l) ->
  binv (box_new_s off l w others) /\ fst (abs (box_new_s off l w others)) = cores l /\
  stands_for (cores l) (map abs others) (b_avg (box_new_s off l w others)).
Proof.
  intros NE F W. unfold box_new_s. cbv zeta. rewrite average_eq by auto.
  match goal with |- context [box_new_c off l w ?x] => set (avg := x) end. destruct (box_new_c_inv off l w avg NE F W) as [B E]. split; auto. rewrite E. split; auto.
  change (b_avg (box_new_c off l w avg)) with (snd (abs (box_new_c off l w avg))). rewrite E. cbn [snd]. clear B E.
  assert (LC : length (cores l) = length l) by apply map_length.
  unfold stands_for. cbv zeta. rewrite <- useless_iff. rewrite LC. unfold avg. clear avg.
  assert (LB : (((Z.of_nat (length l) <? 500)%Z && Nat.ltb 2 (length l))%bool = true <-> (2 < length l < 500)%nat)) by lia.
  destruct (is_useless_color (centre (cores l)) l others).
  - rewrite Bool.orb_true_r. left. split; auto.
    set (cmp := fun x y => fcmp (diff (centre (cores l)) (h_color x)) (diff (centre (cores l)) (h_color y))).
    destruct (min_by_some cmp l NE) as (c & M). rewrite M. exists (core c). split; [apply in_map; eapply min_by_in; eauto|]. split; auto.
    assert (G := min_by_le cmp). specialize (G ltac:(intros x y z; unfold cmp; rewrite !rcmp_not_gt; apply Rle_trans)).
    specialize (G ltac:(intros x y H1; unfold cmp in *; rewrite rcmp_not_gt; apply Rnot_lt_le; intros H2; apply Rlt_le in H2; apply rcmp_not_gt in H2; congruence) l c M).
    rewrite Forall_forall in G. intros c' Hc'. apply in_map_iff in Hc' as (c2 & <- & Hc2). apply G in Hc2. unfold cmp in Hc2. rewrite rcmp_not_gt in Hc2. exact Hc2.
  - rewrite Bool.orb_false_r. destruct (_ && _)%bool.
    + left. split; [left; apply LB; auto|].
      set (cmp := fun x y => fcmp (diff (centre (cores l)) (h_color x)) (diff (centre (cores l)) (h_color y))).
    destruct (min_by_some cmp l NE) as (c & M). rewrite M. exists (core c). split; [apply in_map; eapply min_by_in; eauto|]. split; auto.
    assert (G := min_by_le cmp). specialize (G ltac:(intros x y z; unfold cmp; rewrite !rcmp_not_gt; apply Rle_trans)).
    specialize (G ltac:(intros x y H1; unfold cmp in *; rewrite rcmp_not_gt; apply Rnot_lt_le; intros H2; apply Rlt_le in H2; apply rcmp_not_gt in H2; congruence) l c M).
    rewrite Forall_forall in G. intros c' Hc'. apply in_map_iff in Hc' as (c2 & <- & Hc2). apply G in Hc2. unfold cmp in Hc2. rewrite rcmp_not_gt in Hc2. exact Hc2.
    + right. split; [intros H; apply LB in H; discriminate|]. split; [discriminate|auto].
Qed.

(** * A split *)
Definition chn (i : nat) : @px A -> R := match i with 0%nat => pa | 1%nat => pr | 2%nat => pg | _ => pb end.
Lemma chn_chan i (c : @px A) : MedianCut.chan c i = chn i c.
Proof. destruct i as [|[|[|i]]]; reflexivity. Qed.
Lemma chn_in i : In (chn i) (@channels big).
Proof. unfold channels. destruct i as [|[|[|i]]]; cbn; auto. Qed.
Lemma in_chn ch : In ch (@channels big) -> exists i, In i [0; 1; 2; 3]%nat /\ ch = chn i.
Proof.
  intros [<-|[<-|[<-|[<-|[]]]]]; [exists 0%nat|exists 1%nat|exists 2%nat|exists 3%nat]; (split; [cbn; auto|reflexivity]).
Qed.
Lemma spread_ext r l f g : (forall c : @px A, f c = g c) -> spread r l f = spread r l g.
Proof. intros H. unfold spread. f_equal. apply map_ext. intros c. rewrite !H. reflexivity. Qed.
Lemma var_spread b i : binv b -> In i [0; 1; 2; 3]%nat -> (MedianCut.chan (b_var b) i : R) = spread (b_avg b) (cores (b_items b)) (chn i).
Proof. intros (_ & _ & V & _) Hi. rewrite (V i Hi). apply spread_ext. intros c. apply chn_chan. Qed.
Lemma spread_perm r l l' ch : Permutation l l' -> @spread big r l ch = spread r l' ch.
Proof. intros P. apply sumR_perm, Permutation_map, P. Qed.
Definition mainch (b : @mbox A) : @px A -> R := chn (nth 0 (channel_order (b_var b)) 0%nat).
Lemma mainch_widest b : binv b -> widest (b_avg b) (cores (b_items b)) (mainch b).
Proof.
  intros B. destruct (order_first (b_var b)) as [I M]. cbv zeta in I, M. split; [apply chn_in|].
  intros ch' H. apply in_chn in H as (i & Hi & ->). unfold mainch. rewrite <- !var_spread by auto. auto.
Qed.
Lemma key_no_later b (x y : @hitem A) : unitpx (h_color x) -> unitpx (h_color y) -> (sort_value (b_var b) (h_color y) <= sort_value (b_var b) (h_color x))%Z ->
  no_later (mainch b) (core x) (core y).
Proof. intros Hx Hy L. apply key_later in L; auto. cbv zeta in L. rewrite !chn_chan in L. exact L. Qed.

Lemma mw_pulls mid l : Forall (fun c => h_mcw c = @color_weight A mid c) l -> mw l = pulls mid (cores l).
Proof.
  intros F. unfold mw, pulls, cores. rewrite map_map. f_equal. apply map_ext_in. rewrite Forall_forall in F. intros c Hc. rewrite (F c Hc). reflexivity.
Qed.
Lemma pulls_pos mid l : 0 <= @pulls big mid l.
Proof. apply sumR_pos, Forall_map, Forall_forall. intros c _. unfold pull. apply Rmult_le_pos; apply sqrt_pos. Qed.
Lemma pulls_perm mid l l' : Permutation l l' -> @pulls big mid l = pulls mid l'.
Proof. intros P. apply sumR_perm, Permutation_map, P. Qed.
Lemma pulls_app mid l l' : @pulls big mid (l ++ l') = pulls mid l + pulls mid l'.
Proof. unfold pulls. rewrite map_app. apply sumR_app. Qed.

Lemma skipn_S_In {T} n : forall (l : list T) x, In x (skipn (S n) l) -> In x (skipn n l).
Proof. induction n as [|n IH]; intros [|y l] x H; try (destruct H; fail); [right; exact H|exact (IH l x H)]. Qed.
Lemma box_split_at b others b1 b2 : binv b -> (1 < length (b_items b))%nat -> box_split u b others = Ok [b1; b2] ->
  binv b1 /\ binv b2 /\ split_box (abs b) (map abs others) (abs b1) (abs b2).
Proof.
  intros B L E. assert (B' := B). destruct B' as (NE & F & V & M & W & _). unfold box_split in E.
  set (l0 := prepare_sort (b_var b) (b_items b)) in E.
  assert (L0 : length l0 = length (b_items b)) by apply map_length.
  assert (K0 : Forall (fun c => h_tmp c = sort_value (b_var b) (h_color c)) l0).
  { apply Forall_forall. intros c Hc. apply in_map_iff in Hc as (c0 & <- & _). destruct c0; reflexivity. }
  assert (C0 : cores l0 = cores (b_items b)) by exact (core_prepare (b_var b) (b_items b)).
  unfold prepare_color_weight_total in E.
  assert (D : (length l0 / 2 < length l0)%nat) by (apply Nat.div_lt; lia).
  destruct (Nat.ltb_spec (length l0 / 2) (length l0)); [|lia].
  pose proof (uo_select_perm u U l0 _ D) as P1. set (ls := u_select u l0 (length l0 / 2)) in *.
  assert (L1 : length ls = length l0) by (symmetry; apply Permutation_length, P1).
  destruct (idx_lt ls (length l0 / 2)) as (m & Em & Nm); [lia|]. rewrite Em in E. cbn [bind] in E.
  destruct (uo_select u U l0 _ m D Nm) as [S1 S2]. fold ls in S1, S2.
  set (l1 := map (fun c => set_mcw c (color_weight (h_color m) c)) ls) in E.
  assert (C1 : Permutation (cores (b_items b)) (cores l1)).
  { rewrite <- C0. transitivity (cores ls); [apply Permutation_map; auto|]. unfold l1, cores. rewrite map_map. reflexivity. }
  assert (K1 : Forall (fun c => h_tmp c = sort_value (b_var b) (h_color c)) l1).
  { apply Forall_map. eapply Permutation_Forall in K0; [|exact P1]. eapply Forall_impl; [|exact K0]. intros c H1. exact H1. }
  assert (M1 : Forall (fun c => h_mcw c = @color_weight A (h_color m) c) l1).
  { apply Forall_map, Forall_forall. intros c _. reflexivity. }
  rewrite mw_dsum in E. change (@ddiv A (mw l1) (dofZ 2)) with (mw l1 / 2) in E.
  assert (N1 : (1 < length l1)%nat) by (unfold l1; rewrite map_length; lia).
  destruct (sort_half u l1 (mw l1 / 2)) as [[l2 edge]| |] eqn:E2; try discriminate. cbn [bind] in E.
  assert (SL : sort_half_loop u (length l1) l1 (mw l1 / 2) 0 = Ok (l2, edge)). { revert E2. unfold sort_half. destruct l1; [cbn in N1; lia|auto]. }
  apply sort_half_loop_at in SL as (a & c & -> & P2 & -> & O & AB & X); [|lia]. cbn [Nat.add] in E.
  assert (M2 : Forall (fun c => h_mcw c = @color_weight A (h_color m) c) (a ++ c)) by (eapply Permutation_Forall; eauto).
  assert (K2 : Forall (fun c => h_tmp c = sort_value (b_var b) (h_color c)) (a ++ c)) by (eapply Permutation_Forall; eauto).
  assert (C2 : Permutation (cores (b_items b)) (cores (a ++ c))) by (rewrite C1; apply Permutation_map; auto).
  assert (F2 : Forall fine (cores (a ++ c))) by (eapply Permutation_Forall; eauto).
  assert (UX : forall x, In x (a ++ c) -> unitpx (h_color x)).
  { intros x Hx. rewrite Forall_forall in F2. apply (F2 (core x)), in_map, Hx. }
  assert (AT : mw l1 = pulls (h_color m) (cores (b_items b))) by (rewrite (mw_pulls (h_color m)) by auto; symmetry; apply pulls_perm; auto).
  assert (CN : c <> []).
  { intros ->. rewrite app_nil_r in *. rewrite (mw_perm _ _ P2) in O. pose proof (pulls_pos (h_color m) (cores (b_items b))) as Q.
    rewrite <- AT, (mw_perm _ _ P2) in Q. destruct O as [->|O]; [apply Permutation_length in P2; cbn in P2; lia|lra]. }
  destruct (Nat.ltb_spec (length (a ++ c)) (Nat.max (length a) 1)); [discriminate|].
  (* the two parts *)
  set (k := Nat.max (length a) 1) in *. set (left := firstn k (a ++ c)) in *. set (right := skipn k (a ++ c)) in *.
  assert (LR : left ++ right = a ++ c) by apply firstn_skipn.
  assert (LN : length (a ++ c) = length l1) by (symmetry; apply Permutation_length; auto).
  assert (LL : length left = k) by (unfold left; rewrite firstn_length; lia).
  assert (LLR : (length left + length right = length l1)%nat) by (rewrite <- app_length, LR; auto).
  assert (NL : left <> []) by (intros Q; rewrite Q in LL; cbn in LL; lia).
  assert (CL : (0 < length c)%nat) by (destruct c; [congruence|cbn; lia]).
  assert (NR : right <> []). { intros Q. rewrite Q in LLR. cbn [length] in LLR. rewrite app_length in LN. lia. }
  assert (FL : Forall fine (cores left) /\ Forall fine (cores right)).
  { unfold cores in F2. rewrite <- LR, map_app in F2. apply Forall_app in F2. exact F2. }
  destruct FL as [FL FR].
  assert (TT : total (cores (b_items b)) = total (cores left) + total (cores right)).
  { unfold total. rewrite (sumR_perm _ _ (Permutation_map wc_adj C2)). rewrite <- LR. unfold cores. rewrite map_app, map_app. apply sumR_app. }
  injection E as <- <-. rewrite adj_sum.
  destruct (box_new_s_inv (b_off b) left (total (cores left)) others NL FL eq_refl) as (I1 & A1 & R1).
  destruct (box_new_s_inv (b_off b + k) right (b_wsum b - total (cores left))%R others NR FR) as (I2 & A2 & R2).
  { rewrite W. lra. }
  split; auto. split; auto. unfold split_box. rewrite A1, A2. split; [|split; auto]. cbn [abs fst snd].
  unfold halves. split; [|split; [|split]].
  { rewrite C2, <- LR. unfold cores. rewrite map_app. reflexivity. }
  { intros Q. apply map_eq_nil in Q. auto. }
  { intros Q. apply map_eq_nil in Q. auto. }
  assert (PLS : forall l, (forall x, In x l -> In x (a ++ c)) -> pulls (h_color m) (cores l) = mw l).
  { intros l Hl. symmetry. apply mw_pulls. rewrite Forall_forall in M2 |- *. auto. }
  assert (KK : forall x y, In x (a ++ c) -> In y (a ++ c) -> (h_tmp y <= h_tmp x)%Z -> no_later (mainch b) (core x) (core y)).
  { intros x y Hx Hy H1. rewrite Forall_forall in K2. rewrite (K2 x Hx), (K2 y Hy) in H1. apply key_no_later; auto. }
  assert (KS : Forall (fun c => h_tmp c = sort_value (b_var b) (h_color c) /\ unitpx (h_color c)) ls).
  { apply Forall_forall. intros x Hx. split.
    - rewrite Forall_forall in K0. apply K0. eapply Permutation_in; [apply Permutation_sym; exact P1|auto].
    - assert (In (core x) (cores (b_items b))) as Hc. { rewrite <- C0. apply in_map. eapply Permutation_in; [apply Permutation_sym; exact P1|auto]. }
      rewrite Forall_forall in F. apply (F _ Hc). }
  rewrite Forall_forall in KS. pose proof (nth_error_split_at ls _ m Nm) as SP.
  exists (mainch b), (cores (firstn (length l0 / 2) ls)), (core m), (cores (skipn (S (length l0 / 2)) ls)).
  split; [apply mainch_widest; auto|]. split.
  { rewrite <- C0. transitivity (cores ls); [apply Permutation_map; auto|]. rewrite SP at 1. unfold cores. rewrite map_app. reflexivity. }
  split. { unfold cores. rewrite !map_length, firstn_length, <- L0. lia. }
  assert (Hm : In m ls) by (eapply nth_error_In; eauto).
  split; [|split; [|split]].
  { intros x Hx. apply in_map_iff in Hx as (y & <- & Hy). rewrite Forall_forall in S1. specialize (S1 y Hy). apply firstn_In in Hy.
    destruct (KS m Hm) as [T1 U1]. destruct (KS y Hy) as [T2 U2]. apply key_no_later; auto. lia. }
  { intros x Hx. apply in_map_iff in Hx as (y & <- & Hy). rewrite Forall_forall in S2.
    assert (Hy2 : In y (skipn (length l0 / 2) ls)).
    { apply skipn_S_In. exact Hy. }
    specialize (S2 y Hy2). apply skipn_In in Hy.
    destruct (KS m Hm) as [T1 U1]. destruct (KS y Hy) as [T2 U2]. apply key_no_later; auto. lia. }
  { intros x y Hx Hy. apply in_map_iff in Hx as (x1 & <- & Hx). apply in_map_iff in Hy as (y1 & <- & Hy).
    assert (ABk : above left right).
    { unfold left, right, k. destruct a as [|a0 a].
      - cbn [length Nat.max app firstn skipn]. destruct c as [|c0 c]; [congruence|]. cbn [firstn skipn]. apply X.
      - replace (Nat.max (length (a0 :: a)) 1) with (length (a0 :: a) + 0)%nat by (cbn [length]; lia). rewrite firstn_app_2, Nat.add_0_r, skipn_app, skipn_all, Nat.sub_diag. cbn [firstn skipn]. rewrite app_nil_r. exact AB. }
    apply KK; auto; rewrite <- LR; apply in_or_app; auto. }
  change (wc_px (core m)) with (h_color m). cbv zeta. rewrite <- AT.
  destruct a as [|a0 a].
  - right. destruct c as [|c0 c]; [congruence|]. exists (core c0). unfold left, k. cbn [length Nat.max app firstn cores map]. split; auto.
    destruct X as [X _]. cbn [app] in X.
    assert (Q := PLS [c0] ltac:(intros x [<-|[]]; left; auto)). rewrite <- Q in X. unfold pulls in X. cbn [cores map sumR] in X. lra.
  - left. assert (EL : left = a0 :: a /\ right = c).
    { unfold left, right, k. replace (Nat.max (length (a0 :: a)) 1) with (length (a0 :: a) + 0)%nat by (cbn [length]; lia).
      rewrite firstn_app_2, Nat.add_0_r, skipn_app, skipn_all, Nat.sub_diag. cbn [firstn skipn]. rewrite app_nil_r. auto. }
    destruct EL as [-> ->]. rewrite (PLS (a0 :: a)) by (intros; apply in_or_app; auto). split; [destruct O; [discriminate|auto]|].
    destruct c as [|c0 c]; [congruence|]. exists (core c0). split; [left; auto|]. destruct X as [X1 X2].
    assert (Q := PLS [c0] ltac:(intros x [<-|[]]; apply in_or_app; right; left; auto)). unfold pulls in Q. cbn [cores map sumR] in Q.
    rewrite mw_app in X1. split; [lra|]. intros y [<-|Hy].
    + unfold no_later. lra.
    + apply in_map_iff in Hy as (y1 & <- & Hy). apply KK; [apply in_or_app; right; left; auto|apply in_or_app; right; right; auto|]. apply X2; auto. left; auto.
Qed.

(** * Which box *)
Lemma max4 (a b c d m : R) : a <= m -> b <= m -> c <= m -> d <= m -> (m = a \/ m = b \/ m = c \/ m = d) -> Rmax (Rmax (Rmax a b) c) d = m.
Proof. intros. unfold Rmax. repeat destruct (Rle_dec _ _); lra. Qed.
Lemma score_priority limit b : binv b -> priority limit (abs b) (@box_score A limit b).
Proof.
  intros B. exists (mainch b), (b_max b). cbn [abs fst snd]. split; [apply mainch_widest; auto|]. assert (B' := B). destruct B' as (_ & _ & _ & M & W & _). split; auto.
  unfold box_score. cbv zeta. rewrite W.
  destruct (order_first (b_var b)) as [I Z]. cbv zeta in I, Z.
  assert (E : fmax (fmax (fmax (pr (b_var b)) (pg (b_var b))) (pb (b_var b))) (pa (b_var b)) = spread (b_avg b) (cores (b_items b)) (mainch b)).
  { unfold mainch. rewrite <- var_spread by auto. set (j := nth 0 _ _) in *. apply max4.
    - apply (Z 1%nat). cbn; auto.
    - apply (Z 2%nat). cbn; auto.
    - apply (Z 3%nat). cbn; auto.
    - apply (Z 0%nat). cbn; auto.
    - destruct I as [<-|[<-|[<-|[<-|[]]]]]; cbn [MedianCut.chan]; auto. }
  rewrite E. cbn [dlt dmul ddiv f2d real]. unfold Rltb. destruct (Rlt_dec limit (b_max b)); unfold Rdiv; lra.
Qed.
Lemma enumerate_in_nth {T} (l : list T) i x : In (i, x) (enumerate l) <-> nth_error l i = Some x.
Proof.
  split.
  - intros H. apply In_nth_error in H as (k & Hk). rewrite nth_error_enumerate in Hk. destruct (nth_error l k) eqn:E; [|discriminate]. cbn in Hk. inversion Hk; subst; auto.
  - intros H. apply nth_error_In with i. rewrite nth_error_enumerate, H. reflexivity.
Qed.
Lemma take_best_worst bs limit i b rest : Forall binv bs -> take_best bs limit = Some i -> nth_error bs i = Some b -> Permutation bs (b :: rest) ->
  worst limit (abs b) (map abs rest).
Proof.
  intros FB E N P. destruct (take_best_ok _ _ _ E) as (b0 & N0 & L0). assert (b0 = b) by congruence. subst b0.
  split; [cbn [abs fst]; unfold cores; rewrite map_length; auto|].
  assert (B : binv b). { rewrite Forall_forall in FB. apply FB. eapply nth_error_In; eauto. }
  exists (@box_score A limit b). split; [apply score_priority; auto|].
  intros b' Hb' L'. apply in_map_iff in Hb' as (c & <- & Hc).
  assert (Hc2 : In c bs) by (eapply Permutation_in; [apply Permutation_sym; exact P|right; auto]).
  assert (Bc : binv c) by (rewrite Forall_forall in FB; auto).
  exists (@box_score A limit c). split; [apply score_priority; auto|].
  unfold take_best in E. destruct (max_by _ _) as [[j s]|] eqn:M; [|discriminate]. cbn [option_map fst] in E. injection E as ->.
  assert (G := max_by_ge (fun x y : nat * R => @dcmp A (snd x) (snd y))).
  specialize (G ltac:(intros x y z; rewrite !rdcmp_not_gt; apply Rle_trans)).
  specialize (G ltac:(intros x y H1; rewrite rdcmp_not_gt; apply Rnot_lt_le; intros H2; apply Rlt_le in H2; apply rdcmp_not_gt in H2; congruence) _ _ M).
  assert (S : s = @box_score A limit b).
  { apply max_by_in in M. apply in_map_iff in M as ([j b1] & Q & Hj). cbn [fst snd] in Q. injection Q as -> <-.
    apply filter_In in Hj as [Hj _]. apply enumerate_in_nth in Hj. congruence. }
  rewrite <- S. apply In_nth_error in Hc2 as (k & Hk).
  rewrite Forall_forall in G. specialize (G (k, @box_score A limit c)). rewrite rdcmp_not_gt in G. apply G.
  apply in_map_iff. exists (k, c). split; auto. apply filter_In. split; [apply enumerate_in_nth; auto|].
  cbn [snd]. apply Nat.ltb_lt. cbn [abs fst] in L'. unfold cores in L'. rewrite map_length in L'. auto.
Qed.
Lemma take_best_none bs limit : @take_best A bs limit = None -> forall b, In b (map abs bs) -> (length (fst b) <= 1)%nat.
Proof.
  intros E b Hb. apply in_map_iff in Hb as (c & <- & Hc). cbn [abs fst]. unfold cores. rewrite map_length.
  destruct (Nat.le_gt_cases (length (b_items c)) 1) as [|G]; auto. exfalso.
  unfold take_best in E. destruct (max_by _ _) as [[j s]|] eqn:M; [discriminate|].
  apply In_nth_error in Hc as (k & Hk).
  match type of M with max_by ?f ?l = None => destruct (max_by_some f l) as (y & Q) end; [|congruence].
  intros Q. apply map_eq_nil in Q. assert (X : In (k, c) []).
  { rewrite <- Q. apply filter_In. split; [apply enumerate_in_nth; auto|]. apply Nat.ltb_lt. auto. }
  destruct X.
Qed.

(** * When to stop *)
Lemma box_loss_pos b : Forall fine (fst b) -> 0 <= box_loss b.
Proof.
  intros F. apply sumR_pos, Forall_map. eapply Forall_impl; [|exact F]. intros c (_ & _ & H). apply Rmult_le_pos; auto. apply (diff_pos big).
Qed.
Lemma loss_eq bs : @loss big bs = sumR (map box_loss bs).
Proof. reflexivity. Qed.
Lemma total_error_eq b : @compute_total_error A b = box_loss (abs b).
Proof.
  unfold compute_total_error. rewrite dsum_sumR. unfold box_loss. cbn [abs fst snd]. unfold cores. rewrite map_map. reflexivity.
Qed.
Definition pending (bs : list (@mbox A)) : R := sumR (map (fun b => match b_err b with Some _ => 0 | None => box_loss (abs b) end) bs).
Lemma known_sum bs : Forall binv bs -> @dsum A (known_errors bs) + pending bs = loss (map abs bs).
Proof.
  intros F. rewrite dsum_sumR, loss_eq, map_map. unfold pending. induction F as [|b bs B F IH]; cbn [known_errors flat_map map sumR]; [lra|].
  rewrite sumR_app. fold (known_errors bs). destruct (b_err b) as [e|] eqn:E.
  - destruct B as (_ & _ & _ & _ & _ & B). rewrite <- (B e E). cbn [sumR]. lra.
  - cbn [sumR]. lra.
Qed.
Lemma set_err_inv b : binv b -> binv (set_err b (@compute_total_error A b)) /\ abs (set_err b (@compute_total_error A b)) = abs b.
Proof.
  intros (H1 & H2 & H3 & H4 & H5 & _). split; [|reflexivity]. unfold binv, set_err. cbn [b_items b_avg b_var b_wsum b_err b_max].
  split; auto. split; auto. split; auto. split; auto. split; auto. intros e E. injection E as <-. exact (total_error_eq b).
Qed.
Lemma fill_errors_inv bs : forall t g, Forall binv bs ->
  let r := @fill_errors A bs t g in Forall binv (fst r) /\ map abs (fst r) = map abs bs /\ (t <= g -> snd r = true <-> t + pending bs <= g).
Proof.
  induction bs as [|b bs IH]; intros t g F; cbn [fill_errors]; cbv zeta.
  - cbn [fst snd]. split; auto. split; auto. unfold pending. cbn [map sumR]. split; intros; [lra|auto].
  - apply Forall_cons_iff in F as [B F].
    assert (PP : 0 <= pending bs).
    { apply sumR_pos, Forall_map. eapply Forall_impl; [|exact F]. intros c Bc. destruct (b_err c); [lra|]. apply box_loss_pos. apply Bc. }
    assert (PC : pending (b :: bs) = match b_err b with Some _ => 0 | None => box_loss (abs b) end + pending bs) by reflexivity.
    rewrite PC. clear PC. destruct (b_err b) as [e|] eqn:E.
    + specialize (IH t g F). cbv zeta in IH. destruct (fill_errors bs t g) as [t' ok]. cbn [fst snd] in *. destruct IH as (I1 & I2 & I3).
      split; auto. split; [cbn [map]; congruence|]. intros H. rewrite I3 by auto. rewrite Rplus_0_l. reflexivity.
    + destruct (set_err_inv b B) as [S1 S2]. rewrite total_error_eq in *. cbn [dadd dlt real].
      destruct (Rltb g (t + box_loss (abs b))) eqn:D; rbool.
      * cbn [fst snd]. split; auto. split; [cbn [map]; congruence|]. intros _. split; [discriminate|]. intros. lra.
      * specialize (IH (t + box_loss (abs b)) g F). cbv zeta in IH. destruct (fill_errors bs (t + box_loss (abs b)) g) as [t' ok]. cbn [fst snd] in *. destruct IH as (I1 & I2 & I3).
        split; auto. split; [cbn [map]; congruence|]. intros _. rewrite I3 by auto. split; intros; lra.
Qed.
Lemma below_target_inv bs tm tw : Forall binv bs -> let r := @below_target A bs tm tw in
  Forall binv (fst r) /\ map abs (fst r) = map abs bs /\ (snd r = true <-> loss (map abs bs) <= tm * tw).
Proof.
  intros F. unfold below_target. cbv zeta. pose proof (known_sum bs F) as K. cbn [dlt dmul real].
  assert (PP : 0 <= pending bs).
  { apply sumR_pos, Forall_map. eapply Forall_impl; [|exact F]. intros c Bc. destruct (b_err c); [lra|]. apply box_loss_pos. apply Bc. }
  destruct (Rltb (tm * tw) (dsum (known_errors bs))) eqn:D; rbool.
  - cbn [fst snd]. split; auto. split; auto. split; [discriminate|]. intros. lra.
  - pose proof (fill_errors_inv bs (dsum (known_errors bs)) (tm * tw) F) as H. cbv zeta in H. destruct H as (H1 & H2 & H3). split; auto. split; auto.
    rewrite (H3 D). rewrite K. reflexivity.
Qed.

(** * The loop *)
Lemma cut_loop_cut fuel n tw tm limit : forall bs bs', Forall binv bs -> (1 <= length bs)%nat -> @cut_loop A u fuel n tw tm limit bs = Ok bs' ->
  Forall binv bs' /\ cut n limit (tm * tw) (map abs bs) (map abs bs').
Proof.
  induction fuel as [|f IH]; intros bs bs' F L E; cbn [cut_loop] in E.
  - destruct (Nat.ltb_spec (length bs) n); [discriminate|]. injection E as <-. split; auto. apply cut_full. rewrite map_length. auto.
  - destruct (Nat.ltb_spec (length bs) n) as [Ln|]; [|injection E as <-; split; auto; apply cut_full; rewrite map_length; auto].
    cbv zeta in E. match type of E with context [take_best bs ?x] => set (cur := x) in E end.
    assert (EC : cur = limit + INR (length bs) / INR n * 16 * limit).
    { unfold cur. cbn [dfma ddiv dmul dofZ real]. rewrite !INR_IZR_INZ. lra. }
    destruct (take_best bs cur) as [i|] eqn:T; [|injection E as <-; split; auto; apply cut_single; exact (take_best_none _ _ T)].
    destruct (take_best_ok _ _ _ T) as (b & N & Lb).
    destruct (swap_remove_ok bs i) as (b0 & rest & SR & N0 & P); [apply nth_error_Some; congruence|].
    assert (b0 = b) by congruence. subst b0. rewrite SR in E. cbn [bind] in E.
    assert (B : binv b) by (rewrite Forall_forall in F; apply F; eapply nth_error_In; eauto).
    assert (FR : Forall binv rest). { eapply Permutation_Forall in F; [|exact P]. inversion F; auto. }
    destruct (box_split_ok u U b rest) as (b1 & b2 & SB & _); [lia|]. rewrite SB in E. cbn [bind] in E.
    destruct (box_split_at b rest b1 b2 B Lb SB) as (B1 & B2 & SP).
    assert (WO := take_best_worst bs cur i b rest F T N P). rewrite EC in WO.
    assert (FN : Forall binv (rest ++ [b1; b2])) by (apply Forall_app; auto).
    pose proof (below_target_inv (rest ++ [b1; b2]) tm tw FN) as BT. cbv zeta in BT.
    destruct (below_target (rest ++ [b1; b2]) tm tw) as [bs2 below]. cbn [fst snd] in BT. destruct BT as (F2 & M2 & BI).
    rewrite map_app in M2, BI. cbn [map] in M2, BI.
    assert (P' : Permutation (map abs bs) (abs b :: map abs rest)) by (apply (Permutation_map abs) in P; exact P).
    rewrite <- (map_length abs) in Ln, WO.
    destruct below.
    + injection E as <-. split; auto. rewrite M2. eapply cut_last; eauto. apply BI; auto.
    + apply IH in E as [F3 C]; auto.
      * split; auto. rewrite M2 in C. eapply cut_more; eauto. apply Rnot_le_lt. intros Q. apply BI in Q. discriminate.
      * rewrite <- (map_length abs), M2, app_length. cbn [length]. lia.
Qed.

(** * The start *)
Lemma cluster_boxes_starts cl : forall off items bs, Forall (fun c => (fst c < snd c)%nat) cl -> Forall fine (cores items) ->
  fold_right (fun c s => snd c - fst c + s)%nat 0%nat cl = length items -> @cluster_boxes A cl off items = Ok bs ->
  Forall binv bs /\ concat (map fst (map abs bs)) = cores items /\ (forall b, In b (map abs bs) -> snd b = centre (fst b)) /\
  map (fun b => length (fst b)) (map abs bs) = map (fun c => (snd c - fst c)%nat) cl.
Proof.
  induction cl as [|[b e] cl IH]; intros off items bs H F S E; cbn [cluster_boxes] in E.
  - injection E as <-. cbn [fold_right] in S. destruct items; [|discriminate]. cbn. split; auto. split; auto. split; auto. intros b [].
  - apply Forall_cons_iff in H as [Hc H]. cbn [fst snd fold_right] in *. destruct (Nat.ltb_spec (length items) (e - b)); [discriminate|].
    apply bind_ok in E as (rest & E1 & E). injection E as <-.
    assert (F' : Forall fine (cores (firstn (e - b) items)) /\ Forall fine (cores (skipn (e - b) items))).
    { rewrite <- (firstn_skipn (e - b) items) in F. unfold cores in F. rewrite map_app in F. apply Forall_app in F. exact F. }
    destruct F' as [F1 F2].
    apply IH in E1 as (I1 & I2 & I3 & I4); auto; [|rewrite skipn_length; lia].
    assert (LF : length (firstn (e - b) items) = (e - b)%nat) by (rewrite firstn_length; lia).
    destruct (box_new_inv off (firstn (e - b) items)) as [B1 A1]; auto. { intros Q. rewrite Q in LF. cbn in LF. lia. }
    split; [constructor; auto|]. cbn [map concat]. rewrite A1. cbn [fst snd]. split; [|split].
    + rewrite I2. unfold cores. rewrite <- map_app, firstn_skipn. reflexivity.
    + intros b0 [<-|Hb]; auto.
    + rewrite I4. f_equal. unfold cores. rewrite map_length. auto.
Qed.
Lemma cutter_new_starts (h : @hint A) n bs : clusters_fit (hi_clusters h) (length (hi_items h)) -> hi_items h <> [] -> Forall fine (cores (hi_items h)) ->
  @cutter_new A h n = Ok bs -> Forall binv bs /\ starts (hi_clusters h) n (cores (hi_items h)) (map abs bs).
Proof.
  intros [C1 C2] NE F E. unfold cutter_new in E. unfold starts. cbv zeta.
  change (filter (fun c => negb (Nat.eqb (fst c) (snd c))) (hi_clusters h)) with (filter nonempty_cluster (hi_clusters h)).
  destruct (Nat.leb _ _).
  - apply cluster_boxes_starts in E as (H1 & H2 & H3 & H4); auto.
    + apply Forall_forall. intros c Hc. apply filter_In in Hc as [Hc Hn]. rewrite Forall_forall in C1. specialize (C1 c Hc). unfold nonempty_cluster in Hn. lia.
    + rewrite filter_clusters. auto.
  - injection E as <-. destruct (box_new_inv 0 (hi_items h)) as [B1 A1]; auto. cbn [map]. rewrite A1. cbn [fst snd concat map]. rewrite app_nil_r.
    split; auto. split; auto. split; auto. intros b [<-|[]]. reflexivity.
Qed.

Definition membersk (k : nat) (l : list (@hitem A)) : list (@hitem A) := filter (fun it => Nat.eqb (h_likely it) k) l.
Lemma marked_members bs : forall s k b, (s + length bs <= 256)%nat -> nth_error bs k = Some b ->
  map core (membersk (s + k) (all_items (map (@mark A) (combine (seq s (length bs)) bs)))) = map core (b_items b).
Proof.
  assert (NO : forall bs s k, (s + length bs <= 256)%nat -> (k < s)%nat -> membersk k (all_items (map (@mark A) (combine (seq s (length bs)) bs))) = []).
  { clear bs. induction bs as [|b bs IH]; intros s k H K; cbn [length seq combine map] in *; auto.
    unfold all_items. cbn [map concat]. unfold membersk. rewrite filter_app. fold (all_items (map (@mark A) (combine (seq (S s) (length bs)) bs))).
    unfold membersk in IH. rewrite IH by lia. rewrite app_nil_r. cbn [mark b_items snd fst].
    apply filter_all_false. apply Forall_forall. intros x Hx. apply in_map_iff in Hx as (y & <- & _). rewrite likely_set by lia. lia. }
  induction bs as [|b0 bs IH]; intros s k b H N; [destruct k; discriminate|]. cbn [length seq combine map] in *.
  unfold all_items. cbn [map concat]. unfold membersk. rewrite filter_app. fold (all_items (map (@mark A) (combine (seq (S s) (length bs)) bs))).
  destruct k as [|k].
  - injection N as ->. rewrite Nat.add_0_r. unfold membersk in NO. rewrite (NO bs (S s) s) by lia. rewrite app_nil_r. cbn [mark b_items snd fst].
    rewrite filter_all. { rewrite map_map. reflexivity. }
    apply Forall_forall. intros x Hx. apply in_map_iff in Hx as (y & <- & _). rewrite likely_set by lia. lia.
  - cbn [nth_error] in N. rewrite filter_all_false.
    + cbn [app]. replace (s + S k)%nat with (S s + k)%nat by lia. apply (IH (S s) k b); auto. lia.
    + apply Forall_forall. intros x Hx. cbn [mark b_items snd fst] in Hx. apply in_map_iff in Hx as (y & <- & _). rewrite likely_set by lia. lia.
Qed.

Lemma mediancut_cut (h : @hint A) n t m p h' : clusters_fit (hi_clusters h) (length (hi_items h)) -> hi_items h <> [] -> (0 < n <= 256)%nat -> Forall fine (cores (hi_items h)) ->
  mediancut u h n t m = Ok (p, h') ->
  exists bs bs', starts (hi_clusters h) n (cores (hi_items h)) bs /\ cut n (Rmax m (quality_to_mse 20)) (t * hi_total h) bs bs' /\
    p = map (fun b => (snd b, sumR (map wc_pix (fst b)))) bs' /\
    forall k b, nth_error bs' k = Some b -> Permutation (fst b) (cores (membersk k (hi_items h'))).
Proof.
  intros CF NE Hn F E. unfold mediancut in E.
  destruct (cutter_new_ok h n CF ltac:(lia)) as (bs & E1 & L1 & _). { destruct (hi_items h); [congruence|cbn; lia]. }
  rewrite E1 in E. cbn [bind] in E. cbv zeta in E. apply bind_ok in E as (bs' & E2 & E).
  destruct (cutter_new_starts h n bs CF NE F E1) as [B1 S1].
  destruct (cut_loop_ok u U n n (hi_total h) t (dmax m (quality_to_mse 20)) bs (map core (all_items bs))) as (bs2 & E3 & _ & L3); [apply Permutation_refl|lia|].
  assert (bs2 = bs') by congruence. subst bs2.
  apply cut_loop_cut in E2 as [B2 C2]; auto; [|lia]. rewrite into_palette_ok in E by lia. cbn [bind] in E. injection E as <- <-.
  exists (map abs bs), (map abs bs'). split; auto. split; auto. split.
  - rewrite map_map. apply map_ext. intros b. unfold box_entry. f_equal. cbn [d2f f2d real]. rewrite dsum_sumR. cbn [abs fst]. unfold cores. rewrite map_map. reflexivity.
  - intros k b Hk. cbn [hi_items]. rewrite nth_error_map in Hk. destruct (nth_error bs' k) as [b0|] eqn:N; [|discriminate]. injection Hk as <-. cbn [abs fst].
    unfold cores. rewrite <- (marked_members bs' 0 k b0) by (auto; lia). apply Permutation_map. apply filter_perm. apply reassemble_perm.
Qed.
End Half.
