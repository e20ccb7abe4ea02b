(** Exact arithmetic: one refinement step is a weighted k-means step. *)
From Verif Require Import Base BaseFacts Arith Pal World Attr Hist Nearest MedianCut Kmeans Blur ImageM Quant NearFacts SearchFacts KmeansSched RealArith MedianReal
  NearReal SearchReal KmeansReal SpecKmeans.
From Coq Require Import Reals Lra.
Open Scope R_scope.

Section R.
Variable big : R.
Hypothesis Hb : 1 <= big.
Local Notation A := (real big).
Local Hint Extern 0 Arith => exact (real big) : typeclass_instances.

Ltac req := match goal with |- @eq _ ?a ?b => change (@eq R a b) end; cbn; field.

Lemma likely_set (it : hitem) m : (m < 256)%nat -> h_likely (set_likely it m) = m.
Proof.
  intros H. unfold h_likely, set_likely. cbn [h_tmp]. rewrite (Z.mod_small (Z.of_nat m) 256) by lia.
  replace (h_tmp it - h_tmp it mod 256 + Z.of_nat m)%Z with (Z.of_nat m + (h_tmp it / 256) * 256)%Z by (pose proof (Z.div_mod (h_tmp it) 256); lia).
  rewrite Z.mod_add by lia. rewrite Z.mod_small by lia. apply Nat2Z.id.
Qed.
Lemma search_least (p : palf) n c g : nearest_new p = Ok n -> (g < length p)%nat \/ (exists e, In e p /\ diff c (fst e) < big) ->
  exists q w, nth_error p (fst (search n c g)) = Some (q, w) /\ snd (search n c g) = diff c q /\ least p c (diff c q).
Proof.
  intros N H. destruct (search_exact_in big p n c g Hb N H) as (q & w & E & S & M). exists q, w. split; auto. split; auto. split; auto.
  exists (q, w). split; auto. eapply nth_error_In; eauto.
Qed.
Lemma item_step (p : palf) n adj it : nearest_new p = Ok n -> within p it ->
  exists it' d, iterate_item n adj it = Ok (it', (h_color it, h_adj it', h_likely it'), d * h_perc it') /\ assigned p adj it it' d.
Proof.
  intros N H. destruct (nearest_new_inv p n N) as (LP & _ & NP).
  unfold iterate_item. destruct (search_least p n (h_color it) (h_likely it) N H) as (q & w & E & S & L).
  destruct (search n (h_color it) (h_likely it)) as [m df]. cbn [fst snd] in *. subst df.
  assert (M : (m < length p)%nat) by (apply nth_error_Some; congruence). assert (M2 : (m < 256)%nat) by lia.
  destruct adj.
  - assert (IX : idx (n_pal n) m = Ok q). { rewrite NP. unfold idx, colors_of. rewrite nth_error_map, E. reflexivity. }
    rewrite IX. cbn [bind].
    assert (ME : px_sub (px_add (h_color it) (h_color it)) q = mirrored (h_color it) q).
    { unfold px_sub, px_add, mirrored. cbn [pa pr pg pb]. f_equal; req. }
    rewrite ME. destruct (search_least p n (mirrored (h_color it) q) m N (or_introl M)) as (q2 & w2 & E2 & S2 & L2). rewrite S2.
    match goal with |- context [set_adj ?a ?b] => set (it2 := set_adj a b) end.
    assert (LK : h_likely it2 = m) by (apply likely_set; auto).
    exists it2, (diff (mirrored (h_color it) q) q2). split; [rewrite LK; reflexivity|]. split; [reflexivity|]. split; [reflexivity|].
    exists q, w. rewrite LK. split; auto. split; auto. split; auto. unfold it2. cbn [set_adj h_adj]. req.
  - set (it2 := set_likely it m). assert (LK : h_likely it2 = m) by (apply likely_set; auto).
    exists it2, (diff (h_color it) q). cbn [bind]. split; [rewrite LK; reflexivity|]. split; [reflexivity|]. split; [reflexivity|].
    exists q, w. rewrite LK. auto.
Qed.

(** ** Sums per entry *)
Definition contrib (j : nat) (gs : list (px * f32 * nat)) : coloravg :=
  fold_right (fun g acc => if Nat.eqb (snd g) j then cplus big (part big (fst (fst g)) (snd (fst g))) acc else acc) c0 gs.
Lemma adds_contrib gs : forall avg j, (j < length avg)%nat -> nth j (adds avg gs) c0 = cplus big (nth j avg c0) (contrib j gs).
Proof.
  intros avg j. rewrite (adds_fold big). revert avg. induction gs as [|g gs IH]; intros avg H; cbn [fold_left contrib fold_right].
  - symmetry. apply (cplus_0 big).
  - fold (contrib j gs). rewrite IH by (unfold add1; rewrite upd_length; auto). unfold add1. destruct (Nat.eqb_spec (snd g) j) as [<-|NE].
    + rewrite nth_upd_eq by auto. rewrite (cplus_assoc big). rewrite Nat.eqb_refl. reflexivity.
    + rewrite nth_upd_neq by auto. match goal with |- context [if ?b then _ else _] => replace b with false by (symmetry; apply Nat.eqb_neq; exact NE) end. reflexivity.
Qed.
Definition ch_sum (ch : px -> R) (l : list hitem) : R := sumR (map (fun it => (h_adj it : R) * ch (h_color it)) l).
Lemma contrib_members j (l' : list hitem) : contrib j (map (fun it => (h_color it, h_adj it, h_likely it)) l') =
  CAvg (@DPx A (ch_sum pa (members j l')) (ch_sum pr (members j l')) (ch_sum pg (members j l')) (ch_sum pb (members j l'))) (weight (members j l')).
Proof.
  induction l' as [|it l IH]; cbn [map contrib fold_right members filter]; [reflexivity|]. fold (contrib j (map (fun it => (h_color it, h_adj it, h_likely it)) l)).
  cbn [fst snd]. fold (members j l). rewrite IH. destruct (Nat.eqb (h_likely it) j); [|reflexivity].
  unfold cplus, part. cbn [c_sum c_total]. unfold weight, ch_sum, dpx_add, dpx_of, px_scale. cbn [map sumR da dr dg db pa pr pg pb]. f_equal. f_equal; req.
Qed.

(** Replacing unused entries. *)
Lemma replace_unused_step items (p p' : palf) : replace_unused items p = Ok p' -> length p' = length p /\
  forall j e, nth_error p j = Some e -> exists e', nth_error p' j = Some e' /\
    (e' = e \/ (snd e = 0%R /\ exists it, In it items /\ fst e' = h_color it)).
Proof.
  intros E. unfold replace_unused in E.
  set (P := fun q : palf => length q = length p /\ forall j e, nth_error p j = Some e -> exists e', nth_error q j = Some e' /\
    (e' = e \/ (snd e = 0%R /\ exists it, In it items /\ fst e' = h_color it))).
  change (P p'). refine (foldM_inv _ P _ _ _ _ _ E); [|split; eauto]. clear E p'. intros q i q' _ [L H] E.
  apply bind_ok in E as ([c w] & Hi & E). apply idx_ok in Hi.
  destruct ((popularity (snd (c, w)) =f f0) && negb (pop_is_fixed (snd (c, w))))%bool eqn:U; [|inversion E; subst; split; auto].
  apply bind_ok in E as (n & _ & E). destruct (snd (fold_left _ items _)) as [it|] eqn:W; [|inversion E; subst; split; auto].
  unfold pal_set in E. apply set_idx_ok in E as [_ ->]. split; [rewrite upd_length; auto|]. intros j e Hj.
  destruct (Nat.eq_dec i j) as [<-|NE].
  - assert (Li : (i < length q)%nat) by (apply nth_error_Some; congruence). rewrite nth_error_upd_eq by auto. eexists. split; [reflexivity|]. right.
    assert (IN : In it items).
    { clear - W. assert (G : forall l st, (forall x, snd st = Some x -> In x items) -> (forall x, In x l -> In x items) -> forall x, snd (fold_left (worst_step n (colors_of q)) l st) = Some x -> In x items).
      { induction l as [|y l IH]; intros [wd s] H0 HI x Hx; cbn [fold_left] in Hx; [auto|]. eapply IH; [| |exact Hx].
        - intros z Hz. unfold worst_step in Hz. destruct (match nth_error _ _ with Some _ => _ | None => _ end); [|apply H0; auto].
          destruct (flt _ _); [|apply H0; auto]. cbn [snd] in Hz. inversion Hz; subst. apply HI. left; auto.
        - intros z Hz. apply HI. right; auto. }
      eapply (G items (f0, None)); [discriminate|auto|exact W]. }
    destruct (H i e Hj) as (e1 & E1 & [->|(S0 & R)]).
    + assert (e = (c, w)) by congruence. subst e. split; [|exists it; split; auto]. cbn [snd] in *. apply andb_prop in U as [U _].
      apply Reqb_eq in U. change (Rabs w = 0) in U. destruct (Req_dec w 0); auto. exfalso. apply (Rabs_no_R0 w); auto.
    + split; auto. exists it. auto.
  - destruct (H j e Hj) as (e1 & E1 & R). exists e1. rewrite nth_error_upd_neq by auto. auto.
Qed.

Lemma least_in (p : palf) c d e : least p c d -> In e p -> d <= diff c (fst e).
Proof. intros [_ H]. auto. Qed.
Lemma least_nonneg (p : palf) c d : least p c d -> 0 <= d.
Proof. intros [(e & _ & ->) _]. apply (diff_pos big). Qed.
(** The scan for the worst-fitting colour. *)
Definition scanned (p : palf) (l : list hitem) (st : f32 * option hitem) : Prop :=
  0 <= (fst st : R) /\ (forall it d, In it l -> least p (h_color it) d -> d <= fst st) /\
  match snd st with Some it => In it l /\ least p (h_color it) (fst st) /\ 0 < fst st | None => fst st = 0 :> R end.
Lemma scan_step (p : palf) n l st it : nearest_new p = Ok n -> (h_likely it < length p)%nat -> scanned p l st ->
  scanned p (l ++ [it]) (worst_step n (colors_of p) st it).
Proof.
  intros N LK (H0 & H1 & H2). destruct st as [wd w]. cbn [fst snd] in *.
  assert (KEEP : (forall d, least p (h_color it) d -> d <= wd) -> scanned p (l ++ [it]) (wd, w)).
  { intros K. split; [exact H0|]. split.
    - intros it2 d2 I2 L2. apply in_app_iff in I2 as [I2|[<-|[]]]; [eapply H1; eauto|]. apply K. exact L2.
    - cbn [fst snd]. destruct w as [x|]; [|exact H2]. destruct H2 as (I2 & R2). split; [apply in_app_iff; auto|exact R2]. }
  destruct (search_least p n (h_color it) (h_likely it) N (or_introl LK)) as (q & wt & E & S & L).
  assert (INQ : In (q, wt) p) by (eapply nth_error_In; eauto).
  unfold worst_step. rewrite S.
  destruct (match nth_error (colors_of p) (h_likely it) with Some pc => flt wd (diff pc (h_color it)) | None => true end) eqn:MAY.
  - destruct (flt wd (diff (h_color it) q)) eqn:C.
    + apply Rltb_lt in C. split; [cbn [fst]; lra|]. split.
      * cbn [fst]. intros it2 d2 I2 L2. apply in_app_iff in I2 as [I2|[<-|[]]].
        -- pose proof (H1 it2 d2 I2 L2). lra.
        -- exact (least_in p _ _ (q, wt) L2 INQ).
      * cbn [fst snd]. split; [apply in_app_iff; right; left; auto|]. split; [exact L|lra].
    + apply KEEP. intros d L2. pose proof (least_in p _ _ (q, wt) L2 INQ) as X. cbn [fst] in X.
      destruct (Rlt_dec wd (diff (h_color it) q)) as [Y|Y]; [apply Rltb_lt in Y; discriminate (eq_trans (eq_sym Y) C)|lra].
  - apply KEEP. intros d L2. destruct (nth_error (colors_of p) (h_likely it)) as [pc|] eqn:PC; [|discriminate].
    unfold colors_of in PC. rewrite nth_error_map in PC. destruct (nth_error p (h_likely it)) as [e|] eqn:PE; [|discriminate]. cbn in PC. inversion PC; subst pc.
    pose proof (least_in p _ _ e L2 (nth_error_In _ _ PE)) as X. rewrite (diff_sym big) in X.
    destruct (Rlt_dec wd (diff (fst e) (h_color it))) as [Y|Y]; [apply Rltb_lt in Y; discriminate (eq_trans (eq_sym Y) MAY)|lra].
Qed.
Lemma scan_all (p : palf) n : nearest_new p = Ok n -> forall l l0 st, Forall (fun it => (h_likely it < length p)%nat) l -> scanned p l0 st ->
  scanned p (l0 ++ l) (fold_left (worst_step n (colors_of p)) l st).
Proof.
  intros N. induction l as [|it l IH]; intros l0 st F S; cbn [fold_left]; [rewrite app_nil_r; auto|].
  inversion F; subst. replace (l0 ++ it :: l) with ((l0 ++ [it]) ++ l) by (rewrite <- app_assoc; reflexivity).
  apply IH; auto. apply scan_step; auto.
Qed.
Lemma upd_split {T} (l : list T) : forall i x, (i < length l)%nat -> upd l i x = firstn i l ++ x :: skipn (S i) l.
Proof. induction l as [|y l IH]; intros [|i] x H; cbn in *; try lia; auto. rewrite IH by lia. reflexivity. Qed.
Lemma unused_zero (w : f32) : ((popularity w =f f0) && negb (pop_is_fixed w))%bool = if Req_EM_T (w : R) 0 then true else false.
Proof.
  unfold popularity, pop_is_fixed. change (Reqb (Rabs w) 0 && negb (Rltb w 0) = if Req_EM_T w 0 then true else false)%bool. destruct (Req_EM_T w 0) as [->|H].
  - rewrite Rabs_R0. assert (Q : Reqb 0 0 = true) by (apply Reqb_eq; auto). rewrite Q. destruct (Rltb 0 0) eqn:Q2; auto. apply Rltb_lt in Q2. lra.
  - destruct (Reqb (Rabs w) 0) eqn:Q; auto. apply Reqb_eq in Q. exfalso. apply (Rabs_no_R0 w); auto.
Qed.
Lemma replace_unused_refills items (p p' : palf) : Forall (fun it => (h_likely it < length p)%nat) items -> replace_unused items p = Ok p' ->
  refills items (seq 0 (length p)) p p'.
Proof.
  unfold replace_unused. generalize (seq 0 (length p)) as js. intros js. remember (length p) as m eqn:Em. revert p p' Em.
  induction js as [|j js IH]; intros p p' Em F E; cbn [foldM refills] in *; [inversion E; auto|].
  apply bind_ok in E as (q & E1 & E2). exists q.
  apply bind_ok in E1 as (e & Hj & E1). apply idx_ok in Hj. rewrite (unused_zero (snd e)) in E1.
  assert (Lj : (j < length p)%nat) by (apply nth_error_Some; congruence).
  assert (ST : refill items j p q /\ length q = length p).
  { unfold refill. match type of E1 with context [Req_EM_T ?a ?b] => destruct (Req_EM_T a b) as [Z|Z] end; [|inversion E1; subst; split; [exists e; split; [exact Hj|]; match goal with |- if ?b then _ else _ => destruct b as [NZ|_] end; [contradiction (Z NZ)|auto]|auto]].
    apply bind_ok in E1 as (n & N & E1). subst m.
    pose proof (scan_all p n N items [] (f0, None) F) as SC. cbn [app] in SC. destruct SC as (S0 & S1 & S2); [split; [apply Rle_refl|split; [intros it d []|reflexivity]]|].
    destruct (fold_left (worst_step n (colors_of p)) items (f0, None)) as [wd [it|]]; cbn [fst snd] in *.
    - unfold pal_set in E1. apply set_idx_ok in E1 as [_ ->]. split; [|rewrite upd_length; auto]. exists e. split; auto. match goal with |- if ?b then _ else _ => destruct b as [_|NZ] end; [|contradiction (NZ Z)]. left.
      exists it, wd. destruct S2 as (I2 & L2 & P2). repeat (split; auto). apply upd_split. auto.
    - inversion E1; subst q. split; auto. exists e. split; auto. match goal with |- if ?b then _ else _ => destruct b as [_|NZ] end; [|contradiction (NZ Z)]. right. split; auto. intros it2 d2 I2 L2.
      pose proof (S1 it2 d2 I2 L2) as X. pose proof (least_nonneg p _ _ L2) as Y. change (wd = 0 :> R) in S2. rewrite S2 in X. apply Rle_antisym; auto. }
  destruct ST as [ST LQ]. split; auto. apply IH; auto. congruence.
Qed.

(** ** The step *)
Lemma finalize_entry_step (a : coloravg) l (e : px * R) : a = CAvg (@DPx A (ch_sum pa l) (ch_sum pr l) (ch_sum pg l) (ch_sum pb l)) (weight l) ->
  finalize_entry (a, e) = if Rlt_dec (snd e) 0 then e else (if Rlt_dec 0 (weight l) then if Req_EM_T (pa (fst e)) 0 then fst e else mean l else fst e, weight l).
Proof.
  intros ->. destruct e as [c w]. unfold finalize_entry. cbn [c_total c_sum fst snd].
  assert (P : pop_is_fixed (w : f32) = if Rlt_dec w 0 then true else false).
  { unfold pop_is_fixed. change (Rltb w 0 = if Rlt_dec w 0 then true else false). destruct (Rltb w 0) eqn:Q; destruct (Rlt_dec w 0) as [H|H]; auto.
    - apply Rltb_lt in Q. contradiction.
    - apply Rltb_lt in H. congruence. }
  rewrite P. destruct (Rlt_dec w 0); auto. f_equal.
  assert (P2 : @dlt A d0 (weight l) = if Rlt_dec 0 (weight l) then true else false).
  { change (Rltb 0 (weight l) = if Rlt_dec 0 (weight l) then true else false). destruct (Rltb 0 (weight l)) eqn:Q; destruct (Rlt_dec 0 (weight l)) as [H|H]; auto.
    - apply Rltb_lt in Q. contradiction.
    - apply Rltb_lt in H. congruence. }
  rewrite P2. destruct (Rlt_dec 0 (weight l)); cbn [andb]; auto.
  destruct (Req_EM_T (pa c) 0) as [H|H].
  - assert (Q : (pa c =f f0) = true) by (apply Reqb_eq; exact H). rewrite Q. reflexivity.
  - destruct (pa c =f f0) eqn:Q; [apply Reqb_eq in Q; contradiction|]. reflexivity.
Qed.
Lemma step th (h : hint) (p : palf) adj e h' p' : (forall n, covers n (th n)) -> hi_items h <> [] -> Forall (within p) (hi_items h) ->
  iteration_with th h p adj = Ok (e, h', p') ->
  exists ds, length ds = length (hi_items h) /\ length (hi_items h') = length (hi_items h) /\ length p' = length p /\
    (forall k it it' d, nth_error (hi_items h) k = Some it -> nth_error (hi_items h') k = Some it' -> nth_error ds k = Some d -> assigned p adj it it' d) /\
    e = sumR (map (fun x => snd x * h_perc (fst x)) (combine (hi_items h) ds)) / hi_total h /\
    (forall j x, nth_error p j = Some x -> exists x', nth_error p' j = Some x' /\ entry_step (members j (hi_items h')) (hi_items h') x x') /\
    exists p1, length p1 = length p /\ (forall j x, nth_error p j = Some x -> exists x1, nth_error p1 j = Some x1 /\ entry_moved (members j (hi_items h')) x x1) /\
      refills (hi_items h') (seq 0 (length p)) p1 p'.
Proof.
  intros C NE W E. rewrite (iteration_round big) in E by auto. unfold round in E. destruct (hi_items h) as [|x0 l0] eqn:EI; [congruence|].
  rewrite <- EI in *. clear EI x0 l0. apply bind_ok in E as (n & N & E). cbv zeta in E.
  destruct (km_finalize _ p) as [p1 s] eqn:F. apply bind_ok in E as (p2 & RU & E). inversion E; subst e h' p2. clear E. cbn [hi_items] in *.
  assert (G : exists ds, length ds = length (hi_items h) /\ Forall2 (fun it d => iterate_item n adj it = Ok (moved n adj it, (h_color (moved n adj it), h_adj (moved n adj it), h_likely (moved n adj it)), d * h_perc it) /\ assigned p adj it (moved n adj it) d) (hi_items h) ds).
  { clear - W N Hb. induction W as [|it l H W IH]; [exists []; split; constructor|]. destruct IH as (ds & L & IH).
    destruct (item_step p n adj it N H) as (it' & d & E & AS). exists (d :: ds). split; [cbn; lia|]. constructor; auto.
    assert (M : moved n adj it = it') by (unfold moved; rewrite E; reflexivity). rewrite M. split; auto.
    rewrite E. destruct AS as (A1 & A2 & _). rewrite A1, A2. reflexivity. }
  destruct G as (ds & LD & G). exists ds. split; auto. split; [rewrite map_length; auto|].
  destruct (replace_unused_step _ _ _ RU) as [LR HR].
  assert (KL : length (k_avg (total big n adj (length p) (hi_items h))) = length p) by (unfold total; cbn [k_avg]; rewrite adds_length, repeat_length; auto).
  assert (P1 : p1 = map finalize_entry (combine (k_avg (total big n adj (length p) (hi_items h))) p)).
  { unfold km_finalize in F. rewrite KL, skipn_all in F. rewrite app_nil_r in F. inversion F. reflexivity. }
  split. { rewrite LR, P1, map_length, combine_length, KL. apply Nat.min_id. }
  assert (GAIN : map (gain n adj) (hi_items h) = map (fun it => (h_color it, h_adj it, h_likely it)) (map (moved n adj) (hi_items h))).
  { clear - G. induction G as [|it d l ds [H _] G IH]; cbn [map]; [reflexivity|]. f_equal; auto. unfold gain at 1. rewrite H. reflexivity. }
  assert (X1 : forall j x, nth_error p j = Some x -> let ms := members j (map (moved n adj) (hi_items h)) in
     nth_error p1 j = Some (if Rlt_dec (@snd px R x) 0 then x else (if Rlt_dec 0 (weight ms) then if Req_EM_T (pa (fst x)) 0 then fst x else mean ms else fst x, weight ms))).
  { intros j x Hx ms. assert (Lj : (j < length p)%nat) by (apply nth_error_Some; congruence).
    assert (AV : nth_error (k_avg (total big n adj (length p) (hi_items h))) j =
       Some (CAvg (@DPx A (ch_sum pa ms) (ch_sum pr ms) (ch_sum pg ms) (ch_sum pb ms)) (weight ms))).
    { rewrite (nth_error_nth' _ c0) by (rewrite KL; auto). f_equal. unfold total. cbn [k_avg]. rewrite adds_contrib by (rewrite repeat_length; auto).
      rewrite GAIN, contrib_members. rewrite nth_repeat. fold ms.
      rewrite (cplus_comm big). apply (cplus_0 big). }
    rewrite P1, nth_error_map, nth_error_combine, AV, Hx. cbn [option_map]. f_equal. exact (finalize_entry_step _ ms x eq_refl). }
  split; [|split; [|split]].
  - intros k it it' d K1 K2 K3. rewrite nth_error_map, K1 in K2. cbn in K2. inversion K2; subst it'.
    destruct (Forall2_nth_error _ _ _ k it G K1) as (d' & D' & _ & AS). assert (d' = d) by congruence. subst. exact AS.
  - f_equal. unfold km_finalize in F. inversion F. unfold total. cbn [k_diff]. clear - G. f_equal.
    induction G as [|it d l ds [H _] G IH]; cbn [map combine]; [reflexivity|]. f_equal; auto. unfold miss at 1. rewrite H. reflexivity.
  - intros j x Hx. specialize (X1 j x Hx). cbv zeta in X1. set (ms := members j (map (moved n adj) (hi_items h))) in *.
    destruct (HR j _ X1) as (e' & E1 & E2). exists e'. split; auto.
    revert E2. unfold entry_step. destruct (Rlt_dec (@snd px R x) 0) as [H0|H0].
    + intros [->|[S0 _]]; auto. exfalso. exact (Rlt_not_eq _ _ H0 S0).
    + cbn [fst snd]. destruct (Rlt_dec 0 (weight ms)) as [H1|H1].
      * intros [->|[S0 _]]; [cbn [fst snd]; auto|exfalso; exact (Rlt_not_eq _ _ H1 (eq_sym S0))].
      * intros [->|[_ S0]]; [left; reflexivity|right; exact S0].
  - assert (LP1 : length p1 = length p) by (rewrite P1, map_length, combine_length, KL; apply Nat.min_id).
    exists p1. split; auto. split.
    + intros j x Hx. specialize (X1 j x Hx). cbv zeta in X1. eexists. split; [exact X1|]. unfold entry_moved. destruct (Rlt_dec (@snd px R x) 0); auto.
    + rewrite <- LP1. apply replace_unused_refills; auto. rewrite LP1. apply Forall_forall. intros it' Hi. apply in_map_iff in Hi as (it & <- & Hi).
      apply In_nth_error in Hi as (k & Hk). destruct (Forall2_nth_error _ _ _ k it G Hk) as (d' & _ & _ & AS). destruct AS as (_ & _ & q & w & Q & _).
      apply nth_error_Some. congruence.
Qed.
End R.
