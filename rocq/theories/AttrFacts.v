(** Proofs about attribute setters. *)
From Verif Require Import Base Arith Pal World Attr SpecAttr.
From Coq Require Import ZifyBool.
Open Scope Z_scope.
Arguments mse_to_quality : simpl never.
Arguments quality_to_mse : simpl never.

Lemma Ok_inj {T} (x y : T) : Ok x = Ok y -> x = y.
Proof. congruence. Qed.
Ltac okinv H := first [discriminate H | apply Ok_inj in H; subst].

Section AttrFacts.
Context {A : Arith}.

(** Running a call on the model: [Err] leaves the object as it is
    ([&mut self] setters return before any assignment). *)
Definition apply_call (a : attrs) (c : call) : res attrs :=
  match c with
  | CallMaxColors n => set_max_colors a n
  | CallSpeed v => set_speed a v
  | CallPosterization b => set_min_posterization a b
  | CallQuality mn tg => set_quality a mn tg
  end.
Definition step_call (a : attrs) (c : call) : attrs :=
  match apply_call a c with Ok a' => a' | _ => a end.
Definition run_calls (cs : list call) : attrs := fold_left step_call cs attrs_new.
Definition observe (a : attrs) : settings :=
  Settings (get_max_colors a) (get_speed a) (get_min_posterization a) (get_quality a).

Definition quality_round_trip : Prop :=
  (forall q, 0 <= q <= 100 -> mse_to_quality (quality_to_mse q) = q) /\ mse_to_quality d0 = 100.

Ltac zb := repeat match goal with
  | H : (_ && _)%bool = true |- _ => apply andb_prop in H as [? ?]
  | H : (_ <=? _) = true |- _ => apply Z.leb_le in H
  end.

Lemma wrap8_id z : 0 <= z < 256 -> wrap8 z = z.
Proof. intros; apply Z.mod_small; auto. Qed.
Lemma wrap16_id z : 0 <= z < 65536 -> wrap16 z = z.
Proof. intros; apply Z.mod_small; auto. Qed.

Lemma apply_call_accepts a c : call_typed c ->
  (call_valid c = true -> exists a', apply_call a c = Ok a') /\
  (call_valid c = false -> apply_call a c = Err ValueOutOfRange).
Proof.
  destruct c as [n|v|b|mn tg]; cbn [call_typed call_valid apply_call]; intros Ht.
  - unfold set_max_colors. destruct ((2 <=? n) && (n <=? 256))%bool; cbn [negb]; split; intros; try discriminate; eauto.
  - unfold set_speed. destruct ((1 <=? v) && (v <=? 10))%bool; cbn [negb]; split; intros; try discriminate; eauto.
  - unfold set_min_posterization. destruct ((0 <=? b) && (b <=? 4))%bool; cbn [negb]; split; intros; try discriminate; eauto.
  - unfold set_quality. 
    destruct (0 <=? mn) eqn:E1, (mn <=? tg) eqn:E2, (tg <=? 100) eqn:E3, (0 <=? tg) eqn:E4, (tg <? mn) eqn:E5;
      cbn; split; intros; try discriminate; eauto; lia.
Qed.

Lemma apply_call_observe a c a' : quality_round_trip -> call_typed c -> apply_call a c = Ok a' ->
  observe a' = spec_set (observe a) c /\ a_last_transp a' = a_last_transp a.
Proof.
  intros [HQ _]. destruct c as [n|v|b|mn tg]; cbn [call_typed apply_call]; intros Ht.
  - unfold set_max_colors. destruct ((2 <=? n) && (n <=? 256))%bool eqn:E; cbn [negb]; [|discriminate].
    intros H; okinv H. split; auto. unfold observe, spec_set, get_max_colors, get_quality. cbn.
    f_equal. rewrite wrap16_id by lia. lia.
  - unfold set_speed. destruct ((1 <=? v) && (v <=? 10))%bool eqn:E; cbn [negb]; [|discriminate].
    intros H; okinv H. split; auto. unfold observe, spec_set, get_speed, get_quality, get_max_colors, get_min_posterization.
    cbn [a_speed a_max_colors a_post_out a_max_mse a_target_mse s_colors s_speed s_posterization s_quality].
    f_equal. rewrite wrap8_id; lia.
  - unfold set_min_posterization. destruct ((0 <=? b) && (b <=? 4))%bool eqn:E; cbn [negb]; [|discriminate].
    intros H; okinv H. split; auto.
  - unfold set_quality. destruct (negb ((0 <=? tg) && (tg <=? 100)) || (tg <? mn))%bool eqn:E; [discriminate|].
    intros H; okinv H. split; auto. unfold observe, spec_set, get_quality. cbn.
    f_equal. rewrite !HQ by lia. auto.
Qed.

Lemma run_calls_spec cs : quality_round_trip -> Forall call_typed cs -> observe (run_calls cs) = spec_run cs.
Proof.
  intros HQ. unfold run_calls, spec_run.
  assert (H0 : observe attrs_new = settings_default).
  { unfold observe, attrs_new, settings_default, set_speed. cbn. f_equal.
    unfold get_quality. cbn. f_equal. apply HQ. }
  rewrite <- H0. generalize attrs_new. clear H0.
  induction cs as [|c cs IH]; intros a Hc; cbn [fold_left]; auto.
  inversion Hc as [|? ? Ht Hc']; subst. rewrite IH by auto. f_equal.
  unfold step_call, spec_step. destruct (apply_call_accepts a c Ht) as [H1 H2].
  destruct (call_valid c).
  - destruct (H1 eq_refl) as (a' & E). rewrite E. apply apply_call_observe; auto.
  - rewrite (H2 eq_refl). auto.
Qed.

(** * Work plans *)
Definition plan_ok (a : attrs) : Prop :=
  0 <= a_st1 a /\ 0 <= a_st2 a /\ 0 <= a_st3 a /\ a_st1 a + a_st2 a + a_st3 a = 100 /\
  0 <= a_trials a <= 47 /\ 0 <= a_km_iter a <= 31.

Lemma speed_cases v (P : Z -> Prop) :
  P 1 -> P 2 -> P 3 -> P 4 -> P 5 -> P 6 -> P 7 -> P 8 -> P 9 -> P 10 -> 1 <= v <= 10 -> P v.
Proof.
  intros. assert (v = 1 \/ v = 2 \/ v = 3 \/ v = 4 \/ v = 5 \/ v = 6 \/ v = 7 \/ v = 8 \/ v = 9 \/ v = 10) by lia.
  repeat match goal with H : _ \/ _ |- _ => destruct H end; subst; auto.
Qed.

Lemma set_speed_range a v a' : set_speed a v = Ok a' -> 1 <= v <= 10.
Proof.
  unfold set_speed. destruct ((1 <=? v) && (v <=? 10))%bool eqn:E; cbn [negb]; [lia|discriminate].
Qed.

Lemma set_speed_plan a v a' : set_speed a v = Ok a' -> plan_ok a'.
Proof.
  intros H. assert (Hv := set_speed_range _ _ _ H).
  revert H. pattern v. apply speed_cases; auto; intros H; cbn in H; inversion H; subst; unfold plan_ok; cbn; lia.
Qed.

Lemma attrs_new_plan : plan_ok attrs_new.
Proof. unfold plan_ok, attrs_new; cbn; lia. Qed.

Lemma run_calls_plan cs : plan_ok (run_calls cs).
Proof.
  unfold run_calls. generalize attrs_new_plan. generalize attrs_new.
  induction cs as [|c cs IH]; intros a Ha; cbn [fold_left]; auto.
  apply IH. unfold step_call. destruct (apply_call a c) eqn:E; auto.
  destruct c; cbn in E.
  - unfold set_max_colors in E. destruct (negb _); okinv E; auto.
  - eapply set_speed_plan; eauto.
  - unfold set_min_posterization in E. destruct (negb _); okinv E; auto.
  - unfold set_quality in E. destruct (_ || _)%bool; okinv E; auto.
Qed.

Lemma three_quarters_le x : 0 <= x <= 20000 -> 0 <= three_quarters x <= x.
Proof.
  intros H. unfold three_quarters, wrap16.
  rewrite (Z.mod_small (x * 3)) by lia. rewrite (Z.mod_small (x * 3 + 3)) by lia.
  assert (0 <= (x * 3 + 3) / 4 <= x).
  { split; [apply Z.div_pos; lia|]. destruct (Z.eq_dec x 0); [subst; cbn; lia|].
    assert ((x*3+3)/4 < x + 1); [|lia]. apply Z.div_lt_upper_bound; lia. }
  rewrite Z.mod_small by lia. lia.
Qed.
Lemma three_quarters_mono x y : 0 <= x <= y -> y <= 20000 -> three_quarters x <= three_quarters y.
Proof.
  intros H Hy. unfold three_quarters, wrap16.
  assert (forall z, 0 <= z <= 20000 -> ((z * 3) mod 65536 + 3) mod 65536 / 4 mod 65536 = (z*3+3)/4).
  { intros z Hz. rewrite (Z.mod_small (z * 3)) by lia. rewrite (Z.mod_small (z * 3 + 3)) by lia.
    apply Z.mod_small. split; [apply Z.div_pos; lia|]. apply Z.div_lt_upper_bound; lia. }
  rewrite !H0 by lia. apply Z.div_le_mono; lia.
Qed.

Lemma shrink_bounds x n : 0 <= x <= 20000 -> 0 <= shrink_by_len x n <= x.
Proof.
  intros H. unfold shrink_by_len.
  assert (G : forall (b : bool) y, 0 <= y <= x -> 0 <= (if b then three_quarters y else y) <= x).
  { intros [] y Hy; [pose proof (three_quarters_le y); lia|lia]. }
  repeat apply G. lia.
Qed.

Lemma shrink_mono x n m : 0 <= x <= 20000 -> (n <= m)%nat -> shrink_by_len x m <= shrink_by_len x n.
Proof.
  intros H Hnm. unfold shrink_by_len.
  assert (G : forall k y z, 0 <= y <= z -> z <= 20000 ->
     (if k <? Z.of_nat m then three_quarters y else y) <= (if k <? Z.of_nat n then three_quarters z else z) /\
     0 <= (if k <? Z.of_nat m then three_quarters y else y) /\
     (if k <? Z.of_nat n then three_quarters z else z) <= 20000).
  { intros k y z Hy Hz. pose proof (three_quarters_le y). pose proof (three_quarters_le z).
    pose proof (three_quarters_mono y z). destruct (k <? Z.of_nat m) eqn:E1, (k <? Z.of_nat n) eqn:E2; lia. }
  cbv zeta.
  destruct (G 5000 x x ltac:(lia) ltac:(lia)) as (A1 & A2 & A3).
  destruct (G 25000 _ _ (conj A2 A1) A3) as (B1 & B2 & B3).
  destruct (G 50000 _ _ (conj B2 B1) B3) as (C1 & C2 & C3).
  destruct (G 100000 _ _ (conj C2 C1) C3) as (D1 & D2 & D3). auto.
Qed.

Definition search_passes (a : attrs) (colors : nat) : Z := feedback_loop_trials a colors.
Definition refine_passes (a : attrs) (colors : nat) (known : bool) : Z := fst (kmeans_iterations a colors known).

Lemma passes_bounded a n m k : plan_ok a -> (n <= m)%nat ->
  0 <= search_passes a m <= search_passes a n /\ search_passes a n <= 47 /\
  0 <= refine_passes a m k <= refine_passes a n k /\ refine_passes a n k <= 31.
Proof.
  intros (_ & _ & _ & _ & Ht & Hk) Hnm. unfold search_passes, refine_passes, feedback_loop_trials, kmeans_iterations.
  cbn [fst].
  pose proof (shrink_bounds (a_trials a) n). pose proof (shrink_bounds (a_trials a) m).
  pose proof (shrink_mono (a_trials a) n m).
  pose proof (shrink_bounds (a_km_iter a) n). pose proof (shrink_bounds (a_km_iter a) m).
  pose proof (shrink_mono (a_km_iter a) n m).
  split; [lia|]. split; [lia|].
  destruct (a_max_mse a), k; cbn [negb andb]; rewrite ?andb_false_r, ?andb_true_r; cbn [andb];
  try (split; lia).
  destruct (shrink_by_len (a_km_iter a) m =? 0) eqn:E1, (shrink_by_len (a_km_iter a) n =? 0) eqn:E2; lia.
Qed.

(** A higher speed never plans more work. *)
Lemma speed_monotone a b v w a' b' n k : set_speed a v = Ok a' -> set_speed b w = Ok b' -> v <= w ->
  a_max_mse a = a_max_mse b ->
  search_passes b' n <= search_passes a' n /\ refine_passes b' n k <= refine_passes a' n k /\
  a_max_hist b' <= a_max_hist a'.
Proof.
  intros Ha Hb Hvw Hm.
  assert (P1 := set_speed_plan _ _ _ Ha). assert (P2 := set_speed_plan _ _ _ Hb).
  assert (Hv := set_speed_range _ _ _ Ha).
  assert (Hw := set_speed_range _ _ _ Hb).
  assert (T : a_trials b' <= a_trials a' /\ a_km_iter b' <= a_km_iter a' /\ a_max_hist b' <= a_max_hist a'
              /\ a_max_mse a' = a_max_mse a /\ a_max_mse b' = a_max_mse b).
  { clear P1 P2 Hm.
    assert (Fa : a_trials a' = Z.max (56 - 9 * v) 0 /\ a_km_iter a' = (let i := Z.max (8 - v) 0 in i + i * i / 2)
                 /\ a_max_hist a' = 131072 + 262144 * (10 - v) /\ a_max_mse a' = a_max_mse a).
    { revert Ha. clear. intros Ha. assert (Hv := set_speed_range _ _ _ Ha).
      revert Ha. pattern v. apply speed_cases; auto; intros H; cbn in H; inversion H; subst; cbn; auto. }
    assert (Fb : a_trials b' = Z.max (56 - 9 * w) 0 /\ a_km_iter b' = (let i := Z.max (8 - w) 0 in i + i * i / 2)
                 /\ a_max_hist b' = 131072 + 262144 * (10 - w) /\ a_max_mse b' = a_max_mse b).
    { revert Hb. clear. intros Ha. assert (Hv := set_speed_range _ _ _ Ha).
      revert Ha. pattern w. apply speed_cases; auto; intros H; cbn in H; inversion H; subst; cbn; auto. }
    destruct Fa as (-> & -> & -> & ->), Fb as (-> & -> & -> & ->). cbv zeta.
    repeat split; auto; try lia.
    assert (Z.max (8 - w) 0 * Z.max (8 - w) 0 / 2 <= Z.max (8 - v) 0 * Z.max (8 - v) 0 / 2); [|lia].
    apply Z.div_le_mono; [lia|]. apply Z.mul_le_mono_nonneg; lia. }
  destruct T as (T1 & T2 & T3 & M1 & M2). split; [|split; auto].
  - unfold search_passes, feedback_loop_trials. destruct P1 as (_ & _ & _ & _ & P1 & _), P2 as (_ & _ & _ & _ & P2 & _).
    revert T1 P1 P2. generalize (a_trials a') (a_trials b'). clear. intros x y H Hx Hy. unfold shrink_by_len.
    assert (G : forall (c : bool) y x, 0 <= y <= x -> x <= 20000 ->
      0 <= (if c then three_quarters y else y) <= (if c then three_quarters x else x) /\ (if c then three_quarters x else x) <= 20000).
    { intros [] ? ? ? ?; [|lia]. pose proof (three_quarters_le y0). pose proof (three_quarters_le x0).
      pose proof (three_quarters_mono y0 x0). lia. }
    cbv zeta.
    destruct (G (5000 <? Z.of_nat n) y x) as [? ?]; [lia|lia|].
    destruct (G (25000 <? Z.of_nat n) _ _ H0 H1) as [? ?].
    destruct (G (50000 <? Z.of_nat n) _ _ H2 H3) as [? ?].
    destruct (G (100000 <? Z.of_nat n) _ _ H4 H5) as [? ?]. lia.
  - unfold refine_passes, kmeans_iterations. cbn [fst]. rewrite M1, M2, Hm.
    destruct P1 as (_ & _ & _ & _ & _ & P1), P2 as (_ & _ & _ & _ & _ & P2).
    assert (S : 0 <= shrink_by_len (a_km_iter b') n <= shrink_by_len (a_km_iter a') n).
    { revert T2 P1 P2. generalize (a_km_iter a') (a_km_iter b'). clear. intros x y H Hx Hy. unfold shrink_by_len.
      assert (G : forall (c : bool) y x, 0 <= y <= x -> x <= 20000 ->
        0 <= (if c then three_quarters y else y) <= (if c then three_quarters x else x) /\ (if c then three_quarters x else x) <= 20000).
      { intros [] ? ? ? ?; [|lia]. pose proof (three_quarters_le y0). pose proof (three_quarters_le x0).
        pose proof (three_quarters_mono y0 x0). lia. }
      cbv zeta.
      destruct (G (5000 <? Z.of_nat n) y x) as [? ?]; [lia|lia|].
      destruct (G (25000 <? Z.of_nat n) _ _ H0 H1) as [? ?].
      destruct (G (50000 <? Z.of_nat n) _ _ H2 H3) as [? ?].
      destruct (G (100000 <? Z.of_nat n) _ _ H4 H5) as [? ?]. lia. }
    destruct (a_max_mse b), k; cbn [negb andb]; rewrite ?andb_false_r, ?andb_true_r; cbn [andb]; try lia.
    destruct (shrink_by_len (a_km_iter b') n =? 0) eqn:E1, (shrink_by_len (a_km_iter a') n =? 0) eqn:E2; lia.
Qed.
End AttrFacts.

(** * Quality scale *)
From Verif Require Import Ieee Order.
Section Scale.
Context {A : Arith} {O : OrdLaws A}.

Lemma mtq_range n m : 0 <= mse_to_quality_from n m <= Z.of_nat n.
Proof.
  induction n as [|n IH]; cbn [mse_to_quality_from]; [lia|].
  destruct (dle m _); lia.
Qed.

Lemma mtq_mono n a b : dle a b = true -> mse_to_quality_from n b <= mse_to_quality_from n a.
Proof.
  intros H. induction n as [|n IH]; cbn [mse_to_quality_from]; [lia|].
  destruct (dle b (quality_to_mse (Z.of_nat (S n)) +d dlit 1 1000000)) eqn:E.
  - rewrite (dle_trans _ _ _ H E). lia.
  - pose proof (mtq_range n b). pose proof (mtq_range n a).
    destruct (dle a (quality_to_mse (Z.of_nat (S n)) +d dlit 1 1000000)); lia.
Qed.

Lemma mtq_nan n m : dle m m = false -> mse_to_quality_from n m = 0.
Proof.
  intros H. induction n as [|n IH]; cbn [mse_to_quality_from]; auto.
  destruct (dle m (quality_to_mse (Z.of_nat (S n)) +d dlit 1 1000000)) eqn:E; auto.
  apply dle_refl_l in E. congruence.
Qed.
End Scale.

Section Scale2.
Context {A : Arith} {O : OrdLaws A}.
(** The reported quality is the largest one whose threshold (plus slack)
    the error does not exceed. *)
Lemma mtq_char n m : let q := mse_to_quality_from n m in
  (0 < q -> dle m (quality_to_mse q +d dlit 1 1000000) = true) /\
  (forall j, q < j <= Z.of_nat n -> dle m (quality_to_mse j +d dlit 1 1000000) = false).
Proof.
  induction n as [|n IH]; cbn [mse_to_quality_from]; cbv zeta.
  - split; intros; lia.
  - destruct (dle m (quality_to_mse (Z.of_nat (S n)) +d dlit 1 1000000)) eqn:E.
    + split; auto. intros; lia.
    + destruct IH as [I1 I2]. split; auto. intros j Hj.
      destruct (Z.eq_dec j (Z.of_nat (S n))) as [->|]; auto. apply I2. lia.
Qed.
End Scale2.

(** * All Attributes objects a caller can make *)
Section Usable.
Context {A : Arith}.
Inductive usable : attrs -> Prop :=
| us_new : usable attrs_new
| us_call a c a' : usable a -> call_typed c -> apply_call a c = Ok a' -> usable a'
| us_last a b : usable a -> usable (set_last_index_transparent a b).

Record attrs_ok (a : attrs) : Prop := {
  ao_colors : (2 <= a_max_colors a <= 256)%nat;
  ao_post : 0 <= a_post_out a <= 4;
  ao_in : 0 <= a_post_in a <= 1;
  ao_plan : plan_ok a
}.
Lemma usable_ok a : usable a -> attrs_ok a.
Proof.
  induction 1 as [|a c a' U IH T E|a b U IH].
  - constructor; [change (2 <= MAX_COLORS <= 256)%nat; unfold MAX_COLORS; lia|change (0 <= 0 <= 4); lia|change (0 <= 0 <= 1); lia|apply attrs_new_plan].
  - destruct IH as [I1 I2 I3 I4]. destruct c; cbn [apply_call] in E.
    + unfold set_max_colors in E. destruct ((2 <=? n) && (n <=? 256))%bool eqn:R; cbn [negb] in E; okinv E.
      constructor; auto. cbn [a_max_colors]. rewrite wrap16_id by lia. lia.
    + pose proof (set_speed_plan _ _ _ E) as P. pose proof (set_speed_range _ _ _ E) as R.
      unfold set_speed in E. destruct (negb _); okinv E. constructor; auto. cbn [a_post_in]. destruct (8 <=? v); lia.
    + unfold set_min_posterization in E. destruct ((0 <=? b) && (b <=? 4))%bool eqn:R; cbn [negb] in E; okinv E.
      constructor; auto. cbn [a_post_out]. lia.
    + unfold set_quality in E. destruct (_ || _)%bool; okinv E. constructor; auto.
  - destruct IH as [I1 I2 I3 I4]. constructor; auto.
Qed.
Lemma usable_bits a : usable a -> 0 <= posterize_bits a <= 4.
Proof. intros U. destruct (usable_ok a U). unfold posterize_bits. lia. Qed.
Lemma run_calls_usable cs : Forall call_typed cs -> usable (run_calls cs).
Proof.
  unfold run_calls. assert (G : forall a, usable a -> Forall call_typed cs -> usable (fold_left step_call cs a)).
  { induction cs as [|c cs IH]; intros a U F; cbn [fold_left]; auto. apply Forall_cons_iff in F as [F1 F2]. apply IH; auto.
    unfold step_call. destruct (apply_call a c) eqn:E; auto. eapply us_call; eauto. }
  apply G. constructor.
Qed.
End Usable.
