(** The palette and the error of a result come from one step of the search.
    Any arithmetic. *)
From Verif Require Import Base BaseFacts Arith Order Pal World Attr Hist MedianCut Nearest Kmeans Blur ImageM Quant Api
  AttrFacts SpecHist ImageFacts HistFacts MedianFacts SearchFacts QuantFacts ApiFacts FiniteTop.
Open Scope nat_scope.

Section Step.
Context {A : Arith}.
Variable u : unspec.
Variable U : unspec_ok u.
Variable cb : callback.
Variable a : attrs.
Hypothesis Ha : 1 <= a_max_colors a <= 256.
Variable h0 : hint.
Hypothesis H0 : hint_ok h0.
(** Anything median cut establishes and steps keep. *)
Variable HI : hint -> Prop.
Variable PI : palf -> Prop.
Hypothesis cut : forall h mc t m p0 h1 p1, HI h -> 1 <= mc <= a_max_colors a -> mediancut u h mc t m = Ok (p0, h1) ->
  with_fixed_colors p0 (a_max_colors a) (hi_fixed h1) = Ok p1 -> PI p1 /\ HI h1.
Hypothesis iter : forall th h (p : palf) adj e h' p', (forall n, covers n (th n)) -> HI h -> PI p -> iteration_with th h p adj = Ok (e, h', p') -> HI h' /\ PI p'.
Definition tracked (h : hint) : Prop := evolves h0 h /\ HI h.
Definition sized (p : palf) : Prop := 1 <= length p <= a_max_colors a /\ PI p.

(** [p'] and [e] are the outcome of a step on the histogram [h0] (its colours
    in some order, re-weighted perhaps). *)
Definition made (adj : bool) (p' : palf) (e : f64) : Prop :=
  exists th h p h', (forall n, covers n (th n)) /\ tracked h /\ sized p /\ iteration_with th h p adj = Ok (e, h', p').

Lemma evolves_ok h : evolves h0 h -> hint_ok h.
Proof.
  intros (P & _ & C & _). apply Permutation_length in P. rewrite !map_length in P. destruct H0 as [X Y]. split; [rewrite C, <- P; exact X|lia].
Qed.
Lemma iteration_made h p adj w e h' p' w' : tracked h -> sized p -> iteration u h p adj w = (Ok (e, h', p'), w') ->
  made adj p' e /\ tracked h' /\ sized p'.
Proof.
  intros H L E. unfold iteration, sbind, tick, slift in E. cbv beta iota in E.
  destruct (iteration_with (u_batches u (w_tick w)) h p adj) as [[[e1 h1] p1]| |] eqn:Q; inversion E; subst.
  assert (CV : forall n, covers n (u_batches u (w_tick w) n)) by (intros n; apply (uo_batches u U)).
  split; [exists (u_batches u (w_tick w)), h, p, h'; auto|].
  destruct (iteration_with_ok (u_batches u (w_tick w)) h p adj ltac:(destruct L; lia) CV) as (e2 & h2 & p2 & E2 & S & K). rewrite Q in E2. inversion E2; subst.
  destruct H as [H HH]. destruct L as [L LL]. destruct (iter _ _ _ _ _ _ _ CV HH LL Q) as [HH' LL'].
  split; [split; [eapply evolves_trans; [exact H|apply same_colors_evolves; exact S]|exact HH']|]. split; [|exact LL']. destruct K as [K _]. rewrite K. exact L.
Qed.
(** What the refinement returns is what it started with, or a plain step. *)
Lemma refine_made fuel iterations limit mm : forall i h (p : palf) err w h' p' err' w', tracked h -> sized p ->
  refine_loop u cb fuel a iterations limit mm i h p err w = (Ok (h', p', err'), w') ->
  (p' = p /\ err' = err /\ ((forall t x, cb t x = false) -> (iterations <= i)%Z)) \/ (exists e, err' = Some e /\ made false p' e).
Proof.
  induction fuel as [|f IH]; intros i h p err w h' p' err' w' H L E; cbn [refine_loop] in E.
  - destruct (Z.ltb_spec i iterations); unfold slift, sret in E; inversion E; subst; auto.
  - destruct (Z.ltb_spec i iterations); [|unfold sret in E; inversion E; subst; auto]. cbv zeta in E.
    unfold sbind at 1 in E. unfold progress at 1 in E.
    match type of E with context [if cb ?t ?x then _ else _] => destruct (cb t x) eqn:CB end.
    { unfold sret in E; inversion E; subst. left. split; [auto|split; [auto|]]. intros N. rewrite N in CB. discriminate. }
    unfold sbind at 1 in E.
    match type of E with context [iteration u h p false ?w0] => destruct (iteration u h p false w0) as [[[[e h1] p1]|e|] w1] eqn:EI end; try discriminate.
    destruct (iteration_made _ _ _ _ _ _ _ _ H L EI) as (M & EH1 & L1). cbv beta iota in E.
    destruct (match err with Some prev => _ | None => false end); [unfold sret in E; inversion E; subst; right; eauto|].
    apply IH in E; [|auto|auto]. destruct E as [(-> & -> & _)|E]; right; eauto.
Qed.
(** The search returns the best palette with its own error. *)
Lemma search_made total tmse fuel : forall h mc left best over fails err w h' best' err' w',
  tracked h -> 1 <= mc <= a_max_colors a ->
  match best, err with Some p, Some e => (exists adj, made adj p e) /\ sized p /\ (0 < left)%Z | None, None => True | _, _ => False end ->
  search_loop u cb fuel a total tmse h mc left best over fails err w = (Ok (h', best', err'), w') ->
  tracked h' /\ (forall p, best' = Some p -> sized p) /\
  match best', err' with Some p, Some e => (exists adj, made adj p e) /\ ((left <= 0)%Z -> False) | Some p, None => (left <= 0)%Z | _, _ => False end.
Proof.
  induction fuel as [|f IH]; intros h mc left best over fails err w h' best' err' w' H M B E; cbn [search_loop] in E; [unfold slift in E; discriminate|].
  cbv zeta in E. unfold sbind at 1 in E. unfold slift at 1 in E.
  match type of E with context [mediancut u h mc ?t ?m] => destruct (mediancut u h mc t m) as [[p0 h1]| |] eqn:E1 end; try discriminate. cbv beta iota in E.
  unfold sbind at 1 in E. unfold slift at 1 in E.
  destruct (with_fixed_colors p0 (a_max_colors a) (hi_fixed h1)) as [p1| |] eqn:E2; try discriminate. cbv beta iota in E.
  destruct H as [H HH]. pose proof (evolves_ok h H) as (HC & HL). destruct (cut _ _ _ _ _ _ _ HH M E1 E2) as [PI1 HH1].
  match type of E1 with mediancut u h mc ?t ?m = _ => destruct (mediancut_ok u U h mc t m HC ltac:(lia) HL) as (q & h2 & E3 & LQ & PC & T1 & C1 & F1 & _) end.
  rewrite E1 in E3. inversion E3; subst q h2. clear E3.
  assert (EV1 : tracked h1) by (split; [eapply evolves_trans; [exact H|]; split; [apply core_core2; auto|auto]|exact HH1]).
  destruct (with_fixed_colors_ok p0 (a_max_colors a) (hi_fixed h1) ltac:(lia) ltac:(lia)) as (q & E3 & L1 & _). rewrite E2 in E3. inversion E3; subst q. clear E3.
  assert (LP : sized p1) by (split; [lia|exact PI1]).
  destruct (Z.leb_spec left 0) as [Z0|Z0].
  { unfold sret in E. inversion E; subst. split; auto. split; [intros p Q; inversion Q; subst; auto|]. destruct best, err'; auto; lia. }
  unfold sbind at 1 in E.
  match type of E with context [iteration u h1 p1 ?d ?w0] => destruct (iteration u h1 p1 d w0) as [[[[e h2] p2]|e|] w1] eqn:EI end; try discriminate.
  destruct (iteration_made _ _ _ _ _ _ _ _ EV1 LP EI) as (MD & H2 & L2). cbv beta iota in E.
  match type of E with context [if ?b then (Some p2, ?o, ?m, ?fl, ?l, ?er) else ?y] => set (better := b) in E; set (X := (Some p2, o, m, fl, l, er)) in E; set (Y := y) in E end.
  assert (G : exists p' over' mc' fails' left' e', (if better then X else Y) = (Some p', over', mc', fails', left', Some e') /\
              (exists adj, made adj p' e') /\ sized p' /\ 1 <= mc' <= a_max_colors a).
  { destruct better eqn:BE.
    - do 6 eexists. split; [reflexivity|]. split; [eexists; exact MD|]. split; [exact L2|lia].
    - unfold Y. destruct best as [pb|]; [|exfalso; unfold better in BE; cbn in BE; discriminate].
      destruct err as [eb|]; [|destruct B]. destruct B as (B1 & B2 & B3).
      do 6 eexists. split; [reflexivity|]. split; [exact B1|]. split; [exact B2|lia]. }
  destruct G as (best1 & over1 & mc1 & fails1 & left1 & err1 & EQ & B1 & B2 & M1). rewrite EQ in E. clear EQ X Y better.
  unfold sbind at 1 in E. unfold progress at 1 in E.
  match type of E with context [if (cb ?t ?x || ?c)%bool then _ else _] => destruct (cb t x || c)%bool eqn:ST end.
  - unfold sret in E. inversion E; subst. split; [auto|]. split; [intros p Q; inversion Q; subst; auto|]. split; [exact B1|lia].
  - apply orb_false_iff in ST as [_ ST]. apply Z.leb_gt in ST.
    eapply IH in E; [|exact H2|exact M1|split; [exact B1|split; [exact B2|exact ST]]].
    destruct E as (G1 & G2 & G3). split; [exact G1|]. split; [exact G2|]. destruct best' as [p'|], err' as [e'|]; try contradiction; [split; [apply G3|lia]|lia].
Qed.
Hypothesis HH0 : HI h0.
Lemma find_made tmse perfect mm w p e w' : (Nat.leb (length (hi_items h0)) (a_max_colors a) && perfect)%bool = false ->
  find_best_palette u cb a tmse perfect mm h0 w = (Ok (p, Some e), w') ->
  exists adj, made adj p e /\
    (((forall n, (feedback_loop_trials a n <= 0)%Z) \/ (forall t x, cb t x = false) /\ (forall n, (0 < shrink_by_len (a_km_iter a) n)%Z)) -> adj = false).
Proof.
  intros B E. unfold find_best_palette in E. rewrite B in E. cbv zeta in E. unfold sbind at 1 in E.
  match type of E with context [search_loop ?u ?c ?f ?a ?t ?x ?h ?m ?l ?b ?o ?z ?e w] => destruct (search_loop u c f a t x h m l b o z e w) as [[[[h1 best] e1]|e1|] w1] eqn:ES end; try discriminate.
  apply search_made in ES as (H1 & B1 & B2); [|split; [apply evolves_refl|exact HH0]|lia|exact I]. cbv beta iota in E.
  destruct best as [p1|]; [|discriminate]. unfold sbind at 1 in E. unfold refine_palette in E.
  destruct (kmeans_iterations a (length (hi_items h1)) _) as [it lim] eqn:KI.
  match type of E with context [refine_loop ?u ?c ?f ?a ?i ?l ?m ?z ?h ?p ?e ?w] => destruct (refine_loop u c f a i l m z h p e w) as [[[[h2 p2] e2]|e2|] w2] eqn:ER end; try discriminate.
  cbv beta iota in E. unfold sret in E. inversion E; subst. apply refine_made in ER; [|auto|auto].
  destruct ER as [(-> & <- & N)|(e' & Q & M)]; [|inversion Q; subst; exists false; auto].
  destruct B2 as [(adj & B2) B3]. exists adj. split; [exact B2|]. intros [CALM|[NV KP]]; exfalso; [apply B3; apply CALM|].
  specialize (N NV). unfold kmeans_iterations in KI. cbn [negb] in KI. rewrite andb_false_r in KI. cbn [andb] in KI.
  assert (it = shrink_by_len (a_km_iter a) (length (hi_items h1))) by congruence. specialize (KP (length (hi_items h1))). lia.
Qed.
Lemma result_made freeze gamma w q e w' : result_new u cb a h0 freeze gamma w = (Ok q, w') -> q_err q = Some e ->
  (length (hi_items h0) <= a_max_colors a -> (a_target_mse a =d d0)%flt = false) ->
  q_gamma q = gamma /\
  exists adj p, made adj p e /\ Permutation (if freeze then map (fun x => (fst x, pop_to_fixed (snd x))) p else p) (q_pal q) /\
    (((forall n, (feedback_loop_trials a n <= 0)%Z) \/ (forall t x, cb t x = false) /\ (forall n, (0 < shrink_by_len (a_km_iter a) n)%Z)) -> adj = false).
Proof.
  intros E QE D. unfold result_new in E. unfold sbind at 1 in E. unfold progress at 1 in E. destruct (cb _ _); [discriminate|].
  destruct (target_mse a (length (hi_items h0))) as [[mm tm] perfect] eqn:TM. unfold sbind at 1 in E.
  match type of E with context [find_best_palette u cb a tm perfect mm h0 ?w0] => destruct (find_best_palette u cb a tm perfect mm h0 w0) as [[[p err]|e1|] w1] eqn:EF end; try discriminate.
  cbv beta iota zeta in E. unfold sbind at 1 in E. unfold progress at 1 in E.
  match type of E with context [if cb ?t ?x then _ else _] => destruct (cb t x) end; [discriminate|].
  destruct (match err with Some e => _ | None => _ end); [discriminate|]. unfold sbind at 1 in E. unfold slift at 1 in E.
  match type of E with context [sort_palette a ?x] => destruct (sort_palette_ok a x) as (p2 & E2 & P2); rewrite E2 in E end.
  unfold sret in E. inversion E; subst. cbn [q_err q_pal q_gamma] in *. subst err. split; [reflexivity|].
  assert (PF : (Nat.leb (length (hi_items h0)) (a_max_colors a) && perfect)%bool = false).
  { unfold target_mse in TM. cbv zeta in TM. assert (PE : perfect = (a_target_mse a =d d0)%flt) by (inversion TM; reflexivity). rewrite PE.
    destruct (Nat.leb_spec (length (hi_items h0)) (a_max_colors a)); [rewrite D by auto|]; reflexivity. }
  destruct (find_made _ _ _ _ _ _ _ PF EF) as (adj & M & AD). exists adj, p. split; [exact M|]. split; [exact P2|exact AD].
Qed.
End Step.

Section Top.
Context {A : Arith} {C : CastLaws A}.
Lemma usable_iterations a : usable a -> (7 <= get_speed a \/ 0 < a_km_iter a <= 31)%Z.
Proof.
  unfold get_speed. induction 1 as [|a c a' U IH T E|a b U IH]; [cbn; lia| |exact IH].
  destruct c; cbn [apply_call] in E.
  - unfold set_max_colors in E. destruct (negb _); okinv E. exact IH.
  - assert (Hv := set_speed_range _ _ _ E). revert E. clear - Hv. pattern v. apply speed_cases; auto; intros E; cbn in E; inversion E; subst; cbn; lia.
  - unfold set_min_posterization in E. destruct (negb _); okinv E. exact IH.
  - unfold set_quality in E. destruct (_ || _)%bool; okinv E. exact IH.
Qed.
Lemma three_quarters_pos x : (0 < x <= 31 -> 0 < three_quarters x <= 31)%Z.
Proof.
  intros H. assert (Q : forallb (fun x => (0 <? three_quarters x) && (three_quarters x <=? 31))%Z (map Z.of_nat (seq 1 31)) = true) by reflexivity.
  rewrite forallb_forall in Q. specialize (Q x). rewrite andb_true_iff, Z.ltb_lt, Z.leb_le in Q. apply Q. apply in_map_iff. exists (Z.to_nat x). split; [lia|]. apply in_seq. lia.
Qed.
Lemma shrink_pos x n : (0 < x <= 31 -> 0 < shrink_by_len x n)%Z.
Proof.
  intros H. enough (0 < shrink_by_len x n <= 31)%Z by lia. unfold shrink_by_len.
  repeat match goal with |- context [if ?b then _ else _] => destruct b end; repeat apply three_quarters_pos; exact H.
Qed.
Lemma few_trials a n : usable a -> (7 <= get_speed a)%Z -> (feedback_loop_trials a n <= 0)%Z.
Proof.
  intros U S. destruct (usable_trials a U) as [_ T]. unfold feedback_loop_trials. rewrite T. replace (Z.max (56 - 9 * get_speed a) 0) with 0%Z by lia.
  unfold shrink_by_len. repeat match goal with |- context [if ?b then _ else _] => destruct b end; cbn; lia.
Qed.
Lemma internal_made_in (HI : hint -> Prop) (PI : palf -> Prop) u cb a h freeze w q s' e : unspec_ok u -> usable a -> hist_wf h -> quantize_internal u cb a freeze (h, w) = (Ok q, s') -> q_err q = Some e ->
  (length (hg_map (insert_fixed u h)) <= a_max_colors a -> (a_target_mse a =d d0)%flt = false) ->
  (forall h mc t m p0 h1 p1, HI h -> 1 <= mc <= a_max_colors a -> mediancut u h mc t m = Ok (p0, h1) ->
     with_fixed_colors p0 (a_max_colors a) (hi_fixed h1) = Ok p1 -> PI p1 /\ HI h1) ->
  (forall th h (p : palf) adj e h' p', (forall n, covers n (th n)) -> HI h -> PI p -> iteration_with th h p adj = Ok (e, h', p') -> HI h' /\ PI p') ->
  HI (fst (finalize_builder u h (unwrap_or (hg_gamma h) (dlit 45455 100000)))) ->
  q_gamma q = unwrap_or (hg_gamma h) (dlit 45455 100000) /\ exists adj p, made a (fst (finalize_builder u h (q_gamma q))) HI PI adj p e /\
    Permutation (if freeze then map (fun x => (fst x, pop_to_fixed (snd x))) p else p) (q_pal q) /\
    ((7 <= get_speed a)%Z \/ (forall t x, cb t x = false) -> adj = false).
Proof.
  intros U Ua W E QE D CU IT HH. pose proof (usable_ok a Ua) as [O1 _ _ _]. assert (M : 1 <= a_max_colors a <= 256) by lia.
  assert (NE : hg_map h <> [] \/ hg_fixed h <> []).
  { unfold quantize_internal in E. destruct (hg_map h); [|left; congruence]. destruct (hg_fixed h); [discriminate|right; congruence]. }
  unfold quantize_internal in E. destruct (match hg_map h, hg_fixed h with [], [] => true | _, _ => false end); [discriminate|]. cbv zeta in E.
  set (g := unwrap_or (hg_gamma h) (dlit 45455 100000)) in *.
  destruct (QuantFacts.finalize_ok u U h g W NE) as (HO & _ & _ & LI). set (hi := fst (finalize_builder u h g)) in *.
  assert (G : forall w2 w3, result_new u cb a hi freeze g w2 = (Ok q, w3) -> q_gamma q = g /\ exists adj p, made a (fst (finalize_builder u h (q_gamma q))) HI PI adj p e /\
    Permutation (if freeze then map (fun x => (fst x, pop_to_fixed (snd x))) p else p) (q_pal q) /\
    ((7 <= get_speed a)%Z \/ (forall t x, cb t x = false) -> adj = false)).
  { intros w2 w3 RN. destruct (result_made u U cb a M hi HO HI PI CU IT HH freeze g w2 q e w3 RN QE) as (QG & adj & p & MD & PP & AD); [rewrite LI; exact D|].
    rewrite QG. split; [reflexivity|]. exists adj, p. split; [exact MD|]. split; [exact PP|]. intros X. apply AD.
    destruct (Z.le_gt_cases 7 (get_speed a)) as [S|S]; [left; intros n; apply few_trials; auto|].
    destruct X as [X|X]; [lia|]. right. split; [exact X|]. destruct (usable_iterations a Ua) as [Y|Y]; [lia|]. intros n. apply shrink_pos. exact Y. }
  assert (G2 : forall w2, (let '(hi, h') := finalize_builder u h g in let '(r, w3) := result_new u cb a hi freeze g w2 in (r, (h', w3))) = (Ok q, s') ->
     exists w3, result_new u cb a hi freeze g w2 = (Ok q, w3)).
  { intros w2 E'. unfold hi. destruct (finalize_builder u h g) as [hi2 h']. cbn [fst]. destruct (result_new u cb a hi2 freeze g w2) as [r w3]. inversion E'; subst r. eauto. }
  destruct (progress cb f0 w) as [[[]|e1|] w1]; try discriminate;
  (destruct (progress cb _ w1) as [[[]|e2|] w2]; try discriminate; destruct (G2 w2 E) as (w3 & RN); exact (G w2 w3 RN)).
Qed.
Lemma internal_made u cb a h freeze w q s' e : unspec_ok u -> usable a -> hist_wf h -> quantize_internal u cb a freeze (h, w) = (Ok q, s') -> q_err q = Some e ->
  (length (hg_map (insert_fixed u h)) <= a_max_colors a -> (a_target_mse a =d d0)%flt = false) ->
  exists adj p th hi p0 hi', (forall n, covers n (th n)) /\ evolves (fst (finalize_builder u h (q_gamma q))) hi /\ 1 <= length p0 <= a_max_colors a /\
    iteration_with th hi p0 adj = Ok (e, hi', p) /\
    Permutation (if freeze then map (fun x => (fst x, pop_to_fixed (snd x))) p else p) (q_pal q) /\
    ((7 <= get_speed a)%Z \/ (forall t x, cb t x = false) -> adj = false).
Proof.
  intros U Ua W E QE D.
  destruct (internal_made_in (fun _ => True) (fun _ => True) u cb a h freeze w q s' e U Ua W E QE D) as (_ & adj & p & (th & hi & p0 & hi' & C1 & (C2 & _) & (C3 & _) & C4) & C5 & C6); auto.
  exists adj, p, th, hi, p0, hi'. auto 8.
Qed.
Lemma hist_made u cb a h w q s' e : unspec_ok u -> usable a -> hist_r h -> hist_quantize u cb a (h, w) = (Ok q, s') -> q_err q = Some e ->
  (length (hg_map (insert_fixed u h)) <= a_max_colors a -> (a_target_mse a =d d0)%flt = false) ->
  exists adj p th hi p0 hi', (forall n, covers n (th n)) /\ evolves (fst (finalize_builder u h (q_gamma q))) hi /\ 1 <= length p0 <= a_max_colors a /\
    iteration_with th hi p0 adj = Ok (e, hi', p) /\
    Permutation (map (fun x => (fst x, pop_to_fixed (snd x))) p) (q_pal q) /\ ((7 <= get_speed a)%Z \/ (forall t x, cb t x = false) -> adj = false).
Proof. intros U Ua H. apply (internal_made u cb a h true); auto. apply (proj1 objects_ok). exact H. Qed.
Lemma image_made u cb a i pxs w h i1 w1 q s' e : unspec_ok u -> usable a -> image_r i pxs -> add_image u cb a (hist_new a, i, w) = (Ok tt, (h, i1, w1)) ->
  quantize u cb a (i, w) = (Ok q, s') -> q_err q = Some e ->
  (length (hg_map (insert_fixed u h)) <= a_max_colors a -> (a_target_mse a =d d0)%flt = false) ->
  exists adj p th hi p0 hi', (forall n, covers n (th n)) /\ evolves (fst (finalize_builder u h (q_gamma q))) hi /\ 1 <= length p0 <= a_max_colors a /\
    iteration_with th hi p0 adj = Ok (e, hi', p) /\
    Permutation p (q_pal q) /\ ((7 <= get_speed a)%Z \/ (forall t x, cb t x = false) -> adj = false).
Proof.
  intros U Ua I AI E QE. unfold quantize in E. pose proof AI as AI0. rewrite AI in E. destruct (quantize_internal u cb a false (h, w1)) as [r [h2 w2]] eqn:QI. inversion E; subst r.
  eapply (internal_made u cb a h false); eauto. apply (proj1 objects_ok).
  apply (hr_image u cb a (hist_new a) i pxs w (Ok tt) h i1 w1); auto. constructor. exact Ua.
Qed.
End Top.
