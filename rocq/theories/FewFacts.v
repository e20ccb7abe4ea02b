(** Histograms with no more colours than the palette may have: the palette is
    the histogram; for any arithmetic. *)
From Verif Require Import Base BaseFacts Arith Order Pal World Attr Hist MedianCut Nearest Kmeans Blur ImageM Quant Remap
  SpecHist SpecImage BlurFacts ImageFacts HistFacts MedianFacts SearchFacts QuantFacts RemapFacts AttrFacts Api ApiFacts ResultFacts PalFacts.
Open Scope nat_scope.

Section FewFacts.
Context {A : Arith}.

Definition default_gamma : f64 := dlit 45455 100000.
Definition used_gamma (h : hist) : f64 := unwrap_or (hg_gamma h) default_gamma.
Definition hint_of (u : unspec) (h : hist) : hint := fst (finalize_builder u h (used_gamma h)).

(** The colours of the finished histogram are those of the table. *)
Lemma finalize_items u h g : unspec_ok u -> hist_wf h ->
  Permutation (map h_color (hi_items (fst (finalize_builder u h g)))) (map (fun e => from_rgba (gamma_lut g) (snd (snd e))) (hg_map (insert_fixed u h))).
Proof.
  intros U W. destruct (insert_fixed_wf u U h W) as (W1 & _). unfold finalize_builder. cbv zeta. cbn [fst hi_items].
  set (vals := map snd (u_map u (hg_map (insert_fixed u h)))).
  assert (FV : Forall (fun v => cluster_index (snd v) < 16) vals).
  { unfold vals. apply Forall_map. eapply Permutation_Forall; [apply (uo_map u U)|]. eapply Forall_impl; [|apply W1]. intros e. apply cluster_index_lt. }
  pose proof (parts_perm (fun v : Z * rgba => cluster_index (snd v)) vals 16 FV) as P.
  rewrite map_map. cbn [mk_item h_color]. 
  transitivity (map (fun v : Z * rgba => from_rgba (gamma_lut g) (snd v)) vals).
  - apply Permutation_map. symmetry. exact P.
  - unfold vals. rewrite map_map. apply Permutation_map. symmetry. apply (uo_map u U).
Qed.
Lemma finalize_fixed u h g : unspec_ok u -> 
  Permutation (hi_fixed (fst (finalize_builder u h g))) (map (fun f => from_rgba (gamma_lut g) (fst f)) (hg_fixed h)).
Proof.
  intros U. unfold finalize_builder. cbv zeta. cbn [fst hi_fixed]. apply Permutation_map.
  etransitivity; [symmetry; apply sort_by_perm|]. symmetry. apply (uo_set u U).
Qed.

Lemma few_palette u cb a h freeze g w q w' : 
  length (hi_items h) <= a_max_colors a -> a_max_colors a <= 256 -> (a_target_mse a =d d0) = true ->
  result_new u cb a h freeze g w = (Ok q, w') ->
  q_err q = Some d0 /\ exists p, with_fixed_colors (map (fun it => (h_color it, h_perc it)) (hi_items h)) (a_max_colors a) (hi_fixed h) = Ok p /\
    Permutation (colors_of p) (colors_of (q_pal q)).
Proof.
  intros L M T E. unfold result_new in E. apply sbind_ok in E as (s1 & w1 & _ & E). destruct s1; [discriminate|].
  destruct (target_mse a (length (hi_items h))) as [[mm tm] pf] eqn:TM.
  assert (PF : pf = true) by (unfold target_mse in TM; inversion TM; auto). subst pf.
  apply sbind_ok in E as ([p err] & w2 & F & E). apply sbind_ok in E as (s2 & w3 & _ & E). destruct s2; [discriminate|].
  cbv zeta in E. destruct (match err with Some _ => _ | None => _ end); [discriminate|].
  apply sbind_ok in E as (p2 & w4 & E2 & E). unfold slift in E2. inversion E2; subst. unfold sret in E. inversion E; subst. cbn [q_pal q_err].
  unfold find_best_palette in F. apply Nat.leb_le in L as L'. rewrite L' in F. cbn [andb] in F. unfold slift in F.
  unfold palette_from_histogram in F.
  pose proof (push_all_ok (fun it => (h_color it, h_perc it)) (hi_items h) []) as PA. cbn [fst snd app length] in PA. rewrite PA in F by lia. cbn [bind] in F.
  destruct (with_fixed_colors _ _ _) as [p0|e|] eqn:WF; cbn [bind] in F; inversion F; subst. split; auto.
  exists p. split; auto.
  match type of H0 with sort_palette a ?x = _ => destruct (sort_palette_ok a x) as (p3 & E3 & P3) end.
  rewrite H0 in E3. inversion E3; subst. apply (Permutation_map fst) in P3. fold (colors_of p3) in P3. unfold colors_of. rewrite <- P3.
  destruct freeze; [|reflexivity]. rewrite map_map. reflexivity.
Qed.

Lemma few_internal u cb a freeze h w q s' : unspec_ok u -> hist_wf h ->
  length (hg_map (insert_fixed u h)) <= a_max_colors a -> 1 <= a_max_colors a <= 256 -> (a_target_mse a =d d0) = true ->
  quantize_internal u cb a freeze (h, w) = (Ok q, s') ->
  q_err q = Some d0 /\ q_gamma q = used_gamma h /\ q_post q = a_post_out a /\ q_rem q = None /\ q_int q = [] /\
  exists p, with_fixed_colors (map (fun it => (h_color it, h_perc it)) (hi_items (hint_of u h))) (a_max_colors a) (hi_fixed (hint_of u h)) = Ok p /\
    Permutation (colors_of p) (colors_of (q_pal q)).
Proof.
  intros U W L M T E. pose proof (quantize_internal_ok u U cb a freeze h w M W) as R. unfold runs in R. rewrite E in R.
  destruct R as (_ & _ & _ & _ & R1 & R2 & _ & R3 & R4 & _).
  assert (NE : hg_map h <> [] \/ hg_fixed h <> []).
  { unfold quantize_internal in E. destruct (hg_map h); [|left; congruence]. destruct (hg_fixed h); [discriminate|right; congruence]. }
  destruct (finalize_ok u U h (used_gamma h) W NE) as (_ & _ & _ & LI).
  unfold quantize_internal in E. destruct (match hg_map h, hg_fixed h with [], [] => true | _, _ => false end); [discriminate|].
  change (unwrap_or (hg_gamma h) (dlit 45455 100000)) with (used_gamma h) in *. cbv zeta in E.
  assert (G : forall w2, (let '(hi, h') := finalize_builder u h (used_gamma h) in
        let '(r, w3) := result_new u cb a hi freeze (used_gamma h) w2 in (r, (h', w3))) = (Ok q, s') ->
     q_err q = Some d0 /\ exists p, with_fixed_colors (map (fun it => (h_color it, h_perc it)) (hi_items (hint_of u h))) (a_max_colors a) (hi_fixed (hint_of u h)) = Ok p /\
       Permutation (colors_of p) (colors_of (q_pal q))).
  { intros w2 E'. unfold hint_of. destruct (finalize_builder u h (used_gamma h)) as [hi h']. cbn [fst] in *.
    destruct (result_new u cb a hi freeze (used_gamma h) w2) as [r w3] eqn:RN. inversion E'; subst r.
    apply (few_palette u cb a hi freeze (used_gamma h) w2 q w3); auto; lia. }
  destruct (progress cb f0 w) as [[[]|e|] w1]; try discriminate;
  (destruct (progress cb _ w1) as [[[]|e2|] w2]; try discriminate; destruct (G w2 E) as [G1 G2]; auto 10).
Qed.

(** The number of colours in the table after counting an image's pixels with
    no posterization, starting from an empty table. *)
Lemma few_colors_bound h l ks : represents h l -> hg_bits h = 0%Z ->
  (forall c n, In (c, n) l -> n <> 0%Z -> In (posterized 0 c) ks) -> length (hg_map h) <= length ks.
Proof.
  intros [N G] B K. rewrite <- (map_length fst (hg_map h)). apply NoDup_incl_length; auto. intros k Hk.
  destruct (hm_get (hg_map h) k) as [v|] eqn:E; [|apply hm_get_none in E; contradiction].
  rewrite G, B in E. unfold expected in E. destruct (falling_on 0 l k) as [|[c n] t] eqn:F; [discriminate|].
  assert (I : In (c, n) (falling_on 0 l k)) by (rewrite F; left; auto). unfold falling_on in I. apply filter_In in I as [I Q].
  cbn [fst snd] in Q. apply andb_true_iff in Q as [Q1 Q2]. apply rgba_eqb_eq in Q2. subst k. apply (K c n); auto.
  apply negb_true_iff, Z.eqb_neq in Q1. auto.
Qed.
(** Every colour added with a weight is in the table, under its own key. *)
Lemma counted_color h l c n : represents h l -> hg_bits h = 0%Z -> In (c, n) l -> n <> 0%Z ->
  exists v, In (posterized 0 c, v) (hg_map h).
Proof.
  intros [N G] B I Hn. destruct (hm_get (hg_map h) (posterized 0 c)) as [v|] eqn:E; [exists v; apply hm_get_in; auto|].
  rewrite G, B in E. unfold expected in E. assert (F : In (c, n) (falling_on 0 l (posterized 0 c))).
  { unfold falling_on. apply filter_In. split; auto. cbn [fst snd]. rewrite rgba_eqb_refl, andb_true_r. apply negb_true_iff, Z.eqb_neq. auto. }
  destruct (falling_on 0 l (posterized 0 c)) as [|[c' n'] t]; [destruct F|discriminate].
Qed.
(** The colour stored under a key has that key. *)
Definition keyed (m : hmap) : Prop := Forall (fun e => posterized 0 (snd (snd e)) = fst e) m.
Lemma represents_keyed h l : represents h l -> hg_bits h = 0%Z -> keyed (hg_map h).
Proof.
  intros [N G] B. apply Forall_forall. intros [k [n c]] I. cbn [fst snd]. apply in_hm_get in I; auto. rewrite G, B in I.
  unfold expected in I. destruct (falling_on 0 l k) as [|[c' n'] t] eqn:F; [discriminate|]. inversion I; subst.
  assert (J : In (c, n') (falling_on 0 l k)) by (rewrite F; left; auto). apply filter_In in J as [_ Q].
  cbn [fst snd] in Q. apply andb_true_iff in Q as [_ Q2]. apply rgba_eqb_eq in Q2. auto.
Qed.
End FewFacts.
