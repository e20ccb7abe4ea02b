(** The weights colours enter the palette search with, in exact arithmetic,
    and how the colours are grouped, in any arithmetic. *)
From Verif Require Import Base BaseFacts Arith Order Pal World Attr Hist Nearest MedianCut Kmeans Blur ImageM Quant Remap Api
  SpecHist ImageFacts HistFacts MedianFacts NearFacts SearchFacts QuantFacts ApiFacts FewFacts RealArith MedianReal KmeansReal HullReal RoundReal HullTop.
From Coq Require Import Reals Lra.
Open Scope nat_scope.

(** The group of a colour: which of its channels are in the upper half. *)
Definition upper (v : Z) : nat := if (v <? 128)%Z then 0 else 1.
Definition group (c : rgba) : nat := 8 * upper (cr c) + 4 * upper (cg c) + 2 * upper (Base.cb c) + upper (ca c).

Lemma upper_shift v : (0 <= v <= 255)%Z -> Z.shiftr v 7 = Z.of_nat (upper v).
Proof.
  intros V. unfold upper. rewrite Z.shiftr_div_pow2 by lia. change (2 ^ 7)%Z with 128%Z.
  destruct (Z.ltb_spec v 128); Z.div_mod_to_equations; lia.
Qed.
Lemma cluster_group c : rgba_ok c -> cluster_index c = group c.
Proof.
  intros (R & G & B & Al). unfold cluster_index, group. rewrite !upper_shift by (unfold byte in *; lia).
  unfold upper. destruct (_ <? _)%Z, (_ <? _)%Z, (_ <? _)%Z, (_ <? _)%Z; reflexivity.
Qed.

Section Any.
Context {A : Arith}.
Definition slice {T} (l : list T) (b e : nat) : list T := firstn (e - b) (skipn b l).

Lemma bounds_slices {T} (ls : list (list T)) : forall pre k b e, 
  nth_error (cluster_bounds (length pre) (map (@length _) ls)) k = Some (b, e) ->
  exists l, nth_error ls k = Some l /\ slice (pre ++ concat ls) b e = l.
Proof.
  induction ls as [|l ls IH]; intros pre k b e; cbn [map cluster_bounds]; [destruct k; discriminate|].
  destruct k as [|k]; cbn [nth_error].
  - intros H. assert (b = length pre /\ e = length pre + length l) as [-> ->] by (split; congruence).
    exists l. split; auto. unfold slice. rewrite skipn_app, skipn_all, Nat.sub_diag. cbn [skipn app concat].
    replace (length pre + length l - length pre) with (length l) by lia. rewrite firstn_app, Nat.sub_diag, firstn_all. cbn. apply app_nil_r.
  - intros H. specialize (IH (pre ++ l) k b e). rewrite app_length in IH. destruct (IH H) as (m & E1 & E2). exists m. split; auto.
    rewrite <- E2. cbn [concat]. rewrite app_assoc. reflexivity.
Qed.

(** Cluster [k] of the finished histogram is the run of colours of group [k]. *)
Lemma finalize_groups u h g : unspec_ok u -> hist_wf h ->
  exists vals : list (Z * rgba),
  Permutation vals (map snd (hg_map (insert_fixed u h))) /\
  map h_color (hi_items (fst (finalize_builder u h g))) = map (fun v => from_rgba (gamma_lut g) (snd v)) vals /\
  length (hi_clusters (fst (finalize_builder u h g))) = 16 /\
  forall k b e, nth_error (hi_clusters (fst (finalize_builder u h g))) k = Some (b, e) ->
    Forall (fun v => group (snd v) = k) (slice vals b e).
Proof.
  intros U W. destruct (insert_fixed_wf u U h W) as (W1 & _). unfold finalize_builder. cbv zeta. cbn [fst hi_items hi_clusters].
  set (vals := map snd (u_map u (hg_map (insert_fixed u h)))).
  assert (OV : Forall (fun v => rgba_ok (snd v)) vals).
  { unfold vals. apply Forall_map. eapply Permutation_Forall; [apply (uo_map u U)|]. apply W1. }
  assert (FV : Forall (fun v => cluster_index (snd v) < 16) vals) by (eapply Forall_impl; [|exact OV]; intros v; apply cluster_index_lt).
  pose proof (parts_perm (fun v : Z * rgba => cluster_index (snd v)) vals 16 FV) as PP.
  set (parts := map (fun k => filter (fun v : Z * rgba => Nat.eqb (cluster_index (snd v)) k) vals) (seq 0 16)) in *.
  exists (concat parts). split; [|split; [|split]].
  - rewrite <- PP. unfold vals. apply Permutation_map. symmetry. apply (uo_map u U).
  - rewrite map_map. reflexivity.
  - assert (G : forall l b, length (cluster_bounds b l) = length l) by (induction l; intros; cbn [cluster_bounds length]; auto).
    rewrite G, map_length. unfold parts. rewrite map_length, seq_length. reflexivity.
  - intros k b e E. destruct (bounds_slices parts [] k b e E) as (l & E1 & E2). cbn [app] in E2. rewrite E2.
    unfold parts in E1. rewrite nth_error_map in E1. destruct (nth_error (seq 0 16) k) as [j|] eqn:J; [|discriminate].
    assert (j = k). { assert (K : k < 16) by (change 16 with (length (seq 0 16)); apply nth_error_Some; congruence).
      rewrite (nth_error_nth' _ 0) in J by (rewrite seq_length; auto). rewrite seq_nth in J by auto. cbn in J. congruence. }
    subst j. cbn [option_map] in E1. assert (l = filter (fun v => Nat.eqb (cluster_index (snd v)) k) vals) as -> by congruence.
    apply Forall_forall. intros v Hv. apply filter_In in Hv as [Hv Hk]. apply Nat.eqb_eq in Hk. rewrite <- cluster_group; auto.
    rewrite Forall_forall in OV. auto.
Qed.
End Any.

(** The weight of a colour seen [n] times (255 per pixel of full importance)
    among [total]: one 256th, at most a tenth of the total; a fixed colour that
    never was counted weighs as much as everything. *)
Definition colour_weight (total n : Z) : R :=
  if (n =? 0)%Z then (IZR total / 256)%R else Rmin (IZR n / 256) (IZR total / 2560).

Lemma weight_monotone t n m : (0 < n <= m)%Z -> (colour_weight t n <= colour_weight t m <= IZR t / 256 / 10)%R.
Proof.
  intros [N M]. unfold colour_weight. destruct (Z.eqb_spec n 0), (Z.eqb_spec m 0); try lia. apply IZR_le in M.
  unfold Rmin. destruct (Rle_dec _ _), (Rle_dec _ _); lra.
Qed.

(** Counts are never negative. *)
Section Counts.
Context {A : Arith} {C : CastLaws A}.
Open Scope Z_scope.
Definition counts_ok (h : hist) : Prop := Forall (fun e => 0 <= fst (snd e) <= U32_MAX) (hg_map h).
Lemma insert_counts m k v : 0 <= fst v <= U32_MAX -> Forall (fun e : rgba * (Z * rgba) => 0 <= fst (snd e) <= U32_MAX) m ->
  Forall (fun e : rgba * (Z * rgba) => 0 <= fst (snd e) <= U32_MAX) (hm_insert m k v).
Proof.
  intros V F. induction F as [|[k' v'] m X F IH]; cbn [hm_insert]; [constructor; auto; constructor|].
  destruct (rgba_eqb k k'); constructor; auto.
Qed.
Lemma insert_fixed_counts u h : counts_ok h -> counts_ok (insert_fixed u h).
Proof.
  unfold counts_ok, insert_fixed. cbn [hg_map with_map]. generalize (hg_map h), (u_set u (hg_fixed h)). intros m l. revert m.
  induction l as [|f l IH]; intros m F; cbn [fold_left]; auto. apply IH. cbv zeta. apply insert_counts; auto. cbn. unfold U32_MAX. lia.
Qed.
Lemma add_all_counts es : Forall addition_ok es -> forall h, counts_ok h -> counts_ok (add_all h es).
Proof.
  induction 1 as [|e es [_ E] _ IH]; intros h F; cbn [add_all fold_left]; auto. apply IH. clear IH.
  unfold add_color. destruct (Z.eqb_spec (snd e) 0); auto. unfold counts_ok. cbn [hg_map with_map].
  generalize (color_key (hg_bits h) (fst e)). intros k. unfold counts_ok in F.
  induction F as [|[k' [n0 c']] m X F IH]; cbn [hm_bump]; [|destruct (rgba_eqb k k')]; constructor; auto.
  cbn in *. unfold sat_add32, U32_MAX in *. lia.
Qed.
Lemma settle_counts u h b : unspec_ok u -> counts_ok h -> counts_ok (settle u h b).
Proof.
  intros U. assert (G : forall h b, counts_ok h -> counts_ok (init_posterize_bits u h b)).
  { clear h b. intros h b F. unfold init_posterize_bits. destruct (b <=? hg_bits h); auto. unfold counts_ok. cbn [hg_map with_map with_bits].
    assert (F' : Forall (fun e => 0 <= fst (snd e) <= U32_MAX) (u_map u (hg_map h))) by (eapply Permutation_Forall; [apply (uo_map u U)|exact F]).
    revert F'. generalize (u_map u (hg_map h)). intros l F'.
    assert (G : forall m, Forall (fun e : rgba * (Z * rgba) => 0 <= fst (snd e) <= U32_MAX) m ->
      Forall (fun e : rgba * (Z * rgba) => 0 <= fst (snd e) <= U32_MAX) (fold_left (fun m e => hm_insert m (mask_rgba b (fst e)) (snd e)) l m)).
    { clear - F'. induction F' as [|e l E F' IH]; intros m Hm; cbn [fold_left]; auto. apply IH, insert_counts; auto. }
    apply G. constructor. }
  intros F. unfold settle. cbv zeta. destruct (_ && _)%bool; repeat apply G; auto.
Qed.
Lemma counts_reachable h : hist_r h -> counts_ok h.
Proof.
  revert h. enough (G : (forall h, hist_r h -> counts_ok h) /\ (forall i pxs, image_r i pxs -> image_ok i pxs) /\ (forall m q, result_r m q -> True)) by apply G.
  apply (objects_ind A counts_ok image_ok (fun _ _ => True)); auto.
  - intros. constructor.
  - intros h es g h' _ W F E. unfold add_colors in E. destruct (_ || _)%bool; [discriminate|]. destruct (negb _); [discriminate|].
    inversion E; subst. fold (add_all (match hg_gamma h with Some _ => h | None => if d0 <d g then with_gamma h (Some g) else h end) es)%flt.
    apply add_all_counts; auto. destruct (hg_gamma h); auto. destruct (_ <d _)%flt; auto.
  - intros h c g h' _ W R E. unfold hist_add_fixed_color in E. destruct (Nat.leb _ _); [discriminate|]. inversion E; subst.
    unfold counts_ok. cbn [hg_map with_fixed]. destruct (hg_gamma h); [apply W|]. destruct (_ <d _)%flt; apply W.
  - intros u cb a h i pxs w r h' i' w' U Ha _ W _ I E.
    destruct (add_image_spec u cb a h i w pxs I) as (i1 & _ & _ & I1 & _ & _ & _ & _ & _ & E1). cbv zeta in E1. rewrite E1 in E. clear E1.
    set (h1 := add_image_fixed (with_gamma h (image_gamma i)) (i_fixed i)) in *.
    assert (H1 : counts_ok h1) by exact W.
    destruct (cb _ _); [inversion E; subst; auto|]. destruct (all_rgba_rows (i_px i)); inversion E; subst; auto.
    apply settle_counts, add_all_counts; auto.
    apply image_additions_ok; [eapply Forall_impl; [|apply (sh_rows _ _ (im_px _ _ I))]; cbn; tauto|intros m Hm; apply (im_imp _ _ I1 m Hm)].
  - intros u cb a h w r h' w' U Ha _ W E. unfold hist_quantize, quantize_internal in E.
    destruct (match hg_map h with [] => _ | _ => _ end); [inversion E; subst; auto|].
    assert (FB : forall g, snd (finalize_builder u h g) = insert_fixed u h) by reflexivity.
    assert (G : forall w2, (let '(hi, h') := finalize_builder u h (unwrap_or (hg_gamma h) (dlit 45455 100000)) in
       let '(r1, w3) := result_new u cb a hi true (unwrap_or (hg_gamma h) (dlit 45455 100000)) w2 in (r1, (h', w3))) = (r, (h', w')) -> counts_ok h').
    { clear E. intros w2. specialize (FB (unwrap_or (hg_gamma h) (dlit 45455 100000))%flt).
      destruct (finalize_builder _ _ _) as [hi h2]. cbn [snd] in FB. destruct (result_new _ _ _ _ _ _ _) as [r3 w3]. intros E.
      apply pair_equal_spec in E as [_ E]. apply pair_equal_spec in E as [<- _]. rewrite FB. apply insert_fixed_counts; auto. }
    assert (G1 : forall e w2, (@Err qresult e, (h, w2)) = (r, (h', w')) -> counts_ok h').
    { intros e w2 E1. apply pair_equal_spec in E1 as [_ E1]. apply pair_equal_spec in E1 as [<- _]. auto. }
    destruct (progress _ _ _) as [[[]| |] w1]; [apply (G1 _ _ E)|..];
    destruct (progress _ _ _) as [[[]| |] w2]; try apply (G1 _ _ E); apply (G _ E).
  - intros buf w h s g i Hw Hh Hs B E. apply (new_stride_ok buf w h s g i Hw Hh Hs B E).
  - intros cb w h g i Hw Hh R E. apply (new_fn_ok cb w h g i Hw Hh R E).
  - intros i pxs m i' _ I B E. apply (set_imp_ok i pxs m i' I B E).
  - intros i pxs b bp i' _ I _ J E. apply (set_background_ok i pxs b bp i' I J E).
  - intros i pxs c i' _ I R E. apply (add_fixed_ok i pxs c i' I R E).
  - intros u cb a h i pxs w r h' i' w' U Ha R W _ I E. pose proof (add_image_ok u cb a h i w pxs U I (proj1 objects_ok h R)) as P. rewrite E in P. tauto.
  - intros u cb a i pxs w r i' w' U Ha _ I E. pose proof (quantize_ok u cb a i w pxs U Ha I) as P. rewrite E in P. tauto.
  - intros u cb m q i pxs buf w r q' i' out w' U R _ _ I E. destruct (proj2 (proj2 objects_ok) m q R) as (Q1 & Q2 & _).
    pose proof (remap_into_ok u cb q i pxs buf w U I) as P. rewrite E in P. apply P; lia.
  - intros u m q i pxs buf w r q' i' out w' U R _ _ I Lb E. destruct (proj2 (proj2 objects_ok) m q R) as (Q1 & Q2 & _).
    pose proof (prepare_ok u q i pxs buf w U I) as P. rewrite E in P. apply P; auto; lia.
Qed.
End Counts.

Section R.
Open Scope R_scope.
Variable big : R.
Let A : Arith := real big.
Existing Instance A.

Lemma sum_IZR {T} (f : T -> Z) l : sumR (map (fun v => IZR (f v)) l) = IZR (zsum (map f l)).
Proof. induction l as [|x l IH]; cbn [map sumR zsum]; auto. rewrite IH, plus_IZR. reflexivity. Qed.
Lemma zsum_perm l l' : Permutation l l' -> zsum l = zsum l'.
Proof. induction 1; cbn [zsum]; lia. Qed.
Lemma maxw_total (vals : list (Z * rgba)) : maxw_of vals = IZR (zsum (map fst vals)) / 2560.
Proof. unfold maxw_of. rewrite sum_IZR. field. Qed.
Lemma item_weight_spec total n : (0 <= n)%Z -> item_weight (IZR total / 2560 : @f32 A) n = colour_weight total n.
Proof.
  intros N. unfold colour_weight.
  change ((if Rltb 0 (IZR n) then Rmin (IZR n * (1 / 256)) (IZR total / 2560) else IZR total / 2560 * 10) = 
    if (n =? 0)%Z then IZR total / 256 else Rmin (IZR n / 256) (IZR total / 2560)).
  destruct (Rltb 0 (IZR n)) eqn:E; rbool; destruct (Z.eqb_spec n 0) as [->|NZ].
  - lra.
  - f_equal. lra.
  - lra.
  - exfalso. assert (0 < n)%Z by lia. apply IZR_lt in H. lra.
Qed.

Lemma total_sum (f : Z * rgba -> R) l : forall s, fold_left (fun s v => s + f v) l s = s + sumR (map f l).
Proof. induction l as [|x l IH]; intros s; cbn [fold_left map sumR]; [lra|]. rewrite IH. lra. Qed.

Lemma finalize_weighs u h g : unspec_ok u -> hist_wf h -> counts_ok h ->
  let t := zsum (map (fun e => fst (snd e)) (hg_map (insert_fixed u h))) in
  let hi := fst (finalize_builder u h g) in
  Permutation (map (fun it => (h_color it, h_adj it, h_perc it)) (hi_items hi))
    (map (fun e => (from_rgba (gamma_lut g) (snd (snd e)), colour_weight t (fst (snd e)), colour_weight t (fst (snd e))))
       (hg_map (insert_fixed u h))) /\
  hi_total hi = sumR (map (fun it => h_perc it) (hi_items hi)).
Proof.
  intros U W NN t hi. destruct (insert_fixed_wf u U h W) as (W1 & _).
  assert (N1 : Forall (fun e => (0 <= fst (snd e))%Z) (hg_map (insert_fixed u h))).
  { eapply Forall_impl; [|apply (insert_fixed_counts u h NN)]. cbn. tauto. }
  set (vals := map snd (u_map u (hg_map (insert_fixed u h)))).
  assert (PV : Permutation vals (map snd (hg_map (insert_fixed u h)))) by (unfold vals; apply Permutation_map; symmetry; apply (uo_map u U)).
  assert (FV : Forall (fun v => cluster_index (snd v) < 16)%nat vals).
  { unfold vals. apply Forall_map. eapply Permutation_Forall; [apply (uo_map u U)|]. eapply Forall_impl; [|apply W1]. intros e. apply cluster_index_lt. }
  assert (ZV : Forall (fun v => (0 <= fst v)%Z) vals) by (eapply Permutation_Forall; [symmetry; exact PV|apply Forall_map; exact N1]).
  assert (TV : zsum (map fst vals) = t).
  { unfold t. rewrite <- (map_map snd fst). apply zsum_perm, Permutation_map. exact PV. }
  pose proof (parts_perm (fun v : Z * rgba => cluster_index (snd v)) vals 16 FV) as PP.
  assert (E : (flit 1 10 *f d2f (dsum (map (fun v => f2d (fofZ (fst v))) vals) /d dofZ 256))%flt = IZR t / 2560).
  { rewrite <- TV, <- maxw_total. unfold maxw_of. rewrite <- (dsum_sumR big). reflexivity. }
  unfold hi, finalize_builder. cbv zeta. cbn [fst hi_items hi_total]. fold vals. rewrite E.
  set (parts := map _ (seq 0 16)) in *.
  assert (WV : forall v, In v vals -> item_weight (IZR t / 2560 : @f32 A) (fst v) = colour_weight t (fst v)).
  { intros v Hv. rewrite Forall_forall in ZV. apply item_weight_spec, ZV. exact Hv. }
  split.
  - rewrite map_map. cbn [mk_item h_color h_adj h_perc].
    transitivity (map (fun v : Z * rgba => (from_rgba (gamma_lut g) (snd v), item_weight (IZR t / 2560 : @f32 A) (fst v), item_weight (IZR t / 2560 : @f32 A) (fst v))) vals).
    + apply Permutation_map. symmetry. exact PP.
    + rewrite (map_ext_in _ (fun v => (from_rgba (gamma_lut g) (snd v), colour_weight t (fst v), colour_weight t (fst v)))) by (intros v Hv; rewrite WV by exact Hv; reflexivity).
      rewrite <- (map_map snd (fun v : Z * rgba => (from_rgba (gamma_lut g) (snd v), colour_weight t (fst v), colour_weight t (fst v)))).
      apply Permutation_map. exact PV.
  - rewrite map_map. cbn [mk_item h_perc].
    change (fold_left (fun s v => s + item_weight (IZR t / 2560 : @f32 A) (fst v)) vals 0 = sumR (map (fun v => item_weight (IZR t / 2560 : @f32 A) (fst v)) (concat parts))).
    rewrite total_sum, Rplus_0_l. apply sumR_perm, Permutation_map. exact PP.
Qed.
End R.
