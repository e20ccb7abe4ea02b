(** How much is counted in histograms; what a histogram without fixed colours
    holds.  Any arithmetic. *)
From Verif Require Import Base BaseFacts Arith Order Pal World Attr Hist MedianCut Nearest Kmeans Blur ImageM Quant Remap
  SpecHist SpecImage BlurFacts ImageFacts HistFacts MedianFacts SearchFacts QuantFacts RemapFacts AttrFacts Api ApiFacts ResultFacts PalFacts FewFacts FewImage SpecFinite HistWeights.
Open Scope Z_scope.

Definition msum (m : hmap) : Z := zsum (map (fun e : rgba * (Z * rgba) => fst (snd e)) m).
Definition mpos (m : hmap) : Prop := Forall (fun e : rgba * (Z * rgba) => 0 <= fst (snd e)) m.
Lemma insert_sum m k v : mpos m -> 0 <= fst v -> msum (hm_insert m k v) <= msum m + fst v /\ mpos (hm_insert m k v).
Proof.
  unfold msum, mpos. intros F V. induction F as [|[k' v'] m X F IH]; cbn [hm_insert map zsum fst snd]; [split; [lia|constructor; auto]|].
  cbn [fst snd] in X. destruct (rgba_eqb k k'); cbn [map zsum fst snd]; [split; [lia|constructor; auto]|]. split; [lia|constructor; [auto|apply IH]].
Qed.
Lemma bump_sum m k b c : mpos m -> 0 <= b -> msum (hm_bump m k b c) <= msum m + b /\ mpos (hm_bump m k b c).
Proof.
  unfold msum, mpos. intros F V. induction F as [|[k' [n' c']] m X F IH]; cbn [hm_bump map zsum fst snd]; [split; [lia|constructor; auto]|].
  cbn [fst snd] in X. destruct (rgba_eqb k k'); cbn [map zsum fst snd]; [|split; [lia|constructor; [auto|apply IH]]].
  unfold sat_add32, U32_MAX in *. split; [lia|constructor; auto]. cbn [fst snd]. lia.
Qed.
Lemma perm_sum l l' : Permutation l l' -> zsum l = zsum l'.
Proof. induction 1; cbn [zsum]; lia. Qed.

Section Any.
Context {A : Arith}.
Lemma insert_fixed_sum u h : mpos (hg_map h) -> counted (insert_fixed u h) <= counted h /\ mpos (hg_map (insert_fixed u h)).
Proof.
  unfold counted, insert_fixed. cbn [hg_map with_map]. generalize (hg_map h), (u_set u (hg_fixed h)). intros m l. revert m.
  induction l as [|f l IH]; intros m F; cbn [fold_left]; [split; [lia|auto]|].
  match goal with |- context [fold_left _ l (hm_insert m ?k ?v)] => destruct (insert_sum m k v F) as [S P]; [cbn; lia|]; specialize (IH _ P) end.
  cbv zeta in *. cbn [fst] in S. unfold msum in S. split; [|apply IH]. destruct IH as [IH _]. lia.
Qed.
Lemma add_all_sum es : Forall (fun e => 0 <= snd e) es -> forall h, mpos (hg_map h) ->
  counted (add_all h es) <= counted h + zsum (map snd es) /\ mpos (hg_map (add_all h es)).
Proof.
  induction 1 as [|e es E _ IH]; intros h F; cbn [add_all fold_left map zsum]; [split; [lia|auto]|].
  assert (G : counted (add_color h (fst e) (snd e)) <= counted h + snd e /\ mpos (hg_map (add_color h (fst e) (snd e)))).
  { unfold add_color. destruct (Z.eqb_spec (snd e) 0); [split; [lia|auto]|]. unfold counted. cbn [hg_map with_map].
    apply bump_sum; auto. }
  destruct G as [G1 G2]. destruct (IH _ G2) as [I1 I2]. split; [|exact I2]. unfold add_all in I1. lia.
Qed.
Lemma settle_sum u h b : unspec_ok u -> mpos (hg_map h) -> counted (settle u h b) <= counted h /\ mpos (hg_map (settle u h b)).
Proof.
  intros U. assert (G : forall h b, mpos (hg_map h) -> counted (init_posterize_bits u h b) <= counted h /\ mpos (hg_map (init_posterize_bits u h b))).
  { clear h b. intros h b F. unfold init_posterize_bits. destruct (b <=? hg_bits h); [split; [lia|auto]|]. unfold counted. cbn [hg_map with_map with_bits].
    pose proof (uo_map u U (hg_map h)) as P.
    assert (F' : mpos (u_map u (hg_map h))) by (eapply Permutation_Forall; [exact P|exact F]).
    rewrite (perm_sum _ _ (Permutation_map (fun e : rgba * (Z * rgba) => fst (snd e)) P)).
    assert (Q : forall l m, mpos l -> mpos m ->
      msum (fold_left (fun m e => hm_insert m (mask_rgba b (fst e)) (snd e)) l m) <= msum m + msum l /\
      mpos (fold_left (fun m e => hm_insert m (mask_rgba b (fst e)) (snd e)) l m)).
    { clear. induction l as [|e l IH]; intros m L M; cbn [fold_left].
      - unfold msum at 3. cbn. split; [lia|auto].
      - inversion L as [|? ? E L']; subst. destruct (insert_sum m (mask_rgba b (fst e)) (snd e) M E) as [S P].
        destruct (IH _ L' P) as [I1 I2]. split; [|exact I2]. unfold msum at 3. cbn [map zsum]. fold (msum l). lia. }
    destruct (Q (u_map u (hg_map h)) [] F' (Forall_nil _)) as [Q1 Q2]. split; [exact Q1|exact Q2]. }
  intros F. unfold settle. cbv zeta. pose proof (G h b F) as [G1 G2]. destruct (_ && _)%bool; [|auto].
  destruct (G (init_posterize_bits u h b) (hg_bits (init_posterize_bits u h b) + 1) G2). split; [lia|auto].
Qed.

(** An image adds at most 255 per pixel. *)
Lemma additions_sum w pxs imp : (forall m, imp = Some m -> Forall byte m) ->
  Forall (fun e => 0 <= snd e) (image_additions w pxs imp) /\ zsum (map snd (image_additions w pxs imp)) <= 255 * Z.of_nat (length (concat pxs)).
Proof.
  intros M. unfold image_additions.
  assert (B : Forall byte (match imp with None => repeat 255 (length (concat pxs)) | Some m => m end)).
  { destruct imp as [m|]; [apply M; auto|]. apply Forall_forall. intros x Hx. apply repeat_spec in Hx. subst. unfold byte. lia. }
  revert B. generalize (match imp with None => repeat 255 (length (concat pxs)) | Some m => m end). generalize (concat pxs). clear.
  induction l as [|c l IH]; intros ns B; cbn [combine map zsum length]; [split; [constructor|lia]|].
  destruct ns as [|n ns]; cbn [map zsum]; [split; [constructor|lia]|]. apply Forall_cons_iff in B as [B1 B2]. unfold byte in B1.
  destruct (IH ns B2) as [I1 I2]. cbn [snd]. split; [constructor; [cbn; lia|auto]|lia].
Qed.
End Any.

Section Reach.
Context {A : Arith} {C : CastLaws A}.
Lemma reach_pos h : hist_r h -> mpos (hg_map h).
Proof. intros H. pose proof (counts_reachable h H) as K. eapply Forall_impl; [|exact K]. cbn. tauto. Qed.
(** The table of a histogram without fixed colours has no zero counts. *)
Definition no_zero (h : hist) : Prop := hg_fixed h = [] -> Forall (fun e => 1 <= fst (snd e)) (hg_map h).
Lemma hs_insert_nonempty s x : hs_insert s x <> [].
Proof. unfold hs_insert. destruct (existsb _ s) eqn:E; [destruct s; discriminate|]. destruct s; discriminate. Qed.
Lemma insert_pos m k v : 1 <= fst v -> Forall (fun e : rgba * (Z * rgba) => 1 <= fst (snd e)) m -> Forall (fun e : rgba * (Z * rgba) => 1 <= fst (snd e)) (hm_insert m k v).
Proof.
  intros V F. induction F as [|[k' v'] m X F IH]; cbn [hm_insert]; [constructor; auto; constructor|].
  destruct (rgba_eqb k k'); constructor; auto.
Qed.
Lemma add_all_pos es : Forall (fun e => 0 <= snd e <= U32_MAX) es -> forall h, Forall (fun e => 1 <= fst (snd e)) (hg_map h) -> Forall (fun e => 1 <= fst (snd e)) (hg_map (add_all h es)).
Proof.
  induction 1 as [|e es E _ IH]; intros h F; cbn [add_all fold_left]; auto. apply IH. clear IH.
  unfold add_color. destruct (Z.eqb_spec (snd e) 0); auto. cbn [hg_map with_map].
  generalize (color_key (hg_bits h) (fst e)). intros k.
  induction F as [|[k' [n0 c']] m X F IH]; cbn [hm_bump]; [|destruct (rgba_eqb k k')]; constructor; auto; cbn in *; [lia|]. unfold sat_add32, U32_MAX in *. lia.
Qed.
Lemma settle_pos u h b : unspec_ok u -> Forall (fun e => 1 <= fst (snd e)) (hg_map h) -> Forall (fun e => 1 <= fst (snd e)) (hg_map (settle u h b)).
Proof.
  intros U. assert (G : forall h b, Forall (fun e => 1 <= fst (snd e)) (hg_map h) -> Forall (fun e => 1 <= fst (snd e)) (hg_map (init_posterize_bits u h b))).
  { clear h b. intros h b F. unfold init_posterize_bits. destruct (b <=? hg_bits h); auto. cbn [hg_map with_map with_bits].
    assert (F' : Forall (fun e => 1 <= fst (snd e)) (u_map u (hg_map h))) by (eapply Permutation_Forall; [apply (uo_map u U)|exact F]).
    assert (G : forall m, Forall (fun e : rgba * (Z * rgba) => 1 <= fst (snd e)) m ->
      Forall (fun e : rgba * (Z * rgba) => 1 <= fst (snd e)) (fold_left (fun m e => hm_insert m (mask_rgba b (fst e)) (snd e)) (u_map u (hg_map h)) m)).
    { clear - F'. induction F' as [|e l E F' IH]; intros m Hm; cbn [fold_left]; auto. apply IH, insert_pos; auto. }
    apply G. constructor. }
  intros F. unfold settle. cbv zeta. destruct (_ && _)%bool; repeat apply G; auto.
Qed.
Lemma image_fixed_nil h l : hg_fixed (add_image_fixed h l) = [] -> hg_fixed h = [] /\ l = [].
Proof.
  unfold add_image_fixed. cbn [hg_fixed with_fixed]. intros E.
  assert (G : forall (es : list (nat * rgba)) s, fold_left (fun s ic => hs_insert s (snd ic, wrap8 (Z.of_nat (fst ic)))) es s = [] -> s = [] /\ es = []).
  { induction es as [|e es IH]; intros s Es; cbn [fold_left] in Es; auto. apply IH in Es as [Es _]. exfalso. apply (hs_insert_nonempty _ _ Es). }
  apply G in E as [E1 E2]. split; auto. rewrite <- (map_snd_enumerate l). rewrite E2. auto.
Qed.
Lemma insert_fixed_none u h : unspec_ok u -> hg_fixed h = [] -> hg_map (insert_fixed u h) = hg_map h.
Proof.
  intros U E. unfold insert_fixed. cbn [hg_map with_map]. pose proof (uo_set u U (hg_fixed h)) as P. rewrite E in *. apply Permutation_nil in P. rewrite P. auto.
Qed.
Lemma add_all_fixed es : forall h, hg_fixed (add_all h es) = hg_fixed h.
Proof. induction es as [|e es IH]; intros h; cbn [add_all fold_left]; auto. etransitivity; [apply IH|]. unfold add_color. destruct (_ =? _); auto. Qed.
Lemma settle_fixed u h b : hg_fixed (settle u h b) = hg_fixed h.
Proof. assert (G : forall h b, hg_fixed (init_posterize_bits u h b) = hg_fixed h) by (intros; unfold init_posterize_bits; destruct (_ <=? _); auto). unfold settle. cbv zeta. destruct (_ && _)%bool; rewrite !G; auto. Qed.
Lemma pxs_rows i pxs : image_ok i pxs -> Forall (fun r => Forall rgba_ok r) pxs.
Proof. intros I. eapply Forall_impl; [|apply (sh_rows _ _ (im_px _ _ I))]. cbn. tauto. Qed.
Lemma add_image_no_zero u cb a h i pxs w r h' i' w' : unspec_ok u -> image_ok i pxs -> no_zero h -> add_image u cb a (h, i, w) = (r, (h', i', w')) -> no_zero h'.
Proof.
  intros U I Z0 E. destruct (add_image_spec u cb a h i w pxs I) as (i1 & _ & _ & I1 & _ & _ & _ & _ & _ & E1). cbv zeta in E1. rewrite E1 in E. clear E1.
  set (h1 := add_image_fixed (with_gamma h (image_gamma i)) (i_fixed i)) in *.
  assert (H1 : no_zero h1). { intros F. apply image_fixed_nil in F as [F _]. apply Z0. exact F. }
  destruct (cb _ _); [inversion E; subst; auto|]. destruct (all_rgba_rows (i_px i)); inversion E; subst; auto.
  intros F. rewrite settle_fixed, add_all_fixed in F. specialize (H1 F). apply settle_pos; auto. apply add_all_pos; auto.
  eapply Forall_impl; [|apply image_additions_ok; [exact (pxs_rows _ _ I)|intros m Hm; apply (im_imp _ _ I1 m Hm)]]. intros e [_ X]. exact X.
Qed.
Lemma no_zero_reach h : hist_r h -> no_zero h.
Proof.
  induction 1 as [a Ha|h es g h' R IH F E|h c g h' R IH Rc E|u cb a h i pxs w r h' i' w' U Ha R IH I E|u cb a h w r h' w' U Ha R IH E].
  - intros _. constructor.
  - unfold add_colors in E. destruct (_ || _)%bool; [discriminate|]. destruct (negb _); [discriminate|].
    inversion E; subst. fold (add_all (match hg_gamma h with Some _ => h | None => if d0 <d g then with_gamma h (Some g) else h end) es)%flt.
    intros N. rewrite add_all_fixed in N. apply add_all_pos; [eapply Forall_impl; [|exact F]; intros e [_ X]; exact X|].
    destruct (hg_gamma h); [apply IH; exact N|]. destruct (_ <d _)%flt; apply IH; exact N.
  - unfold hist_add_fixed_color in E. destruct (Nat.leb _ _); [discriminate|]. inversion E; subst. intros N. cbn [hg_fixed with_fixed] in N.
    exfalso. apply (hs_insert_nonempty _ _ N).
  - eapply add_image_no_zero; eauto. apply (reach_image _ _ I).
  - assert (X : h' = h \/ h' = insert_fixed u h).
    { unfold hist_quantize, quantize_internal in E. destruct (match hg_map h with [] => _ | _ => _ end); [left; inversion E; auto|].
      assert (FB : forall g, snd (finalize_builder u h g) = insert_fixed u h) by reflexivity.
      assert (G : forall w2, (let '(hi, h') := finalize_builder u h (unwrap_or (hg_gamma h) (dlit 45455 100000)) in
         let '(r1, w3) := result_new u cb a hi true (unwrap_or (hg_gamma h) (dlit 45455 100000)) w2 in (r1, (h', w3))) = (r, (h', w')) -> h' = h \/ h' = insert_fixed u h).
      { clear E. intros w2. specialize (FB (unwrap_or (hg_gamma h) (dlit 45455 100000))%flt).
        destruct (finalize_builder _ _ _) as [hi h2]. cbn [snd] in FB. destruct (result_new _ _ _ _ _ _ _) as [r3 w3]. intros E.
        apply pair_equal_spec in E as [_ E]. apply pair_equal_spec in E as [<- _]. auto. }
      assert (G1 : forall e w2, (@Err qresult e, (h, w2)) = (r, (h', w')) -> h' = h \/ h' = insert_fixed u h).
      { intros e w2 E1. apply pair_equal_spec in E1 as [_ E1]. apply pair_equal_spec in E1 as [<- _]. auto. }
      destruct (progress _ _ _) as [[[]| |] w1]; [apply (G1 _ _ E)|..];
      destruct (progress _ _ _) as [[[]| |] w2]; try apply (G1 _ _ E); apply (G _ E). }
    destruct X as [->| ->]; auto. intros N. change (hg_fixed h = []) in N. rewrite (insert_fixed_none u h U N). auto.
Qed.
(** The gamma of a histogram is positive. *)
Definition gamma_pos (h : hist) : Prop := forall g, hg_gamma h = Some g -> (d0 <d g)%flt = true.
Lemma add_all_gamma es : forall h, hg_gamma (add_all h es) = hg_gamma h.
Proof. induction es as [|e es IH]; intros h; cbn [add_all fold_left]; auto. etransitivity; [apply IH|]. unfold add_color. destruct (_ =? _); auto. Qed.
Lemma settle_gamma u h b : hg_gamma (settle u h b) = hg_gamma h.
Proof. assert (G : forall h b, hg_gamma (init_posterize_bits u h b) = hg_gamma h) by (intros; unfold init_posterize_bits; destruct (_ <=? _); auto). unfold settle. cbv zeta. destruct (_ && _)%bool; rewrite !G; auto. Qed.
Lemma add_image_gamma u cb a h i pxs w r h' i' w' : unspec_ok u -> image_ok i pxs -> (d0 <d d_gamma (i_px i))%flt = true -> add_image u cb a (h, i, w) = (r, (h', i', w')) -> gamma_pos h'.
Proof.
  intros U I G E. destruct (add_image_spec u cb a h i w pxs I) as (i1 & _ & _ & I1 & _ & _ & _ & _ & _ & E1). cbv zeta in E1. rewrite E1 in E. clear E1.
  set (h1 := add_image_fixed (with_gamma h (image_gamma i)) (i_fixed i)) in *.
  assert (H1 : gamma_pos h1). { intros g Eg. cbn in Eg. unfold image_gamma in Eg. rewrite G in Eg. inversion Eg; subst. exact G. }
  destruct (cb _ _); [inversion E; subst; auto|]. destruct (all_rgba_rows (i_px i)); inversion E; subst; auto.
  unfold gamma_pos. rewrite settle_gamma, add_all_gamma. exact H1.
Qed.
Lemma gamma_pos_reach h : hist_r h -> (d0 <d dlit 45455 100000)%flt = true -> gamma_pos h.
Proof.
  intros H L. induction H as [a Ha|h es g h' R IH F E|h c g h' R IH Rc E|u cb a h i pxs w r h' i' w' U Ha R IH I E|u cb a h w r h' w' U Ha R IH E].
  - intros g E. discriminate.
  - unfold add_colors in E. destruct (_ || _)%bool; [discriminate|]. destruct (negb _); [discriminate|].
    inversion E; subst. fold (add_all (match hg_gamma h with Some _ => h | None => if d0 <d g then with_gamma h (Some g) else h end) es)%flt.
    unfold gamma_pos. rewrite add_all_gamma. intros g0. destruct (hg_gamma h) eqn:Q; [rewrite Q; intros X; apply IH; rewrite Q; auto|].
    destruct (d0 <d g)%flt eqn:P; [cbn; intros X; inversion X; subst; auto|rewrite Q; discriminate].
  - unfold hist_add_fixed_color in E. destruct (Nat.leb _ _); [discriminate|]. inversion E; subst. intros g0. cbn [hg_gamma with_fixed].
    destruct (hg_gamma h) eqn:Q; [rewrite Q; intros X; apply IH; rewrite Q; auto|].
    destruct (d0 <d g)%flt eqn:P; [cbn; intros X; inversion X; subst; auto|rewrite Q; discriminate].
  - eapply add_image_gamma; eauto; [apply (reach_image _ _ I)|]. apply (image_gamma_kept _ _ I L).
  - assert (X : hg_gamma h' = hg_gamma h).
    { unfold hist_quantize, quantize_internal in E. destruct (match hg_map h with [] => _ | _ => _ end); [inversion E; auto|].
      assert (FB : forall g, snd (finalize_builder u h g) = insert_fixed u h) by reflexivity.
      assert (G : forall w2, (let '(hi, h') := finalize_builder u h (unwrap_or (hg_gamma h) (dlit 45455 100000)) in
         let '(r1, w3) := result_new u cb a hi true (unwrap_or (hg_gamma h) (dlit 45455 100000)) w2 in (r1, (h', w3))) = (r, (h', w')) -> hg_gamma h' = hg_gamma h).
      { clear E. intros w2. specialize (FB (unwrap_or (hg_gamma h) (dlit 45455 100000))%flt).
        destruct (finalize_builder _ _ _) as [hi h2]. cbn [snd] in FB. destruct (result_new _ _ _ _ _ _ _) as [r3 w3]. intros E.
        apply pair_equal_spec in E as [_ E]. apply pair_equal_spec in E as [<- _]. rewrite FB. reflexivity. }
      assert (G1 : forall e w2, (@Err qresult e, (h, w2)) = (r, (h', w')) -> hg_gamma h' = hg_gamma h).
      { intros e w2 E1. apply pair_equal_spec in E1 as [_ E1]. apply pair_equal_spec in E1 as [<- _]. auto. }
      destruct (progress _ _ _) as [[[]| |] w1]; [apply (G1 _ _ E)|..];
      destruct (progress _ _ _) as [[[]| |] w2]; try apply (G1 _ _ E); apply (G _ E). }
    unfold gamma_pos. rewrite X. exact IH.
Qed.
End Reach.
