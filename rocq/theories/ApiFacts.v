(** Invariants of reachable objects; no call on them panics. *)
From Verif Require Import Base BaseFacts Arith Order Pal World Attr Hist MedianCut Nearest Kmeans Blur ImageM Quant Remap
  SpecHist SpecImage AttrFacts BlurFacts ImageFacts HistFacts MedianFacts SearchFacts QuantFacts RemapFacts Api.
Open Scope nat_scope.

Section ApiFacts.
Context {A : Arith} {C : CastLaws A}.

(** * Remapping into a buffer *)
Lemma chunks_exact_shape {T} w h (l : list T) : 0 < w -> length l = w * h ->
  length (chunks_exact w l) = h /\ Forall (fun r => length r = w) (chunks_exact w l) /\ concat (chunks_exact w l) = l.
Proof.
  intros W L. split; [|split; [apply Forall_chunks_exact|]].
  - rewrite (chunks_exact_eq w h) by auto. rewrite chunks_length, L by auto.
    replace (w * h + w - 1) with (h * w + (w - 1)) by lia. rewrite Nat.div_add_l by lia. rewrite Nat.div_small by lia. lia.
  - rewrite (chunks_exact_eq w h) by auto. apply chunks_concat; auto.
Qed.
Lemma concat_rows_length {T} w (ls : list (list T)) : Forall (fun r => length r = w) ls -> length (concat ls) = w * length ls.
Proof. induction 1 as [|r ls H F IH]; cbn [concat length]; [lia|]. rewrite app_length, IH, H. lia. Qed.

Definition remap_post (rcb : callback) (q : qresult) (i : image) (pxs : list (list rgba)) (buf : list nat) (w : world)
  (o : res unit * (qresult * image * list nat * world)) : Prop :=
  let need := i_w i * i_h i in
  let '(r, (q', i', out, w')) := o in
  keeps i i' /\ image_ok i' pxs /\ length out = length buf /\ skipn need out = skipn need buf /\
  match r with
  | Ok _ => need <= length buf /\ Forall (fun v => v < length (q_pal q)) (firstn need out) /\
            exists ip e, q' = set_rem q (Some (ip, e)) /\ length ip = length (q_pal q) /\
              exists p : palf, keeps_fixed (q_pal q) p /\ ip = snd (init_int_palette p (q_gamma q) (q_post q)) /\
                               ((q_dither q =f f0) = true -> p = q_pal q)
  | Err e => q' = q /\ ((e = BufferTooSmall /\ length buf < need /\ i' = i /\ out = buf /\ w' = w) \/
                        (need <= length buf /\ (aborted rcb e \/ e = OutOfMemory)))
  | Panic => False
  end.

Lemma remap_into_ok u rcb q i pxs buf w : unspec_ok u -> image_ok i pxs -> 0 < length (q_pal q) <= 256 ->
  remap_post rcb q i pxs buf w (remap_into u rcb q i buf w).
Proof.
  intros U I P. unfold remap_into, remap_post. cbv zeta. destruct (Nat.ltb_spec (length buf) (i_w i * i_h i)) as [H|H].
  { split; [apply keeps_refl|]. auto 10. }
  set (need := i_w i * i_h i) in *.
  assert (Lf : length (firstn need buf) = i_w i * i_h i) by (rewrite firstn_length; unfold need in *; lia).
  pose proof (sh_w _ _ (im_px _ _ I)) as HW. change (0 < i_w i) in HW.
  destruct (chunks_exact_shape (i_w i) (i_h i) (firstn need buf) HW Lf) as (L1 & F1 & _).
  set (s := RSt q i (chunks_exact (i_w i) (firstn need buf)) w).
  assert (E : entry_ok q s pxs) by (split; [reflexivity|]; split; [exact I|]; split; [split; auto|lia]).
  pose proof (write_remapped_ok u U rcb C q s pxs E) as R. unfold runs in R.
  destruct (write_remapped u rcb s) as [[[]|e|] s'].
  - destruct R as (R1 & R2 & R3 & R4 & R5). cbn [r_img s] in *.
    assert (LC : length (concat (r_out s')) = need).
    { rewrite (concat_rows_length (i_w i)); [unfold need; lia|]. eapply Forall_impl; [|exact R5]. intros r [? _]; auto. }
    split; auto. split; auto. split; [rewrite app_length, skipn_length, LC; lia|].
    split; [rewrite skipn_app, LC, Nat.sub_diag, skipn_all2 by lia; reflexivity|].
    split; auto. split.
    + rewrite firstn_app, LC, Nat.sub_diag, firstn_all2 by lia. cbn [firstn]. rewrite app_nil_r.
      apply Forall_concat. eapply Forall_impl; [|exact R5]. intros r [_ ?]; auto.
    + destruct R1 as (ip & e & -> & L & R1). eauto 6.
  - destruct R as (R0 & R1 & R2 & R3 & R4 & R5). cbn [r_img s] in *.
    assert (LC : length (concat (r_out s')) = need).
    { rewrite (concat_rows_length (i_w i)); [unfold need; lia|]. auto. }
    split; auto. split; auto. split; [rewrite app_length, skipn_length, LC; lia|].
    split; [rewrite skipn_app, LC, Nat.sub_diag, skipn_all2 by lia; reflexivity|]. auto.
  - contradiction.
Qed.

(** [prepare_for_dithering] with a buffer of the right size. *)
Lemma prepare_ok u q i pxs buf w : unspec_ok u -> image_ok i pxs -> 0 < length (q_pal q) <= 256 -> length buf = i_w i * i_h i ->
  let '(r, (q', i', out, w')) := prepare_for_dithering u q i buf w in
  keeps i i' /\ image_ok i' pxs /\ length out = length buf /\
  match r with
  | Ok _ => exists p, q' = set_pal q p /\ keeps_fixed (q_pal q) p
  | Err e => e = OutOfMemory /\ q' = q
  | Panic => False
  end.
Proof.
  intros U I P Lb. unfold prepare_for_dithering. cbv zeta.
  pose proof (sh_w _ _ (im_px _ _ I)) as HW. change (0 < i_w i) in HW.
  destruct (chunks_exact_shape (i_w i) (i_h i) buf HW Lb) as (L1 & F1 & _).
  set (s := RSt q i (chunks_exact (i_w i) buf) w).
  pose proof (generate_dither_map_ok u U C (q_dmap q) true (q_pal q) s pxs I (conj L1 F1) P) as R. unfold runs in R.
  assert (LO : forall o : list (list nat), shaped i o -> length (concat o ++ skipn (i_w i * length (chunks_exact (i_w i) buf)) buf) = length buf).
  { intros o [O1 O2]. rewrite app_length, skipn_length, (concat_rows_length (i_w i)) by auto. rewrite O1, L1. lia. }
  destruct (optionally_generate_dither_map u (q_dmap q) true (q_pal q) s) as [[[me p]|e|] s'].
  - destruct R as (R1 & R2 & R3 & R4 & R5 & _). split; auto. split; auto. split; auto. exists p. auto.
  - destruct R as (R1 & R2 & R3 & R4 & R5). split; auto.
  - contradiction.
Qed.

(** * Histograms *)
Lemma add_color_wf h c n : rgba_ok c -> hist_wf h -> hist_wf (add_color h c n).
Proof. intros R [M F]. unfold add_color. destruct (n =? 0)%Z; [split; auto|]. split; auto. cbn. apply hm_bump_wf; auto. Qed.
Lemma add_all_wf es : forall h, Forall addition_ok es -> hist_wf h -> hist_wf (add_all h es).
Proof.
  induction es as [|e es IH]; intros h F W; auto. apply Forall_cons_iff in F as [[F1 _] F2]. unfold add_all. cbn [fold_left].
  apply IH; auto. apply add_color_wf; auto.
Qed.
Lemma init_bits_wf u h b : unspec_ok u -> hist_wf h -> hist_wf (init_posterize_bits u h b).
Proof.
  intros U [M F]. unfold init_posterize_bits. destruct (b <=? hg_bits h)%Z; [split; auto|]. split; auto. cbn [hg_map with_map].
  assert (M' : Forall (fun e : rgba * (Z * rgba) => rgba_ok (snd (snd e))) (u_map u (hg_map h))) by (eapply Permutation_Forall; [apply (uo_map u U)|auto]).
  assert (G : forall m, Forall (fun e : rgba * (Z * rgba) => rgba_ok (snd (snd e))) m ->
     Forall (fun e => rgba_ok (snd (snd e))) (fold_left (fun m e => hm_insert m (mask_rgba b (fst e)) (snd e)) (u_map u (hg_map h)) m)).
  { induction M' as [|[k [n c]] l Hc M' IH]; intros m Hm; cbn [fold_left]; auto. apply IH. apply hm_insert_wf; auto. }
  apply G. constructor.
Qed.
Lemma settle_wf u h b : unspec_ok u -> hist_wf h -> hist_wf (settle u h b).
Proof. intros U W. unfold settle. cbv zeta. destruct (_ && _)%bool; repeat apply init_bits_wf; auto. Qed.
Lemma hs_insert_wf s x : rgba_ok (fst x) -> Forall (fun f : rgba * Z => rgba_ok (fst f)) s -> Forall (fun f : rgba * Z => rgba_ok (fst f)) (hs_insert s x).
Proof. intros R F. unfold hs_insert. destruct (existsb _ _); auto. apply Forall_app; auto. Qed.
Lemma add_image_fixed_wf h l : Forall rgba_ok l -> hist_wf h -> hist_wf (add_image_fixed h l).
Proof.
  intros L [M F]. split; auto. cbn [hg_fixed add_image_fixed with_fixed].
  assert (L' : Forall (fun ic : nat * rgba => rgba_ok (snd ic)) (enumerate l)).
  { apply Forall_forall. intros [i c] Hi. apply In_enumerate in Hi. rewrite Forall_forall in L. apply L. eapply nth_error_In; eauto. }
  revert F. generalize (hg_fixed h). induction L' as [|ic l' Hc L' IH]; intros s Fs; cbn [fold_left]; auto.
  apply IH. apply hs_insert_wf; auto.
Qed.
Lemma with_gamma_wf h g : hist_wf h -> hist_wf (with_gamma h g).
Proof. intros [M F]. split; auto. Qed.

Lemma add_image_ok u cb a h i w pxs : unspec_ok u -> image_ok i pxs -> hist_wf h ->
  let '(r, (h', i', w')) := add_image u cb a (h, i, w) in
  hist_wf h' /\ image_ok i' pxs /\ r <> Panic /\ (forall e, r = Err e -> aborted cb e \/ (e = Unsupported /\ forall x, all_rgba_rows (i_px i) <> Ok x)).
Proof.
  intros U I W. destruct (add_image_spec u cb a h i w pxs I) as (i' & _ & _ & I' & _ & _ & _ & _ & _ & E). cbv zeta in E. rewrite E.
  set (h1 := add_image_fixed _ _). assert (W1 : hist_wf h1).
  { apply add_image_fixed_wf; [apply (im_fixed _ _ I)|]. apply with_gamma_wf; auto. }
  destruct (cb _ _) eqn:CB. { split; auto. split; auto. split; [congruence|]. intros e H; inversion H; eauto. }
  assert (W2 : hist_wf (settle u (add_all h1 (image_additions (i_w i) pxs (i_imp i'))) (posterize_bits a))).
  { apply settle_wf; auto. apply add_all_wf; auto. apply image_additions_ok.
    - eapply Forall_impl; [|apply (sh_rows _ _ (im_px _ _ I))]. cbn. tauto.
    - intros m Hm. apply (im_imp _ _ I' m Hm). }
  destruct (all_rgba_rows (i_px i)); (split; [assumption|]; split; [assumption|]; split; [congruence|]; intros e0 H; try discriminate H; injection H as <-; right; (split; [reflexivity|discriminate])).
Qed.

(** * Results *)
Definition res_ok (m : nat) (q : qresult) : Prop :=
  1 <= length (q_pal q) <= m /\ m <= 256 /\
  (forall ip e, q_rem q = Some (ip, e) -> length ip = length (q_pal q)) /\
  (q_int q = [] \/ length (q_int q) = length (q_pal q)).

Lemma usable_colors a : usable a -> 1 <= a_max_colors a <= 256.
Proof. intros U. destruct (usable_ok a U). lia. Qed.

Lemma hist_quantize_ok u cb a h w : unspec_ok u -> usable a -> hist_wf h ->
  let '(r, (h', w')) := hist_quantize u cb a (h, w) in
  hist_wf h' /\ r <> Panic /\ (forall q, r = Ok q -> res_ok (a_max_colors a) q) /\
  (forall e, r = Err e -> (e = Unsupported /\ hg_map h = [] /\ hg_fixed h = []) \/ aborted cb e \/ (e = QualityTooLow /\ a_max_mse a <> None)).
Proof.
  intros U Ha W. pose proof (usable_colors a Ha) as Hc. unfold hist_quantize.
  pose proof (quantize_internal_ok u U cb a true h w Hc W) as R. unfold runs in R.
  destruct (quantize_internal u cb a true (h, w)) as [[q|e|] [h' w']]; [| |contradiction].
  - destruct R as (R1 & _ & R2 & _ & R3 & R4 & _ & _ & _ & _ & _ & _ & R5). split; auto. split; [congruence|]. split; [|discriminate].
    intros q' H. inversion H; subst q'. destruct R2 as (R2 & _). unfold res_ok. rewrite R3, R4. repeat (split; auto); [lia..|discriminate].
  - destruct R as (R1 & _ & R2). split; auto. split; [congruence|]. split; [discriminate|]. intros e' H; inversion H; subst; auto.
Qed.
Lemma hist_new_wf a : hist_wf (hist_new a).
Proof. split; constructor. Qed.
Lemma quantize_ok u cb a i w pxs : unspec_ok u -> usable a -> image_ok i pxs ->
  let '(r, (i', w')) := quantize u cb a (i, w) in
  image_ok i' pxs /\ r <> Panic /\ (forall q, r = Ok q -> res_ok (a_max_colors a) q) /\
  (forall e, r = Err e -> e = Unsupported \/ aborted cb e \/ (e = QualityTooLow /\ a_max_mse a <> None)).
Proof.
  intros U Ha I. pose proof (usable_colors a Ha) as Hc. unfold quantize.
  pose proof (add_image_ok u cb a (hist_new a) i w pxs U I (hist_new_wf a)) as P.
  destruct (add_image u cb a (hist_new a, i, w)) as [[[]|e|] [[h' i'] w']]; destruct P as (P1 & P2 & P3 & P4).
  - pose proof (quantize_internal_ok u U cb a false h' w' Hc P1) as R. unfold runs in R.
    destruct (quantize_internal u cb a false (h', w')) as [[q|e|] [h2 w2]]; [| |contradiction].
    + destruct R as (R1 & _ & R2 & _ & R3 & R4 & _ & _ & _ & _ & _ & _ & R5). split; auto. split; [congruence|]. split; [|discriminate].
      intros q' H. inversion H; subst q'. destruct R2 as (R2 & _). unfold res_ok. rewrite R3, R4. repeat (split; auto); [lia..|discriminate].
    + destruct R as (R1 & _ & R2). split; auto. split; [congruence|]. split; [discriminate|]. intros e' H; inversion H; subst. tauto.
  - split; auto. split; [congruence|]. split; [discriminate|]. intros e' H. inversion H; subst. destruct (P4 e') as [|[]]; auto.
  - congruence.
Qed.

Lemma palette_keeps q : length (q_pal (snd (palette q))) = length (q_pal q).
Proof.
  unfold palette. destruct (q_rem q) as [[ip e]|]; auto. destruct (q_int q); auto.
  destruct (init_int_palette _ _ _) as [p' ip] eqn:E. unfold init_int_palette in E. inversion E. cbn. rewrite map_length. auto.
Qed.
Lemma palette_ok m q : res_ok m q -> res_ok m (snd (palette q)) /\ length (fst (palette q)) = length (q_pal q).
Proof.
  intros (L & M & R & I). unfold palette. destruct (q_rem q) as [[ip e]|] eqn:ER.
  { cbn. split; [|eauto]. unfold res_ok. rewrite ER. auto. }
  destruct (q_int q) as [|c ip] eqn:EI.
  - destruct (init_int_palette (q_pal q) (q_gamma q) (q_post q)) as [p' ip] eqn:E. unfold init_int_palette in E. inversion E; subst.
    unfold res_ok. cbn [fst snd q_pal q_int q_rem]. rewrite !map_length. repeat (split; auto); try lia; discriminate.
  - cbn [fst snd]. split; [unfold res_ok; rewrite ER, EI; auto|]. destruct I; [discriminate|auto].
Qed.

(** * All reachable objects *)
Lemma objects_ok :
  (forall h, hist_r h -> hist_wf h) /\
  (forall i pxs, image_r i pxs -> image_ok i pxs) /\
  (forall m q, result_r m q -> res_ok m q).
Proof.
  apply (objects_ind A hist_wf image_ok res_ok).
  - intros a _. apply hist_new_wf.
  - intros h es g h' _ W F E. unfold add_colors in E. destruct (_ || _)%bool; [discriminate|]. destruct (negb _); [discriminate|].
    inversion E; subst. fold (add_all (match hg_gamma h with Some _ => h | None => if d0 <d g then with_gamma h (Some g) else h end) es).
    apply add_all_wf; auto. destruct (hg_gamma h); auto. destruct (_ <d _); auto. 
  - intros h c g h' _ W R E. unfold hist_add_fixed_color in E. destruct (Nat.leb _ _); [discriminate|]. inversion E; subst. split.
    + destruct (hg_gamma h); [apply W|]. destruct (_ <d _); apply W.
    + cbn [hg_fixed with_fixed]. apply hs_insert_wf; auto. destruct (hg_gamma h); [apply W|]. destruct (_ <d _); apply W.
  - intros u cb a h i pxs w r h' i' w' U Ha _ W _ I E. pose proof (add_image_ok u cb a h i w pxs U I W) as P. rewrite E in P. tauto.
  - intros u cb a h w r h' w' U Ha _ W E. pose proof (hist_quantize_ok u cb a h w U Ha W) as P. rewrite E in P. tauto.
  - intros buf w h s g i Hw Hh Hs B E. apply (new_stride_ok buf w h s g i Hw Hh Hs B E).
  - intros cb w h g i Hw Hh R E. apply (new_fn_ok cb w h g i Hw Hh R E).
  - intros i pxs m i' _ I B E. apply (set_imp_ok i pxs m i' I B E).
  - intros i pxs b bp i' _ I _ J E. apply (set_background_ok i pxs b bp i' I J E).
  - intros i pxs c i' _ I R E. apply (add_fixed_ok i pxs c i' I R E).
  - intros u cb a h i pxs w r h' i' w' U Ha _ W _ I E. pose proof (add_image_ok u cb a h i w pxs U I W) as P. rewrite E in P. tauto.
  - intros u cb a i pxs w r i' w' U Ha _ I E. pose proof (quantize_ok u cb a i w pxs U Ha I) as P. rewrite E in P. tauto.
  - intros u cb m q i pxs buf w r q' i' out w' U _ (Q1 & Q2 & _) _ I E.
    pose proof (remap_into_ok u cb q i pxs buf w U I) as P. rewrite E in P. apply P; lia.
  - intros u m q i pxs buf w r q' i' out w' U _ (Q1 & Q2 & _) _ I Lb E.
    pose proof (prepare_ok u q i pxs buf w U I) as P. rewrite E in P. apply P; auto; lia.
  - intros u cb a h w q s' U Ha _ W E. pose proof (hist_quantize_ok u cb a h w U Ha W) as P. rewrite E in P. destruct s'. apply P; auto.
  - intros u cb a i pxs w q s' U Ha _ I E. pose proof (quantize_ok u cb a i w pxs U Ha I) as P. rewrite E in P. destruct s'. apply P; auto.
  - intros m q v q' _ (Q1 & Q2 & Q3 & Q4) E. unfold set_dithering_level in E. destruct (negb _); [discriminate|]. inversion E; subst.
    unfold res_ok. cbn. repeat (split; auto); try lia. discriminate.
  - intros m q v q' _ (Q1 & Q2 & Q3 & Q4) E. unfold set_output_gamma in E. destruct (_ || _)%bool; [discriminate|]. inversion E; subst.
    unfold res_ok. cbn. repeat (split; auto); try lia. discriminate.
  - intros m q _ Q. apply palette_ok; auto.
  - intros u cb m q i pxs buf w r q' i' out w' U _ (Q1 & Q2 & Q3 & Q4) _ I E.
    pose proof (remap_into_ok u cb q i pxs buf w U I) as P. rewrite E in P. cbv [remap_post] in P.
    assert (P' := P ltac:(lia)). clear P. destruct P' as (_ & _ & _ & _ & P). destruct r as [[]|e|]; [| |contradiction].
    + destruct P as (_ & _ & ip & e & -> & L & _). unfold res_ok. cbn. repeat (split; auto); try lia. intros ? ? H; inversion H; subst; auto.
    + destruct P as (-> & _). repeat (split; auto).
  - intros u m q i pxs buf w r q' i' out w' U _ Q _ I Lb E. pose proof Q as (Q1 & Q2 & Q3 & Q4).
    pose proof (prepare_ok u q i pxs buf w U I) as P. rewrite E in P.
    assert (P' := P ltac:(lia) Lb). clear P. destruct P' as (_ & _ & _ & P). destruct r as [[]|e|]; [| |contradiction].
    + destruct P as (p & -> & [L _]). unfold res_ok. cbn [set_pal q_pal q_rem q_int]. rewrite L. auto.
    + destruct P as (_ & ->). exact Q.
Qed.
End ApiFacts.
