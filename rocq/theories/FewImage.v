(** What quantization does with an image of few colours. *)
From Verif Require Import Base BaseFacts Arith Order Pal World Attr Hist MedianCut Nearest Kmeans Blur ImageM Quant Remap
  SpecHist SpecImage BlurFacts ImageFacts HistFacts MedianFacts SearchFacts NearFacts TreeFacts QuantFacts RemapFacts AttrFacts Api ApiFacts ResultFacts ReuseFacts
  PalFacts FixedFacts FixedPlace FewFacts ContrastLow.
From Coq Require Import Permutation.
Open Scope nat_scope.

(** A pixel's colour, all invisible colours being the same. *)
Definition visible (c : rgba) : rgba := if (ca c =? 0)%Z then Rgba 0 0 0 0 else c.
(** [ks] lists the colours of the image. *)
Definition image_colors (pxs : list (list rgba)) (ks : list rgba) : Prop :=
  forall r c, In r pxs -> In c r -> In (visible c) ks.

Section FewImage.
Context {A : Arith} {C : CastLaws A}.

Lemma max_hist_large a : usable a -> (131072 <= a_max_hist a)%Z.
Proof.
  induction 1 as [|a c a' U IH T E|a b U IH].
  - unfold attrs_new. vm_compute. discriminate.
  - destruct c; cbn [apply_call] in E.
    + unfold set_max_colors in E. destruct (negb _); okinv E. exact IH.
    + pose proof (set_speed_range _ _ _ E) as R. assert (F : a_max_hist a' = (131072 + 262144 * (10 - v))%Z).
      { revert E. clear -R. pattern v. apply speed_cases; auto; intros H; cbn in H; inversion H; subst; cbn; auto. }
      lia.
    + unfold set_min_posterization in E. destruct (negb _); okinv E. exact IH.
    + unfold set_quality in E. destruct (_ || _)%bool; okinv E. exact IH.
  - exact IH.
Qed.

Ltac brk E := repeat match type of E with (if ?b then _ else _) = _ => destruct b; try discriminate E end.
Lemma image_gamma_kept i pxs : image_r i pxs -> (d0 <d dlit 45455 100000) = true -> (d0 <d d_gamma (i_px i)) = true.
Proof.
  intros I L. induction I as [buf w h s g i Hw Hh Hs HF E|cb w h g i Hw Hh HF E|i pxs m i' I IH HF E|i pxs b bp i' I IH J IHJ E|i pxs c i' I IH R E|u cb a h i pxs w r h' i' w' U Ha Hh I IH E|u cb a i pxs w r i' w' U Ha I IH E|u cb m q i pxs buf w r q' i' out w' U R I IH E|u m q i pxs buf w r q' i' out w' U R I IH B E].
  - unfold image_new_stride in E. brk E. apply bind_ok in E as (src & _ & E). unfold image_new_internal in E.
    brk E. inversion E. cbn [i_px d_gamma]. destruct (d0 <d g) eqn:Q; auto.
  - unfold image_new_fn in E. brk E. unfold image_new_internal in E. brk E. inversion E. cbn [i_px d_gamma]. destruct (d0 <d g) eqn:Q; auto.
  - unfold set_importance_map in E. brk E. inversion E. exact IH.
  - unfold set_background in E. brk E. inversion E. exact IH.
  - unfold image_add_fixed_color in E. brk E. inversion E. exact IH.
  - destruct (add_image_spec u cb a h i w pxs (reach_image _ _ I)) as (i2 & _ & _ & _ & (_ & _ & _ & G) & _ & _ & _ & _ & EA). cbv zeta in EA. rewrite EA in E.
    assert (i' = i2). { destruct (cb _ _); [congruence|]. destruct (all_rgba_rows _); congruence. } subst i2. rewrite G. exact IH.
  - unfold quantize in E. 
    destruct (add_image_spec u cb a (hist_new a) i w pxs (reach_image _ _ I)) as (i2 & _ & _ & _ & (_ & _ & _ & G) & _ & _ & _ & _ & EA). cbv zeta in EA. rewrite EA in E.
    assert (i' = i2). { destruct (cb _ _); [congruence|]. destruct (all_rgba_rows _); try congruence. destruct (quantize_internal _ _ _ _ _) as [? [? ?]]. congruence. }
    subst i2. rewrite G. exact IH.
  - pose proof (remap_into_ok u cb q i pxs buf w U (reach_image _ _ I) (reach_pal _ _ R)) as P. rewrite E in P. destruct P as (((_ & _ & G & _) & _) & _).
    rewrite G. exact IH.
  - pose proof (prepare_ok u q i pxs buf w U (reach_image _ _ I) (reach_pal _ _ R) B) as P. rewrite E in P. destruct P as (((_ & _ & G & _) & _) & _).
    rewrite G. exact IH.
Qed.

Lemma drop_low0 c : rgba_ok c -> posterized 0 c = visible c.
Proof.
  intros R. unfold posterized, visible. destruct (ca c =? 0)%Z; auto. destruct c as [r g b a]. unfold rgba_map. cbn [cr cg cb ca].
  unfold drop_low. f_equal; cbn; rewrite Z.div_1_r; lia.
Qed.

Lemma with_fixed_none (p p' : palf) m : with_fixed_colors p m [] = Ok p' -> p' = p.
Proof. intros E. inversion E. auto. Qed.
Lemma settle_few u h : hg_bits h = 0%Z -> (Z.of_nat (length (hg_map h)) <= hg_max h)%Z -> settle u h 0 = h.
Proof.
  intros B L. unfold settle, init_posterize_bits. cbv zeta. rewrite B. cbn [Z.leb Z.compare]. rewrite B.
  destruct (Z.ltb_spec (hg_max h) (Z.of_nat (length (hg_map h)))); [lia|]. reflexivity.
Qed.

Lemma insert_fixed_table u h (Q : rgba -> Prop) : unspec_ok u -> NoDup (map fst (hg_map h)) ->
  Forall (fun e => visible (snd (snd e)) = fst e /\ Q (snd (snd e))) (hg_map h) -> Forall (fun f : rgba * Z => Q (fst f)) (hg_fixed h) ->
  let m := hg_map (insert_fixed u h) in
  NoDup (map fst m) /\ Forall (fun e => visible (snd (snd e)) = fst e /\ Q (snd (snd e))) m /\
  forall k, In k (map fst m) <-> In k (map fst (hg_map h)) \/ exists f, In f (hg_fixed h) /\ k = visible (fst f).
Proof.
  intros U N F FQ. cbv zeta. unfold insert_fixed. cbn [hg_map with_map].
  assert (FQ' : Forall (fun f : rgba * Z => Q (fst f)) (u_set u (hg_fixed h))) by (eapply Permutation_Forall; [apply (uo_set u U)|exact FQ]).
  assert (M : forall f, In f (u_set u (hg_fixed h)) <-> In f (hg_fixed h)).
  { intros f. split; apply Permutation_in; [symmetry|]; apply (uo_set u U). }
  assert (G : forall l m, Forall (fun f : rgba * Z => Q (fst f)) l -> NoDup (map fst m) -> Forall (fun e => visible (snd (snd e)) = fst e /\ Q (snd (snd e))) m ->
    let m' := fold_left (fun m fc => let c := fst fc in hm_insert m (if negb (ca c =? 0)%Z then c else Rgba 0 0 0 0) (0%Z, c)) l m in
    NoDup (map fst m') /\ Forall (fun e => visible (snd (snd e)) = fst e /\ Q (snd (snd e))) m' /\
    forall k, In k (map fst m') <-> In k (map fst m) \/ exists f : rgba * Z, In f l /\ k = visible (fst f)).
  { clear. induction l as [|[c z] l IH]; intros m FQ N F; cbv zeta; cbn [fold_left].
    - split; auto. split; auto. intros k. split; auto. intros [H|(f & [] & _)]; auto.
    - apply Forall_cons_iff in FQ as [Qc FQ]. cbn [fst] in *.
      assert (EV : (if negb (ca c =? 0)%Z then c else Rgba 0 0 0 0) = visible c) by (unfold visible; destruct (ca c =? 0)%Z; reflexivity).
      rewrite EV. destruct (hm_insert_keys m (visible c) (0%Z, c) N) as [N1 K1].
      destruct (IH (hm_insert m (visible c) (0%Z, c)) FQ N1) as (N2 & F2 & K2).
      { apply Forall_forall. intros [k v] Hv. apply in_hm_get in Hv; auto. rewrite hm_get_insert in Hv. destruct (rgba_eqb k (visible c)) eqn:E.
        - apply rgba_eqb_eq in E. injection Hv as <-. cbn [fst snd]. auto.
        - apply hm_get_in in Hv. rewrite Forall_forall in F. apply (F _ Hv). }
      split; auto. split; auto. intros k. rewrite K2, K1. split.
      + intros [[->|H]|(f & Hf & ->)]; [right; exists (c, z); split; [left; auto|auto]|left; auto|right; exists f; split; [right; auto|auto]].
      + intros [H|(f & [<-|Hf] & ->)]; [left; right; auto|left; left; auto|right; exists f; auto]. }
  destruct (G _ _ FQ' N F) as (N2 & F2 & K2). split; auto. split; auto. intros k. rewrite K2.
  split; (intros [H|(f & Hf & E)]; [left; exact H|right; exists f; split; [apply M; exact Hf|exact E]]).
Qed.

Lemma numbered_fst l : map fst (numbered l) = l.
Proof.
  unfold numbered. rewrite map_map. cbn [fst snd]. unfold enumerate. generalize 0. induction l as [|x l IH]; intros b; cbn; [reflexivity|]. f_equal. apply IH.
Qed.

Lemma quantize_few u cb a i pxs w q i' w' ks : unspec_ok u -> usable a -> image_ok i pxs ->
  let pix := from_rgba (gamma_lut (d_gamma (i_px i))) in
  NoDup (map visible (i_fixed i)) -> Forall (fun f => In (visible f) ks) (i_fixed i) ->
  (forall c c', rgba_ok c -> rgba_ok c' -> visible c = visible c' -> pix c = pix c') ->
  (forall c f, rgba_ok c -> rgba_ok f -> visible c <> visible f ->
     fcmp (diff (pix f) (pix f)) (diff (pix c) (pix f)) <> Gt /\ fcmp (diff (pix c) (pix f)) (diff (pix f) (pix f)) = Gt) ->
  posterize_bits a = 0%Z -> (a_target_mse a =d d0) = true -> (d0 <d d_gamma (i_px i)) = true ->
  image_colors pxs ks -> length ks <= a_max_colors a -> (forall m, i_imp i' = Some m -> Forall (fun z => z <> 0%Z) m) ->
  quantize u cb a (i, w) = (Ok q, (i', w')) ->
  q_err q = Some d0 /\ q_gamma q = d_gamma (i_px i) /\ q_post q = 0%Z /\ q_rem q = None /\ q_int q = [] /\
  image_ok i' pxs /\ i_w i' = i_w i /\ i_bg i' = i_bg i /\ d_gamma (i_px i') = d_gamma (i_px i) /\
  (exists m, add_image u cb a (hist_new a, i, w) = (Ok tt, m) /\ snd (fst m) = i') /\
  (forall k, In k (colors_of (q_pal q)) -> exists c, (In c (concat pxs) \/ In c (i_fixed i)) /\ k = pix c) /\
  (forall c, In c (concat pxs) \/ In c (i_fixed i) -> In (pix c) (colors_of (q_pal q))).
Proof.
  intros U Ha IO pix FN FK VIS SEP PB TM GP K LK IMP E. unfold quantize in E. destruct (usable_ok a Ha) as [MC PO PI _].
  destruct (add_image_spec u cb a (hist_new a) i w pxs IO) as (i2 & WI & HI & I' & (SP1 & SP2 & SP3 & G) & _ & BG & _ & _ & EA). cbv zeta in EA.
  pose proof (add_image_ok u cb a (hist_new a) i w pxs U IO (hist_new_wf a)) as P0. rewrite EA in P0, E.
  unfold image_gamma in *. rewrite GP in *.
  destruct (cb (w_trace w) _); [discriminate|]. destruct (all_rgba_rows (i_px i)); try discriminate.
  set (h0 := add_image_fixed (with_gamma (hist_new a) (Some (d_gamma (i_px i)))) (i_fixed i)) in *.
  set (es := image_additions (i_w i) pxs (i_imp i2)) in *.
  destruct P0 as (W & _).
  match type of E with context [quantize_internal u cb a false ?s] => destruct (quantize_internal u cb a false s) as [r [h2 w2]] eqn:EQ end.
  injection E as -> -> _.
  assert (OKS : Forall (fun r => Forall rgba_ok r) pxs). { eapply Forall_impl; [|exact (sh_rows _ _ (im_px _ _ IO))]. intros ? [? ?]; auto. }
  assert (LEN : length (concat pxs) = i_w i * i_h i).
  { rewrite (concat_rows_length (i_w i)).
    - rewrite (sh_len _ _ (im_px _ _ IO)). change (d_h (i_px i)) with (i_h i). lia.
    - eapply Forall_impl; [|exact (sh_rows _ _ (im_px _ _ IO))]. intros ? [? ?]; auto. }
  assert (MOK : forall m, i_imp i' = Some m -> length m = i_w i * i_h i /\ Forall byte m).
  { intros m M. pose proof (im_imp _ _ I') as X. unfold map_ok in X. rewrite <- WI, <- HI. exact (X m M). }
  assert (EOK : Forall addition_ok es). { apply image_additions_ok; auto. intros m M. apply (MOK m M). }
  destruct (add_all_represents es h0 []) as (RP & AB & AG & AF & AM); auto.
  { unfold h0. cbn. rewrite PB. lia. }
  { split; [constructor|]. intros k. reflexivity. }
  cbn [app] in RP. assert (B0 : hg_bits h0 = 0%Z) by exact PB. rewrite B0 in AB.
  assert (CNT : forall c n, In (c, n) es -> exists r, In r pxs /\ In c r /\ rgba_ok c).
  { intros c n Hin. apply in_combine_l in Hin. apply in_concat in Hin as (r & Hr & Hc). exists r. split; auto. split; auto.
    rewrite Forall_forall in OKS. specialize (OKS r Hr). rewrite Forall_forall in OKS. auto. }
  assert (LM : length (hg_map (add_all h0 es)) <= length ks).
  { eapply few_colors_bound; eauto. intros c n Hin _. destruct (CNT c n Hin) as (r & Hr & Hc & Rc). rewrite drop_low0 by auto. eapply K; eauto. }
  pose proof (max_hist_large a Ha) as MH.
  assert (ST : settle u (add_all h0 es) (posterize_bits a) = add_all h0 es).
  { rewrite PB. apply settle_few; auto. rewrite AM. change (hg_max h0) with (a_max_hist a). lia. }
  rewrite ST in W, EQ.
  set (hh := add_all h0 es) in *.
  destruct (im_fixed _ _ IO) as [FL FR].
  assert (FE : hg_fixed hh = numbered (i_fixed i)).
  { rewrite AF. unfold h0, add_image_fixed. cbn [hg_fixed with_fixed with_gamma hist_new]. apply image_numbers. exact FL. }
  set (Q := fun c => rgba_ok c /\ (In c (concat pxs) \/ In c (i_fixed i))).
  pose proof (represents_keyed _ _ RP AB) as KY. destruct RP as [ND GE] eqn:ERP.
  assert (TQ : Forall (fun e => visible (snd (snd e)) = fst e /\ Q (snd (snd e))) (hg_map hh)).
  { apply Forall_forall. intros [ky [n c]] He. cbn [fst snd]. unfold keyed in KY. rewrite Forall_forall in KY. pose proof (KY _ He) as KK. cbn [fst snd] in KK.
    apply in_hm_get in He; auto. rewrite GE in He. unfold expected in He.
    destruct (falling_on _ es ky) as [|[c' n'] t] eqn:FO; [discriminate|]. inversion He; subst.
    assert (J : In (c, n') (falling_on (hg_bits hh) es (posterized 0 c))) by (rewrite FO; left; auto). apply filter_In in J as [J _].
    destruct (CNT c n' J) as (r & Hr & Hc & Rc). split; [symmetry; apply drop_low0; auto|]. split; auto. left. apply in_concat. eauto. }
  assert (FQ : Forall (fun f : rgba * Z => Q (fst f)) (hg_fixed hh)).
  { rewrite FE. apply Forall_forall. intros f Hf. rewrite Forall_forall in FR.
    assert (IN : In (fst f) (i_fixed i)) by (rewrite <- (numbered_fst (i_fixed i)); apply in_map; auto). split; [apply FR|right]; auto. }
  destruct (insert_fixed_table u hh Q U ND TQ FQ) as (N1 & T1 & K1). cbv zeta in N1, T1, K1.
  assert (K1' : forall k, In k (map fst (hg_map (insert_fixed u hh))) <-> In k (map fst (hg_map hh)) \/ exists c, In c (i_fixed i) /\ k = visible c).
  { intros k. rewrite K1, FE. split; (intros [H|(f & Hf & ->)]; [left; exact H|right]).
    - exists (fst f). split; auto. rewrite <- (numbered_fst (i_fixed i)). apply in_map; auto.
    - rewrite <- (numbered_fst (i_fixed i)) in Hf. apply in_map_iff in Hf as (f' & <- & Hf). exists f'. auto. }
  assert (LT : length (hg_map (insert_fixed u hh)) <= length ks).
  { rewrite <- (map_length fst). apply NoDup_incl_length; auto. intros k Hk. apply K1' in Hk as [Hk|(c & Hc & ->)].
    - apply in_map_iff in Hk as ([ky [n c]] & <- & He). rewrite Forall_forall in TQ. destruct (TQ _ He) as [V [_ _]]. cbn [fst snd] in V.
      apply in_hm_get in He; auto. rewrite GE in He. unfold expected in He.
      destruct (falling_on _ es ky) as [|[c' n'] t] eqn:FO; [discriminate|]. inversion He; subst.
      assert (J : In (c, n') (falling_on (hg_bits hh) es (visible c))) by (rewrite FO; left; auto). apply filter_In in J as [J _].
      destruct (CNT c n' J) as (r & Hr & Hc & Rc). eapply K; eauto.
    - rewrite Forall_forall in FK. auto. }
  assert (UG : used_gamma hh = d_gamma (i_px i)). { unfold used_gamma. rewrite AG. reflexivity. }
  destruct (few_internal u cb a false _ _ q _ U W ltac:(lia) ltac:(lia) TM EQ) as (Q1 & Q2 & Q3 & Q4 & Q5 & p & PF & PP).
  assert (QP : q_post q = 0%Z). { rewrite Q3. unfold posterize_bits in PB. lia. }
  rewrite UG in Q2.
  pose proof (finalize_items u hh (used_gamma hh) U W) as FI. rewrite UG in FI.
  pose proof (finalize_fixed u hh (used_gamma hh) U) as FF. rewrite UG in FF.
  assert (HX : Permutation (hi_fixed (hint_of u hh)) (map pix (i_fixed i))).
  { unfold hint_of. rewrite UG. etransitivity; [exact FF|]. rewrite FE, <- (numbered_fst (i_fixed i)) at 1. rewrite numbered_fst.
    rewrite <- (map_map fst pix), numbered_fst. reflexivity. }
  set (pl := map (fun it => (h_color it, h_perc it)) (hi_items (hint_of u hh))) in *.
  assert (CO : Permutation (colors_of pl) (map (fun e => pix (snd (snd e))) (hg_map (insert_fixed u hh)))).
  { unfold colors_of, pl. rewrite map_map. cbn [fst]. unfold hint_of. rewrite UG. exact FI. }
  assert (HAS : forall c, rgba_ok c -> In (visible c) (map fst (hg_map (insert_fixed u hh))) -> In (pix c) (colors_of pl)).
  { intros c R H. apply in_map_iff in H as ([ky [n c']] & E' & He). cbn [fst] in E'. subst ky. rewrite Forall_forall in T1. destruct (T1 _ He) as [V [R' _]]. cbn [fst snd] in V, R'.
    apply (Permutation_in _ (Permutation_sym CO)). apply in_map_iff. exists (visible c, (n, c')). split; auto. }
  assert (FROM : forall k, In k (colors_of pl) -> exists c, Q c /\ k = pix c).
  { intros k Hk. apply (Permutation_in _ CO) in Hk. apply in_map_iff in Hk as (e & <- & He). rewrite Forall_forall in T1. exists (snd (snd e)). split; auto. apply (T1 _ He). }
  assert (NP : NoDup (map pix (i_fixed i))).
  { revert FN FR. clear - SEP. induction (i_fixed i) as [|f l IH]; cbn [map]; intros N R; [constructor|]. apply NoDup_cons_iff in N as [N1 N2].
    apply Forall_cons_iff in R as [R1 R2]. constructor; [|apply IH; auto]. intros H. apply in_map_iff in H as (f' & E & Hf).
    rewrite Forall_forall in R2. destruct (rgba_dec (visible f') (visible f)) as [V|V].
    - apply N1. rewrite <- V. apply in_map. auto.
    - destruct (SEP f' f (R2 _ Hf) R1 V) as [S1 S2]. rewrite E in *. contradiction. }
  assert (P2 : Permutation (colors_of pl) (colors_of p)).
  { eapply with_fixed_perm; [| | |exact PF].
    - eapply Permutation_NoDup; [symmetry; exact HX|exact NP].
    - eapply Permutation_Forall; [symmetry; exact HX|]. apply Forall_map, Forall_forall. intros f Hf. rewrite Forall_forall in FR.
      apply Forall_forall. intros k Hk. destruct (FROM k Hk) as (c & [Rc _] & ->). destruct (rgba_dec (visible c) (visible f)) as [V|V]; [left|right].
      + apply VIS; auto.
      + apply SEP; auto.
    - intros k Hk. apply (Permutation_in _ HX) in Hk. apply in_map_iff in Hk as (f & <- & Hf). rewrite Forall_forall in FR. apply HAS; auto.
      apply K1'. right. exists f. auto. }
  rewrite PP in P2.
  do 9 (split; auto). split; [|split].
  - eexists. rewrite EA. split; reflexivity.
  - intros k Hk. apply (Permutation_in _ (Permutation_sym P2)) in Hk. destruct (FROM k Hk) as (c & [_ Hc] & ->). eauto.
  - intros c Hc. apply (Permutation_in _ P2). destruct Hc as [Hc|Hc].
    + assert (Rc : rgba_ok c). { apply in_concat in Hc as (r & Hr & Hc). rewrite Forall_forall in OKS. specialize (OKS r Hr). rewrite Forall_forall in OKS. auto. }
      assert (exists n, In (c, n) es /\ n <> 0%Z) as (n & Hn & N0).
      { apply In_nth_error in Hc as (j & J).
        assert (Lj : j < length (concat pxs)) by (apply nth_error_Some; congruence). unfold es, image_additions.
        destruct (i_imp i') as [m|] eqn:EM.
        - destruct (MOK m eq_refl) as [ML MB]. destruct (nth_error m j) as [z|] eqn:Z; [|apply nth_error_None in Z; lia].
          exists z. split; [|pose proof (IMP m eq_refl) as IZ; rewrite Forall_forall in IZ; apply IZ; eapply nth_error_In; eauto].
          apply (nth_error_In _ j). rewrite nth_error_combine, J, Z. reflexivity.
        - exists 255%Z. split; [|discriminate]. apply (nth_error_In _ j). rewrite nth_error_combine, J, nth_error_repeat by auto. reflexivity. }
      destruct (counted_color hh es c n (conj ND GE) AB Hn N0) as (v & Hv). apply HAS; auto. apply K1'. left.
      rewrite <- (drop_low0 c Rc). apply in_map_iff. exists (posterized 0 c, v). auto.
    + rewrite Forall_forall in FR. apply HAS; auto. apply K1'. right. exists c. auto.
Qed.
(** A histogram of few colours: they become the palette. *)
Lemma hist_few u cb a freeze h w q s' : unspec_ok u -> usable a -> hist_wf h -> hg_fixed h = [] ->
  length (hg_map h) <= a_max_colors a -> (a_target_mse a =d d0) = true ->
  quantize_internal u cb a freeze (h, w) = (Ok q, s') ->
  q_err q = Some d0 /\ q_gamma q = used_gamma h /\
  Permutation (map (fun e => from_rgba (gamma_lut (used_gamma h)) (snd (snd e))) (hg_map h)) (colors_of (q_pal q)).
Proof.
  intros U Ha W FE L TM E. destruct (usable_ok a Ha) as [MC _ _ _].
  assert (US : u_set u [] = []). { apply Permutation_nil. symmetry. apply Permutation_sym, (uo_set u U). }
  assert (IF : hg_map (insert_fixed u h) = hg_map h). { unfold insert_fixed. rewrite FE, US. reflexivity. }
  pose proof (fun L M => few_internal u cb a freeze _ _ q _ U W L M TM E) as FEW. rewrite IF in FEW.
  destruct FEW as (Q1 & Q2 & Q3 & Q4 & Q5 & p & PF & PP); [lia|lia|].
  assert (HX : hi_fixed (hint_of u h) = []).
  { apply Permutation_nil. symmetry. unfold hint_of. pose proof (finalize_fixed u h (used_gamma h) U) as FF. rewrite FE in FF. exact FF. }
  rewrite HX in PF. apply with_fixed_none in PF. subst p. split; auto. split; auto.
  pose proof (finalize_items u h (used_gamma h) U W) as FI. rewrite IF in FI. etransitivity; [symmetry; exact FI|].
  etransitivity; [|exact PP]. unfold colors_of. rewrite map_map. reflexivity.
Qed.
End FewImage.
