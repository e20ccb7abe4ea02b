(** With IEEE arithmetic the errors summed while remapping are finite, so a
    remap never takes the failure path meant for allocation errors. *)
From Coq Require Import Reals Lra.
From Verif Require Import Base BaseFacts Arith Order Ieee IeeeFacts SmallFloat Pal World Attr Hist MedianCut Nearest Kmeans Blur ImageM Quant Remap
  SpecHist SpecImage BlurFacts ImageFacts MedianFacts SearchFacts QuantFacts NearFacts RemapFacts AttrFacts Api ApiFacts ResultFacts PalFacts ProgressFacts FewImage
  HistFacts MedianIeee ContrastIeee AvgIeee PrepareFacts.
From Flocq Require Import IEEE754.BinarySingleNaN Core.Core.
Open Scope R_scope.

(** * The gamma of a background image *)
Section Gamma.
Context {A : Arith} {C : CastLaws A}.
Local Ltac brk E := repeat match type of E with (if ?b then _ else _) = _ => destruct b; try discriminate E end.
Definition bg_gamma (i : image) : Prop := forall b, i_bg i = Some b -> (d0 <d d_gamma (i_px b)) = true.
Lemma keeps_bg_gamma i i' : keeps i i' -> bg_gamma i -> bg_gamma i'.
Proof.
  intros (_ & _ & B) H b Hb. destruct (i_bg i) as [g|] eqn:G.
  - destruct B as (b' & E & _ & (_ & _ & Q & _)). rewrite E in Hb. injection Hb as <-. rewrite Q. apply H; auto.
  - rewrite B in Hb. discriminate.
Qed.
Lemma image_bg_gamma i pxs : image_r i pxs -> (d0 <d dlit 45455 100000) = true -> bg_gamma i.
Proof.
  intros I L. induction I as [buf w h s g i Hw Hh Hs HF E|cb w h g i Hw Hh HF E|i pxs m i' I IH HF E|i pxs b bp i' I IH J IHJ E|i pxs c i' I IH R E|u cb a h i pxs w r h' i' w' U Ha Hh I IH E|u cb a i pxs w r i' w' U Ha I IH E|u cb m q i pxs buf w r q' i' out w' U R I IH E|u m q i pxs buf w r q' i' out w' U R I IH B E].
  - unfold image_new_stride in E. brk E. apply bind_ok in E as (src & _ & E). unfold image_new_internal in E.
    brk E. inversion E. intros b Hb. discriminate.
  - unfold image_new_fn in E. brk E. unfold image_new_internal in E. brk E. inversion E. intros b Hb. discriminate.
  - unfold set_importance_map in E. brk E. inversion E. exact IH.
  - unfold set_background in E. brk E. inversion E. intros x Hx. cbn [i_bg] in Hx. injection Hx as <-. eapply image_gamma_kept; eauto.
  - unfold image_add_fixed_color in E. brk E. inversion E. exact IH.
  - destruct (add_image_spec u cb a h i w pxs (reach_image _ _ I)) as (i2 & _ & _ & _ & _ & _ & G & _ & _ & EA). cbv zeta in EA. rewrite EA in E.
    assert (i' = i2). { destruct (cb _ _); [congruence|]. destruct (all_rgba_rows _); congruence. } subst i2. unfold bg_gamma. rewrite G. exact IH.
  - unfold quantize in E. 
    destruct (add_image_spec u cb a (hist_new a) i w pxs (reach_image _ _ I)) as (i2 & _ & _ & _ & _ & _ & G & _ & _ & EA). cbv zeta in EA. rewrite EA in E.
    assert (i' = i2). { destruct (cb _ _); [congruence|]. destruct (all_rgba_rows _); try congruence. destruct (quantize_internal _ _ _ _ _) as [? [? ?]]. congruence. }
    subst i2. unfold bg_gamma. rewrite G. exact IH.
  - pose proof (remap_into_ok u cb q i pxs buf w U (reach_image _ _ I) (reach_pal _ _ R)) as P. rewrite E in P. destruct P as (K & _).
    eapply keeps_bg_gamma; eauto.
  - pose proof (prepare_ok u q i pxs buf w U (reach_image _ _ I) (reach_pal _ _ R) B) as P. rewrite E in P. destruct P as (K & _).
    eapply keeps_bg_gamma; eauto.
Qed.

(** * Where [OutOfMemory] comes from *)
Definition nan_sum (u : unspec) (q : qresult) (i : image) : Prop :=
  exists (p : palf) n b t, (p = fst (init_int_palette (q_pal q) (q_gamma q) (q_post q)) \/ p = q_pal q) /\
    nearest_new p = Ok n /\ dis_nan (plain_sum n b i (u_sum u t (i_h i))) = true.
Lemma generate_oom u dm b (p : palf) s pxs : unspec_ok u -> image_ok (r_img s) pxs -> shaped (r_img s) (r_out s) -> (0 < length p <= 256)%nat ->
  runs (optionally_generate_dither_map u dm b p) s (fun _ _ => True)
    (fun e s' => exists n t, nearest_new p = Ok n /\ dis_nan (plain_sum n false (r_img s) (u_sum u t (i_h (r_img s)))) = true).
Proof.
  intros U I [LO FO] P. unfold optionally_generate_dither_map. apply runs_bind. unfold sget at 1, runs at 1. cbv zeta.
  destruct (negb _).
  { unfold runs. cbn. auto. }
  apply runs_bind. destruct (nearest_new_ok p P) as (n & EN & NO & _).
  destruct (remap_to_palette_eq u U false p s pxs n I LO EN) as (i' & p' & E & K & I' & M1 & M2 & M3 & F).
  unfold runs at 1. rewrite E. destruct (plain_out_good n (length p) false (r_img s) pxs NO I) as [G1 G2].
  destruct (dis_nan _) eqn:DN.
  { exists n. eexists. split; [exact EN|exact DN]. }
  apply runs_bind. unfold sget at 1, runs at 1. cbn [r_img r_out]. apply runs_bind.
  destruct (keeps_dims _ _ K) as [W H].
  assert (R : Forall (fun r => length r = i_w i' /\ Forall (fun x => x < length p')%nat r) (plain_out n false (r_img s))).
  { destruct F as [-> _]. rewrite W. exact G2. }
  destruct (update_dither_map_ok i' pxs _ p' b I' R) as (i2 & E2 & _). eapply runs_lift; [exact E2|].
  apply runs_bind. unfold runs. cbn. auto.
Qed.
Lemma write_oom u rcb q s pxs : unspec_ok u -> entry_ok q s pxs ->
  runs (write_remapped u rcb) s (fun _ _ => True) (fun e s' => e = OutOfMemory -> nan_sum u q (r_img s)).
Proof.
  intros U (EQ & I & SH & P). unfold write_remapped. apply runs_bind. unfold sget at 1, runs at 1. cbv zeta. rewrite EQ.
  apply runs_bind. unfold on_world at 1, progress at 1, runs at 1. cbn [r_q r_img r_out r_w].
  match goal with |- context [if rcb ?t ?p then _ else _] => destruct (rcb t p) eqn:CB end.
  { cbn. discriminate. }
  destruct (free_keeps _ _ I) as [K0 I0]. set (i0 := set_px _ _) in *. destruct (keeps_dims _ _ K0) as [W0 H0].
  set (w1 := World _ _). set (s1 := RSt (r_q s) (r_img s) (r_out s) w1).
  apply runs_bind. unfold put_img at 1, smod, runs at 1. set (s2 := RSt _ i0 _ _).
  assert (SH2 : shaped (r_img s2) (r_out s2)) by (apply (shaped_keeps (r_img s)); auto).
  assert (I2 : image_ok (r_img s2) pxs) by exact I0.
  assert (PS : forall (p : palf) n b t, (p = fst (init_int_palette (q_pal q) (q_gamma q) (q_post q)) \/ p = q_pal q) -> nearest_new p = Ok n ->
     dis_nan (plain_sum n b i0 (u_sum u t (i_h i0))) = true -> nan_sum u q (r_img s)).
  { intros p n b t Q1 Q2 Q3. exists p, n, b, t. split; auto. split; auto. rewrite H0 in Q3.
    rewrite (plain_sum_same n b (r_img s) i0 pxs) in Q3; auto. intros y. apply sum_leaves_lt. auto. }
  destruct (q_dither q =f f0) eqn:DI.
  - destruct (init_int_palette (q_pal q) (q_gamma q) (q_post q)) as [p ip] eqn:IP.
    assert (LP : length p = length (q_pal q)).
    { unfold init_int_palette in IP. inversion IP. rewrite !map_length. auto. }
    rewrite <- LP in P.
    destruct (nearest_new_ok p P) as (n & EN & NO & _). destruct SH2 as [LO2 _].
    destruct (remap_to_palette_eq u U true p s2 pxs n I2 LO2 EN) as (i' & p' & E & K & I' & _).
    apply runs_bind. unfold runs at 1. rewrite E. destruct (dis_nan _) eqn:DN.
    + intros _. eapply (PS p n true); eauto.
    + unfold put_q, smod, runs. auto.
  - apply runs_bind. 
    pose proof (generate_dither_map_ok u U C (q_dmap q) (negb (is_none (i_bg (r_img s)))) (q_pal q) s2 pxs I2 SH2 P) as G1.
    pose proof (generate_oom u (q_dmap q) (negb (is_none (i_bg (r_img s)))) (q_pal q) s2 pxs U I2 SH2 P) as G2.
    unfold runs in G1, G2 |- * at 1. destruct (optionally_generate_dither_map _ _ _ _ _) as [[[me p]|e|] s3].
    2:{ intros _. destruct G2 as (n & t & Q1 & Q2). eapply (PS (q_pal q) n false); eauto. }
    2:{ exact G1. }
    destruct G1 as (H1 & H2 & H3 & H4 & H5 & _). cbn [fst snd] in H5.
    assert (K3 : keeps (r_img s) (r_img s3)) by (eapply keeps_trans; eauto).
    assert (SH3 : shaped (r_img s) (r_out s3)).
    { apply (shaped_back _ _ _ K0 H4). }
    apply runs_bind. unfold on_world at 1, progress at 1, runs at 1. cbn [r_q r_img r_out r_w].
    match goal with |- context [if rcb ?t ?p then _ else _] => destruct (rcb t p) eqn:CB2 end.
    { cbn. discriminate. }
    destruct (init_int_palette p (q_gamma q) (q_post q)) as [p2 ip] eqn:IP.
    assert (LP : length p2 = length p).
    { unfold init_int_palette in IP. inversion IP. rewrite !map_length. auto. }
    pose proof (proj1 H5) as Lf.
    apply runs_bind. set (s4 := RSt (r_q s3) (r_img s3) (r_out s3) _).
    eapply runs_weaken.
    { apply (floyd_ok u U rcb p2 (d2f (dmax (unwrap_or (match me with Some e => Some e | None => q_err q end) (quality_to_mse 80) *d dlit 24 10) (quality_to_mse 35)))
               (negb (is_none me)) s4 pxs); [exact H3| |lia].
      apply (shaped_keeps (r_img s)); auto. }
    + cbn beta. intros _ s5 _. unfold put_q, smod, runs. auto.
    + cbn beta. intros e s5 ([G0 _] & _) ->. discriminate G0.
Qed.
Lemma remap_oom u rcb q i pxs buf w s' : unspec_ok u -> image_ok i pxs -> (0 < length (q_pal q) <= 256)%nat ->
  remap_into u rcb q i buf w = (Err OutOfMemory, s') -> nan_sum u q i.
Proof.
  intros U I P E. unfold remap_into in E. cbv zeta in E. destruct (Nat.ltb_spec (length buf) (i_w i * i_h i)) as [H|H]; [discriminate|].
  set (need := (i_w i * i_h i)%nat) in *.
  assert (Lf : length (firstn need buf) = (i_w i * i_h i)%nat) by (rewrite firstn_length; unfold need in *; lia).
  pose proof (sh_w _ _ (im_px _ _ I)) as HW. change (0 < i_w i)%nat in HW.
  destruct (chunks_exact_shape (i_w i) (i_h i) (firstn need buf) HW Lf) as (L1 & F1 & _).
  set (s := RSt q i (chunks_exact (i_w i) (firstn need buf)) w) in *.
  assert (EN : entry_ok q s pxs) by (split; [reflexivity|]; split; [exact I|]; split; [split; auto|lia]).
  pose proof (write_oom u rcb q s pxs U EN) as R. unfold runs in R.
  destruct (write_remapped u rcb s) as [[[]|e|] s1]; try discriminate E. apply R. congruence.
Qed.
Lemma prepare_oom u q i pxs buf w e s' : unspec_ok u -> image_ok i pxs -> (0 < length (q_pal q) <= 256)%nat -> length buf = (i_w i * i_h i)%nat ->
  prepare_for_dithering u q i buf w = (Err e, s') -> nan_sum u q i.
Proof.
  intros U I P Lb E. unfold prepare_for_dithering in E. cbv zeta in E.
  pose proof (sh_w _ _ (im_px _ _ I)) as HW. change (0 < i_w i)%nat in HW.
  destruct (chunks_exact_shape (i_w i) (i_h i) buf HW Lb) as (L1 & F1 & _).
  set (s := RSt q i (chunks_exact (i_w i) buf) w) in *.
  pose proof (generate_oom u (q_dmap q) true (q_pal q) s pxs U I (conj L1 F1) P) as R. unfold runs in R.
  destruct (optionally_generate_dither_map u (q_dmap q) true (q_pal q) s) as [[[me p]|e1|] s1]; try discriminate E.
  destruct R as (n & t & Q1 & Q2). exists (q_pal q), n, false, t. auto.
Qed.

Lemma pure_row_all (P : f32 -> Prop) (Good : px -> Prop) n k bg tidx l : near_ok n k -> (forall c g, Good c -> (g < k)%nat -> P (snd (search n c g))) ->
  (forall b c, Good b -> Good c -> P (diff b c)) -> Forall Good bg -> Forall (fun x => Good (snd x)) l ->
  forall last, (last < k)%nat -> Forall (fun x => P (snd x)) (pure_row n bg tidx l last).
Proof.
  intros NO HS HD Bg. induction 1 as [|[col inp] l Hc F IH]; intros last L; cbn [pure_row]; constructor.
  - cbn [snd] in Hc. pose proof (HS inp last Hc L) as S. unfold bg_choice. destruct (nth_error bg col) as [b|] eqn:E; [|exact S].
    destruct (_ <=f _); [|exact S]. cbn [snd]. apply HD; auto. rewrite Forall_forall in Bg. apply Bg. eapply nth_error_In; eauto.
  - apply IH. apply search_idx; auto.
Qed.
End Gamma.

(** * The sums are finite *)
Section I.
Variables (pow32 : b32 -> b32 -> b32) (pow64 : b64 -> b64 -> b64).
Hypothesis PU : pow32_unit pow32.
Let Ar : Arith := ieee pow32 pow64.
Local Existing Instance Ar.
Notation box := (box_px pow32 pow64).

Lemma half_w : nonneg (-1) (@LIQ_WEIGHT_R Ar) /\ nonneg (-1) (@LIQ_WEIGHT_B Ar) /\ nonneg 0 (@LIQ_WEIGHT_A Ar) /\ nonneg 0 (@LIQ_WEIGHT_G Ar).
Proof.
  assert (Q : forall p q k, (0 <= p <= q)%Z -> (0 < q <= 1000)%Z -> (-1 <= k <= 0)%Z -> IZR p / IZR q <= bpow radix2 k -> nonneg k (Bdiv mode_NE (BofZ 24 128 p) (BofZ 24 128 q))).
  { intros p q k P Q K HB. destruct (BofZ_exact 24 128 p) as [F1 V1]; try lia. destruct (BofZ_exact 24 128 q) as [F2 V2]; try lia.
    assert (Q0 : 0 < IZR q) by (apply IZR_lt; lia). assert (P0 : 0 <= IZR p) by (apply (IZR_le 0); lia).
    assert (R : 0 <= IZR p / IZR q) by (apply Rmult_le_pos; [lra|left; apply Rinv_0_lt_compat; lra]).
    destruct (proj1 (Bdiv_fin 24 128 (BofZ 24 128 p) (BofZ 24 128 q) F1 ltac:(rewrite V2; lra))) as [F V3].
    - rewrite V1, V2. apply rnd_fits with k; [lia|]. rewrite Rabs_pos_eq by lra. auto.
    - split; [split; auto|]; rewrite V3, V1, V2; [apply rnd_small; [lia|]; rewrite Rabs_pos_eq by lra; auto|apply rnd32_pos; auto]. }
  split; [|split; [|split]]; [apply (Q 5 10)%Z|apply (Q 45 100)%Z|apply (Q 625 1000)%Z|]; try lia; try (cbn; lra).
  change (nonneg 0 (BofZ 24 128 1)). destruct (BofZ_exact 24 128 1) as [F V]; try lia. split; [split; auto|]; rewrite V; [rewrite Rabs_pos_eq by lra; cbn; lra|lra].
Qed.
Lemma pixel_box (g : b64) c : Bltb (B754_zero false) g = true -> rgba_ok c -> box (@from_rgba Ar (@gamma_lut Ar g) c).
Proof.
  intros G (H1 & H2 & H3 & H4). unfold byte in *. destruct half_w as (W1 & W2 & W3 & W4).
  destruct (IG_ok pow32 pow64) as (I1 & I2 & _).
  assert (UN : forall x : b32, is_finite x = true /\ 0 <= B2R x <= 1 -> nonneg 0 x).
  { intros x [F H]. split; [split; auto|lra]. rewrite Rabs_pos_eq by lra. cbn. lra. }
  assert (L : forall v, (0 <= v <= 255)%Z -> nonneg 0 (@gamma_lut Ar g v)).
  { intros v V. apply UN. destruct (byte_unit v V) as [B1 B2]. apply (PU _ _ B1 B2). apply pos_leb, conv_pos, div_pos; auto. }
  assert (SA : nonneg 0 (Bdiv mode_NE (BofZ 24 128 (ca c)) (BofZ 24 128 255))) by (apply UN, byte_unit; lia).
  unfold box_px, from_rgba. cbn [pa pr pg pb].
  split; [|split; [|split]].
  - exact (nonneg_mul 0 0 _ _ ltac:(lia) SA W3).
  - exact (nonneg_mul (-1) 0 _ _ ltac:(lia) (nonneg_mul 0 (-1) _ _ ltac:(lia) (L (cr c) ltac:(lia)) W1) SA).
  - exact (nonneg_mul 0 0 _ _ ltac:(lia) (nonneg_mul 0 0 _ _ ltac:(lia) (L (cg c) ltac:(lia)) W4) SA).
  - exact (nonneg_mul (-1) 0 _ _ ltac:(lia) (nonneg_mul 0 (-1) _ _ ltac:(lia) (L (cb c) ltac:(lia)) W2) SA).
Qed.

Lemma search_fin (p : palf) n c g : nearest_new p = Ok n -> Forall box (colors_of p) -> box c -> (g < length p)%nat -> nonneg 6 (snd (search n c g)).
Proof.
  intros N B Bc G. destruct (search_distance p n c g N G) as (pc & E & D).
  rewrite Forall_forall in B. assert (Bp : box pc) by (apply B; eapply nth_error_In; eauto).
  destruct D as [-> | ->]; apply (diff_ok pow32 pow64); apply box_color; auto.
Qed.
Lemma pure_row_fin (p : palf) n bg tidx l : nearest_new p = Ok n -> Forall box (colors_of p) -> Forall box bg -> Forall (fun x => box (snd x)) l ->
  forall last, (last < length p)%nat -> Forall (fun x => nonneg 6 (snd x)) (pure_row n bg tidx l last).
Proof.
  intros N B Bg F last L. destruct (nearest_new_inv p n N) as (P & NO & _).
  apply (@pure_row_all Ar (nonneg 6) box n (length p)); auto.
  - intros c g. apply search_fin; auto.
  - intros b c Hb Hc. apply (diff_ok pow32 pow64); apply box_color; auto.
Qed.
Lemma row_error_fin l : Forall (fun x : nat * @f32 Ar => nonneg 6 (snd x)) l -> forall e, total_ok 60 e -> total_ok 60 (row_error l e).
Proof.
  induction 1 as [|x l Hx F IH]; intros e E; cbn [row_error fold_left]; auto. apply IH.
  refine (proj1 (total_add 6 60 e _ _ _ E _)); try lia.
  destruct Hx as [[Fx Ax] Px]. destruct (f2d_exact _ Fx) as [F' V]. split; auto.
  change (f2d (snd x)) with (Bconv 53 1024 (snd x)). rewrite V. rewrite Rabs_pos_eq in Ax by auto. split; [apply b32_min; auto|auto].
Qed.
Lemma int_fmt z k : (0 <= z <= 9007199254740992)%Z -> (0 <= k)%Z -> generic_format radix2 (SpecFloat.fexp 53 1024) (IZR z * bpow radix2 k).
Proof.
  intros Z0 K. destruct (Z.eq_dec z 9007199254740992) as [->|N].
  - replace (IZR 9007199254740992) with (bpow radix2 53) by (cbn; lra). rewrite <- bpow_plus. apply fmt64_bpow. lia.
  - apply (generic_format_FLT radix2 (-1074) 53). exists (Float radix2 z k); [reflexivity| |cbn; lia].
    cbn. rewrite Z.abs_eq by lia. lia.
Qed.
Lemma stree_fin (f : nat -> b64) t : (forall r, In r (stree_leaves t) -> total_ok 60 (f r)) -> (Z.of_nat (length (stree_leaves t)) <= 9007199254740992)%Z ->
  is_finite (stree_sum f t) = true /\ 0 <= B2R (stree_sum f t) <= IZR (Z.of_nat (length (stree_leaves t))) * bpow radix2 60.
Proof.
  induction t as [|r|l IHl r IHr]; cbn [stree_leaves stree_sum]; intros H L.
  - split; [reflexivity|]. change (B2R (@d0 Ar)) with (B2R (BofZ 53 1024 0)). destruct (BofZ_exact 53 1024 0) as [_ ->]; try lia. cbn; lra.
  - pose proof (H r (or_introl eq_refl)) as T. split; [apply T|]. split; [eapply total_pos; eauto|]. cbn [length Z.of_nat]. destruct T as (_ & _ & T). cbn in T |- *. lra.
  - rewrite app_length in L |- *. destruct IHl as [Fl Bl]; [intros; apply H, in_app_iff; auto|lia|]. destruct IHr as [Fr Br]; [intros; apply H, in_app_iff; auto|lia|].
    rewrite Nat2Z.inj_add, plus_IZR. set (a := Z.of_nat (length (stree_leaves l))) in *. set (b := Z.of_nat (length (stree_leaves r))) in *.
    assert (UB : rnd64 (B2R (stree_sum f l) + B2R (stree_sum f r)) <= IZR (a + b) * bpow radix2 60).
    { apply round_le_generic; [apply (fexp_correct 53 1024 eq_refl)|apply valid_rnd_N|apply int_fmt; lia|rewrite plus_IZR; lra]. }
    assert (LB : 0 <= rnd64 (B2R (stree_sum f l) + B2R (stree_sum f r))) by (apply rnd64_pos; lra).
    destruct (proj1 (Bplus_fin 53 1024 _ _ Fl Fr)) as [F V].
    { rewrite Rabs_pos_eq by auto. apply Rle_lt_trans with (1 := UB).
      apply Rle_lt_trans with (bpow radix2 53 * bpow radix2 60).
      - apply Rmult_le_compat_r; [apply bpow_ge_0|]. replace (bpow radix2 53) with (IZR 9007199254740992) by (cbn; lra). apply IZR_le. lia.
      - rewrite <- bpow_plus. apply bpow_lt. lia. }
    split; [exact F|]. apply (conj LB) in UB. rewrite <- V, plus_IZR in UB. exact UB.
Qed.

(** Rows of an image and of its background are in the box. *)
Lemma row_box d pxs y r : shows d pxs -> (d0 <d d_gamma d) = true -> row_f d y = Ok r -> (y < d_h d)%nat -> Forall box r.
Proof.
  intros S G E Y. destruct (shows_row_ex d pxs y S Y) as (c & Nc & Lc & Rc & Ec). rewrite E in Ec. injection Ec as ->.
  apply Forall_map. eapply Forall_impl; [|exact Rc]. intros x Hx. apply pixel_box; auto.
Qed.
Lemma d0_total m : total_ok m (@d0 Ar).
Proof.
  split; [reflexivity|]. change (B2R (@d0 Ar)) with (B2R (BofZ 53 1024 0)). destruct (BofZ_exact 53 1024 0) as [_ ->]; try lia.
  split; [auto|apply bpow_ge_0].
Qed.
Lemma enumerate_snd {T} (P : T -> Prop) l : Forall P l -> Forall (fun x => P (snd x)) (enumerate l).
Proof. intros F. rewrite <- (map_snd_enumerate l) in F. rewrite Forall_map in F. exact F. Qed.
Lemma bg_row_box i pxs n b y r : image_ok i pxs -> bg_gamma i -> (y < i_h i)%nat -> bg_row (eff_bg n (img_bg b i)) y = Ok r -> Forall box r.
Proof.
  intros I G Y E. destruct (eff_bg n (img_bg b i)) as [d|] eqn:Q; cbn [bg_row] in E; [|injection E as <-; constructor].
  assert (Hd : exists g, i_bg i = Some g /\ d = i_px g).
  { unfold eff_bg, img_bg in Q. destruct b; [|discriminate]. destruct (i_bg i) as [g|]; [|discriminate]. cbn [option_map] in Q.
    destruct (_ <f _); [|discriminate]. injection Q as <-. eauto. }
  destruct Hd as (g & Hg & ->). destruct (im_bg _ _ I g Hg) as (_ & W & H & bp & S).
  eapply row_box; eauto. change (d_h (i_px g)) with (i_h g). lia.
Qed.
Lemma plain_row_fin (p : palf) n b i pxs y : nearest_new p = Ok n -> Forall box (colors_of p) -> image_ok i pxs -> (d0 <d d_gamma (i_px i)) = true -> bg_gamma i ->
  (y < i_h i)%nat -> Forall (fun x : nat * @f32 Ar => nonneg 6 (snd x)) (plain_row n b i y).
Proof.
  intros N B I G BG Y. unfold plain_row, row_result. destruct (nearest_new_inv p n N) as (P & _).
  destruct (row_f (i_px i) y) as [r| |] eqn:E; [|constructor|constructor].
  destruct (bg_row _ y) as [g| |] eqn:Eg; [|constructor|constructor].
  apply (pure_row_fin p); auto; [eapply bg_row_box; eauto| |lia].
  apply enumerate_snd. eapply row_box; [apply I|exact G|exact E|exact Y].
Qed.
Lemma plain_sum_fin (p : palf) n b i pxs t : nearest_new p = Ok n -> Forall box (colors_of p) -> image_r i pxs ->
  Permutation (stree_leaves t) (seq 0 (i_h i)) -> is_finite (plain_sum n b i t) = true /\ 0 <= B2R (plain_sum n b i t).
Proof.
  intros N B I P. pose proof (proj1 (proj2 (@objects_ok Ar (ieee_cast pow32 pow64))) i pxs I) as IO.
  pose proof (@image_gamma_kept Ar (ieee_cast pow32 pow64) i pxs I (ieee_default_gamma pow32 pow64)) as G.
  pose proof (@image_bg_gamma Ar (ieee_cast pow32 pow64) i pxs I (ieee_default_gamma pow32 pow64)) as BG.
  pose proof (@height_small Ar i pxs I) as H.
  destruct (stree_fin (fun y => row_error (plain_row n b i y) d0) t) as [F V].
  - intros r Hr. apply row_error_fin; [|apply d0_total]. eapply plain_row_fin; eauto.
    eapply Permutation_in in Hr; [|exact P]. apply in_seq in Hr. lia.
  - rewrite (Permutation_length P), seq_length. rewrite (sh_len _ _ (im_px _ _ IO)) in H. unfold I32_MAX in H. change (d_h (i_px i)) with (i_h i) in H. lia.
  - split; [exact F|apply V].
Qed.

(** The 8-bit palette as colours. *)
Lemma int_palette_box (p : palf) g b : (d0 <d g) = true -> (0 <= b <= 4)%Z -> Forall box (colors_of (fst (init_int_palette p g b))).
Proof.
  intros G B. unfold init_int_palette, colors_of. cbn [fst]. rewrite map_map. apply Forall_map, Forall_forall. intros [c pop] _.
  unfold int_entry. cbn [fst]. apply pixel_box; auto.
  destruct (@to_rgb_ok Ar (ieee_cast pow32 pow64) c g) as (R1 & R2 & R3 & R4). unfold rgba_ok, rgba_map. cbn [cr cg cb ca]. repeat split; apply posterize_ok; auto.
Qed.

(** A result with colours in the box, a positive gamma and a posterization level. *)
Definition sane (q : qresult) : Prop := Forall box (colors_of (q_pal q)) /\ (d0 <d q_gamma q) = true /\ (0 <= q_post q <= 4)%Z.
Lemma not_nan (x : b64) : is_finite x = true -> @dis_nan Ar x = false.
Proof.
  intros F. unfold dis_nan. change (negb (Beqb x x) = false). rewrite (Beqb_correct 53 1024 x x F F), Req_bool_true; auto.
Qed.
Lemma sane_sums u q i pxs : unspec_ok u -> sane q -> image_r i pxs -> ~ nan_sum u q i.
Proof.
  intros U (S1 & S2 & S3) I (p & n & b & t & P & N & D).
  assert (B : Forall box (colors_of p)) by (destruct P as [-> | ->]; auto using int_palette_box).
  destruct (plain_sum_fin p n b i pxs (u_sum u t (i_h i)) N B I (uo_sum _ U _ _)) as [F _].
  rewrite (not_nan _ F) in D. discriminate.
Qed.

(** The palette refined by an undithered pass. *)
Lemma importance_wt (i : image) v : map_ok i (Some v) -> Forall (fun x => wt_ok 8 (BofZ 24 128 x)) v.
Proof.
  intros M. destruct (M v eq_refl) as [_ F]. eapply Forall_impl; [|exact F]. intros x Hx. unfold byte in Hx. destruct (BofZ_exact 24 128 x) as [Fx V]; try lia.
  split; auto. rewrite V. split.
  - destruct (Z.eq_dec x 0) as [->|]; [left; reflexivity|right]. apply Rle_trans with (bpow radix2 0); [apply bpow_le; lia|]. apply (IZR_le 1). lia.
  - replace (bpow radix2 8) with (IZR 256) by (cbn; lra). apply IZR_le. lia.
Qed.
Lemma one_wt : wt_ok 8 (BofZ 24 128 1).
Proof.
  destruct (BofZ_exact 24 128 1) as [Fx V]; try lia. split; auto. rewrite V. split; [right|].
  - change 1 with (bpow radix2 0). apply bpow_le. lia.
  - replace (bpow radix2 8) with (IZR 256) by (cbn; lra). lra.
Qed.
Notation avgs := (Forall (avg_ok pow32 pow64 182)).
Lemma remap_px_box n bg tidx imp row w k last outs err x st : (forall v, imp = Some v -> Forall (fun x => wt_ok 8 (BofZ 24 128 x)) v) ->
  box (snd x) -> avgs (k_avg k) -> remap_px n bg tidx imp row w (k, last, outs, err) x = Ok st -> avgs (k_avg (fst (fst (fst st)))).
Proof.
  intros W B K E. unfold remap_px in E. destruct x as [col inp]. cbn [snd] in B. destruct (search n inp last) as [m df].
  match type of E with context [match ?b with Some bd => Ok _ | None => _ end] => destruct b as [bd|] end.
  - injection E as <-. exact K.
  - apply bind_ok in E as (k' & Ek & E). injection E as <-. cbn [fst].
    refine (update_color_ok pow32 pow64 8 182 k inp _ m k' _ _ K B _ Ek); try lia.
    destruct imp as [v|]; [|apply one_wt]. destruct (nth_error v _) as [z|] eqn:Z0; [|apply one_wt].
    specialize (W v eq_refl). rewrite Forall_forall in W. apply (W z). eapply nth_error_In; eauto.
Qed.
Lemma remap_row_box n d pxs bg tidx imp row k k' o e : (forall v, imp = Some v -> Forall (fun x => wt_ok 8 (BofZ 24 128 x)) v) ->
  shows d pxs -> (d0 <d d_gamma d) = true -> (row < d_h d)%nat -> avgs (k_avg k) -> remap_row n d bg tidx imp row k = Ok (k', o, e) -> avgs (k_avg k').
Proof.
  intros W S G Y K E. unfold remap_row in E. apply bind_ok in E as (inp & Ei & E). apply bind_ok in E as (bgp & _ & E).
  apply bind_ok in E as ([[[k1 l1] o1] e1] & Ef & E). injection E as <- <- <-.
  pose proof (row_box d pxs row inp S G Ei Y) as B. apply enumerate_snd in B.
  refine (foldM_inv _ (fun st => avgs (k_avg (fst (fst (fst st))))) _ (k, 0%nat, [], d0) (k1, l1, o1, e1) _ K Ef).
  intros [[[k2 l2] o2] e2] x st Hx K2 E2. eapply remap_px_box; eauto. rewrite Forall_forall in B. exact (B x Hx).
Qed.
Lemma remap_rows_box n d pxs imp threads main shape out (p p' : palf) o e : (forall v, imp = Some v -> Forall (fun x => wt_ok 8 (BofZ 24 128 x)) v) ->
  shows d pxs -> (d0 <d d_gamma d) = true -> covers (d_h d) threads -> Forall box (colors_of p) ->
  remap_rows n d None imp threads main shape out p = Ok (o, e, p') -> Forall box (colors_of p').
Proof.
  intros W S G CV B E. unfold remap_rows in E. cbn [bind] in E. cbv zeta in E.
  apply bind_ok in E as ([[o1 e1] ks] & Ef & E). injection E as <- <- <-.
  destruct (km_reduce ks) as [km|] eqn:R; [|exact B].
  apply (km_finalize_ok pow32 pow64 236); [lia| |exact B].
  refine (km_reduce_ok pow32 pow64 182 236 ks km _ _ _ R); try lia.
  refine (foldM_inv _ (fun st => Forall (fun x => avgs (k_avg x)) (snd st)) _ _ _ _ _ Ef); [|constructor].
  intros [[o2 e2] ks2] kw st Hk K2 E2. apply bind_ok in E2 as ([[o3 e3] k3] & E3 & E2). injection E2 as <-. cbn [snd] in *.
  apply Forall_app. split; [exact K2|]. constructor; [|constructor].
  apply in_map_iff in Hk as ([j wk] & <- & Hk). unfold remap_worker in E3. cbn [fst snd] in E3.
  refine (foldM_inv _ (fun st => avgs (k_avg (snd st))) _ _ _ _ _ E3).
  - intros [[o4 e4] k4] row st Hr K4 E4. apply bind_ok in E4 as ([[k5 o5] e5] & E5 & E4). apply bind_ok in E4 as (o6 & _ & E4). injection E4 as <-. cbn [snd] in *.
    eapply remap_row_box; eauto. pose proof (covers_lt _ _ CV) as Q. rewrite Forall_forall in Q.
    assert (In wk threads). { rewrite <- (map_snd_enumerate threads). apply in_map_iff. exists (j, wk). auto. }
    specialize (Q wk H). rewrite Forall_forall in Q. auto.
  - cbn [snd]. destruct (Nat.eqb _ _); apply km_new_ok.
Qed.
Lemma prepare_sane u m q i pxs buf w r q' i' out w' : unspec_ok u -> result_r m q -> image_r i pxs -> length buf = (i_w i * i_h i)%nat -> sane q ->
  prepare_for_dithering u q i buf w = (r, (q', i', out, w')) -> sane q'.
Proof.
  intros U R I Lb S E. pose proof (proj1 (proj2 (@objects_ok Ar (ieee_cast pow32 pow64))) i pxs I) as IO.
  pose proof (@image_gamma_kept Ar (ieee_cast pow32 pow64) i pxs I (ieee_default_gamma pow32 pow64)) as G.
  unfold prepare_for_dithering in E. cbv zeta in E.
  pose proof (sh_w _ _ (im_px _ _ IO)) as HW. change (0 < i_w i)%nat in HW.
  destruct (chunks_exact_shape (i_w i) (i_h i) buf HW Lb) as (L1 & F1 & _).
  set (s := RSt q i (chunks_exact (i_w i) buf) w) in *.
  destruct (optionally_generate_dither_map u (q_dmap q) true (q_pal q) s) as [[[me p]|e1|] s1] eqn:EG; injection E as <- <- <- <- <-; try exact S.
  destruct S as (S1 & S2 & S3). split; [|split; [exact S2|exact S3]]. cbn [set_pal q_pal].
  unfold optionally_generate_dither_map in EG. unfold sbind at 1, sget at 1 in EG. cbv zeta in EG.
  destruct (negb _); [injection EG as _ <- _; exact S1|].
  unfold sbind at 1 in EG. destruct (remap_to_palette u false (q_pal q) s) as [r2 s2] eqn:ER. destruct r2 as [[e2 p2]| |]; try discriminate EG.
  unfold sbind at 1, sget at 1 in EG. unfold sbind at 1, slift at 1 in EG. destruct (update_dither_map _ _ _ _) as [i2| |]; try discriminate EG.
  unfold sbind, put_img, smod, sret in EG. injection EG as _ <- _.
  destruct (@remap_to_palette_val Ar u U (q_pal q) s pxs _ _ IO L1 ER _ eq_refl) as (n & o & e & N & ERR).
  cbn [snd] in ERR. eapply remap_rows_box; [| | | | |exact ERR]; auto.
  - intros v Hv. apply (importance_wt i). rewrite <- Hv. apply IO.
  - apply IO.
  - apply (uo_rows _ U).
Qed.
End I.
