(** C60: quantization fails only for the reasons the documentation gives, and
    then with the error that names the reason. *)
From Verif Require Import Base BaseFacts Arith Order Pal World Attr Hist Nearest Kmeans Blur ImageM Quant Remap SpecAttr AttrFacts SpecHist SpecImage
  ImageFacts HistFacts Api ApiFacts SpecProgress ReuseFacts ErrorFacts Ieee SpecPow PowRef ContrastIeee ErrorIeee USeq Witness.
Open Scope nat_scope.

(** C60.  A histogram: [Aborted] only if the callback asked to stop during this
    call, [QualityTooLow] only if a minimum quality was set, [Unsupported]
    only if the histogram is empty (and then the callback is not even called).
    An empty histogram never gives a palette. *)
Theorem C60_histogram :
  forall (A : Arith) (C : CastLaws A) u cb a h w r h' w', unspec_ok u -> usable a -> hist_r h ->
  hist_quantize u cb a (h, w) = (r, (h', w')) ->
  match r with
  | Ok _ => ~ (hg_map h = [] /\ hg_fixed h = [])
  | Err e => (e = Aborted /\ broke cb (w_trace w) (w_trace w')) \/
             (e = QualityTooLow /\ a_max_mse a <> None) \/
             (e = Unsupported /\ hg_map h = [] /\ hg_fixed h = [] /\ w' = w)
  | Panic => False
  end.
Proof.
  exact (fun A C u cb a h w r h' w' U Ha H E =>
    internal_errors u U cb a (usable_ok a Ha) true h w r h' w' (proj1 (@objects_ok A C) h H) E).
Qed.
Print Assumptions C60_histogram.

(** C60.  The table of a histogram is empty exactly when everything added to it
    had weight 0, whatever happened to the posterization in between. *)
Theorem C60_nothing_counted :
  forall (A : Arith) (C : CastLaws A) u a cs, unspec_ok u -> Forall hcall_ok cs ->
  (hg_map (fst (hrun u (hist_new a) cs)) = [] <-> Forall (fun e => snd e = 0%Z) (snd (hrun u (hist_new a) cs))).
Proof.
  exact (fun A C u a cs U K => conj
    (fun H => proj2 (proj1 (@hrun_nil A u U C cs (hist_new a) K) H))
    (fun H => proj2 (@hrun_nil A u U C cs (hist_new a) K) (conj eq_refl H))).
Qed.
Print Assumptions C60_nothing_counted.

(** C60.  An image that was not remapped: the same, and [Unsupported] only if
    there are no fixed colours and the importance map is 0 everywhere. *)
Theorem C60_image :
  forall (A : Arith) (C : CastLaws A) u cb a i pxs w r i' w', unspec_ok u -> usable a -> unremapped i pxs ->
  quantize u cb a (i, w) = (r, (i', w')) ->
  match r with
  | Ok _ => ~ (i_fixed i = [] /\ exists m, i_imp i' = Some m /\ Forall (fun v => v = 0%Z) m)
  | Err e => (e = Aborted /\ broke cb (w_trace w) (w_trace w')) \/
             (e = QualityTooLow /\ a_max_mse a <> None) \/
             (e = Unsupported /\ i_fixed i = [] /\ exists m, i_imp i' = Some m /\ Forall (fun v => v = 0%Z) m)
  | Panic => False
  end.
Proof.
  exact (fun A C u cb a i pxs w r i' w' U Ha R E => @quantize_errors_all A u U cb a (usable_ok a Ha) C i pxs w r i' w' R E).
Qed.
Print Assumptions C60_image.

(** C60.  With IEEE arithmetic and a [powf] that keeps [0, 1] in [0, 1], the
    map of the previous theorem is one the user has set. *)
Theorem C60_image_map :
  forall pow32 pow64, pow32_unit pow32 -> let A := ieee pow32 pow64 in
  forall u cb a i pxs w i' w', unspec_ok u -> usable a -> unremapped i pxs ->
  quantize u cb a (i, w) = (Err Unsupported, (i', w')) ->
  i_fixed i = [] /\ exists m, i_imp i = Some m /\ Forall (fun v => v = 0%Z) m.
Proof.
  refine (fun p32 p64 PU u cb a i pxs w i' w' U Ha R E =>
    @user_map _ (ieee_cast p32 p64) u cb a i pxs w _ i' w'
      (fun r1 h1 w1 N E1 => ieee_generated_importance p32 p64 PU u cb a (hist_new a) i pxs w r1 h1 i' w1 (unremapped_r i pxs R) N E1)
      (proj1 (proj2 (@objects_ok _ (ieee_cast p32 p64))) i pxs (unremapped_r i pxs R)) E _).
  destruct (C60_image _ (ieee_cast p32 p64) u cb a i pxs w _ i' w' U Ha R E) as [[H _]|[[H _]|[_ H]]]; [discriminate..|exact H].
Qed.
Print Assumptions C60_image_map.

(** C60.  So without a callback that stops it and without a minimum quality, an
    image of which anything counts is always quantized. *)
Theorem C60_succeeds :
  forall pow32 pow64, pow32_unit pow32 -> let A := ieee pow32 pow64 in
  forall u cb cs i pxs w, unspec_ok u -> usable (run_calls cs) -> unremapped i pxs ->
  (forall told p, cb told p = false) -> (forall mn tg, ~ In (CallQuality mn tg) cs) ->
  (i_fixed i <> [] \/ forall m, i_imp i = Some m -> exists v, In v m /\ v <> 0%Z) ->
  exists q, fst (quantize u cb (run_calls cs) (i, w)) = Ok q.
Proof.
  intros p32 p64 PU A u cb cs i pxs w U Ha R CB NQ S.
  destruct (quantize u cb (run_calls cs) (i, w)) as [r [i' w']] eqn:E. cbn [fst].
  pose proof (C60_image _ (ieee_cast p32 p64) u cb _ i pxs w r i' w' U Ha R E) as G. destruct r as [q|e|]; [eauto| |destruct G].
  exfalso. destruct G as [[_ (l1 & p & l2 & _ & B)]|[[_ N]|[-> _]]].
  - rewrite CB in B. discriminate.
  - apply N, no_minimum, NQ.
  - destruct (C60_image_map p32 p64 PU u cb _ i pxs w i' w' U Ha R E) as (F & m & M & Z). destruct S as [S|S]; [auto|].
    destruct (S m M) as (v & Hin & Nz). rewrite Forall_forall in Z. exact (Nz (Z v Hin)).
Qed.
Print Assumptions C60_succeeds.

(** All three failures happen: the 2×1 image with an all-zero map, with a
    callback that stops at once, and with two colours for three while the
    minimum quality is 100; with a map that keeps one pixel it succeeds. *)
Definition dark2 : image := get_ok (set_importance_map img2 [0; 0]%Z) no_image.
Definition half2 : image := get_ok (set_importance_map img2 [0; 9]%Z) no_image.
Lemma img2_un : unremapped img2 [[red; blue]].
Proof. refine (un_stride [red; blue] 2 1 2 d0 img2 _ _ _ _ img2_new); try lia. repeat constructor; cbn; lia. Qed.
Lemma dark2_un : unremapped dark2 [[red; blue]].
Proof. refine (un_imp img2 _ [0; 0]%Z dark2 img2_un _ _); [repeat constructor; lia|reflexivity]. Qed.
Lemma half2_un : unremapped half2 [[red; blue]].
Proof. refine (un_imp img2 _ [0; 9]%Z half2 img2_un _ _); [repeat constructor; lia|reflexivity]. Qed.
Definition three : image := get_ok (image_new [red; blue; Rgba 0 255 0 255] 3 1 d0) no_image.
Definition strict : attrs := run_calls [CallQuality 100 100; CallMaxColors 2].
Definition says (e : error) {T V} (x : res T * V) : bool :=
  match fst x, e with Err Unsupported, Unsupported | Err Aborted, Aborted | Err QualityTooLow, QualityTooLow => true | _, _ => false end.
Example C60_example : pow32_unit (fun x _ => x) /\ unremapped dark2 [[red; blue]] /\ unremapped half2 [[red; blue]] /\
  says Unsupported (quantize useq never attrs_new (dark2, world0)) = true /\
  says Aborted (quantize useq (fun _ _ => true) attrs_new (img2, world0)) = true /\
  says QualityTooLow (quantize useq never strict (three, world0)) = true /\
  match fst (quantize useq never attrs_new (half2, world0)) with Ok q => length (q_pal q) | _ => 0 end = 1.
Proof.
  split; [intros x y F X _; auto|]. split; [exact dark2_un|]. split; [exact half2_un|].
  repeat (split; [vm|]). vm.
Qed.
