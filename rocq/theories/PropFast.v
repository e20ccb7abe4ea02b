(** C61 at the fastest speeds, in exact arithmetic: nothing follows median cut. *)
From Verif Require Import Base BaseFacts Arith Order Pal World Attr Hist Nearest MedianCut Kmeans ImageM Quant Api AttrFacts ApiFacts SpecAttr SpecHist FewFacts ErrorFacts RealArith MedianReal
  SpecKmeans SpecPromise SpecCut CutReal CutEnd FastCut.
From Coq Require Import Reals Lra Permutation.
Open Scope R_scope.

(** C61.  At speed 8 and above, when no quality was set and there are more
    colours than asked for, the colours of the result are what stands for the
    boxes of one median cut, in some order, and no error is reported.  It is cut
    until the loss is the square of the posterization step, 2^p/1024 for p bits;
    a box is pressing beyond 1.2 times the error of quality 1. *)
Theorem C61_fast_histogram : forall big, let A := real big in
  forall (u : unspec) cb a (h : hist) w q s', unspec_ok u -> usable a -> (8 <= get_speed a)%Z -> a_max_mse a = None -> hist_r h -> hg_fixed h = [] ->
  (exists e, In e (hg_map h) /\ (0 < fst (snd e))%Z) -> (a_max_colors a < length (hg_map h))%nat ->
  hist_quantize u cb a (h, w) = (Ok q, s') ->
  let hi := fst (finalize_builder u h (used_gamma h)) in
  q_err q = None /\ exists bs bs',
    starts (hi_clusters hi) (a_max_colors a) (map (fun it => (h_color it, h_adj it : R, h_perc it : R)) (hi_items hi)) bs /\
    cut (a_max_colors a) (12 / 10 * quality_to_mse 1) ((IZR (2 ^ get_min_posterization a) / 1024) ^ 2 * hi_total hi) bs bs' /\
    Permutation (map snd bs') (map fst (q_pal q)).
Proof. exact (fun big u cb a h w q s' U => fast_internal big u U cb a h true w q s'). Qed.
Print Assumptions C61_fast_histogram.
Theorem C61_fast_image : forall big, let A := real big in
  forall (u : unspec) cb a i pxs w (h : hist) i1 w1 q i' w', unspec_ok u -> usable a -> (8 <= get_speed a)%Z -> a_max_mse a = None -> image_r i pxs -> i_fixed i = [] ->
  add_image u cb a (hist_new a, i, w) = (Ok tt, (h, i1, w1)) ->
  (exists e, In e (hg_map h) /\ (0 < fst (snd e))%Z) -> (a_max_colors a < length (hg_map h))%nat ->
  quantize u cb a (i, w) = (Ok q, (i', w')) ->
  let hi := fst (finalize_builder u h (used_gamma h)) in
  q_err q = None /\ exists bs bs',
    starts (hi_clusters hi) (a_max_colors a) (map (fun it => (h_color it, h_adj it : R, h_perc it : R)) (hi_items hi)) bs /\
    cut (a_max_colors a) (12 / 10 * quality_to_mse 1) ((IZR (2 ^ get_min_posterization a) / 1024) ^ 2 * hi_total hi) bs bs' /\
    Permutation (map snd bs') (map fst (q_pal q)).
Proof. exact (fun big u cb a i pxs w h i1 w1 q i' w' U => fast_image big u U cb a i pxs w h i1 w1 q i' w'). Qed.
Print Assumptions C61_fast_image.

(** Three greys at speed 10, two colours asked for. *)
Definition swift : @attrs (real 4) := match @set_max_colors (real 4) attrs_new 2 with Ok a => match @set_speed (real 4) a 10 with Ok b => b | _ => a end | _ => attrs_new end.
Lemma swift_usable : @usable (real 4) swift.
Proof.
  eapply us_call with (c := CallSpeed 10); [|cbn; lia|reflexivity].
  eapply us_call with (c := CallMaxColors 2); [apply us_new|cbn; lia|reflexivity].
Qed.
Definition greys3 : list (rgba * Z) := [(Rgba 0 0 0 255, 5%Z); (Rgba 100 100 100 255, 2%Z); (Rgba 200 200 200 255, 1%Z)].
Definition hist3 : @hist (real 4) := fold_left (fun h e => add_color h (fst e) (snd e)) greys3 (@hist_new (real 4) swift).
Lemma hist3_r : @hist_r (real 4) hist3.
Proof.
  eapply (hr_colors (A := real 4)) with (h := hist_new swift) (es := greys3) (g := 0); [apply hr_new, swift_usable|unfold greys3; repeat (apply Forall_cons || apply Forall_nil); repeat split; cbn; discriminate|].
  unfold add_colors. cbn [length greys3 Nat.eqb orb]. replace (2 ^ 24 <? Z.of_nat 3)%Z with false by reflexivity.
  replace (@gamma_in_0_1 (real 4) 0) with true; [|symmetry; unfold gamma_in_0_1; apply andb_true_iff; cbn; split; rbool; lra].
  cbn [negb]. cbv zeta. cbn [hg_gamma hist_new]. replace (@dlt (real 4) d0 0) with false; [reflexivity|]. symmetry. cbn. rbool. lra.
Qed.
Example C61_fast_example : forall (u : unspec) w, unspec_ok u -> exists q s' (bs' : list (@sbox 4)), @hist_quantize (real 4) u (fun _ _ => false) swift (hist3, w) = (Ok q, s') /\
  q_err q = None /\ Permutation (map snd bs') (map fst (q_pal q)) /\ Permutation (map (fun c => @wc_px 4 c) (concat (map fst bs'))) (map (@h_color (real 4)) (hi_items (fst (finalize_builder u hist3 (used_gamma hist3))))).
Proof.
  intros u w U. destruct (hist_quantize u (fun _ _ => false) swift (hist3, w)) as [r [h' w']] eqn:E.
  pose proof (internal_errors u U (fun _ _ => false) swift (usable_ok _ swift_usable) true hist3 w r h' w' (proj1 (@objects_ok (real 4) (real_cast 4)) hist3 hist3_r) E) as Q.
  destruct r as [q|e|]; [| |destruct Q].
  2:{ exfalso. destruct Q as [[_ B]|[[_ B]|(_ & B & _)]]; [|apply B; reflexivity|discriminate B]. destruct B as (l1 & x & l2 & _ & B). discriminate B. }
  assert (CN : exists e, In e (hg_map hist3) /\ (0 < fst (snd e))%Z) by (eexists; split; [left; reflexivity|vm_compute; reflexivity]).
  assert (LN : (a_max_colors swift < length (hg_map hist3))%nat) by (vm_compute; lia).
  destruct (C61_fast_histogram 4 u (fun _ _ => false) swift hist3 w q (h', w') U swift_usable ltac:(vm_compute; discriminate) eq_refl hist3_r eq_refl CN LN E) as (Q1 & bs & bs' & S & C & P).
  exists q, (h', w'), bs'. split; [reflexivity|]. split; [exact Q1|]. split; [exact P|].
  etransitivity; [symmetry; apply Permutation_map; eapply cut_keeps; exact C|]. destruct S as (S & _). rewrite S, map_map. reflexivity.
Qed.
