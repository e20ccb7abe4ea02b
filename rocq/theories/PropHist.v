(** C22-C25: what ends up in the histogram. *)
From Verif Require Import Base Arith Pal World Attr Hist ImageM Quant SpecAttr SpecHist SpecImage Order Ieee AttrFacts ImageFacts HistFacts USeq.
Open Scope Z_scope.

(** For building witnesses. *)
Definition ok_or {T} (r : res T) (d : T) : T := match r with Ok x => x | _ => d end.
Definition blank_image {A : Arith} : image := Image (DRows 0 0 None (SrcPixels [] []) d0) None None None None [].

(** C22.  Any history of accepted, rejected and aborted calls on a histogram:
    as long as the posterization has not been raised, the table holds exactly
    the saturated sums of the weights added, one entry per posterized colour,
    keeping the first colour seen; zero weights and rejected calls leave no
    trace. *)
Theorem C22_histogram_counts :
  forall (A : Arith) (C : CastLaws A) (u : unspec) (a : attrs), usable a ->
  forall cs, Forall hcall_ok cs ->
  let '(h, made) := hrun u (hist_new a) cs in
  hg_bits h = posterize_bits a ->
  NoDup (map fst (hg_map h)) /\
  (forall k, hm_get (hg_map h) k = expected (posterize_bits a) made k).
Proof.
  exact (fun A C u a U cs =>
    histogram_counts u a cs (conj (proj1 (usable_bits a U)) (Z.le_trans _ 4 8 (proj2 (usable_bits a U)) ltac:(discriminate)))).
Qed.
Print Assumptions C22_histogram_counts.

(** C22.  The order of additions does not matter for the counts. *)
Theorem C22_order_irrelevant :
  forall b l l' k, Permutation l l' -> option_map fst (expected b l k) = option_map fst (expected b l' k).
Proof. exact expected_perm. Qed.
Print Assumptions C22_order_irrelevant.

Example C22_example : forall pow32 pow64, let A := ieee pow32 pow64 in
  let red := Rgba 200 0 0 255 in let clear := Rgba 9 9 9 0 in
  let cs := [HColors [(red, 4294967290); (clear, 0); (Rgba 1 2 3 0, 2)] d0; HColors [] d0; HColors [(red, 100); (clear, 3)] d0] in
  Forall hcall_ok cs /\ hg_bits (fst (hrun (u_seq 1 (fun _ _ => 0%nat)) (hist_new attrs_new) cs)) = posterize_bits attrs_new /\
  hg_map (fst (hrun (u_seq 1 (fun _ _ => 0%nat)) (hist_new attrs_new) cs)) =
    [(red, (U32_MAX, red)); (Rgba 0 0 0 0, (5, Rgba 1 2 3 0))].
Proof.
  intros. split; [|split; vm_compute; reflexivity].
  repeat (apply Forall_cons || apply Forall_nil); cbn; unfold rgba_ok, byte, U32_MAX; cbn; repeat split; discriminate.
Qed.

(** C23.  Coarsening: what holds.  Every new entry is one of the old entries
    with that masked colour, all masked colours are present, and the total
    weight never grows; it is preserved when no two colours fall together.
    Missing (and false, see below): the weights of colours that fall together
    are added up. *)
Theorem C23_coarsening_partial :
  forall (A : Arith) (u : unspec) h bits, unspec_ok u -> weights_ok h -> hg_bits h < bits ->
  let h' := init_posterize_bits u h bits in
  weights_ok h' /\ hg_bits h' = bits /\
  (forall k, In k (map fst (hg_map h')) <-> exists k0, In k0 (map fst (hg_map h)) /\ mask_rgba bits k0 = k) /\
  (forall k v, In (k, v) (hg_map h') -> exists k0, In (k0, v) (hg_map h) /\ mask_rgba bits k0 = k) /\
  total_weight h' <= total_weight h /\
  ((forall k1 k2, In k1 (map fst (hg_map h)) -> In k2 (map fst (hg_map h)) -> mask_rgba bits k1 = mask_rgba bits k2 -> k1 = k2) ->
   total_weight h' = total_weight h).
Proof. exact (fun A u => coarsen_spec u). Qed.
Print Assumptions C23_coarsening_partial.

(** C23 is false for the code: a histogram with two colours of weights 5 and 7
    gets an image of one pixel (weight 255) added with a stronger
    posterization; afterwards the total is 262, not 267: of two colours falling together only the one
    visited last survives. *)
Theorem C23_total_weight_preserved_refuted :
  forall pow32 pow64, let A := ieee pow32 pow64 in
  exists (a a1 : attrs) (h1 h2 : hist) (i i2 : image) (w2 : world) (u : unspec),
    unspec_ok u /\ set_min_posterization a 1 = Ok a1 /\
    add_colors (hist_new a) [(Rgba 1 0 0 255, 5); (Rgba 0 0 0 255, 7)] d0 = Ok h1 /\
    image_new [Rgba 100 100 100 255] 1 1 d0 = Ok i /\
    add_image u (fun _ _ => false) a1 (h1, i, world0) = (Ok tt, (h2, i2, w2)) /\
    total_weight h1 = 12 /\ total_weight h2 = 255 + 7.
Proof.
  intros. set (u := u_seq 1 (fun _ _ => 0%nat)).
  set (a1 := ok_or (set_min_posterization attrs_new 1) attrs_new).
  set (h1 := ok_or (add_colors (hist_new attrs_new) [(Rgba 1 0 0 255, 5); (Rgba 0 0 0 255, 7)] d0) (hist_new attrs_new)).
  set (i := ok_or (image_new [Rgba 100 100 100 255] 1 1 d0) blank_image).
  set (r := add_image u (fun _ _ => false) a1 (h1, i, world0)).
  exists attrs_new, a1, h1, (fst (fst (snd r))), i, (snd (fst (snd r))), (snd (snd r)), u.
  split; [apply u_seq_ok; auto with arith|].
  split; [exact (eq_refl (Ok a1) <: set_min_posterization attrs_new 1 = Ok a1)|].
  split; [exact (eq_refl (Ok h1) <: add_colors (hist_new attrs_new) [(Rgba 1 0 0 255, 5); (Rgba 0 0 0 255, 7)] d0 = Ok h1)|].
  split; [exact (eq_refl (Ok i) <: image_new [Rgba 100 100 100 255] 1 1 d0 = Ok i)|].
  split; [exact (eq_refl ((Ok tt, (fst (fst (snd r)), snd (fst (snd r)), snd (snd r)))) <: r = (Ok tt, (fst (fst (snd r)), snd (fst (snd r)), snd (snd r))))|].
  split; [exact (eq_refl 12 <: total_weight h1 = 12)|exact (eq_refl (255 + 7) <: total_weight (fst (fst (snd r))) = 255 + 7)].
Qed.
Print Assumptions C23_total_weight_preserved_refuted.

(** C24.  [add_fixed_color] of both objects fails exactly when 256 colours are
    present, and then changes nothing. *)
Theorem C24_add_fixed_color_limit :
  forall (A : Arith),
  (forall h c g,
    ((256 <= length (hg_fixed h))%nat /\ hist_add_fixed_color h c g = Err Unsupported) \/
    ((length (hg_fixed h) < 256)%nat /\ exists h', hist_add_fixed_color h c g = Ok h' /\ (length (hg_fixed h') <= 256)%nat /\
       hg_map h' = hg_map h /\ hg_bits h' = hg_bits h)) /\
  (forall i c,
    ((256 <= length (i_fixed i))%nat /\ image_add_fixed_color i c = Err Unsupported) \/
    ((length (i_fixed i) < 256)%nat /\ exists i', image_add_fixed_color i c = Ok i' /\ i_fixed i' = i_fixed i ++ [c])).
Proof. exact (fun A => conj hist_add_fixed_spec image_add_fixed_spec). Qed.
Print Assumptions C24_add_fixed_color_limit.

(** C24 is false for [add_image]: two images with 200 fixed colours each are
    both accepted. *)
Definition some_colors (g : Z) (n : nat) : list rgba := map (fun k => Rgba (Z.of_nat k) g 0 255) (seq 0 n).
Lemma some_colors_new g n c : In c (some_colors g n) -> cg c = g.
Proof. unfold some_colors. intros H. apply in_map_iff in H as (k & <- & _). reflexivity. Qed.
Lemma some_colors_nodup g n : NoDup (some_colors g n).
Proof.
  unfold some_colors. apply FinFun.Injective_map_NoDup; [|apply seq_NoDup].
  intros x y H. inversion H. apply Nat2Z.inj. auto.
Qed.
Lemma some_colors_ok g n : 0 <= g < 256 -> (n <= 256)%nat -> Forall rgba_ok (some_colors g n).
Proof.
  intros Hg Hn. unfold some_colors. apply Forall_forall. intros c H. apply in_map_iff in H as (k & <- & Hk). apply in_seq in Hk.
  unfold rgba_ok, byte. cbn. lia.
Qed.
Lemma too_many_fixed :
  forall pow32 pow64, let A := ieee pow32 pow64 in
  exists (i0 i1 i2 : image) (u : unspec) (h1 h2 : hist) (i1' i2' : image) (w1 w2 : world),
    unspec_ok u /\ image_new [Rgba 100 100 100 255] 1 1 d0 = Ok i0 /\
    foldM image_add_fixed_color (some_colors 0 200) i0 = Ok i1 /\
    foldM image_add_fixed_color (some_colors 1 200) i0 = Ok i2 /\
    add_image u (fun _ _ => false) attrs_new (hist_new attrs_new, i1, world0) = (Ok tt, (h1, i1', w1)) /\
    add_image u (fun _ _ => false) attrs_new (h1, i2, w1) = (Ok tt, (h2, i2', w2)) /\
    length (hg_fixed h2) = 400%nat.
Proof.
  intros. set (u := u_seq 1 (fun _ _ => 0%nat)).
  assert (E0 : exists i, image_new [Rgba 100 100 100 255] 1 1 d0 = Ok i).
  { apply image_new_stride_iff; try lia. unfold dims_ok, buffer_ok, gamma_ok. cbn [length]. repeat split; try lia; reflexivity. }
  destruct E0 as (i0 & E0).
  destruct (new_stride_ok [Rgba 100 100 100 255] 1 1 1 d0 i0) as (I0 & _ & _ & R0); try lia; auto.
  { apply Forall_cons; [unfold rgba_ok, byte; cbn; lia|constructor]. }
  set (pxs := strided _ _ _ _ _) in I0.
  assert (F0 : i_fixed i0 = []).
  { pose proof (image_new_stride_spec [Rgba 100 100 100 255] 1 1 1 d0 ltac:(lia) ltac:(lia) ltac:(lia)) as S.
    change (image_new_stride [Rgba 100 100 100 255] 1 1 1 d0) with (image_new [Rgba 100 100 100 255] 1 1 d0) in S. rewrite E0 in S.
    destruct S as (_ & _ & _ & ->). reflexivity. }
  assert (L : forall g, length (some_colors g 200) = 200%nat) by (intros; unfold some_colors; rewrite map_length, seq_length; auto).
  assert (I : forall g, 0 <= g < 256 -> image_ok (set_fixed i0 (some_colors g 200)) pxs).
  { intros g Hg. destruct I0. constructor; auto. cbn [i_fixed set_fixed]. rewrite L. split; [lia|]. apply some_colors_ok; lia. }
  set (i1 := set_fixed i0 (some_colors 0 200)). set (i2 := set_fixed i0 (some_colors 1 200)).
  set (h1 := hstep u (hist_new attrs_new) (HImage attrs_new (fun _ _ => false) i1 pxs world0)).
  destruct (add_image_adds_fixed u (fun _ _ => false) attrs_new (hist_new attrs_new) i1 world0 pxs) as (A1 & A2 & A3);
    [apply I; lia|exact R0|reflexivity|apply some_colors_nodup|intros c _ []|].
  destruct (add_image u (fun _ _ => false) attrs_new (hist_new attrs_new, i1, world0)) as [r1 [[h1' i1'] w1]] eqn:E1.
  assert (H1 : h1 = h1') by (unfold h1; cbn [hstep]; rewrite E1; auto).
  cbn [fst] in A1. subst r1. fold h1 in A2, A3.
  destruct (add_image_adds_fixed u (fun _ _ => false) attrs_new h1 i2 w1 pxs) as (B1 & B2 & B3);
    [apply I; lia|exact R0|reflexivity|apply some_colors_nodup| |].
  { intros c Hc Hin. apply A3 in Hin as [[]|Hin]. apply some_colors_new in Hc. apply some_colors_new in Hin. rewrite Hc in Hin. discriminate. }
  destruct (add_image u (fun _ _ => false) attrs_new (h1, i2, w1)) as [r2 [[h2' i2'] w2]] eqn:E2.
  cbn [fst] in B1. subst r2.
  exists i0, i1, i2, u, h1, h2', i1', i2', w1, w2.
  split; [apply u_seq_ok; auto with arith|]. split; [exact E0|].
  split; [rewrite foldM_add_fixed; [rewrite F0; reflexivity|rewrite F0, L; cbn; lia]|].
  split; [rewrite foldM_add_fixed; [rewrite F0; reflexivity|rewrite F0, L; cbn; lia]|].
  split; [rewrite H1; exact E1|]. split; [exact E2|].
  cbn [hstep] in B2. rewrite E2 in B2. rewrite B2, A2. cbn [i_fixed set_fixed i1 i2]. rewrite !L. reflexivity.
Qed.
Theorem C24_add_image_limit_refuted :
  forall pow32 pow64, let A := ieee pow32 pow64 in
  exists (i0 i1 i2 : image) (u : unspec) (h1 h2 : hist) (i1' i2' : image) (w1 w2 : world),
    unspec_ok u /\ image_new [Rgba 100 100 100 255] 1 1 d0 = Ok i0 /\
    foldM image_add_fixed_color (some_colors 0 200) i0 = Ok i1 /\
    foldM image_add_fixed_color (some_colors 1 200) i0 = Ok i2 /\
    add_image u (fun _ _ => false) attrs_new (hist_new attrs_new, i1, world0) = (Ok tt, (h1, i1', w1)) /\
    add_image u (fun _ _ => false) attrs_new (h1, i2, w1) = (Ok tt, (h2, i2', w2)) /\
    length (hg_fixed h2) = 400%nat.
Proof. exact too_many_fixed. Qed.
Print Assumptions C24_add_image_limit_refuted.

(** C25.  With a user's importance map, only pixels of non-zero importance
    count: two images (of any sizes) that agree on those pixels and their
    importance give the same histogram and the same result of the call. *)
Theorem C25_zero_importance_ignored :
  forall (A : Arith) (C : CastLaws A) (u : unspec) (cb : callback) a h i j w pxs pys mi mj,
  image_ok i pxs -> image_ok j pys -> i_imp i = Some mi -> i_imp j = Some mj ->
  i_fixed i = i_fixed j -> d_gamma (i_px i) = d_gamma (i_px j) -> ~ released (i_px i) -> ~ released (i_px j) ->
  filter weighed (combine (concat pxs) mi) = filter weighed (combine (concat pys) mj) ->
  fst (add_image u cb a (h, i, w)) = fst (add_image u cb a (h, j, w)) /\
  hstep u h (HImage a cb i pxs w) = hstep u h (HImage a cb j pys w).
Proof. exact (fun A C u => zero_importance_ignored u). Qed.
Print Assumptions C25_zero_importance_ignored.

Example C25_example : forall pow32 pow64, let A := ieee pow32 pow64 in
  let red := Rgba 200 0 0 255 in let green := Rgba 0 200 0 255 in
  let i := ok_or (image_new [red; green] 2 1 d0) blank_image in
  let i := ok_or (set_importance_map i [7; 0]) blank_image in
  hg_map (hstep (u_seq 1 (fun _ _ => 0%nat)) (hist_new attrs_new) (HImage attrs_new (fun _ _ => false) i [[red; green]] world0)) = [(red, (7, red))].
Proof. intros. vm_compute. reflexivity. Qed.
Example C24_example : forall (A : Arith) g, exists h1, hist_add_fixed_color (hist_new attrs_new) (Rgba 1 2 3 4) g = Ok h1 /\ length (hg_fixed h1) = 1%nat.
Proof. intros. eexists. split; [reflexivity|]. unfold hist_new. cbn. destruct (dlt d0 g); reflexivity. Qed.
Example C23_example : forall (A : Arith),
  let h := Hist None [] [(Rgba 1 0 0 255, (5, Rgba 1 0 0 255)); (Rgba 2 0 0 255, (7, Rgba 2 0 0 255))] 0 100 in
  weights_ok h /\ total_weight (init_posterize_bits (u_seq 1 (fun _ _ => 0%nat)) h 1) = 12 /\
  total_weight (init_posterize_bits (u_seq 1 (fun _ _ => 0%nat)) h 2) = 7.
Proof.
  intros. split; [|split; reflexivity]. split.
  - cbn. constructor; [intros [H|[]]; discriminate|]. constructor; [intros []|constructor].
  - unfold U32_MAX. cbn. apply Forall_cons; [cbn; lia|]. apply Forall_cons; [cbn; lia|constructor].
Qed.
