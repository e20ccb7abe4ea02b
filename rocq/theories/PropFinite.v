(** Arithmetic stays finite (property C54). *)
From Coq Require Import Reals.
From Verif Require Import Base BaseFacts Arith Order Ieee Pal World Attr Hist Nearest Kmeans Blur ImageM Quant Remap
  SpecHist SpecImage AttrFacts Api ContrastIeee PowRef SpecFinite FiniteTop NanGamma SpecPow MinFacts.
From Flocq Require Import IEEE754.BinarySingleNaN.
Open Scope R_scope.

(** C54 (I): at speed 4 or more (the default is 4) every channel of every
    palette colour is a finite number between 0 and 1, after any calls.  The
    objects quantized have no fixed colours, or are not huge.  Missing: speeds 1
    to 3, whose longer search may let weights grow beyond what is proved here. *)
Theorem C54_palette_finite_partial : forall pow32 pow64, pow32_unit pow32 -> let A := ieee pow32 pow64 in
  forall u cb a q q', swiftly_made u cb a q -> then_ q q' ->
  Forall (fun c => Forall (fun x : b32 => is_finite x = true /\ 0 <= B2R x <= 1) [pa c; pr c; pg c; pb c]) (map fst (q_pal q')).
Proof. exact swift_colors. Qed.
Print Assumptions C54_palette_finite_partial.

(** C54 (I): such results remap any image: a buffer that is long enough is only
    refused when the callback says stop. *)
Theorem C54_remap_succeeds_partial : forall pow32 pow64, pow32_unit pow32 -> let A := ieee pow32 pow64 in
  forall u cb a q q' u2 cb2 i pxs buf w e s', swiftly_made u cb a q -> then_ q q' -> unspec_ok u2 -> image_r i pxs ->
  (i_w i * i_h i <= length buf)%nat -> remap_into u2 cb2 q' i buf w = (Err e, s') ->
  e = Aborted /\ exists told pct, cb2 told pct = true.
Proof. exact swift_remap. Qed.
Print Assumptions C54_remap_succeeds_partial.

(** C54 (I): and the hidden preparation call never fails. *)
Theorem C54_prepare_succeeds_partial : forall pow32 pow64, pow32_unit pow32 -> let A := ieee pow32 pow64 in
  forall u cb a q q' u2 i pxs buf w, swiftly_made u cb a q -> then_ q q' -> unspec_ok u2 -> image_r i pxs ->
  length buf = (i_w i * i_h i)%nat -> fst (prepare_for_dithering u2 q' i buf w) = Ok tt.
Proof. exact swift_prepare. Qed.
Print Assumptions C54_prepare_succeeds_partial.

(** C54 (I): the error that such a result reports is a number, when something
    was counted besides the fixed colours. *)
Theorem C54_error_finite_partial : forall pow32 pow64, pow32_unit pow32 -> let A := ieee pow32 pow64 in
  forall u cb a q e, ordinarily_made u cb a q -> q_err q = Some e -> is_finite (e : b64) = true.
Proof. exact error_finite. Qed.
Print Assumptions C54_error_finite_partial.

(** C13 (I): so the accepted minimum is kept, without the exception of NaN that
    [C13_minimum_quality_partial] has to make.  Missing: speeds 1 to 3. *)
Theorem C13_minimum_kept_partial : forall pow32 pow64, pow32_unit pow32 -> pow64_accurate pow64 -> let A := ieee pow32 pow64 in
  forall u cb a q v, ordinarily_made u cb a q -> quantization_quality q = Some v -> (fst (get_quality a) <= v)%Z.
Proof.
  exact (fun pow32 pow64 PU PA u cb a q v M V => min_quality pow32 pow64 PA u cb a q v (proj1 M) (proj1 (proj2 M)) (ordinary_made pow32 pow64 u cb a q M) V
    (fun e E => fin_not_nan e (error_finite pow32 pow64 PU u cb a q e M E))).
Qed.
Print Assumptions C13_minimum_kept_partial.

(** C54 is false without the rule about gamma: [set_output_gamma] accepts NaN
    (C21), and then remapping a black pixel fails as if memory had run out. *)
Theorem C54_nan_gamma_refuted : forall pow32 pow64, let A := ieee pow32 pow64 in
  (forall y : b32, is_finite y = true -> 0 < B2R y -> pow32 (B754_zero false) y = B754_zero false) ->
  pow32 (B754_zero false) B754_nan = B754_nan ->
  exists u cb a q q1 q2 i pxs w, swiftly_made u cb a q /\ then_ q q1 /\ set_output_gamma q1 (B754_nan : b64) = Ok q2 /\ image_r i pxs /\
  (i_w i * i_h i <= 1)%nat /\ fst (remap_into u (fun _ _ => false) q2 i [0%nat] w) = Err OutOfMemory.
Proof. exact nan_gamma. Qed.
Print Assumptions C54_nan_gamma_refuted.

From Verif Require Import USeq Witness.
(** A [powf] as assumed exists, and a two-colour image is quantized to a result
    that the theorems apply to and remapped. *)
Example C54_pow_exists : pow32_unit pow32_ref.
Proof. exact pow32_ref_unit. Qed.
Lemma img2_fixed : i_fixed img2 = [].
Proof. vm_cast_no_check (eq_refl (@nil rgba)). Qed.
Definition remap_ok : bool := match remap_into useq never plain2 (fst st2) [9; 9]%nat world0 with (Ok _, (_, _, [1; 0]%nat, _)) => true | _ => false end.
Example C54_example : pow32_unit (fun x _ => x) /\ swiftly_made useq never attrs_new res2 /\ then_ res2 plain2 /\ remap_ok = true.
Proof.
  split; [intros x y F H _; split; [exact F|exact H]|].
  split; [split; [exact useq_ok|]; split; [apply us_new|]; split; [cbn; lia|]; right; exists img2, [[red; blue]], world0, st2;
    split; [exact img2_r|]; split; [left; exact img2_fixed|exact res2_eq]|].
  split; [exact (th_dither _ _ f0 _ (th_refl _) plain2_eq)|]. vm_cast_no_check (eq_refl true).
Qed.
(** Three counted colours and a fixed one in a palette of three, minimum quality
    50: a positive error that is a number, and a quality that reads as 99. *)
Definition a50 : attrs := get_ok (set_quality (get_ok (set_max_colors attrs_new 3) attrs_new) 50 100) attrs_new.
Lemma a50_usable : usable a50.
Proof.
  refine (us_call _ (SpecAttr.CallQuality 50 100) a50 (us_call attrs_new (SpecAttr.CallMaxColors 3) (get_ok (set_max_colors attrs_new 3) attrs_new) us_new _ _) _ _);
    [cbn; lia|vm_cast_no_check (eq_refl (Ok (get_ok (set_max_colors attrs_new 3) attrs_new)))|cbn; lia|vm_cast_no_check (eq_refl (Ok a50))].
Qed.
Definition green : rgba := Rgba 0 240 0 255.
Definition near : rgba := Rgba 190 0 0 255.
Definition hthree : hist := get_ok (add_colors (hist_new a50) [(red, 5); (near, 3); (green, 20)]%Z d0) (hist_new a50).
Definition hmix : hist := get_ok (hist_add_fixed_color hthree blue d0) (hist_new a50).
Lemma hmix_r : hist_r hmix.
Proof.
  assert (R3 : hist_r hthree).
  { refine (hr_colors (hist_new a50) [(red, 5); (near, 3); (green, 20)]%Z d0 hthree (hr_new a50 a50_usable) _ _);
      [|vm_cast_no_check (eq_refl (Ok hthree))].
    apply Forall_cons; [|apply Forall_cons; [|apply Forall_cons; [|apply Forall_nil]]]; repeat split; cbn; unfold U32_MAX; lia. }
  refine (hr_fixed hthree blue d0 hmix R3 _ _); [repeat split; cbn; lia|vm_cast_no_check (eq_refl (Ok hmix))].
Qed.
Lemma hmix_ordinary : ordinary_hist hmix.
Proof.
  right. split; [apply Z.leb_le; vm_cast_no_check (eq_refl true)|]. exists (red, (5%Z, red)). 
  assert (M : hg_map hmix = [(red, (5, red)); (near, (3, near)); (green, (20, green))]%Z) by vm_cast_no_check (eq_refl [(red, (5, red)); (near, (3, near)); (green, (20, green))]%Z).
  assert (F : map fst (hg_fixed hmix) = [blue]) by vm_cast_no_check (eq_refl [blue]).
  split; [rewrite M; left; reflexivity|]. split; [cbn; lia|]. rewrite <- (map_map fst fixed_key), F. intros [E|[]]. discriminate.
Qed.
Definition qmix : qresult := get_ok (fst (hist_quantize useq never a50 (hmix, world0))) no_result.
Example C13_kept_example : ordinarily_made useq never a50 qmix /\ fst (get_quality a50) = 50%Z /\ quantization_quality qmix = Some 99%Z /\
  length (q_pal qmix) = 3%nat /\ match q_err qmix with Some e => (d0 <d e)%flt | None => false end = true.
Proof.
  split.
  - split; [exact useq_ok|]. split; [exact a50_usable|]. split; [cbn; lia|]. left.
    exists hmix, world0, (snd (hist_quantize useq never a50 (hmix, world0))). split; [exact hmix_r|]. split; [exact hmix_ordinary|].
    assert (E : fst (hist_quantize useq never a50 (hmix, world0)) = Ok qmix) by vm_cast_no_check (eq_refl (Ok qmix)).
    rewrite <- E. apply surjective_pairing.
  - split; [vm_cast_no_check (eq_refl 50%Z)|]. split; [vm_cast_no_check (eq_refl (Some 99%Z))|]. split; [vm_cast_no_check (eq_refl 3%nat)|vm_cast_no_check (eq_refl true)].
Qed.
