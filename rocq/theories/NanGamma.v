(** A result whose output gamma was set to NaN cannot remap: computed for any
    [powf] that is 0 for 0 to a positive power and NaN for 0 to the power NaN. *)
From Coq Require Import Reals FunctionalExtensionality.
From Verif Require Import Base BaseFacts Arith Order Ieee Pal World Attr Hist Nearest Kmeans Blur ImageM Quant Remap
  SpecHist SpecImage AttrFacts Api USeq SpecFinite.
From Flocq Require Import IEEE754.BinarySingleNaN.
Open Scope nat_scope.

Definition never_ {A : Arith} : callback := fun _ _ => false.
Definition seq1 {A : Arith} : unspec := u_seq 1 (fun _ _ => 0).
Definition or_else {T} (r : res T) (d : T) : T := match r with Ok x => x | _ => d end.

Section N.
Variables (pow32 : b32 -> b32 -> b32) (pow64 : b64 -> b64 -> b64).
Definition pow_edges (x y : b32) : b32 :=
  match x, y with
  | B754_zero false, B754_nan => B754_nan
  | B754_zero false, B754_finite false _ _ _ => B754_zero false
  | _, _ => pow32 x y
  end.
Lemma pow_edges_same : (forall y : b32, is_finite y = true -> (0 < B2R y)%R -> pow32 (B754_zero false) y = B754_zero false) ->
  pow32 (B754_zero false) B754_nan = B754_nan -> pow_edges = pow32.
Proof.
  intros P N. apply functional_extensionality. intros x. apply functional_extensionality. intros y. unfold pow_edges.
  destruct x as [[]| | |]; auto. destruct y as [|[]| |[] m e H]; auto. symmetry. apply P; [reflexivity|].
  cbn. apply Flocq.Core.Float_prop.F2R_gt_0. reflexivity.
Qed.
Let Ar : Arith := ieee pow_edges pow64.
Local Existing Instance Ar.
Definition dark : image := or_else (image_new [Rgba 0 0 0 255] 1 1 d0) (Image (DRows 0 0 None (SrcPixels [] []) d0) None None None None []).
Lemma dark_new : image_new_stride [Rgba 0 0 0 255] 1 1 1 d0 = Ok dark.
Proof. vm_cast_no_check (eq_refl (Ok dark)). Qed.
Lemma dark_r : image_r dark [[Rgba 0 0 0 255]].
Proof. refine (ir_stride [Rgba 0 0 0 255] 1 1 1 d0 dark _ _ _ _ dark_new); try lia. repeat constructor; cbn; lia. Qed.
Definition dark_q : qresult := or_else (fst (quantize seq1 never_ attrs_new (dark, world0))) (QResult None [] [] f1 d0 None 0 DmNone false).
Definition dark_st : image * world := snd (quantize seq1 never_ attrs_new (dark, world0)).
Lemma dark_q_eq : quantize seq1 never_ attrs_new (dark, world0) = (Ok dark_q, dark_st).
Proof. vm_cast_no_check (eq_refl (Ok dark_q, dark_st)). Qed.
Lemma dark_fixed : i_fixed dark = [].
Proof. vm_cast_no_check (eq_refl (@nil rgba)). Qed.
Lemma new_speed : (4 <= get_speed attrs_new)%Z.
Proof. cbn. lia. Qed.
Lemma seq1_ok : unspec_ok (@seq1 Ar).
Proof. apply u_seq_ok; intros; lia. Qed.
Lemma dark_made : swiftly_made seq1 never_ attrs_new dark_q.
Proof.
  split; [exact seq1_ok|]. split; [apply us_new|]. split; [exact new_speed|]. right. exists dark, [[Rgba 0 0 0 255]], world0, dark_st.
  split; [exact dark_r|]. split; [left; exact dark_fixed|exact dark_q_eq].
Qed.
Definition plain_q : qresult := or_else (set_dithering_level dark_q f0) dark_q.
Lemma plain_eq : set_dithering_level dark_q f0 = Ok plain_q.
Proof. vm_cast_no_check (eq_refl (Ok plain_q)). Qed.
Definition nan_q : qresult := or_else (set_output_gamma plain_q (B754_nan : b64)) dark_q.
Lemma nan_eq : set_output_gamma plain_q (B754_nan : b64) = Ok nan_q.
Proof. vm_cast_no_check (eq_refl (Ok nan_q)). Qed.
Lemma nan_remap : fst (remap_into seq1 never_ nan_q dark [0] world0) = Err OutOfMemory.
Proof. vm_cast_no_check (eq_refl (@Err unit OutOfMemory)). Qed.
Lemma nan_gamma_ : exists u cb a q q1 q2 i pxs w, swiftly_made u cb a q /\ then_ q q1 /\ set_output_gamma q1 (B754_nan : b64) = Ok q2 /\ image_r i pxs /\
  i_w i * i_h i <= 1 /\ fst (remap_into u (fun _ _ => false) q2 i [0] w) = Err OutOfMemory.
Proof.
  exists seq1, never_, attrs_new, dark_q, plain_q, nan_q, dark, [[Rgba 0 0 0 255]], world0.
  split; [exact dark_made|]. split; [exact (th_dither _ _ f0 _ (th_refl _) plain_eq)|]. split; [exact nan_eq|]. split; [exact dark_r|].
  split; [|exact nan_remap]. assert (E : i_w dark * i_h dark = 1) by (vm_cast_no_check (eq_refl 1)). rewrite E. auto.
Qed.
End N.
Lemma nan_gamma pow32 pow64 : let A := ieee pow32 pow64 in
  (forall y : b32, is_finite y = true -> (0 < B2R y)%R -> pow32 (B754_zero false) y = B754_zero false) -> pow32 (B754_zero false) B754_nan = B754_nan ->
  exists u cb a q q1 q2 i pxs w, swiftly_made u cb a q /\ then_ q q1 /\ set_output_gamma q1 (B754_nan : b64) = Ok q2 /\ image_r i pxs /\
  i_w i * i_h i <= 1 /\ fst (remap_into u (fun _ _ => false) q2 i [0] w) = Err OutOfMemory.
Proof. intros A P N. unfold A. rewrite <- (pow_edges_same pow32 P N). apply nan_gamma_. Qed.
