(** Concrete reachable objects for the examples: IEEE arithmetic with a
    stand-in for [powf] (the theorems hold for any). *)
From Verif Require Import Base BaseFacts Arith Order Pal World Attr Hist Nearest Kmeans Blur ImageM Quant Remap
  SpecHist SpecImage ImageFacts AttrFacts Ieee USeq Api.
Open Scope Z_scope.

Definition toy : Arith := ieee (fun x _ => x) (fun x _ => x).
#[export] Existing Instance toy.
Definition toy_cast : CastLaws toy := ieee_cast _ _.

Definition get_ok {T} (r : res T) (d : T) : T := match r with Ok x => x | _ => d end.
Definition never : callback := fun _ _ => false.
Definition useq : unspec := u_seq 1 (fun _ _ => 0%nat).
Lemma useq_ok : unspec_ok useq.
Proof. apply u_seq_ok; intros; lia. Qed.

Definition red : rgba := Rgba 200 0 0 255.
Definition blue : rgba := Rgba 0 0 250 255.
Definition no_image : image := Image (DRows 0 0 None (SrcPixels [] []) d0) None None None None [].
Definition no_result : qresult := QResult None [] [] f1 d0 None 0 DmNone false.

(** A 2×1 image, red and blue. *)
Definition img2 : image := get_ok (image_new [red; blue] 2 1 d0) no_image.
Lemma img2_new : image_new_stride [red; blue] 2 1 2 d0 = Ok img2.
Proof. exact (eq_refl (Ok img2) <: image_new_stride [red; blue] 2 1 2 d0 = Ok img2). Qed.
Lemma img2_r : image_r img2 [[red; blue]].
Proof.
  refine (ir_stride [red; blue] 2 1 2 d0 img2 _ _ _ _ img2_new); try lia.
  repeat constructor; cbn; lia.
Qed.
Definition call_r {T V} (x : res T * (V * world)) (d : T) : T := get_ok (fst x) d.
Definition res2 : qresult := call_r (quantize useq never attrs_new (img2, world0)) no_result.
Definition st2 : image * world := snd (quantize useq never attrs_new (img2, world0)).
Lemma res2_eq : quantize useq never attrs_new (img2, world0) = (Ok res2, st2).
Proof. exact (eq_refl (Ok res2, st2) <: quantize useq never attrs_new (img2, world0) = (Ok res2, st2)). Qed.
Lemma res2_r : result_r 256 res2.
Proof. exact (rr_image useq never attrs_new img2 _ world0 res2 st2 useq_ok us_new img2_r res2_eq). Qed.
(** The same without dithering. *)
Definition plain2 : qresult := get_ok (set_dithering_level res2 f0) no_result.
Lemma plain2_eq : set_dithering_level res2 f0 = Ok plain2.
Proof. exact (eq_refl (Ok plain2) <: set_dithering_level res2 f0 = Ok plain2). Qed.
Lemma plain2_r : result_r 256 plain2.
Proof. exact (rr_dither 256 res2 f0 plain2 res2_r plain2_eq). Qed.

(** Close a computable equation by evaluation (in the kernel). *)
Ltac vm := match goal with |- _ = ?b => vm_cast_no_check (eq_refl b) end.
