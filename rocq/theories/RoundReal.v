(** Exact arithmetic: converting an 8-bit colour to the internal representation
    and back gives the colour again, for every gamma. *)
From Verif Require Import Base BaseFacts Arith Order Pal World Attr Hist MedianCut Nearest Kmeans Blur ImageM Quant Remap
  ImageFacts PalFacts RealArith LosslessReal.
From Coq Require Import Reals Lra.
Open Scope R_scope.

Lemma powR_pos x y : 0 < x -> powR x y = Rpower x y.
Proof. intros. unfold powR. destruct (Rlt_dec 0 x); auto. contradiction. Qed.
Lemma powR_0 y : powR 0 y = 0.
Proof. unfold powR. destruct (Rlt_dec 0 0); auto. lra. Qed.
Lemma powR_inv x e : 0 <= x -> e <> 0 -> powR (powR x e) (/ e) = x.
Proof.
  intros X E. destruct (Req_dec x 0) as [->|N]; [rewrite !powR_0; auto|].
  rewrite (powR_pos x) by lra. rewrite powR_pos by apply exp_pos. rewrite Rpower_mult, Rinv_r by auto. apply Rpower_1. lra.
Qed.
Lemma Int_part_is v x : IZR v <= x < IZR v + 1 -> Int_part x = v.
Proof.
  intros H. destruct (base_Int_part x) as [H1 H2]. assert (IZR (Int_part x) < IZR (v + 1)) by (rewrite plus_IZR; lra).
  assert (IZR v < IZR (Int_part x + 1)) by (rewrite plus_IZR; lra). apply lt_IZR in H0, H3. lia.
Qed.
Lemma to_u8_channel v : (0 <= v < 256)%Z -> to_uint 255 (IZR v / 255 * 256) = v.
Proof.
  intros H. unfold to_uint. destruct (Z.eq_dec v 255) as [->|N].
  - assert (E : Int_part (IZR 255 / 255 * 256) = 256%Z). { apply Int_part_is. lra. }
    rewrite E. reflexivity.
  - assert (0 <= IZR v <= 254) by (split; apply IZR_le; lia).
    assert (E : Int_part (IZR v / 255 * 256) = v). { apply Int_part_is. lra. }
    rewrite E. lia.
Qed.

Section Round.
Variable big : R.
Let A : Arith := real big.
Local Existing Instance A.

Lemma lut_inv g v : 0 < g -> (0 <= v < 256)%Z -> powR (gamma_lut (g : @f64 A) v) (g / (57 / 100)) = IZR v / 255.
Proof.
  intros G V. change (gamma_lut (g : @f64 A) v) with (powR (IZR v / 255) (57 / 100 / g)).
  replace (g / (57 / 100)) with (/ (57 / 100 / g)) by (field; lra). assert (0 <= IZR v) by (apply IZR_le; lia).
  apply powR_inv; [lra|]. apply Rgt_not_eq. apply Rdiv_lt_0_compat; lra.
Qed.
Lemma from_clear g c : ca c = 0%Z -> from_rgba (gamma_lut (g : @f64 A)) c = px0.
Proof.
  intros H. unfold from_rgba, px0. rewrite H. set (l := gamma_lut _). cbn. f_equal; field.
Qed.
Lemma round_trip g c : 0 < g -> rgba_ok c ->
  to_rgb (from_rgba (gamma_lut (g : @f64 A)) c) g = if (ca c =? 0)%Z then Rgba 0 0 0 0 else c.
Proof.
  intros G (Hr & Hg & Hbl & Ha). unfold byte in *. destruct (Z.eqb_spec (ca c) 0) as [Z0|NZ].
  - rewrite from_clear by auto. unfold to_rgb. replace (pa px0 <f MIN_OPAQUE_A) with true; auto. symmetry. apply Rltb_lt. cbn. lra.
  - assert (1 <= IZR (ca c)) by (apply IZR_le; lia). set (a := IZR (ca c)) in *.
    unfold to_rgb. replace (pa (from_rgba _ c) <f MIN_OPAQUE_A) with false; [|symmetry; apply Rltb_ge; cbn; fold a; lra].
    destruct c as [r gg b al]. cbn [cr cg cb ca] in *.
    assert (CH : forall k v, (0 <= v < 256)%Z -> 0 < k -> forall x, x = (625 / 1000 / k) * (gamma_lut (g : @f64 A) v * k * (a / 255)) / (a / 255 * (625 / 1000)) ->
       to_uint 255 (powR x (g / (57 / 100)) * 256) = v).
    { intros k v V K x ->. replace (_ / (a / 255 * (625 / 1000))) with (gamma_lut (g : @f64 A) v).
      - rewrite lut_inv; auto. apply to_u8_channel; auto.
      - set (l := gamma_lut _ v). change (@f32 A) with R in *. field. lra. }
    f_equal.
    + refine (CH (5 / 10) r Hr _ _ _); [lra|reflexivity].
    + refine (CH 1 gg Hg _ _ _); [lra|reflexivity].
    + refine (CH (45 / 100) b Hbl _ _ _); [lra|reflexivity].
    + transitivity (to_uint 255 (IZR al / 255 * 256)); [|apply to_u8_channel; auto].
      change (to_uint 255 (256 / (625 / 1000) * (IZR al / 255 * (625 / 1000))) = to_uint 255 (IZR al / 255 * 256)). f_equal. field.
Qed.
End Round.
