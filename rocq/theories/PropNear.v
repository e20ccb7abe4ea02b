(** C26: the palette search, in floating point. *)
From Coq Require Import Reals Lra.
From Verif Require Import Base BaseFacts Arith Order Ieee Pal World Attr Hist Nearest Kmeans Blur ImageM Quant Remap SpecHist SpecImage
  AttrFacts Api ContrastIeee SpecDist SearchIeee.
From Flocq Require Import IEEE754.BinarySingleNaN.
Open Scope R_scope.

(** C26 (I).  For colours in the range that 8-bit pixels have, the search
    returns a colour of the palette whose exact distance is within 2^-17 of the
    least, whatever the hint, also one outside the palette; and it returns the
    computed difference of that colour. *)
Theorem C26_search_near_ieee : forall pow32 pow64, let A := ieee pow32 pow64 in
  forall (p : palf) n (c : px) hint, Forall (in_range pow32 pow64) (map fst p) -> in_range pow32 pow64 c -> nearest_new p = Ok n ->
  exists pc w, nth_error p (fst (search n c hint)) = Some (pc, w) /\
  (snd (search n c hint) = diff c pc \/ snd (search n c hint) = diff pc c) /\
  forall e, In e p -> exact_dist pow32 pow64 c pc <= exact_dist pow32 pow64 c (fst e) + / 131072.
Proof. exact search_near_ieee. Qed.
Print Assumptions C26_search_near_ieee.

(** C26 (I).  An undithered remap without a background gives each pixel a
    palette colour that is nearest up to 2^-17. *)
Theorem C26_remap_near_ieee : forall pow32 pow64, pow32_unit pow32 -> let A := ieee pow32 pow64 in
  forall u rcb m q i pxs buf w q' i' out w', unspec_ok u -> result_r m q -> image_r i pxs ->
  (d0 <d q_gamma q)%flt = true -> (q_dither q =f f0)%flt = true -> i_bg i = None -> remap_into u rcb q i buf w = (Ok tt, (q', i', out, w')) ->
  let colors := map fst (fst (init_int_palette (q_pal q) (q_gamma q) (q_post q))) in
  forall y x r c, nth_error pxs y = Some r -> nth_error r x = Some c ->
  let c' := from_rgba (gamma_lut (d_gamma (i_px i))) c in
  exists k pc, nth_error out (y * i_w i + x)%nat = Some k /\ nth_error colors k = Some pc /\
    forall pj, In pj colors -> exact_dist pow32 pow64 c' pc <= exact_dist pow32 pow64 c' pj + / 131072.
Proof. exact remap_near_ieee. Qed.
Print Assumptions C26_remap_near_ieee.

(** C26 is false without the tolerance: two distances may differ by less than
    the arithmetic sees, and then the hint decides. *)
Definition z32 : b32 := BofZ 24 128 0.
Definition bit_at (k : Z) : b32 := Bdiv mode_NE (BofZ 24 128 1) (BofZ 24 128 (2 ^ k)).
Definition tie_c pow32 pow64 : @px (ieee pow32 pow64) := @Px (ieee pow32 pow64) z32 z32 z32 z32.
Definition tie_near pow32 pow64 : @px (ieee pow32 pow64) := @Px (ieee pow32 pow64) z32 z32 (bit_at 1) z32.
Definition tie_far pow32 pow64 : @px (ieee pow32 pow64) := @Px (ieee pow32 pow64) z32 (bit_at 20) (bit_at 1) z32.
Definition tie_pal pow32 pow64 : @palf (ieee pow32 pow64) := [(tie_near pow32 pow64, @f1 (ieee pow32 pow64)); (tie_far pow32 pow64, @f1 (ieee pow32 pow64))].
Lemma z32_v : is_finite z32 = true /\ B2R z32 = 0.
Proof. split; reflexivity. Qed.
Lemma bit1_v : is_finite (bit_at 1) = true /\ B2R (bit_at 1) = / 2.
Proof.
  split; [vm_cast_no_check (eq_refl true)|]. assert (E : B2SF (bit_at 1) = SpecFloat.S754_finite false 8388608 (-24)) by (vm_cast_no_check (eq_refl (SpecFloat.S754_finite false 8388608 (-24)))).
  destruct (bit_at 1) as [ | | |sg m e H]; try discriminate E. injection E as -> -> ->. cbn. unfold Defs.F2R. cbn. lra.
Qed.
Lemma bit20_v : is_finite (bit_at 20) = true /\ 0 < B2R (bit_at 20) < / 2.
Proof.
  split; [vm_cast_no_check (eq_refl true)|]. assert (E : B2SF (bit_at 20) = SpecFloat.S754_finite false 8388608 (-43)) by (vm_cast_no_check (eq_refl (SpecFloat.S754_finite false 8388608 (-43)))).
  destruct (bit_at 20) as [ | | |sg m e H]; try discriminate E. injection E as -> -> ->. cbn. unfold Defs.F2R. cbn. lra.
Qed.
Theorem C26_exact_ieee_refuted : forall pow32 pow64, let A := ieee pow32 pow64 in
  exists (p : palf) n (c : px) hint pc w e, Forall (in_range pow32 pow64) (map fst p) /\ in_range pow32 pow64 c /\ nearest_new p = Ok n /\ (hint < length p)%nat /\
  nth_error p (fst (search n c hint)) = Some (pc, w) /\ In e p /\ exact_dist pow32 pow64 c (fst e) < exact_dist pow32 pow64 c pc.
Proof.
  intros pow32 pow64 A. destruct z32_v as [Z1 Z2]. destruct bit1_v as [B1 B2]. destruct bit20_v as [C1 C2].
  assert (RC : in_range pow32 pow64 (tie_c pow32 pow64)) by (unfold in_range, tie_c, val; cbn [pa pr pg pb]; rewrite Z2; repeat split; auto; lra).
  assert (RN : in_range pow32 pow64 (tie_near pow32 pow64)) by (unfold in_range, tie_near, val; cbn [pa pr pg pb]; rewrite Z2, B2; repeat split; auto; lra).
  assert (RF : in_range pow32 pow64 (tie_far pow32 pow64)) by (unfold in_range, tie_far, val; cbn [pa pr pg pb]; rewrite Z2, B2; repeat split; auto; lra).
  assert (NN : match @nearest_new A (tie_pal pow32 pow64) with Ok _ => true | _ => false end = true) by (vm_cast_no_check (eq_refl true)).
  destruct (@nearest_new A (tie_pal pow32 pow64)) as [n|e|] eqn:N; [clear NN|discriminate NN|discriminate NN].
  assert (F : fst (search n (tie_c pow32 pow64) 1) = 1%nat).
  { assert (Q : match @nearest_new A (tie_pal pow32 pow64) with Ok n => fst (search n (tie_c pow32 pow64) 1) | _ => 0%nat end = 1%nat) by (vm_cast_no_check (eq_refl 1%nat)).
    rewrite N in Q. exact Q. }
  exists (tie_pal pow32 pow64), n, (tie_c pow32 pow64), 1%nat, (tie_far pow32 pow64), (@f1 A), (tie_near pow32 pow64, @f1 A).
  split; [exact (Forall_cons _ RN (Forall_cons _ RF (Forall_nil _)))|]. split; [exact RC|]. split; [exact N|]. split; [cbn; lia|]. split; [exact (eq_trans (f_equal (nth_error (tie_pal pow32 pow64)) F) eq_refl)|]. split; [left; reflexivity|].
  unfold exact_dist, tie_c, tie_near, tie_far, val. cbn [pa pr pg pb fst]. rewrite Z2, B2. apply sqrt_lt_1_alt.
  replace (0 - 0) with 0 by lra. rewrite !Rplus_0_r, !Rmax_left by lra. split; nra.
Qed.
Print Assumptions C26_exact_ieee_refuted.

From Verif Require Import USeq Witness.
(** The theorems apply to a two-colour image and to the palette above. *)
Definition near_ok : bool := match remap_into useq never plain2 (fst st2) [9; 9]%nat world0 with (Ok _, (_, _, [1; 0]%nat, _)) => true | _ => false end.
Example C26_ieee_example : pow32_unit (fun x _ => x) /\ result_r 256 plain2 /\ (d0 <d q_gamma plain2)%flt = true /\ (q_dither plain2 =f f0)%flt = true /\
  i_bg (fst st2) = None /\ near_ok = true.
Proof.
  split; [intros x y F H _; split; [exact F|exact H]|]. split; [exact plain2_r|].
  split; [vm_cast_no_check (eq_refl true)|]. split; [vm_cast_no_check (eq_refl true)|]. split; [vm_cast_no_check (eq_refl (@None (@image toy)))|vm_cast_no_check (eq_refl true)].
Qed.
