(** C14, C38: gammas close to 0. *)
From Coq Require Import Reals Lra.
From Verif Require Import Base Arith Order Ieee Pal World Attr Hist Quant SpecHist SpecPow HistFacts AttrFacts Api PowRef ContrastIeee SmallGamma PropErrors.
From Flocq Require Import IEEE754.BinarySingleNaN Core.Core.
Open Scope R_scope.

(** C38 is restricted to gammas of at least 1/4 for a reason: the library
    accepts every gamma in (0, 1], and for gamma 1/64 the powers of dark channels
    are below the smallest f32, so an opaque colour does not survive (here even
    with exactly rounded powers). *)
Theorem C38_small_gamma_refuted : exists pow32 pow64 (g : b64) c, pow32_accurate pow32 /\ pow32_unit pow32 /\ let A := ieee pow32 pow64 in
  is_finite g = true /\ 0 < B2R g <= 1 /\ gamma_in_0_1 g = true /\ rgba_ok c /\ ca c = 255%Z /\ to_rgb (from_rgba (gamma_lut g) c) g <> c.
Proof.
  assert (R1 : rgba_ok dim1) by (repeat split; cbn; lia). assert (R2 : rgba_ok dim2) by (repeat split; cbn; lia).
  exists pow32_ref, pow64_ref, g64, (if rgba_dec (@to_rgb Ar (@from_rgba Ar (@gamma_lut Ar g64) dim1) g64) dim1 then dim2 else dim1).
  split; [exact pow32_ref_accurate|]. split; [exact pow32_ref_unit|]. cbv zeta. destruct g64_ok as [F V]. split; [exact F|].
  split; [rewrite V; lra|]. split; [vm_compute; reflexivity|].
  destruct (rgba_dec _ dim1) as [E|E]; [|auto]. split; [exact R2|]. split; [reflexivity|].
  intros E2. rewrite dark_same, E2 in E. discriminate.
Qed.
Print Assumptions C38_small_gamma_refuted.

(** C14.  The same at the level of the API: a histogram of two opaque colours
    added with this gamma is quantized without error, with the reported error 0,
    and the palette lacks at least one of the two. *)
Theorem C14_small_gamma_refuted : exists pow32 pow64 (g : b64) c1 c2 h, pow32_accurate pow32 /\ pow32_unit pow32 /\ let A := ieee pow32 pow64 in
  is_finite g = true /\ 0 < B2R g <= 1 /\ rgba_ok c1 /\ rgba_ok c2 /\ ca c1 = 255%Z /\ ca c2 = 255%Z /\
  add_colors (hist_new attrs_new) [(c1, 1%Z); (c2, 1%Z)] g = Ok h /\ hist_r h /\
  forall u cb w, unspec_ok u -> (forall told p, cb told p = false) ->
  exists q s', hist_quantize u cb attrs_new (h, w) = (Ok q, s') /\ q_err q = Some d0 /\ ~ (In c1 (fst (palette q)) /\ In c2 (fst (palette q))).
Proof.
  assert (R1 : rgba_ok dim1) by (repeat split; cbn; lia). assert (R2 : rgba_ok dim2) by (repeat split; cbn; lia).
  exists pow32_ref, pow64_ref, g64, dim1, dim2, dark_hist.
  split; [exact pow32_ref_accurate|]. split; [exact pow32_ref_unit|]. cbv zeta. destruct g64_ok as [F V]. split; [exact F|].
  split; [rewrite V; lra|]. split; [exact R1|]. split; [exact R2|]. split; [reflexivity|]. split; [reflexivity|]. split; [exact dark_made|]. split; [exact dark_r|].
  intros u cb w U CB. destruct (@hist_quantize Ar u cb (@attrs_new Ar) (dark_hist, w)) as [r [h' w']] eqn:E.
  pose proof (C60_histogram Ar (ieee_cast pow32_ref pow64_ref) u cb _ _ w r h' w' U (@us_new Ar) dark_r E) as X. destruct r as [q|e|]; [| |destruct X].
  - exists q, (h', w'). split; [reflexivity|]. exact (dark_lost u cb w q _ U E).
  - exfalso. destruct X as [[_ (l1 & p & l2 & _ & B)]|[[_ N]|(_ & N & _)]].
    + rewrite CB in B. discriminate.
    + apply N. reflexivity.
    + rewrite (proj1 dark_map) in N. discriminate.
Qed.
Print Assumptions C14_small_gamma_refuted.
