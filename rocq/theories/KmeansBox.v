(** Exact arithmetic: the colours the library makes are in the box. *)
From Verif Require Import Base BaseFacts Arith Pal World Attr Hist Nearest MedianCut Kmeans Blur ImageM Quant Remap RealArith MedianReal
  NearReal SearchReal KmeansReal DitherReal SpecKmeans.
From Coq Require Import Reals Lra.
Open Scope R_scope.

Lemma pixel_inbox big (g : R) c : 0 < g -> rgba_ok c -> @inbox big (@from_rgba (real big) (@gamma_lut (real big) g) c).
Proof.
  intros G (R1 & R2 & R3 & R4).
  assert (B : forall v, byte v -> 0 <= IZR v / 255 <= 1).
  { intros v [V0 V1]. assert (0 <= IZR v <= 255) by (split; [apply (IZR_le 0)|apply IZR_le]; lia). lra. }
  assert (L : forall v, byte v -> 0 <= powR (IZR v / 255) (57 / 100 / g) <= 1).
  { intros v V. apply powR_unit; auto. apply Rmult_le_pos; [lra|]. left. apply Rinv_0_lt_compat. exact G. }
  pose proof (B _ R4) as BA. pose proof (L _ R1) as LR. pose proof (L _ R2) as LG. pose proof (L _ R3) as LB.
  change (@inbox big (@Px (real big) (IZR (ca c) / 255 * (625 / 1000)) (powR (IZR (cr c) / 255) (57 / 100 / g) * (5 / 10) * (IZR (ca c) / 255))
    (powR (IZR (cg c) / 255) (57 / 100 / g) * 1 * (IZR (ca c) / 255)) (powR (IZR (cb c) / 255) (57 / 100 / g) * (45 / 100) * (IZR (ca c) / 255)))).
  revert BA LR LG LB. generalize (IZR (ca c) / 255) (powR (IZR (cr c) / 255) (57 / 100 / g)) (powR (IZR (cg c) / 255) (57 / 100 / g)) (powR (IZR (cb c) / 255) (57 / 100 / g)).
  intros a r gg b BA LR LG LB. unfold inbox. cbn [pa pr pg pb]. cbv zeta. repeat split; nra.
Qed.
