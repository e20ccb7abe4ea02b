(** Error diffusion in exact arithmetic: how far a dithered colour can go, and
    that no part of an error is lost. *)
From Verif Require Import Base BaseFacts Arith Order Pal Nearest World Attr Hist Kmeans Blur ImageM Quant Remap RealArith SpecDither DitherSpec DitherZero.
From Coq Require Import Reals Lra.
Open Scope R_scope.

Section DitherReal.
Variable big : R.
Let A : Arith := real big.
Local Existing Instance A.

(** Colour channels within a tenth of the unit interval, alpha within it. *)
Definition chan_ok (x : R) : Prop := -1 / 10 <= x <= 11 / 10.
Definition near_gamut (p : px) : Prop := 0 <= pa p <= 1 /\ chan_ok (pr p) /\ chan_ok (pg p) /\ chan_ok (pb p).
(** [t] of the way from [p] to [p + s], and anything less, stays in range. *)
Definition safe (t p s : R) : Prop := forall k, 0 <= k <= t -> chan_ok (s * k + p).
Lemma safe_less t t' p s : t' <= t -> safe t p s -> safe t' p s.
Proof. intros H S k K. apply S. lra. Qed.
Lemma ratio_ok (ratio p s : R) : 0 <= ratio <= 1 -> chan_ok p ->
  0 <= @ratio_step A ratio p s <= ratio /\ safe (@ratio_step A ratio p s) p s.
Proof.
  intros Q [P1 P2].
  change (@ratio_step A ratio p s) with (if Rltb (11 / 10) (p + s) then Rmin ratio ((11 / 10 - p) / s) else if Rltb (p + s) (- (1 / 10)) then Rmin ratio ((- (1 / 10) - p) / s) else ratio).
  destruct (Rltb (11 / 10) (p + s)) eqn:E; [|destruct (Rltb (p + s) (- (1 / 10))) eqn:E2]; rbool.
  - assert (S0 : 0 < s) by lra. assert (T : (11 / 10 - p) / s * s = 11 / 10 - p) by (field; lra).
    assert (D0 : 0 <= (11 / 10 - p) / s) by (apply Rmult_le_pos; [lra|left; apply Rinv_0_lt_compat; lra]).
    split; [split; [apply Rmin_glb; lra|apply Rmin_l]|]. intros k [K1 K2].
    assert (K3 : k <= (11 / 10 - p) / s) by (eapply Rle_trans; [exact K2|apply Rmin_r]).
    assert (s * k <= 11 / 10 - p) by (rewrite <- T; nra). split; nra.
  - assert (S0 : 0 < - s) by lra. assert (T : (- (1 / 10) - p) / s * s = - (1 / 10) - p) by (field; lra).
    assert (D0 : 0 <= (- (1 / 10) - p) / s).
    { replace ((- (1 / 10) - p) / s) with ((1 / 10 + p) / - s) by (field; lra). apply Rmult_le_pos; [lra|left; apply Rinv_0_lt_compat; lra]. }
    split; [split; [apply Rmin_glb; lra|apply Rmin_l]|]. intros k [K1 K2].
    assert (K3 : k <= (- (1 / 10) - p) / s) by (eapply Rle_trans; [exact K2|apply Rmin_r]).
    assert (- (1 / 10) - p <= s * k) by (rewrite <- T; nra). split; nra.
  - split; [lra|]. intros k [K1 K2]. split; nra.
Qed.

Lemma dithered_in_range level max_err e p : near_gamut p -> near_gamut (get_dithered_pixel level max_err e p).
Proof.
  intros (PA & PR & PG & PB). unfold get_dithered_pixel. cbv zeta. destruct (_ <f _); [split; auto|].
  set (s := px_scale e level).
  destruct (ratio_ok 1 (pr p) (pr s) ltac:(lra) PR) as [R1 S1]. change (IZR 1) with (@f1 A) in R1, S1.
  set (r1 := ratio_step f1 (pr p) (pr s)) in *.
  assert (R1' : 0 <= r1 <= 1) by exact R1.
  destruct (ratio_ok r1 (pg p) (pg s) R1' PG) as [R2 S2]. set (r2 := ratio_step r1 (pg p) (pg s)) in *.
  assert (R2' : 0 <= r2 <= 1) by lra.
  destruct (ratio_ok r2 (pb p) (pb s) R2' PB) as [R3 S3]. set (r3 := ratio_step r2 (pb p) (pb s)) in *.
  set (r4 := if max_err <f err_energy s then r3 *f flit 8 10 else r3).
  assert (R4 : 0 <= r4 <= r3).
  { unfold r4. destruct (_ <f _); [|lra]. change (r3 *f flit 8 10) with (r3 * (8 / 10)). lra. }
  unfold near_gamut. cbn [pa pr pg pb]. split.
  { unfold fclamp. cbv zeta.
    change (0 <= (if Rltb 1 (if Rltb (pa p + pa s) 0 then 0 else pa p + pa s) then 1 else (if Rltb (pa p + pa s) 0 then 0 else pa p + pa s)) <= 1).
    generalize (pa p + pa s : R). clear. intros z. destruct (Rltb z 0) eqn:E1; [apply Rltb_lt in E1|apply Rltb_ge in E1]; destruct (Rltb 1 _) eqn:E2; rbool; lra. }
  split; [apply S1; lra|]. split; [apply S2; lra|apply S3; lra].
Qed.

(** Pixels of an image are in range to begin with. *)
Lemma powR_unit x y : 0 <= x <= 1 -> 0 <= y -> 0 <= powR x y <= 1.
Proof.
  intros [X0 X1] Y. unfold powR. destruct (Rlt_dec 0 x) as [P|]; [|lra]. split; [left; apply exp_pos|].
  rewrite <- (Rpower_O 1) by lra. unfold Rpower. rewrite Rmult_0_l. destruct (Req_dec (y * ln x) 0) as [->|N]; [lra|]. left. apply exp_increasing.
  assert (ln x <= 0) by (rewrite <- ln_1; destruct (Req_dec x 1) as [->|]; [lra|left; apply ln_increasing; lra]). nra.
Qed.
Lemma pixel_gamut (g : f64) c : 0 < g -> rgba_ok c -> near_gamut (from_rgba (gamma_lut g) c).
Proof.
  intros G (R1 & R2 & R3 & R4).
  assert (B : forall v, byte v -> 0 <= IZR v / 255 <= 1).
  { intros v [V0 V1]. assert (0 <= IZR v <= 255) by (split; [apply (IZR_le 0)|apply IZR_le]; lia). lra. }
  assert (L : forall v, byte v -> 0 <= powR (IZR v / 255) (57 / 100 / g) <= 1).
  { intros v V. apply powR_unit; auto. apply Rmult_le_pos; [lra|]. left. apply Rinv_0_lt_compat. exact G. }
  pose proof (B _ R4) as BA. pose proof (L _ R1) as LR. pose proof (L _ R2) as LG. pose proof (L _ R3) as LB.
  change (near_gamut (Px (IZR (ca c) / 255 * (625 / 1000) : f32) (powR (IZR (cr c) / 255) (57 / 100 / g) * (5 / 10) * (IZR (ca c) / 255))
    (powR (IZR (cg c) / 255) (57 / 100 / g) * 1 * (IZR (ca c) / 255)) (powR (IZR (cb c) / 255) (57 / 100 / g) * (45 / 100) * (IZR (ca c) / 255)))).
  revert BA LR LG LB. generalize (IZR (ca c) / 255) (powR (IZR (cr c) / 255) (57 / 100 / g)) (powR (IZR (cg c) / 255) (57 / 100 / g)) (powR (IZR (cb c) / 255) (57 / 100 / g)).
  intros a r gg b BA LR LG LB. unfold near_gamut, chan_ok. cbn [pa pr pg pb]. repeat split; nra.
Qed.

(** ** No part of an error is lost *)
Definition total (l : list px) (ch : px -> R) : R := fold_right (fun p t => ch p + t) 0 l.
(** A channel: additions and scalings act on it alone. *)
Definition channel (ch : px -> R) : Prop := ch px0 = 0 /\ (forall a b, ch (px_add a b) = ch a + ch b) /\ forall a (k : f32), ch (px_scale a k) = ch a * k.
Lemma channels : channel pa /\ channel pr /\ channel pg /\ channel pb.
Proof. unfold channel. repeat split. Qed.
Lemma total_app l m ch : total (l ++ m) ch = total l ch + total m ch.
Proof. induction l as [|a l IH]; [change (total m ch = 0 + total m ch); lra|]. change (ch a + total (l ++ m) ch = ch a + total l ch + total m ch). rewrite IH. lra. Qed.
Lemma owed_sum ch errs : channel ch ->
  total (map (owed errs) (seq 0 (length errs + 2))) ch = 9 / 16 * total errs ch.
Proof.
  intros (C0 & CA & CS). induction errs as [|e errs IH] using rev_ind.
  - cbn. rewrite C0. lra.
  - rewrite app_length. cbn [length]. replace (length errs + 1 + 2)%nat with (length errs + 3)%nat by lia.
    assert (X : forall l n, (forall k, (k < n)%nat -> owed (errs ++ [e]) (l + k) = owed errs (l + k)) -> total (map (owed (errs ++ [e])) (seq l n)) ch = total (map (owed errs) (seq l n)) ch).
    { intros l n H. f_equal. apply map_ext_in. intros k Hk. apply in_seq in Hk. replace k with (l + (k - l))%nat by lia. apply H. lia. }
    replace (length errs + 3)%nat with (length errs + (1 + (1 + 1)))%nat by lia. rewrite !seq_app, !map_app, !total_app.
    replace (length errs + 2)%nat with (length errs + (1 + 1))%nat in IH by lia. rewrite !seq_app, !map_app, !total_app in IH.
    rewrite X.
    2:{ intros k Hk. apply owed_old. lia. }
    cbn [seq map total fold_right Nat.add] in *. rewrite <- ?Nat.add_assoc in *. cbn [Nat.add] in *.
    rewrite owed_0, owed_1, owed_2. rewrite !CA, !CS. change (@sixteenths A 3) with (3 / 16). change (@sixteenths A 5) with (5 / 16). change (@sixteenths A 1) with (1 / 16). lra.
Qed.
End DitherReal.
