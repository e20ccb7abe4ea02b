(** The quality scale on IEEE doubles: [quality_to_mse] and
    [mse_to_quality] are inverse to each other for every accurate [pow]. *)
From Verif Require Import Base Arith Pal World Attr Ieee Order IeeeFacts SpecPow AttrFacts.
From Flocq Require Import IEEE754.BinarySingleNaN Core.Core.
From Coq Require Import Reals Lra ZifyBool.
Open Scope R_scope.

Section Quality.
Variable pow32 : b32 -> b32 -> b32.
Variable pow64 : b64 -> b64 -> b64.
Notation I := (ieee pow32 pow64).

Notation "a [+] b" := (Bplus mode_NE a b) (at level 50, left associativity).
Notation "a [-] b" := (Bminus mode_NE a b) (at level 50, left associativity).
Notation "a [*] b" := (Bmult mode_NE a b) (at level 40, left associativity).
Notation "a [/] b" := (Bdiv mode_NE a b) (at level 40, left associativity).
Definition lit (p q : Z) : b64 := BofZ 53 1024 p [/] BofZ 53 1024 q.
Definition Di (z : Z) : b64 := BofZ 53 1024 z.

Definition fudge (q : Z) : b64 := Bmax (lit 16 1000 [/] (lit 1 1000 [+] Di q) [-] lit 1 1000) (Di 0).
Definition body (q : Z) (p : b64) : b64 :=
  lit 45 100 [*] (fudge q [+] lit 25 10 [/] p [*] (lit 1001 10 [-] Di q) [/] Di 100).

Lemma q2m_body q : (1 <= q <= 99)%Z ->
  @quality_to_mse I q = body q (pow64 (Di 210 [+] Di q) (lit 12 10)).
Proof.
  intros H. unfold quality_to_mse. destruct (q =? 0)%Z eqn:E1; [lia|].
  destruct (100 <=? q)%Z eqn:E2; [lia|]. reflexivity.
Qed.

(** A boolean check giving everything needed for the interval evaluation. *)
Definition fin (x : b64) : bool := is_finite x.
Definition nonneg (x : b64) : bool := Bleb (B754_zero false) x.
Definition pos (x : b64) : bool := Bltb (B754_zero false) x.

Lemma nonneg_R x : fin x = true -> nonneg x = true -> 0 <= B2R x.
Proof. intros F H. apply Bleb_fin in H; auto. Qed.
Lemma pos_R x : fin x = true -> pos x = true -> 0 < B2R x.
Proof. intros F H. apply Bltb_fin in H; auto. Qed.

Definition body_check (q : Z) (lo hi : b64) : bool :=
  fin lo && fin hi && pos lo && Bleb lo hi &&
  fin (lit 25 10) && nonneg (lit 25 10) &&
  fin (lit 25 10 [/] hi) && fin (lit 25 10 [/] lo) && nonneg (lit 25 10 [/] hi) &&
  fin (lit 1001 10 [-] Di q) && nonneg (lit 1001 10 [-] Di q) &&
  fin (lit 25 10 [/] hi [*] (lit 1001 10 [-] Di q)) && fin (lit 25 10 [/] lo [*] (lit 1001 10 [-] Di q)) &&
  nonneg (lit 25 10 [/] hi [*] (lit 1001 10 [-] Di q)) &&
  fin (Di 100) && pos (Di 100) &&
  fin (lit 25 10 [/] hi [*] (lit 1001 10 [-] Di q) [/] Di 100) &&
  fin (lit 25 10 [/] lo [*] (lit 1001 10 [-] Di q) [/] Di 100) &&
  fin (fudge q) &&
  fin (fudge q [+] lit 25 10 [/] hi [*] (lit 1001 10 [-] Di q) [/] Di 100) &&
  fin (fudge q [+] lit 25 10 [/] lo [*] (lit 1001 10 [-] Di q) [/] Di 100) &&
  nonneg (fudge q [+] lit 25 10 [/] hi [*] (lit 1001 10 [-] Di q) [/] Di 100) &&
  fin (lit 45 100) && nonneg (lit 45 100) &&
  fin (body q lo) && fin (body q hi) && nonneg (body q hi).

Lemma body_within q lo hi p : body_check q lo hi = true -> within lo hi p ->
  within (body q hi) (body q lo) (body q p) /\ 0 <= B2R (body q hi).
Proof.
  unfold body_check. intros H Hp. rewrite !andb_true_iff in H.
  repeat match goal with H : _ /\ _ |- _ => destruct H end.
  repeat match goal with
  | H : nonneg ?x = true |- _ => apply nonneg_R in H; [|assumption]
  | H : pos ?x = true |- _ => apply pos_R in H; [|assumption]
  end.
  split; [|assumption].
  unfold body at 3.
  apply within_mult; auto using within_refl.
  apply within_plus; auto using within_refl.
  apply within_div; auto using within_refl.
  apply within_mult; auto using within_refl.
  apply within_div; auto using within_refl.
Qed.

(** Bracketing x^1.2 through fifth powers. *)
Definition parts (f : b64) : option (Z * Z) :=
  match f with B754_finite false m e _ => Some (Zpos m, e) | _ => None end.
Definition root_lo (x : Z) (f : b64) : bool :=
  match parts f with
  | Some (m, e) => (e <? 0)%Z && ((m * (2 ^ 21 + 1)) ^ 5 <=? x ^ 6 * 2 ^ (- 5 * e) * 2 ^ 105)%Z
  | None => false
  end.
Definition root_hi (x : Z) (f : b64) : bool :=
  match parts f with
  | Some (m, e) => (e <? 0)%Z && (x ^ 6 * 2 ^ (- 5 * e) * 2 ^ 105 <=? (m * (2 ^ 21 - 1)) ^ 5)%Z
  | None => false
  end.

Lemma parts_R f m e : parts f = Some (m, e) -> is_finite f = true /\ B2R f = IZR m * bpow radix2 e.
Proof.
  destruct f as [s|s| |s m' e' B]; cbn; try discriminate. destruct s; try discriminate.
  intros H; inversion H; subst. split; auto.
Qed.

Lemma pow5_le a b : 0 <= a -> 0 <= b -> a ^ 5 <= b ^ 5 -> a <= b.
Proof.
  intros Ha Hb H. destruct (Rle_lt_dec a b) as [|L]; auto. exfalso.
  assert (b ^ 5 < a ^ 5); [|lra].
  assert (0 <= b * b) by nra. assert (b * b < a * a) by nra.
  assert (b * b * (b * b) < a * a * (a * a)) by (apply Rmult_le_0_lt_compat; lra).
  assert (b * b * (b * b) * b < a * a * (a * a) * a).
  { apply Rmult_le_0_lt_compat; try lra. nra. }
  cbn. lra.
Qed.

Lemma rpower_6_5 x : 0 < x -> Rpower x (6 / 5) ^ 5 = x ^ 6.
Proof.
  intros Hx. rewrite <- (Rpower_pow 5) by apply exp_pos. rewrite Rpower_mult.
  replace (6 / 5 * INR 5) with (INR 6) by (cbn; lra). apply Rpower_pow; auto.
Qed.

Lemma bpow_neg_pow e : (e < 0)%Z -> bpow radix2 e ^ 5 * IZR (2 ^ (-5 * e)) = 1.
Proof.
  intros H. rewrite (IZR_Zpower radix2) by lia. cbn [pow].
  rewrite Rmult_1_r. rewrite <- !bpow_plus. replace (_ + _)%Z with 0%Z by lia. reflexivity.
Qed.

Lemma root_lo_R x f : (0 < x)%Z -> root_lo x f = true ->
  is_finite f = true /\ 0 < B2R f /\ B2R f * (1 + bpow radix2 (-21)) <= Rpower (IZR x) (6 / 5).
Proof.
  intros Hx. unfold root_lo. destruct (parts f) as [[m e]|] eqn:P; [|discriminate].
  intros H. apply andb_prop in H as [He Hm]. apply Z.ltb_lt in He. apply Z.leb_le in Hm.
  assert (Pm : (0 < m)%Z) by (destruct f as [s|s| |s m' e' B]; cbn in P; try discriminate; destruct s; inversion P; lia).
  apply parts_R in P as [F V]. rewrite V. split; auto.
  assert (B : 0 < bpow radix2 e) by apply bpow_gt_0. apply IZR_lt in Pm, Hx.
  split; [apply Rmult_lt_0_compat; auto|].
  apply pow5_le.
  - apply Rmult_le_pos; [nra|]. pose proof (bpow_ge_0 radix2 (-21)). lra.
  - left; apply exp_pos.
  - rewrite rpower_6_5 by auto.
    apply IZR_le in Hm. rewrite !mult_IZR in Hm.
    replace ((m * (2 ^ 21 + 1)) ^ 5)%Z with (m * (2 ^ 21 + 1) * (m * (2 ^ 21 + 1)) * (m * (2 ^ 21 + 1)) * (m * (2 ^ 21 + 1)) * (m * (2 ^ 21 + 1)))%Z in Hm by ring.
    replace (x ^ 6)%Z with (x * x * x * x * x * x)%Z in Hm by ring.
    rewrite !mult_IZR in Hm. set (T := IZR (2 ^ 21 + 1)) in *.
    assert (E1 : IZR (2 ^ 105) = (2 ^ 21) ^ 5) by (rewrite <- pow_mult; rewrite pow_IZR; reflexivity).
    assert (E2 : 1 + bpow radix2 (-21) = T / 2 ^ 21).
    { unfold T. cbn [bpow]. rewrite plus_IZR. replace (IZR (2 ^ 21)) with (2 ^ 21) by (rewrite pow_IZR; reflexivity).
      replace (IZR (Z.pow_pos radix2 21)) with (2 ^ 21) by (rewrite pow_IZR; reflexivity). field. }
    rewrite E2. rewrite E1 in Hm. pose proof (bpow_neg_pow e He) as E3.
    set (b := bpow radix2 e) in *. set (w := IZR (2 ^ (-5 * e))) in *.
    assert (Pw : 0 < w). { unfold w. apply (IZR_lt 0). apply Z.pow_pos_nonneg; lia. }
    assert (b5 : b ^ 5 = / w). { apply Rmult_eq_reg_r with w; [|lra]. rewrite E3. field; lra. }
    replace ((IZR m * b * (T / 2 ^ 21)) ^ 5) with
      ((IZR m * T * (IZR m * T) * (IZR m * T) * (IZR m * T) * (IZR m * T)) * b ^ 5 * / (2 ^ 21) ^ 5) by (field).
    rewrite b5. apply Rmult_le_reg_r with (w * (2 ^ 21) ^ 5); [apply Rmult_lt_0_compat; auto; apply pow_lt; lra|].
    replace (IZR m * T * (IZR m * T) * (IZR m * T) * (IZR m * T) * (IZR m * T) * / w * / (2 ^ 21) ^ 5 * (w * (2 ^ 21) ^ 5))
      with (IZR m * T * (IZR m * T) * (IZR m * T) * (IZR m * T) * (IZR m * T)) by (field; lra).
    replace (IZR x ^ 6 * (w * (2 ^ 21) ^ 5)) with (IZR x * IZR x * IZR x * IZR x * IZR x * IZR x * w * (2 ^ 21) ^ 5) by ring.
    exact Hm.
Qed.

Lemma root_hi_R x f : (0 < x)%Z -> root_hi x f = true ->
  is_finite f = true /\ Rpower (IZR x) (6 / 5) <= B2R f * (1 - bpow radix2 (-21)).
Proof.
  intros Hx. unfold root_hi. destruct (parts f) as [[m e]|] eqn:P; [|discriminate].
  intros H. apply andb_prop in H as [He Hm]. apply Z.ltb_lt in He. apply Z.leb_le in Hm.
  assert (Pm : (0 < m)%Z) by (destruct f as [s|s| |s m' e' B]; cbn in P; try discriminate; destruct s; inversion P; lia).
  apply parts_R in P as [F V]. rewrite V. split; auto.
  assert (B : 0 < bpow radix2 e) by apply bpow_gt_0. apply IZR_lt in Pm, Hx.
  apply pow5_le.
  - left; apply exp_pos.
  - apply Rmult_le_pos; [nra|]. assert (bpow radix2 (-21) <= bpow radix2 0) by (apply bpow_le; lia). cbn in H. cbn. lra.
  - rewrite rpower_6_5 by auto.
    apply IZR_le in Hm. rewrite !mult_IZR in Hm.
    replace ((m * (2 ^ 21 - 1)) ^ 5)%Z with (m * (2 ^ 21 - 1) * (m * (2 ^ 21 - 1)) * (m * (2 ^ 21 - 1)) * (m * (2 ^ 21 - 1)) * (m * (2 ^ 21 - 1)))%Z in Hm by ring.
    replace (x ^ 6)%Z with (x * x * x * x * x * x)%Z in Hm by ring.
    rewrite !mult_IZR in Hm. set (T := IZR (2 ^ 21 - 1)) in *.
    assert (E1 : IZR (2 ^ 105) = (2 ^ 21) ^ 5) by (rewrite <- pow_mult; rewrite pow_IZR; reflexivity).
    assert (E2 : 1 - bpow radix2 (-21) = T / 2 ^ 21).
    { unfold T. cbn [bpow]. rewrite minus_IZR. replace (IZR (2 ^ 21)) with (2 ^ 21) by (rewrite pow_IZR; reflexivity).
      replace (IZR (Z.pow_pos radix2 21)) with (2 ^ 21) by (rewrite pow_IZR; reflexivity). field. }
    rewrite E2. rewrite E1 in Hm. pose proof (bpow_neg_pow e He) as E3.
    set (b := bpow radix2 e) in *. set (w := IZR (2 ^ (-5 * e))) in *.
    assert (Pw : 0 < w). { unfold w. apply (IZR_lt 0). apply Z.pow_pos_nonneg; lia. }
    assert (b5 : b ^ 5 = / w). { apply Rmult_eq_reg_r with w; [|lra]. rewrite E3. field; lra. }
    replace ((IZR m * b * (T / 2 ^ 21)) ^ 5) with
      ((IZR m * T * (IZR m * T) * (IZR m * T) * (IZR m * T) * (IZR m * T)) * b ^ 5 * / (2 ^ 21) ^ 5) by (field).
    rewrite b5. apply Rmult_le_reg_r with (w * (2 ^ 21) ^ 5); [apply Rmult_lt_0_compat; auto; apply pow_lt; lra|].
    replace (IZR m * T * (IZR m * T) * (IZR m * T) * (IZR m * T) * (IZR m * T) * / w * / (2 ^ 21) ^ 5 * (w * (2 ^ 21) ^ 5))
      with (IZR m * T * (IZR m * T) * (IZR m * T) * (IZR m * T) * (IZR m * T)) by (field; lra).
    replace (IZR x ^ 6 * (w * (2 ^ 21) ^ 5)) with (IZR x * IZR x * IZR x * IZR x * IZR x * IZR x * w * (2 ^ 21) ^ 5) by ring.
    exact Hm.
Qed.

(** The double nearest to 1.2 is 1.2 - 2^-52/5. *)
Lemma lit12_R : is_finite (lit 12 10) = true /\ B2R (lit 12 10) = 5404319552844595 * bpow radix2 (-52).
Proof. apply (parts_R (lit 12 10) 5404319552844595 (-52)). vm_compute. reflexivity. Qed.

Lemma bp_m40 : bpow radix2 (-40) = / 1099511627776. Proof. reflexivity. Qed.
Lemma bp_m21 : bpow radix2 (-21) = / 2097152. Proof. reflexivity. Qed.

Lemma exp_2 : exp 1 <= 4.
Proof. apply Rle_trans with 3; [apply exp_le_3|lra]. Qed.

Lemma rpower_12 (x : Z) : (200 <= x <= 400)%Z ->
  Rpower (IZR x) (6 / 5) * (1 - bpow radix2 (-40)) <= Rpower (IZR x) (B2R (lit 12 10)) <= Rpower (IZR x) (6 / 5) /\
  1 <= Rpower (IZR x) (6 / 5) <= 1600000.
Proof.
  intros [X1 X2]. apply IZR_le in X1, X2. destruct lit12_R as [_ E]. rewrite E.
  change (bpow radix2 (-52)) with (/ 4503599627370496).
  assert (L1 : 0 < ln (IZR x)). { rewrite <- ln_1. apply ln_increasing; lra. }
  assert (L2 : ln (IZR x) <= 10).
  { rewrite <- (ln_exp 10). destruct (Rle_lt_or_eq_dec _ _ X2) as [X|X].
    - left. apply ln_increasing; [lra|]. apply Rlt_le_trans with 400; auto.
      assert (H := exp_ineq1 1 ltac:(lra)).
      replace 10 with (1+1+1+1+1+1+1+1+1+1) by lra. rewrite !exp_plus. 
      assert (2 <= exp 1) by lra. set (e := exp 1) in *.
      assert (4 <= e * e) by nra. assert (8 <= e * e * e) by nra. assert (16 <= e * e * e * e) by nra.
      assert (32 <= e * e * e * e * e) by nra. assert (64 <= e * e * e * e * e * e) by nra.
      assert (128 <= e * e * e * e * e * e * e) by nra. assert (256 <= e * e * e * e * e * e * e * e) by nra.
      assert (512 <= e * e * e * e * e * e * e * e * e) by nra. nra.
    - left. rewrite X. apply ln_increasing; [lra|].
      assert (H := exp_ineq1 1 ltac:(lra)).
      replace 10 with (1+1+1+1+1+1+1+1+1+1) by lra. rewrite !exp_plus. 
      assert (2 <= exp 1) by lra. set (e := exp 1) in *.
      assert (4 <= e * e) by nra. assert (8 <= e * e * e) by nra. assert (16 <= e * e * e * e) by nra.
      assert (32 <= e * e * e * e * e) by nra. assert (64 <= e * e * e * e * e * e) by nra.
      assert (128 <= e * e * e * e * e * e * e) by nra. assert (256 <= e * e * e * e * e * e * e * e) by nra.
      assert (512 <= e * e * e * e * e * e * e * e * e) by nra. nra. }
  unfold Rpower. set (l := ln (IZR x)) in *.
  set (y := 5404319552844595 * / 4503599627370496).
  set (d := 6 / 5 - y). assert (Hd : 0 <= d <= / 10995116277760000). { unfold d, y. lra. }
  replace (y * l) with (6 / 5 * l + - (d * l)) by (unfold d; ring). rewrite exp_plus.
  pose proof (exp_pos (6 / 5 * l)) as P. split.
  - assert (Dl : 0 <= d * l <= / 1099511627776).
    { split; [nra|]. apply Rle_trans with (/ 10995116277760000 * 10); [|lra]. apply Rmult_le_compat; lra. }
    assert (E1 : 1 + - (d * l) <= exp (- (d * l))).
    { destruct (Req_dec (d * l) 0) as [Z|Z]; [rewrite Z, Ropp_0, exp_0; lra|]. left. apply exp_ineq1. lra. }
    assert (E2 : exp (- (d * l)) <= 1).
    { rewrite <- exp_0. destruct (Req_dec (d * l) 0) as [Z|Z]; [rewrite Z, Ropp_0; lra|]. left. apply exp_increasing. lra. }
    rewrite bp_m40. split.
    + apply Rmult_le_compat_l; lra.
    + rewrite <- (Rmult_1_r (exp (6 / 5 * l))) at 2. apply Rmult_le_compat_l; lra.
  - split.
    + rewrite <- exp_0. destruct (Req_dec l 0); [lra|]. left. apply exp_increasing. nra.
    + replace (6 / 5 * l) with (l + / 5 * l) by field. rewrite exp_plus.
      unfold l at 1. rewrite exp_ln by lra.
      assert (exp (/ 5 * l) <= 9).
      { apply Rle_trans with (exp (1 + 1)).
        - destruct (Req_dec (/ 5 * l) (1 + 1)) as [Q|Q]; [rewrite Q; lra|]. left. apply exp_increasing. lra.
        - rewrite exp_plus. pose proof exp_le_3. pose proof (exp_pos 1). nra. }
      pose proof (exp_pos (/ 5 * l)). nra.
Qed.

Lemma pow_bracket x fx lo hi : (200 <= x <= 400)%Z -> pow64_accurate pow64 ->
  is_finite fx = true -> B2R fx = IZR x ->
  root_lo x lo = true -> root_hi x hi = true -> within lo hi (pow64 fx (lit 12 10)).
Proof.
  intros Hx Acc F V Lo Hi.
  apply root_lo_R in Lo as (Lo1 & Lo2 & Lo3); [|lia]. apply root_hi_R in Hi as (Hi1 & Hi2); [|lia].
  pose proof (rpower_12 x Hx) as [[P1 P2] [P3 P4]]. set (P := Rpower (IZR x) (6 / 5)) in *.
  destruct lit12_R as [F12 _].
  assert (S1 : bpow radix2 (-1000) <= / 2).
  { change (/ 2) with (bpow radix2 (-1)). apply bpow_le. lia. }
  assert (S2 : 1600000 <= bpow radix2 1000).
  { apply Rle_trans with (bpow radix2 30); [|apply bpow_le; lia]. cbn. lra. }
  rewrite bp_m40 in P1.
  destruct (Acc fx (lit 12 10) F F12) as [A1 A2]; rewrite ?V.
  - apply IZR_lt. lia.
  - lra.
  - rewrite V in A2. set (Q := Rpower (IZR x) (B2R (lit 12 10))) in *. apply Rabs_le_inv in A2.
    rewrite bp_m40 in A2. rewrite bp_m21 in *. repeat split; auto; lra.
Qed.

(** The table: for each quality, bounds on the threshold. *)
Definition root5 (n : Z) : Z :=
  fold_left (fun r b => if ((r + b) ^ 5 <=? n)%Z then (r + b)%Z else r)
    (map (fun i => 2 ^ Z.of_nat i)%Z (rev (seq 0 24))) 0%Z.
Definition pk (q : Z) : Z := root5 ((210 + q) ^ 6 * 4096 ^ 5).
Definition plo (q : Z) : b64 := lit (pk q - 3) 4096.
Definition phi (q : Z) : b64 := lit (pk q + 4) 4096.

Definition qs : list Z := map Z.of_nat (seq 1 99).
Definition eps : b64 := lit 1 1000000.
Definition big20 : b64 := Di (10 ^ 20).
Definition entry := (Z * b64 * b64)%type.
Definition qtable : list entry := (0%Z, big20, big20) :: map (fun q => (q, body q (phi q), body q (plo q))) qs
  ++ [(100%Z, B754_zero false, B754_zero false)].
Definition row_ok (q : Z) : bool :=
  root_lo (210 + q) (plo q) && root_hi (210 + q) (phi q) && body_check q (plo q) (phi q) &&
  fin (Di 210 [+] Di q) && Beqb (Di 210 [+] Di q) (Di (210 + q)).
Definition sep_ok (t : list entry) : bool :=
  forallb (fun a => forallb (fun b =>
    match a, b with (q, lo, hi), (j, lo', hi') =>
      if (q <? j)%Z then fin (hi' [+] eps) && Bltb (hi' [+] eps) lo else true end) t) t &&
  forallb (fun a => match a with (q, lo, hi) =>
      fin (lo [+] eps) && fin (hi [+] eps) && fin lo && fin hi && nonneg lo end) t.

Lemma rows_all_ok : forallb row_ok qs = true.
Proof. vm_compute. reflexivity. Qed.
Lemma qtable_sep : sep_ok qtable = true.
Proof. vm_compute. reflexivity. Qed.

Lemma in_table_0 : In (0%Z, big20, big20) qtable.
Proof. unfold qtable. apply in_eq. Qed.
Lemma in_table_100 : In (100%Z, B754_zero false, B754_zero false) qtable.
Proof. unfold qtable. apply in_cons, in_or_app. right. apply in_eq. Qed.
Lemma in_table q : In q qs -> In (q, body q (phi q), body q (plo q)) qtable.
Proof.
  intros H. unfold qtable. apply in_cons, in_or_app. left.
  exact (in_map (fun q => (q, body q (phi q), body q (plo q))) qs q H).
Qed.
Lemma q2m_0 : @quality_to_mse I 0 = big20. Proof. reflexivity. Qed.
Lemma q2m_100 : @quality_to_mse I 100 = B754_zero false. Proof. reflexivity. Qed.
Lemma big20_fin : is_finite big20 = true. Proof. vm_compute. reflexivity. Qed.
Lemma in_qs q : (1 <= q <= 99)%Z -> In q qs.
Proof.
  intros H. unfold qs. apply in_map_iff. exists (Z.to_nat q). split; [lia|]. apply in_seq. lia.
Qed.
Lemma row_ok_q q : (1 <= q <= 99)%Z -> row_ok q = true.
Proof.
  intros H. pose proof rows_all_ok as R. rewrite forallb_forall in R. exact (R q (in_qs q H)).
Qed.
Lemma float_210 q : (1 <= q <= 99)%Z -> is_finite (Di 210 [+] Di q) = true ->
  Beqb (Di 210 [+] Di q) (Di (210 + q)) = true -> B2R (Di 210 [+] Di q) = IZR (210 + q).
Proof.
  intros H F E. destruct (BofZ_exact 53 1024 (210 + q) ltac:(lia) ltac:(lia) ltac:(lia)) as [E1 E2].
  rewrite <- E2. rewrite Beqb_correct in E; auto. revert E. case Req_bool_spec; intros; auto; discriminate.
Qed.
Lemma row_ok_parts q : row_ok q = true ->
  root_lo (210 + q) (plo q) = true /\ root_hi (210 + q) (phi q) = true /\ body_check q (plo q) (phi q) = true /\
  is_finite (Di 210 [+] Di q) = true /\ Beqb (Di 210 [+] Di q) (Di (210 + q)) = true.
Proof.
  unfold row_ok. intros R. apply andb_prop in R as [R R5]. apply andb_prop in R as [R R4].
  apply andb_prop in R as [R R3]. apply andb_prop in R as [R1 R2]. auto.
Qed.
Lemma row_within q : (1 <= q <= 99)%Z -> pow64_accurate pow64 ->
  within (body q (phi q)) (body q (plo q)) (body q (pow64 (Di 210 [+] Di q) (lit 12 10))).
Proof.
  intros H Acc. destruct (row_ok_parts q (row_ok_q q H)) as (R1 & R2 & R3 & R4 & R5).
  refine (proj1 (body_within q (plo q) (phi q) _ R3 _)).
  refine (pow_bracket (210 + q)%Z _ _ _ _ Acc R4 (float_210 q H R4 R5) R1 R2). lia.
Qed.

Lemma qtable_entry q : (0 <= q <= 100)%Z -> exists lo hi, In (q, lo, hi) qtable /\
  (pow64_accurate pow64 -> within lo hi (@quality_to_mse I q)).
Proof.
  intros Hq. destruct (Z.eq_dec q 0) as [->|N0].
  { exists big20, big20. split; [exact in_table_0|]. intros _. rewrite q2m_0. apply within_refl. exact big20_fin. }
  destruct (Z.eq_dec q 100) as [->|N1].
  { exists (B754_zero false), (B754_zero false). split; [exact in_table_100|].
    intros _. rewrite q2m_100. apply within_refl. reflexivity. }
  exists (body q (phi q)), (body q (plo q)).
  assert (H : (1 <= q <= 99)%Z) by lia. split; [exact (in_table q (in_qs q H))|].
  intros Acc. rewrite (q2m_body q H). exact (row_within q H Acc).
Qed.

Lemma sep_gen t q j lo hi lo' hi' : sep_ok t = true -> In (q, lo, hi) t -> In (j, lo', hi') t -> (q < j)%Z ->
  is_finite (hi' [+] eps) = true /\ Bltb (hi' [+] eps) lo = true.
Proof.
  intros S H1 H2 L. unfold sep_ok in S. apply andb_prop in S as [S _].
  rewrite forallb_forall in S. specialize (S _ H1). cbn beta iota in S. rewrite forallb_forall in S.
  specialize (S _ H2). cbn beta iota in S. apply Z.ltb_lt in L. rewrite L in S.
  apply andb_prop in S as [S1 S2]. auto.
Qed.
Lemma entry_fin_gen t q lo hi : sep_ok t = true -> In (q, lo, hi) t ->
  is_finite (lo [+] eps) = true /\ is_finite (hi [+] eps) = true /\ is_finite lo = true /\ is_finite hi = true /\ 0 <= B2R lo.
Proof.
  intros S H1. unfold sep_ok in S. apply andb_prop in S as [_ S].
  rewrite forallb_forall in S. specialize (S _ H1). cbn beta iota in S.
  apply andb_prop in S as [S E]. apply andb_prop in S as [S D]. apply andb_prop in S as [S C]. apply andb_prop in S as [A B].
  repeat split; auto. apply nonneg_R in E; auto.
Qed.
Lemma sep q j lo hi lo' hi' : In (q, lo, hi) qtable -> In (j, lo', hi') qtable -> (q < j)%Z ->
  is_finite (hi' [+] eps) = true /\ Bltb (hi' [+] eps) lo = true.
Proof. exact (sep_gen qtable q j lo hi lo' hi' qtable_sep). Qed.
Lemma entry_fin q lo hi : In (q, lo, hi) qtable ->
  is_finite (lo [+] eps) = true /\ is_finite (hi [+] eps) = true /\ is_finite lo = true /\ is_finite hi = true /\ 0 <= B2R lo.
Proof. exact (entry_fin_gen qtable q lo hi qtable_sep). Qed.

Lemma eps_fin : is_finite eps = true /\ 0 <= B2R eps.
Proof. split; [vm_compute; reflexivity|]. apply nonneg_R; vm_compute; reflexivity. Qed.

(** Strictly decreasing thresholds, further apart than the comparison slack. *)
Lemma thresholds_apart q j : pow64_accurate pow64 -> (0 <= q < j)%Z -> (j <= 100)%Z ->
  Bleb (@quality_to_mse I q) (@quality_to_mse I j [+] eps) = false /\
  Bltb (@quality_to_mse I j) (@quality_to_mse I q) = true.
Proof.
  intros Acc Hq Hj.
  destruct (qtable_entry q ltac:(lia)) as (lo & hi & I1 & W1). destruct (qtable_entry j ltac:(lia)) as (lo' & hi' & I2 & W2).
  specialize (W1 Acc). specialize (W2 Acc).
  destruct (sep _ _ _ _ _ _ I1 I2 ltac:(lia)) as [S1 S2]. destruct (entry_fin _ _ _ I2) as (F1 & F2 & F3 & F4 & F5).
  destruct eps_fin as [E1 E2].
  assert (W3 := within_plus 53 1024 _ _ _ _ _ _ W2 (within_refl _ _ _ E1) F1 F2).
  destruct W1 as (A1 & A2 & A3 & A4). destruct W2 as (B1 & B2 & B3 & B4). destruct W3 as (C1 & C2 & C3 & C4).
  apply Bltb_fin in S2; auto.
  split; [apply Bleb_fin_false; auto; lra|]. apply Bltb_fin; auto.
  destruct (Bplus_fin 53 1024 hi' eps B2 E1) as [G1 G2]. specialize (G1 (G2 F2)) as [_ G].
  assert (B2R hi' <= B2R (hi' [+] eps)).
  { rewrite G. rewrite <- (rnd_B2R 53 1024 hi') at 1. apply rnd_le; [exact prec64|lra]. }
  lra.
Qed.

Lemma threshold_self q : pow64_accurate pow64 -> (0 <= q <= 100)%Z ->
  Bleb (@quality_to_mse I q) (@quality_to_mse I q [+] eps) = true.
Proof.
  intros Acc Hq. destruct (qtable_entry q Hq) as (lo & hi & I1 & W1). specialize (W1 Acc).
  destruct (entry_fin _ _ _ I1) as (F1 & F2 & F3 & F4 & F5). destruct eps_fin as [E1 E2].
  assert (W3 := within_plus 53 1024 _ _ _ _ _ _ W1 (within_refl _ _ _ E1) F1 F2).
  destruct W1 as (A1 & A2 & A3 & A4). destruct W3 as (C1 & C2 & C3 & C4).
  apply Bleb_fin; auto. destruct (Bplus_fin 53 1024 _ eps A3 E1) as [G1 G2]. specialize (G1 (G2 C3)) as [_ G].
  rewrite G. rewrite <- (rnd_B2R 53 1024 (@quality_to_mse I q)) at 1. apply rnd_le; [exact prec64|lra].
Qed.

Lemma round_trip_from q i : pow64_accurate pow64 -> (0 <= q <= Z.of_nat i)%Z -> (i <= 100)%nat ->
  @mse_to_quality_from I i (@quality_to_mse I q) = q.
Proof.
  intros Acc. induction i as [|i IH]; intros Hq Hi; [cbn; lia|].
  unfold mse_to_quality_from; fold (@mse_to_quality_from I).
  destruct (Z.eq_dec q (Z.of_nat (S i))) as [->|N].
  - pose proof (threshold_self (Z.of_nat (S i)) Acc ltac:(lia)) as T.
    change (@dle I _ _) with (Bleb (@quality_to_mse I (Z.of_nat (S i))) (@quality_to_mse I (Z.of_nat (S i)) [+] eps)).
    rewrite T. auto.
  - destruct (thresholds_apart q (Z.of_nat (S i)) Acc ltac:(lia) ltac:(lia)) as [T _].
    change (@dle I _ _) with (Bleb (@quality_to_mse I q) (@quality_to_mse I (Z.of_nat (S i)) [+] eps)).
    rewrite T. apply IH; lia.
Qed.

Lemma round_trip : pow64_accurate pow64 -> @quality_round_trip I.
Proof.
  intros Acc. split.
  - intros q Hq. apply round_trip_from; auto; cbn; lia.
  - change (@d0 I) with (@quality_to_mse I 100). apply round_trip_from; auto; cbn; lia.
Qed.
End Quality.

(** * The statements used by PropAttr.v *)
Open Scope Z_scope.
From Verif Require Import SpecAttr.

Lemma settings_spec : forall pow32 pow64, pow64_accurate pow64 ->
  forall cs c, Forall call_typed cs -> call_typed c ->
  let A := ieee pow32 pow64 in
  observe (run_calls cs) = spec_run cs /\
  (if call_valid c
   then exists a', apply_call (run_calls cs) c = Ok a' /\ observe a' = spec_set (spec_run cs) c
   else apply_call (run_calls cs) c = Err ValueOutOfRange).
Proof.
  intros pow32 pow64 Acc cs c Hcs Hc A. pose proof (round_trip pow32 pow64 Acc) as RT.
  pose proof (run_calls_spec cs RT Hcs) as E. split; auto.
  destruct (apply_call_accepts (run_calls cs) c Hc) as [H1 H2]. destruct (call_valid c).
  - destruct (H1 eq_refl) as (a' & E'). exists a'. split; auto. rewrite <- E.
    apply (apply_call_observe (run_calls cs) c a' RT Hc E').
  - auto.
Qed.

Lemma quality_reads_back : forall pow32 pow64, pow64_accurate pow64 ->
  let A := ieee pow32 pow64 in
  (forall a mn tg, 0 <= mn <= tg -> tg <= 100 ->
     exists a', set_quality a mn tg = Ok a' /\ get_quality a' = (mn, tg)) /\
  get_quality attrs_new = (0, 100).
Proof.
  intros pow32 pow64 Acc A. pose proof (round_trip pow32 pow64 Acc) as RT. split.
  - intros a mn tg H1 H2.
    assert (Hc : call_typed (CallQuality mn tg)) by (cbn; lia).
    destruct (apply_call_accepts a (CallQuality mn tg) Hc) as [V _].
    destruct V as (a' & E). { cbn. lia. }
    exists a'. split; [exact E|]. destruct (apply_call_observe a _ a' RT Hc E) as [Ob _].
    apply (f_equal s_quality) in Ob. exact Ob.
  - pose proof (run_calls_spec [] RT (Forall_nil _)) as E. apply (f_equal s_quality) in E. exact E.
Qed.

Lemma quality_scale : forall pow32 pow64, let A := ieee pow32 pow64 in
  (forall e e' : f64, dle e e' = true -> mse_to_quality e' <= mse_to_quality e) /\
  (forall e : f64, 0 <= mse_to_quality e <= 100) /\
  (forall e : f64, is_nan e = true -> mse_to_quality e = 0) /\
  (forall e : f64, mse_to_quality e = 100 -> dle e (dadd d0 (dlit 1 1000000)) = true) /\
  (forall e : f64,
     (0 < mse_to_quality e -> dle e (dadd (quality_to_mse (mse_to_quality e)) (dlit 1 1000000)) = true) /\
     (forall j, mse_to_quality e < j <= 100 -> dle e (dadd (quality_to_mse j) (dlit 1 1000000)) = false)).
Proof.
  intros pow32 pow64 A.
  assert (C : forall e : f64,
     (0 < mse_to_quality e -> dle e (dadd (quality_to_mse (mse_to_quality e)) (dlit 1 1000000)) = true) /\
     (forall j, mse_to_quality e < j <= 100 -> dle e (dadd (quality_to_mse j) (dlit 1 1000000)) = false)).
  { intros e. exact (mtq_char 100 e). }
  split; [|split; [|split; [|split; [|exact C]]]].
  - intros e e' H. exact (mtq_mono 100 e e' H).
  - intros e. exact (mtq_range 100 e).
  - intros e H. apply (mtq_nan 100 e). destruct e; cbn in H; try discriminate. reflexivity.
  - intros e H. destruct (C e) as [C1 _]. rewrite H in C1.
    change (@d0 A) with (@quality_to_mse A 100). apply C1. lia.
Qed.

Lemma thresholds_decrease : forall pow32 pow64, pow64_accurate pow64 ->
  let A := ieee pow32 pow64 in
  forall q j, 0 <= q < j -> j <= 100 -> dlt (quality_to_mse j) (quality_to_mse q) = true.
Proof. intros pow32 pow64 Acc A q j H1 H2. exact (proj2 (thresholds_apart pow32 pow64 q j Acc H1 H2)). Qed.

Lemma work_plan : forall (A : Arith) cs n m known, (n <= m)%nat ->
  let a := run_calls cs in
  (0 <= a_st1 a /\ 0 <= a_st2 a /\ 0 <= a_st3 a /\ a_st1 a + a_st2 a + a_st3 a = 100) /\
  0 <= feedback_loop_trials a m <= feedback_loop_trials a n /\ feedback_loop_trials a n <= 47 /\
  0 <= fst (kmeans_iterations a m known) <= fst (kmeans_iterations a n known) /\
  fst (kmeans_iterations a n known) <= 31.
Proof.
  intros A cs n m known H a. pose proof (run_calls_plan cs) as P. fold a in P.
  split; [|exact (passes_bounded a n m known P H)]. destruct P as (P1 & P2 & P3 & P4 & _). auto.
Qed.
