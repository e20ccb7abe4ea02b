(** Converting with another output gamma gives other colours. *)
From Verif Require Import Base BaseFacts Arith Ieee Order IeeeFacts SpecPow Pal World Attr Hist MedianCut Nearest Kmeans Blur ImageM Quant Remap
  SpecHist SpecImage SpecAttr AttrFacts ImageFacts Api LnFacts ColorFacts USeq.
From Flocq Require Import IEEE754.BinarySingleNaN Core.Core.
From Coq Require Import Reals Lra.
Open Scope R_scope.

Section Channel.
Variables (pow32 : b32 -> b32 -> b32) (Acc : pow32_accurate pow32).
Notation "x [*] y" := (Bmult mode_NE x y) (at level 40, left associativity).
Notation "x [/] y" := (Bdiv mode_NE x y) (at level 40, left associativity).
(** Mid grey encoded for one gamma and shown with twice that gamma is darker. *)
Lemma channel_darker g g' (A W a : b32) lA lW la : gamma_fits g -> gamma_fits g' -> 3 / 2 <= B2R (e_in g) * B2R (e_out g') ->
  lnf A lA -> lnf W lW -> lnf a la -> Rabs lA <= 3 -> Rabs lW <= 3 -> Rabs la <= 6 ->
  (shown pow32 g' A W a (lut_at pow32 g 128) < 128)%Z.
Proof.
  intros Hg Hg' R FA FW Fa HA HW Ha. destruct (exponents g Hg) as (X1 & _ & X3 & _ & _). destruct (exponents g' Hg') as (_ & X2 & _ & X4 & _).
  assert (L8 : ln (IZR 128) = 7 * ln 2). { replace (IZR 128) with (2 ^ 7) by lra. rewrite ln_pow by lra. simpl INR. ring. }
  assert (L6 : ln (IZR 256) = 8 * ln 2). { replace (IZR 256) with (2 ^ 8) by lra. rewrite ln_pow by lra. simpl INR. ring. }
  pose proof ln2_lt as L2. 
  assert (L2' : / 2 <= ln 2). { rewrite <- (Rinv_inv 2) at 2. rewrite ln_Rinv by lra. pose proof (ln_le_sub1 (/ 2) ltac:(lra)). lra. }
  assert (L5 : 8 * ln 2 - / 100 <= ln (IZR 255) <= 8 * ln 2).
  { split; [|rewrite <- L6; apply ln_le; lra]. pose proof (ln_le_sub1 (IZR 256 / IZR 255) ltac:(lra)) as Q. rewrite ln_div in Q by lra. lra. }
  set (e1 := B2R (e_in g)) in *. set (e2 := B2R (e_out g')) in *.
  destruct (div_ln _ _ _ _ (lnf_ofZ 128 ltac:(lia)) (lnf_ofZ 255 ltac:(lia))) as (lx & Fx & Ex). { apply Rabs_le; lra. }
  apply Rabs_le_inv in Ex. set (T := ln (IZR 128) - ln (IZR 255)) in *.
  assert (TR : -1 <= T <= - ln 2 + / 100) by (unfold T; lra).
  unfold u23 in *.
  assert (B1 : Rabs (e1 * lx) <= 14).
  { rewrite Rabs_mult, (Rabs_pos_eq e1) by lra. apply Rle_trans with (24 / 10 * 2); [|lra].
    apply Rmult_le_compat; try lra. apply Rabs_pos. apply Rabs_le; lra. }
  destruct (pow_ln pow32 _ _ _ Acc Fx X1) as (ly & Fy & Ey). { fold e1. lra. }
  fold e1 in Ey. unfold u19 in Ey. apply Rabs_le_inv in B1. apply Rabs_le_inv in Ey.
  fold (lut_at pow32 g 128) in Fy.
  destruct (unweight A W a (lut_at pow32 g 128) lA lW la ly FA FW Fa Fy HA HW Ha) as (lr & Fr & Er). { apply Rabs_le; lra. }
  unfold u23 in Er. apply Rabs_le_inv in Er.
  assert (D1 : Rabs (e1 * lx - e1 * T) <= 24 / 10 * / 8388608).
  { rewrite <- Rmult_minus_distr_l, Rabs_mult, (Rabs_pos_eq e1) by lra. apply Rmult_le_compat; try lra. apply Rabs_pos. apply Rabs_le. lra. }
  apply Rabs_le_inv in D1.
  assert (D2 : Rabs (lr - e1 * T) <= 3 / 1000000). { apply Rabs_le. lra. }
  assert (B2 : Rabs (e1 * T) <= 14).
  { rewrite Rabs_mult, (Rabs_pos_eq e1) by lra. apply Rle_trans with (24 / 10 * 2); [|lra].
    apply Rmult_le_compat; try lra. apply Rabs_pos. apply Rabs_le; lra. }
  apply Rabs_le_inv in B2.
  assert (B3 : Rabs (e2 * lr) <= 27).
  { rewrite Rabs_mult, (Rabs_pos_eq e2) by lra. apply Rabs_le_inv in D2. apply Rle_trans with (18 / 10 * 15); [|lra].
    apply Rmult_le_compat; try lra. apply Rabs_pos. apply Rabs_le; lra. }
  destruct (pow_ln pow32 _ _ _ Acc Fr X2) as (lo & Fo & Eo). { fold e2. lra. }
  apply Rabs_le_inv in B3.
  fold e2 in Eo. unfold u19 in Eo. apply Rabs_le_inv in Eo.
  assert (D3 : Rabs (e2 * lr - e2 * (e1 * T)) <= 18 / 10 * (3 / 1000000)).
  { rewrite <- Rmult_minus_distr_l, Rabs_mult, (Rabs_pos_eq e2) by lra. apply Rmult_le_compat; try lra. apply Rabs_pos. }
  apply Rabs_le_inv in D3.
  assert (D4 : e2 * (e1 * T) <= 3 / 2 * T).
  { replace (e2 * (e1 * T)) with ((e1 * e2) * T) by ring. apply Rmult_le_compat_neg_l with (r := T) in R; [lra|lra]. }
  assert (D5 : lo <= 3 / 2 * T + 12 / 1000000) by lra.
  destruct (mul_ln _ _ _ _ Fo (lnf_ofZ 256 ltac:(lia))) as (lf & (F1 & F2 & F3) & Ef).
  { apply Rabs_le. lra. }
  apply Rabs_le_inv in Ef. unfold u23 in Ef.
  unfold shown. set (x := pow32 _ (e_out g') [*] _) in *.
  assert (N : B2R x < 128). { apply ln_lt_inv; lra. }
  pose proof (Zfloor_lb (B2R x)) as ZF.
  assert (T1 : Btrunc x = Zfloor (B2R x)).
  { apply eq_IZR. rewrite Btrunc_correct by reflexivity. unfold round, F2R, scaled_mantissa, cexp, FIX_exp. cbn [Fnum Fexp bpow Z.opp]. rewrite !Rmult_1_r.
    rewrite Ztrunc_floor by lra. auto. }
  assert (Z1 : (Zfloor (B2R x) < 128)%Z). { apply lt_IZR. lra. }
  destruct x as [s|s| |s m e Hb]; try discriminate; [cbn; lia|]. unfold Bto_uint. rewrite T1. lia.
Qed.
End Channel.

Definition g_default : b64 := Bdiv mode_NE (BofZ 53 1024 45455) (BofZ 53 1024 100000).
Definition g_other : b64 := Bdiv mode_NE (BofZ 53 1024 9) (BofZ 53 1024 10).
Lemma b2r_le (p e : Z) (x y : binary_float p e) : is_finite x = true -> is_finite y = true -> Bleb x y = true -> B2R x <= B2R y.
Proof. intros. apply (Bleb_fin p e); auto. Qed.
Lemma gammas_fit : gamma_fits g_default /\ gamma_fits g_other /\ 3 / 2 <= B2R (e_in g_default) * B2R (e_out g_other).
Proof.
  assert (Q : B2R (Bdiv mode_NE (BofZ 53 1024 1) (BofZ 53 1024 4)) = / 4) by (vm_compute; lra).
  assert (O : B2R (BofZ 53 1024 1) = 1) by (vm_compute; lra).
  assert (F : B2R (Bdiv mode_NE (BofZ 24 128 5) (BofZ 24 128 4)) = 5 / 4) by (vm_compute; lra).
  assert (T : B2R (Bdiv mode_NE (BofZ 24 128 3) (BofZ 24 128 2)) = 3 / 2) by (vm_compute; lra).
  split; [|split].
  - split; [vm_compute; reflexivity|]. rewrite <- Q at 1. rewrite <- O. split; apply b2r_le; vm_compute; reflexivity.
  - split; [vm_compute; reflexivity|]. rewrite <- Q at 1. rewrite <- O. split; apply b2r_le; vm_compute; reflexivity.
  - assert (H1 : 5 / 4 <= B2R (e_in g_default)) by (rewrite <- F; apply b2r_le; vm_compute; reflexivity).
    assert (H2 : 3 / 2 <= B2R (e_out g_other)) by (rewrite <- T; apply b2r_le; vm_compute; reflexivity).
    apply Rle_trans with (5 / 4 * (3 / 2)); [lra|]. apply Rmult_le_compat; lra.
Qed.

(** A result with one fixed grey colour, for any [powf]. *)
Section Grey.
Variables (pow32 : b32 -> b32 -> b32) (pow64 : b64 -> b64 -> b64).
Let Ar : Arith := ieee pow32 pow64.
Existing Instance Ar.
Definition grey : rgba := Rgba 128 128 128 255.
Definition grey_hist : @hist Ar := Hist None [(grey, 0%Z)] [] 0 (@a_max_hist Ar attrs_new).
Definition grey_u : @unspec Ar := u_seq 1 (fun _ _ => 0%nat).
Definition grey_q : @qresult Ar :=
  match hist_quantize grey_u (fun _ _ => false) attrs_new (grey_hist, world0) with
  | (Ok q, _) => q
  | _ => QResult None [] [] f1 d0 None 0 DmNone false
  end.
Definition grey_s : @hist Ar * @world Ar := snd (hist_quantize grey_u (fun _ _ => false) attrs_new (grey_hist, world0)).
Lemma grey_made : hist_quantize grey_u (fun _ _ => false) attrs_new (grey_hist, world0) = (Ok grey_q, grey_s).
Proof. exact (eq_refl (Ok grey_q, grey_s) <: hist_quantize grey_u (fun _ _ => false) attrs_new (grey_hist, world0) = (Ok grey_q, grey_s)). Qed.
Lemma grey_added : hist_add_fixed_color (hist_new attrs_new) grey d0 = Ok grey_hist.
Proof. exact (eq_refl (Ok grey_hist) <: hist_add_fixed_color (hist_new attrs_new) grey d0 = Ok grey_hist). Qed.
Lemma grey_r : result_r 256 grey_q.
Proof.
  refine (rr_hist grey_u (fun _ _ => false) attrs_new grey_hist world0 grey_q grey_s _ us_new _ grey_made).
  - apply u_seq_ok; intros; lia.
  - refine (hr_fixed _ grey d0 _ (hr_new attrs_new us_new) _ grey_added). repeat split; cbn; lia.
Qed.
Definition grey_w : b32 := match q_pal grey_q with (_, w) :: _ => w | _ => BofZ 24 128 0 end.
Lemma grey_pal : q_pal grey_q = [(from_rgba (gamma_lut (g_default : @f64 Ar)) grey, grey_w : @f32 Ar)].
Proof. exact (eq_refl (q_pal grey_q) <: q_pal grey_q = [(from_rgba (gamma_lut (g_default : @f64 Ar)) grey, grey_w : @f32 Ar)]). Qed.
Lemma grey_rest : q_rem grey_q = None /\ q_int grey_q = [] /\ q_gamma grey_q = (g_default : @f64 Ar) /\ q_post grey_q = 0%Z /\ pop_is_fixed (grey_w : @f32 Ar) = true.
Proof. repeat split; vm_compute; reflexivity. Qed.

Lemma grey_darker (Acc : pow32_accurate pow32) : to_rgb (from_rgba (gamma_lut (g_default : @f64 Ar)) grey) (g_other : @f64 Ar) <> grey.
Proof.
  assert (Q : to_rgb (from_rgba (gamma_lut (g_default : @f64 Ar)) grey) (g_other : @f64 Ar) =
    if Bltb (Bmult mode_NE (alpha 255) WA) (Bmult mode_NE (Bdiv mode_NE (BofZ 24 128 1) (BofZ 24 128 256)) WA) then Rgba 0 0 0 0
    else Rgba (shown pow32 g_other WA WR (alpha 255) (lut_at pow32 g_default 128)) (shown pow32 g_other WA WG (alpha 255) (lut_at pow32 g_default 128))
              (shown pow32 g_other WA WB (alpha 255) (lut_at pow32 g_default 128)) (Bto_uint 255 (Bmult mode_NE (Bdiv mode_NE (BofZ 24 128 256) WA) (Bmult mode_NE (alpha 255) WA)))).
  { reflexivity. }
  rewrite Q. clear Q. destruct (Bltb _ _); [discriminate|]. intros E. apply (f_equal cr) in E. cbn [cr grey] in E.
  destruct (weight_ok 625 1000) as (lA & FA & HA); try lia. destruct WR_ok as (lR & FR & HR). destruct (alpha_ln 255 ltac:(lia)) as (la & Fa & La).
  destruct gammas_fit as (G1 & G2 & G3).
  pose proof (channel_darker pow32 Acc g_default g_other WA WR (alpha 255) lA lR la G1 G2 G3 FA FR Fa HA HR La). lia.
Qed.
Definition grey_other : @qresult Ar := QResult None (q_pal grey_q) [] f1 (g_other : @f64 Ar) (q_err grey_q) 0 (q_dmap grey_q) (q_single grey_q).
Lemma other_accepted (q : @qresult Ar) : set_output_gamma q (g_other : @f64 Ar) =
  Ok (QResult None (q_pal q) (q_int q) (q_dither q) (g_other : @f64 Ar) (q_err q) (q_post q) (q_dmap q) (q_single q)).
Proof. unfold set_output_gamma. replace ((g_other : @f64 Ar) <=d d0) with false by (vm_compute; reflexivity). replace (Arith.d1 <=d (g_other : @f64 Ar)) with false by (vm_compute; reflexivity). reflexivity. Qed.
Lemma rgba_map0 k : rgba_map (fun v : Z => posterize_channel v 0) k = k.
Proof. destruct k; reflexivity. Qed.
(** The same setting gives different palettes depending on whether palette()
    was called before it. *)
Lemma gamma_order_matters (Acc : pow32_accurate pow32) : exists q g q1 q2, result_r 256 q /\
  set_output_gamma q g = Ok q1 /\ set_output_gamma (snd (palette q)) g = Ok q2 /\ fst (palette q1) <> fst (palette q2).
Proof.
  exists grey_q, (g_other : @f64 Ar). eexists _, _. split; [exact grey_r|]. split; [apply other_accepted|]. split; [apply other_accepted|].
  destruct grey_rest as (R & I & G & P & F).
  assert (Sh : snd (int_entry (g_default : @f64 Ar) 0 (from_rgba (gamma_lut (g_default : @f64 Ar)) grey, grey_w : @f32 Ar)) = grey).
  { unfold int_entry. cbn [fst snd]. rewrite rgba_map0.
    pose proof (round_trip_color pow32 pow64 Acc g_default grey (proj1 gammas_fit)) as RT. fold Ar in RT. rewrite RT; [|repeat split; cbn; lia|discriminate].
    rewrite F. cbn [negb]. rewrite Bool.andb_false_r. auto. }
  assert (So : snd (int_entry (g_other : @f64 Ar) 0 (from_rgba (gamma_lut (g_default : @f64 Ar)) grey, grey_w : @f32 Ar)) <> grey).
  { unfold int_entry. cbn [fst snd]. rewrite rgba_map0, F. cbn [negb]. rewrite Bool.andb_false_r. apply grey_darker; auto. }
  unfold palette. cbn [q_rem q_int q_pal q_gamma q_post]. rewrite R, I, grey_pal, G, P. cbn [init_int_palette map snd fst q_int q_pal q_gamma q_post].
  rewrite Sh. intros E. apply So. exact (f_equal (fun l => hd grey l) E).
Qed.
End Grey.
