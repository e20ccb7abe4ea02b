(** Floating point: the palette search returns a colour that is, up to 2^-17,
    as near as any other, whatever the hint. *)
From Coq Require Import Reals Lra.
From Verif Require Import Base BaseFacts Arith Ieee IeeeFacts Order Pal Nearest SearchFacts NearFacts TreeFacts RealArith NearReal SmallFloat
  MedianIeee AvgIeee SimdFacts MetricIeee.
From Flocq Require Import IEEE754.BinarySingleNaN Core.Core.
Open Scope R_scope.

Lemma bleb_max (d : b32) : is_finite d = true -> B2R d <= B2R (Bmax_float : b32).
Proof.
  intros F. pose proof (abs_B2R_le_emax_minus_prec 24 128 prec32 d) as H. apply Rabs_le_inv in H. destruct H as [_ H].
  apply Rle_trans with (1 := H). apply Req_le. cbn. unfold F2R. cbn. lra.
Qed.
Lemma max_fin : is_finite (Bmax_float : b32) = true. Proof. reflexivity. Qed.
(** Adding something non-negative to the largest float does not make it
    smaller. *)
Lemma max_plus (r d : b32) : nonneg 4 r -> is_finite d = true -> Bleb d (Bplus mode_NE r (Bmax_float : b32)) = true.
Proof.
  intros [[RF _] RP] D. pose proof (Bplus_correct 24 128 prec32 emax32 mode_NE r Bmax_float RF max_fin) as C. cbn [round_mode] in C.
  destruct (Rlt_bool _ _) eqn:E.
  - destruct C as (V & F & _). rewrite Bleb_correct by auto. apply Rle_bool_true. rewrite V.
    apply Rle_trans with (1 := bleb_max d D).
    assert (K : forall M, rnd32 M = M -> M <= rnd32 (B2R r + M)) by (intros M EM; rewrite <- EM at 1; apply (rnd_le 24 128); lra).
    apply K. apply rnd_B2R.
  - destruct C as [C S]. assert (SR : Bsign r = false).
    { destruct (Bplus mode_NE r Bmax_float) as [s|s| |s m e B] eqn:Q; cbn in C; try discriminate; rewrite S; reflexivity. }
    rewrite SR in C. destruct (Bplus mode_NE r Bmax_float) as [s|s| |s m e B] eqn:Q; cbn in C; try discriminate. inversion C; subst.
    destruct d as [s'|s'| |s' m' e' B']; try discriminate; destruct s'; reflexivity.
Qed.
Lemma max_minus (r d : b32) : nonneg 4 r -> is_finite d = true -> 0 <= B2R d -> Bleb (Bminus mode_NE r (Bmax_float : b32)) d = true.
Proof.
  intros [[RF RB] RP] D DP. rewrite Rabs_pos_eq in RB by auto.
  assert (RM : B2R r <= B2R (Bmax_float : b32)) by (apply bleb_max; auto).
  assert (H : - B2R (Bmax_float : b32) <= rnd32 (B2R r - B2R (Bmax_float : b32)) <= 0).
  { split.
    - assert (K : forall M, rnd32 (- M) = - M -> - M <= rnd32 (B2R r - M)) by (intros M EM; rewrite <- EM at 1; apply (rnd_le 24 128); lra).
      apply K. rewrite <- B2R_Bopp. apply (rnd_B2R 24 128).
    - rewrite <- (round_0 radix2 (SpecFloat.fexp 24 128) ZnearestE). apply (rnd_le 24 128). lra. }
  destruct (proj1 (Bminus_fin 24 128 r Bmax_float RF max_fin)) as [F V].
  { apply Rabs_def1; [apply Rle_lt_trans with 0; [lra|apply bpow_gt_0]|].
    pose proof (abs_B2R_lt_emax 24 128 (Bmax_float : b32)) as Q. rewrite Rabs_pos_eq in Q by lra. lra. }
  rewrite Bleb_correct by auto. apply Rle_bool_true. rewrite V. lra.
Qed.

Section I.
Variables (pow32 : b32 -> b32 -> b32) (pow64 : b64 -> b64 -> b64).
Notation Ar := (ieee pow32 pow64).
Local Existing Instance ieee.
Notation box := (box_px pow32 pow64).
Notation rdist := (rdist pow32 pow64).
Notation "x <=F y" := (@fle Ar x y) (at level 70).
Let O := ieee_ord pow32 pow64.

Lemma rdist_sym s o : rdist s o = rdist o s. Proof. apply dist_sym. Qed.
Lemma rdist_triangle s t o : rdist s o <= rdist s t + rdist t o. Proof. apply dist_triangle. Qed.
Lemma rdist_pos s o : 0 <= rdist s o. Proof. apply dist_pos. Qed.

(** The square root of a comparison. *)
Lemma root_mono (x y : b32) : nonneg 6 x -> nonneg 6 y -> B2R x <= B2R y -> B2R (Bsqrt mode_NE x : b32) <= B2R (Bsqrt mode_NE y : b32).
Proof.
  intros X Y H. destruct (Bsqrt_correct 24 128 prec32 emax32 mode_NE x) as (V & _). destruct (Bsqrt_correct 24 128 prec32 emax32 mode_NE y) as (W & _).
  cbn [round_mode] in V, W. rewrite V, W. apply (rnd_le 24 128). apply sqrt_le_1_alt. auto.
Qed.
Lemma root_ok (x : b32) : nonneg 6 x -> nonneg 3 (Bsqrt mode_NE x : b32).
Proof. intros X. apply (nonneg_sqrt 6 3); auto; lia. Qed.

(** A visitor that holds a distance, and one that does not. *)
Definition set_ (v : @visitor Ar) : Prop := nonneg 6 (v_dsq v) /\ v_dist v = @fsqrt Ar (v_dsq v).
Definition unset (v : @visitor Ar) : Prop :=
  (v_dsq v = @fmaxv Ar /\ v_dist v = @fmaxv Ar) \/ (v_dsq v = @finf Ar /\ v_dist v = @finf Ar).
Definition vis_ok (v : @visitor Ar) : Prop := set_ v \/ unset v.
Definition dval (v : @visitor Ar) : R := B2R (v_dist v : b32).
Lemma set_dist v : set_ v -> nonneg 3 (v_dist v : b32).
Proof. intros [H E]. rewrite E. apply root_ok. exact H. Qed.

Local Opaque diff Bsqrt.
(** Twice the error of a distance, and the rounding of the pruning test. *)
Definition e2 : R := 2 * e1 + 9 * u24.
Definition better (needle : @px Ar) (v v' : @visitor Ar) (l : list (nat * @px Ar)) : Prop :=
  vis_ok v' /\ v_excl v' = v_excl v /\ (set_ v -> set_ v' /\ dval v' <= dval v) /\
  forall ic, In ic l -> excluded (v_excl v) (fst ic) = false -> set_ v' /\ dval v' <= rdist (snd ic) needle + e2.
Lemma better_trans needle v v' v'' l l' : better needle v v' l -> better needle v' v'' l' -> better needle v v'' (l ++ l').
Proof.
  intros (A1 & A2 & A3 & A4) (B1 & B2 & B3 & B4). rewrite A2 in *. split; auto. split; auto. split.
  - intros S. destruct (A3 S) as [S' H']. destruct (B3 S') as [S'' H'']. split; auto. lra.
  - intros ic H X. apply in_app_or in H as [H|H]; [|auto]. destruct (A4 ic H X) as [S' H']. destruct (B3 S') as [S'' H'']. split; auto. lra.
Qed.
Lemma better_perm needle v v' l l' : (forall ic, In ic l' -> In ic l) -> better needle v v' l -> better needle v v' l'.
Proof. intros H (A1 & A2 & A3 & A4). split; auto. Qed.
Lemma u24_pos : 0 < u24. Proof. unfold u24. lra. Qed.

Lemma visit_better needle v i c : box needle -> box c -> vis_ok v ->
  better needle v (@visit Ar v (@fsqrt Ar (@diff Ar c needle)) (@diff Ar c needle) i) [(i, c)].
Proof.
  intros BN BC V. destruct (sdist_close pow32 pow64 c needle BC BN) as (D1 & D2 & _ & D3).
  set (d := @diff Ar c needle) in *. unfold visit. pose proof u24_pos as U.
  assert (NEW : set_ (@Visitor Ar (@fsqrt Ar d) d i (v_excl v)) /\ B2R (@fsqrt Ar d : b32) <= rdist c needle + e2).
  { split; [split; [exact D1|reflexivity]|]. apply Rabs_le_inv in D3. unfold e2, e1 in *. lra. }
  destruct (@flt Ar d (v_dsq v)) eqn:L; cbn [andb].
  - destruct (excluded (v_excl v) i) eqn:X; cbn [negb].
    + split; auto. split; auto. split; [intros S; split; auto; lra|]. intros ic [<-|[]] H. cbn in H. congruence.
    + split; [left; apply NEW|]. split; auto. split.
      * intros S. split; [apply NEW|]. unfold dval. cbn [v_dist]. destruct S as [S1 S2]. rewrite S2. apply root_mono; auto.
        apply Rlt_le. apply Bltb_fin in L; auto; [apply D1|apply S1].
      * intros ic [<-|[]] _. split; [apply NEW|]. exact (proj2 NEW).
  - destruct V as [S|S].
    + split; [left; auto|]. split; auto. split; [intros _; split; auto; lra|]. intros ic [<-|[]] _. split; auto.
      apply Rle_trans with (2 := proj2 NEW). unfold dval. destruct S as [S1 S2]. rewrite S2. apply root_mono; auto.
      apply Bltb_fin_false in L; auto; [apply D1|apply S1].
    + exfalso. destruct S as [[S _]|[S _]]; rewrite S in L.
      * change (Bltb d (Bmax_float : b32) = false) in L. apply Bltb_fin_false in L; [|apply D1|reflexivity].
        destruct D1 as [[F1 F2] F3]. rewrite Rabs_pos_eq in F2 by auto.
        assert (Q : bpow radix2 10 <= B2R (Bmax_float : b32)).
        { replace (bpow radix2 10) with (B2R (BofZ 24 128 1024)) by (rewrite (proj2 (BofZ_exact 24 128 1024 ltac:(lia) ltac:(lia) ltac:(lia))); cbn; lra).
          apply bleb_max. reflexivity. }
        assert (bpow radix2 6 < bpow radix2 10) by (apply bpow_lt; lia). lra.
      * change (Bltb d (B754_infinity false : b32) = false) in L. destruct D1 as [[F1 _] _].
        destruct (d : b32) as [s|s| |s m e B]; try discriminate; destruct s; discriminate.
Qed.
Local Opaque visit.
Lemma leaf_better needle es : box needle -> Forall (fun ic => box (snd ic)) es -> forall v, vis_ok v ->
  better needle v (fold_left (fun v (e : nat * @px Ar) => let d := @diff Ar (snd e) needle in @visit Ar v (@fsqrt Ar d) d (fst e)) es v) es.
Proof.
  intros BN. induction es as [|[j q] es IH]; intros F v V; cbn [fold_left].
  - split; auto. split; auto. split; [intros S; split; auto; lra|]. intros ic [].
  - apply Forall_cons_iff in F as [F1 F2]. cbv zeta. cbn [fst snd] in *. pose proof (visit_better needle v j q BN F1 V) as B.
    eapply (better_trans _ _ _ _ [(j, q)]); [exact B|]. apply IH; auto. apply B.
Qed.
Lemma skip_better needle v l : set_ v -> (forall ic, In ic l -> dval v <= rdist (snd ic) needle + e2) -> better needle v v l.
Proof.
  intros V H. split; [left; auto|]. split; auto. split; [intros _; split; auto; lra|]. auto.
Qed.

Lemma nonneg3 (x : b32) : nonneg 3 x -> is_finite x = true /\ 0 <= B2R x <= 8.
Proof. intros [[F H] P]. rewrite Rabs_pos_eq in H by auto. cbn in H. split; auto. Qed.
Lemma rdist_max s o : box s -> box o -> rdist s o <= 3.5.
Proof.
  intros B1 B2. unfold MetricIeee.rdist, dist. rewrite diff_comps. rewrite <- (sqrt_Rsqr 3.5) by lra. apply sqrt_le_1_alt. unfold comps, sumsq, rpx, Rsqr. cbn [pa pr pg pb].
  destruct B1 as (A1 & R1 & G1 & L1). destruct B2 as (A2 & R2 & G2 & L2).
  apply nonneg1 in A1 as [_ A1]; [|lia]. apply nonneg1 in R1 as [_ R1]; [|lia]. apply nonneg1 in G1 as [_ G1]; [|lia]. apply nonneg1 in L1 as [_ L1]; [|lia].
  apply nonneg1 in A2 as [_ A2]; [|lia]. apply nonneg1 in R2 as [_ R2]; [|lia]. apply nonneg1 in G2 as [_ G2]; [|lia]. apply nonneg1 in L2 as [_ L2]; [|lia].
  assert (K : forall c a, -1 <= c <= 1 -> -1 <= a <= 1 -> 0 <= chan c a <= 2).
  { intros c a C A. split; [apply chan_pos|]. unfold chan. apply Rmax_lub; apply Rabs_le; lra. }
  pose proof (K (B2R (pr s : b32) - B2R (pr o : b32)) (B2R (pa o : b32) - B2R (pa s : b32)) ltac:(lra) ltac:(lra)) as K1.
  pose proof (K (B2R (pg s : b32) - B2R (pg o : b32)) (B2R (pa o : b32) - B2R (pa s : b32)) ltac:(lra) ltac:(lra)) as K2.
  pose proof (K (B2R (pb s : b32) - B2R (pb o : b32)) (B2R (pa o : b32) - B2R (pa s : b32)) ltac:(lra) ltac:(lra)) as K3.
  set (x := chan (B2R (pr s : b32) - _) _) in *. set (y := chan (B2R (pg s : b32) - _) _) in *. set (z := chan (B2R (pb s : b32) - _) _) in *.
  clearbody x y z. nra.
Qed.

(** The two pruning tests. *)
Lemma prune_far (r v d : b32) : nonneg 3 r -> nonneg 3 v -> nonneg 3 d -> Bleb (Bminus mode_NE r v) d = false ->
  B2R v <= B2R r - B2R d + 9 * u24.
Proof.
  intros HR HV HD L. assert (S' : small 4 (Bminus mode_NE r v)) by (apply (small_sub 3); [lia|apply HR|apply HV]).
  apply nonneg3 in HR as [FR HR]. apply nonneg3 in HV as [FV HV]. apply nonneg3 in HD as [FD HD].
  apply (Bleb_fin_false 24 128) in L; auto; [|apply S'].
  destruct (Bminus_fin 24 128 r v FR FV) as [Q1 Q2]. destruct (Q1 (Q2 (proj1 S'))) as [_ V].
  destruct (rnd_plus_rel32 r (Bopp v)) as (e & E1 & E2). rewrite B2R_Bopp in E2. unfold Rminus in V. rewrite V, E2 in L.
  apply Rabs_le_inv in E1. unfold u24 in *. nra.
Qed.
Lemma prune_near (r v d : b32) : nonneg 3 r -> nonneg 3 v -> nonneg 3 d -> B2R d <= 3.6 -> Bleb d (Bplus mode_NE r v) = false ->
  B2R v <= B2R d - B2R r + 9 * u24.
Proof.
  intros HR HV HD HX L. assert (S' : small 4 (Bplus mode_NE r v)) by (apply (small_add 3); [lia|apply HR|apply HV]).
  apply nonneg3 in HR as [FR HR]. apply nonneg3 in HV as [FV HV]. apply nonneg3 in HD as [FD HD].
  apply (Bleb_fin_false 24 128) in L; auto; [|apply S'].
  destruct (rnd_plus_rel32 r v) as (e & E1 & E2). rewrite <- plus_val in E2; auto; [|apply S']. rewrite E2 in L.
  apply Rabs_le_inv in E1. unfold u24 in *. nra.
Qed.

Lemma between (x y z : b32) : nonneg 6 x -> nonneg 6 z -> Bleb x y = true -> Bleb y z = true -> nonneg 6 y.
Proof.
  intros [[FX X] PX] [[FZ Z0] PZ] L1 L2.
  assert (FY : is_finite y = true).
  { clear X PX Z0 PZ. destruct y as [s|s| |s m e B]; [reflexivity| | |reflexivity]; exfalso.
    - destruct s.
      + destruct x as [s1|s1| |s1 m1 x1 B1]; try discriminate FX; [|destruct s1]; discriminate L1.
      + destruct z as [s1|s1| |s1 m1 x1 B1]; try discriminate FZ; [|destruct s1]; discriminate L2.
    - destruct x as [s1|s1| |s1 m1 x1 B1]; try discriminate FX; discriminate L1. }
  apply (Bleb_fin 24 128) in L1; auto. apply (Bleb_fin 24 128) in L2; auto. rewrite Rabs_pos_eq in Z0 by auto.
  split; [split; auto; rewrite Rabs_pos_eq by lra; lra|lra].
Qed.
Lemma pairs_ne (t : @node Ar) : exists ic, In ic (tree_pairs t).
Proof. destruct t; cbn [tree_pairs]; eexists; left; reflexivity. Qed.

Lemma search_node_better needle : box needle -> forall t v, Forall (fun ic => box (snd ic)) (tree_pairs t) -> @split_ok Ar t -> vis_ok v ->
  better needle v (@search_node Ar t needle v) (tree_pairs t).
Proof.
  intros BN. induction t as [vp i es|vp i rad rsq l IHl r IHr]; intros v F S V; cbn [tree_pairs search_node] in *; apply Forall_cons_iff in F as [F0 F]; cbn [snd] in F0.
  - pose proof (visit_better needle v i vp BN F0 V) as B. eapply (better_trans _ _ _ _ [(i, vp)]); [exact B|]. apply leaf_better; auto. apply B.
  - destruct S as (-> & Sl & Sr & Ol & Or). apply Forall_app in F as [Fl Fr].
    pose proof (Forall_forall (fun ic => box (snd ic)) (tree_pairs l)) as [Bl _]. specialize (Bl Fl).
    pose proof (Forall_forall (fun ic => box (snd ic)) (tree_pairs r)) as [Br _]. specialize (Br Fr).
    rewrite Forall_forall in Sl, Sr.
    pose proof (visit_better needle v i vp BN F0 V) as B. set (v0 := visit v _ _ i) in *. cbv zeta.
    assert (V0 : vis_ok v0) by apply B.
    assert (RS : nonneg 6 (rsq : b32)).
    { destruct (pairs_ne l) as [jl Hl]. destruct (pairs_ne r) as [jr Hr].
      apply (between (@diff Ar vp (snd jl)) rsq (@diff Ar vp (snd jr))); [apply (sdist_close pow32 pow64); auto|apply (sdist_close pow32 pow64); auto|exact (Sl _ Hl)|exact (Sr _ Hr)]. }
    pose proof (root_ok rsq RS) as RR. destruct (sdist_close pow32 pow64 vp needle F0 BN) as (_ & DN & _ & DD).
    pose proof (rdist_max vp needle F0 BN) as DM. pose proof u24_pos as U.
    apply Rabs_le_inv in DD.
    assert (FAR : forall ic, In ic (tree_pairs r) -> B2R (@fsqrt Ar rsq : b32) <= rdist vp (snd ic) + e1).
    { intros ic I. specialize (Sr ic I). specialize (Br ic I). cbv beta in Br, Sr. destruct (sdist_close pow32 pow64 vp (snd ic) F0 Br) as (X1 & X2 & _ & X3).
      change (Bleb rsq (@diff Ar vp (snd ic)) = true) in Sr. apply (Bleb_fin 24 128) in Sr; [|apply RS|apply X1].
      apply Rabs_le_inv in X3. apply Rle_trans with (B2R (@fsqrt Ar (@diff Ar vp (snd ic)) : b32)); [|lra]. apply (root_mono rsq); auto. }
    assert (NEAR : forall ic, In ic (tree_pairs l) -> rdist vp (snd ic) <= B2R (@fsqrt Ar rsq : b32) + e1).
    { intros ic I. specialize (Sl ic I). specialize (Bl ic I). cbv beta in Bl, Sl. destruct (sdist_close pow32 pow64 vp (snd ic) F0 Bl) as (X1 & X2 & _ & X3).
      change (Bleb (@diff Ar vp (snd ic)) rsq = true) in Sl. apply (Bleb_fin 24 128) in Sl; [|apply X1|apply RS].
      apply Rabs_le_inv in X3. apply Rle_trans with (B2R (@fsqrt Ar (@diff Ar vp (snd ic)) : b32) + e1); [lra|]. apply Rplus_le_compat_r. apply (root_mono (@diff Ar vp (snd ic)) rsq); auto. }
    set (rad := @fsqrt Ar rsq) in *. set (d := @fsqrt Ar (@diff Ar vp needle)) in *.
    assert (R4 : nonneg 4 (rad : b32)) by (eapply nonneg_le; [exact RR|lia]).
    destruct (@flt Ar (@diff Ar vp needle) rsq) eqn:C.
    + pose proof (IHl v0 Fl Ol V0) as B1. set (v1 := search_node l needle v0) in *. assert (V1 : vis_ok v1) by apply B1.
      destruct (@fle Ar (@fsub Ar rad (v_dist v1)) d) eqn:D.
      * pose proof (IHr v1 Fr Or V1) as B2. eapply (better_trans _ _ _ _ [(i, vp)]); [exact B|]. eapply better_trans; eauto.
      * eapply (better_trans _ _ _ _ [(i, vp)]); [exact B|]. eapply better_trans; [exact B1|].
        destruct V1 as [V1|V1].
        2:{ exfalso. destruct V1 as [[_ V1]|[_ V1]]; rewrite V1 in D.
            - pose proof (max_minus rad d R4 (proj1 (proj1 DN)) (proj2 DN)) as Q.
              change (Bleb (Bminus mode_NE rad (Bmax_float : b32)) d = false) in D. congruence.
            - destruct R4 as [[RF _] _]. destruct DN as [[DF _] _].
              change (Bleb (Bminus mode_NE rad (B754_infinity false : b32)) d = false) in D.
              destruct (rad : b32) as [s|s| |s m e BB]; try discriminate; destruct (d : b32) as [s'|s'| |s' m' e' BB']; try discriminate; destruct s'; discriminate. }
        apply skip_better; auto. intros ic I. specialize (FAR ic I).
        pose proof (prune_far rad (v_dist v1) d RR (set_dist v1 V1) DN D) as P.
        pose proof (rdist_triangle vp needle (snd ic)) as T. rewrite (rdist_sym needle) in T. unfold dval, e2. lra.
    + pose proof (IHr v0 Fr Or V0) as B1. set (v1 := search_node r needle v0) in *. assert (V1 : vis_ok v1) by apply B1.
      assert (PM : forall ic, In ic ((i, vp) :: tree_pairs l ++ tree_pairs r) -> In ic ((i, vp) :: tree_pairs r ++ tree_pairs l)).
      { intros ic [H|H]; [left; auto|right]. apply in_app_or in H. apply in_or_app. tauto. }
      apply (better_perm _ _ _ _ _ PM).
      destruct (@fle Ar d (@fadd Ar rad (v_dist v1))) eqn:D.
      * pose proof (IHl v1 Fl Ol V1) as B2. eapply (better_trans _ _ _ _ [(i, vp)]); [exact B|]. eapply better_trans; eauto.
      * eapply (better_trans _ _ _ _ [(i, vp)]); [exact B|]. eapply better_trans; [exact B1|].
        destruct V1 as [V1|V1].
        2:{ exfalso. destruct V1 as [[_ V1]|[_ V1]]; rewrite V1 in D.
            - pose proof (max_plus rad d R4 (proj1 (proj1 DN))) as Q.
              change (Bleb d (Bplus mode_NE rad (Bmax_float : b32)) = false) in D. congruence.
            - destruct R4 as [[RF _] _]. destruct DN as [[DF _] _].
              change (Bleb d (Bplus mode_NE rad (B754_infinity false : b32)) = false) in D.
              destruct (rad : b32) as [s|s| |s m e BB]; try discriminate; destruct (d : b32) as [s'|s'| |s' m' e' BB']; try discriminate; destruct s'; discriminate. }
        apply skip_better; auto. intros ic I. specialize (NEAR ic I).
        assert (D36 : B2R (d : b32) <= 3.6) by (unfold e1, u24 in *; lra).
        pose proof (prune_near rad (v_dist v1) d RR (set_dist v1 V1) DN D36 D) as P.
        pose proof (rdist_triangle vp (snd ic) needle) as T. unfold dval, e2. lra.
Qed.

Local Opaque search_node.
Lemma clear_box (p : @palf Ar) : Forall box (colors_of p) -> @clear_dists Ar p.
Proof.
  intros B i j Hi Hj. assert (C : forall k, (k < length p)%nat -> box (@pal_color Ar p k)).
  { intros k K. rewrite Forall_forall in B. apply B. unfold pal_color, colors_of. destruct (nth_error p k) eqn:E; [|apply nth_error_None in E; lia].
    apply in_map. eapply nth_error_In; eauto. }
  destruct (sdist_close pow32 pow64 (@pal_color Ar p i) (@pal_color Ar p j) (C i Hi) (C j Hj)) as ([[F _] _] & _).
  change (Bleb (@diff Ar (@pal_color Ar p i) (@pal_color Ar p j)) (@diff Ar (@pal_color Ar p i) (@pal_color Ar p j)) = true).
  apply (Bleb_fin 24 128); auto. lra.
Qed.
Lemma tree_box (p : @palf Ar) (l : list (nat * @px Ar)) : Forall box (colors_of p) -> Forall (has_color p) l -> Forall (fun ic => box (snd ic)) l.
Proof.
  intros B. apply Forall_impl. intros ic H. rewrite Forall_forall in B. apply B. eapply nth_error_In. exact H.
Qed.

(** The root of a distance, before and after rounding. *)
Lemma root_near (x : b32) : nonneg 6 x -> sqrt (B2R x) <= B2R (Bsqrt mode_NE x : b32) * (1 + 2 * u24) + 2 * tiny.
Proof.
  intros X. destruct (Bsqrt_correct 24 128 prec32 emax32 mode_NE x) as (V & _). cbn [round_mode] in V. rewrite V.
  pose proof (rnd32_err (sqrt (B2R x))) as R. pose proof (sqrt_pos (B2R x)) as P. rewrite (Rabs_pos_eq (sqrt _)) in R by auto.
  apply Rabs_le_inv in R. pose proof tiny_small. unfold u24 in *. nra.
Qed.

(** The table of distances to the nearest other colour. *)
Lemma other_bound (p : @palf Ar) n k pk (g : b32) : Forall box (colors_of p) -> @nearest_new Ar p = Ok n -> nth_error (colors_of p) k = Some pk -> nonneg 6 g ->
  @flt Ar g (nth k (n_other n) (@f0 Ar)) = true ->
  forall j pj, nth_error (colors_of p) j = Some pj -> k <> j -> sqrt (B2R g) <= rdist pj pk / 2 + 40 * u24.
Proof.
  intros B N K HG L j pj J NE. destruct (@nearest_new_split Ar O p n (clear_box p B) N) as [S I]. destruct (nearest_new_tree p n N) as (_ & _ & T).
  assert (E : n_other n = map (fun ic => @fdiv Ar (v_dsq (@search_node Ar (n_root n) (snd ic) (@Visitor Ar (@fmaxv Ar) (@fmaxv Ar) 0 (Some (fst ic))))) (@fofZ Ar 4)) (enumerate (colors_of p))).
  { unfold nearest_new in N. destruct (Nat.ltb_spec 256 (length p)); [discriminate|]. destruct p as [|e p]; [discriminate|].
    injection N as <-. reflexivity. }
  assert (Q : nth_error (n_other n) k = Some (@fdiv Ar (v_dsq (@search_node Ar (n_root n) pk (@Visitor Ar (@fmaxv Ar) (@fmaxv Ar) 0 (Some k)))) (@fofZ Ar 4))).
  { rewrite E, nth_error_map, nth_error_enumerate, K. reflexivity. }
  rewrite (nth_error_nth _ _ _ Q) in L. clear E Q.
  assert (V : vis_ok (@Visitor Ar (@fmaxv Ar) (@fmaxv Ar) 0 (Some k))) by (right; left; split; reflexivity).
  assert (BK : box pk) by (rewrite Forall_forall in B; apply B; eapply nth_error_In; eauto).
  destruct (search_node_better pk BK (n_root n) _ (tree_box p _ B T) S V) as (_ & _ & _ & D).
  specialize (D (j, pj)). cbn [fst snd v_excl excluded] in D. destruct D as [D1 D2]; [apply I; exact J|apply Nat.eqb_neq; auto|].
  set (v := search_node _ _ _) in *. destruct D1 as [D1 D3]. unfold dval in D2. rewrite D3 in D2. clear D3. set (s := v_dsq v) in *. clearbody s. clear v.
  assert (V4 : B2R (@fofZ Ar 4 : b32) = 4) by exact (proj2 (BofZ_exact 24 128 4 ltac:(lia) ltac:(lia) ltac:(lia))).
  destruct D1 as [[F1 F2] F3]. rewrite Rabs_pos_eq in F2 by auto. change (bpow radix2 6) with 64 in F2.
  destruct (proj1 (Bdiv_fin 24 128 s (@fofZ Ar 4) F1 ltac:(rewrite V4; lra))) as [FD VD].
  { apply (rnd_fits 6); [lia|]. rewrite V4, Rabs_pos_eq by lra. change (bpow radix2 6) with 64. lra. }
  rewrite V4 in VD. apply (Bltb_fin 24 128) in L; auto; [|apply HG].
  change (@fdiv Ar s (@fofZ Ar 4)) with (Bdiv mode_NE s (@fofZ Ar 4 : b32)) in L. rewrite VD in L.
  pose proof (rnd32_err (B2R s / 4)) as R. rewrite (Rabs_pos_eq (B2R s / 4)) in R by lra. apply Rabs_le_inv in R.
  assert (NS : nonneg 6 s) by (split; [split; [auto|rewrite Rabs_pos_eq by auto; change (bpow radix2 6) with 64; lra]|auto]).
  pose proof (root_near s NS) as RN. pose proof tiny_small as TS. pose proof tiny_root as TR. pose proof u24_pos as U.
  assert (G1 : sqrt (B2R g) <= sqrt (B2R s) / 2 * (1 + u24) + sqrt tiny).
  { replace (sqrt (B2R s) / 2 * (1 + u24)) with (sqrt (B2R s * (((1 + u24) / 2) * ((1 + u24) / 2)))).
    - eapply Rle_trans; [|apply sqrt_sub; [nra|lra]]. apply sqrt_le_1_alt.
      assert (0 <= B2R s * (u24 / 4 + u24 * u24 / 4)) by (apply Rmult_le_pos; [auto|]; nra). lra.
    - rewrite sqrt_mult by nra. rewrite sqrt_square by lra. lra. }
  assert (RJ : rdist pj pk <= 3.5).
  { apply rdist_max; auto. rewrite Forall_forall in B. apply B. eapply nth_error_In; eauto. }
  change (@fsqrt Ar s) with (Bsqrt mode_NE s) in D2. pose proof (sqrt_pos (B2R s)) as PS. pose proof (root_ok s NS) as RO. apply nonneg3 in RO as [_ RO].
  set (rs := B2R (Bsqrt mode_NE s : b32)) in *. set (qs := sqrt (B2R s)) in *. set (qg := sqrt (B2R g)) in *. set (dd := rdist pj pk) in *.
  clearbody rs qs qg dd. unfold e2, e1, u24 in *. lra.
Qed.

(** The tolerance: 2^-17. *)
Definition eta : R := / 131072.
Lemma search_near (p : @palf Ar) n (c : @px Ar) hint : Forall box (colors_of p) -> box c -> @nearest_new Ar p = Ok n ->
  exists pc, nth_error (colors_of p) (fst (@search Ar n c hint)) = Some pc /\ dist_to c pc (snd (@search Ar n c hint)) /\ forall j pj, nth_error (colors_of p) j = Some pj -> rdist c pc <= rdist c pj + eta.
Proof.
  intros B BC N. destruct (@nearest_new_split Ar O p n (clear_box p B) N) as [S I]. destruct (nearest_new_tree p n N) as (_ & P & T).
  destruct (nearest_new_inv p n N) as (LP & _).
  assert (BX : forall j pj, nth_error (colors_of p) j = Some pj -> box pj) by (intros j pj J; rewrite Forall_forall in B; apply B; eapply nth_error_In; eauto).
  assert (END : forall v q, set_ v -> dist_to c q (v_dsq v) -> box q -> forall j pj, nth_error (colors_of p) j = Some pj -> dval v <= rdist pj c + e2 ->
     rdist c q <= rdist c pj + eta).
  { intros v q [S1 S2] DT BQ j pj J D. unfold dval in D. rewrite S2 in D.
    assert (X : rdist c q <= B2R (@fsqrt Ar (v_dsq v) : b32) + e1).
    { destruct DT as [-> | ->].
      - destruct (sdist_close pow32 pow64 c q BC BQ) as (_ & _ & _ & X). apply Rabs_le_inv in X. lra.
      - destruct (sdist_close pow32 pow64 q c BQ BC) as (_ & _ & _ & X). apply Rabs_le_inv in X. rewrite rdist_sym. lra. }
    rewrite (rdist_sym c pj). unfold e2, e1, u24, eta in *. lra. }
  unfold search. rewrite P. destruct (nth_error (colors_of p) hint) as [pg|] eqn:E.
  - cbv zeta. destruct (sdist_close pow32 pow64 c pg BC (BX _ _ E)) as (G1 & G2 & G3 & G4).
    destruct (@flt Ar (@diff Ar c pg) (nth hint (n_other n) (@f0 Ar))) eqn:L; cbn [fst snd].
    + exists pg. split; auto. split; [left; reflexivity|]. intros j pj J.
      destruct (Nat.eq_dec hint j) as [->|NE]; [rewrite E in J; inversion J; subst; unfold eta; lra|].
      pose proof (other_bound p n hint pg _ B N E G1 L j pj J NE) as Q. apply Rabs_le_inv in G3.
      pose proof (rdist_triangle pj c pg) as TR. rewrite (rdist_sym pj c) in TR. unfold u24, eta in *. lra.
    + assert (V : set_ (@Visitor Ar (@fsqrt Ar (@diff Ar c pg)) (@diff Ar c pg) hint None)) by (split; [exact G1|reflexivity]).
      destruct (search_node_better c BC (n_root n) _ (tree_box p _ B T) S (or_introl V)) as (_ & _ & B1 & B2). specialize (B1 V).
      destruct (@search_node_holds Ar p c (n_root n) (@Visitor Ar (@fsqrt Ar (@diff Ar c pg)) (@diff Ar c pg) hint None) T) as (q & Q & D & _).
      { exists pg. cbn [v_idx v_dsq v_dist]. split; auto. split; [left; reflexivity|reflexivity]. }
      exists q. split; [exact Q|]. split; [exact D|]. intros j pj J. eapply END; [apply B1|exact D|eapply BX; exact Q|exact J|].
      apply (B2 (j, pj)); [apply I; exact J|reflexivity].
  - cbv zeta. cbn [fst snd].
    assert (V : vis_ok (@Visitor Ar (@finf Ar) (@finf Ar) 0 None)) by (right; right; split; reflexivity).
    destruct (search_node_better c BC (n_root n) _ (tree_box p _ B T) S V) as (_ & _ & _ & B2).
    assert (X0 : exists c0, nth_error (colors_of p) 0 = Some c0).
    { destruct p as [|[c0 w0] p']; [cbn in LP; lia|]. exists c0. reflexivity. }
    destruct X0 as [c0 X0]. destruct (B2 (0%nat, c0)) as [S0 _]; [apply I; exact X0|reflexivity|].
    destruct (@search_node_found Ar p c (n_root n) (@Visitor Ar (@finf Ar) (@finf Ar) 0 None) T) as [F|F].
    { exfalso. rewrite F in S0. destruct S0 as [[[S0 _] _] _]. discriminate S0. }
    destruct F as (q & Q & D). exists q. split; [exact Q|]. split; [exact D|]. intros j pj J. eapply END; [exact S0|exact D|eapply BX; exact Q|exact J|].
    apply (B2 (j, pj)); [apply I; exact J|reflexivity].
Qed.
End I.
