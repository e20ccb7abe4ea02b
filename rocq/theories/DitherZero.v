(** Error diffusion has nothing to diffuse when every pixel's colour is in the
    palette: the dithered output is then exact.  For any arithmetic in which
    zero behaves as it should ([zero_laws]) and any search that finds colours
    it has ([finds]). *)
From Verif Require Import Base BaseFacts Arith Order Pal World Attr Hist MedianCut Nearest Kmeans Blur ImageM Quant Remap
  SpecImage BlurFacts ImageFacts MedianFacts SearchFacts QuantFacts RemapFacts PalFacts.
Open Scope nat_scope.

Lemma foldM_index_inv {T St} (P : nat -> St -> Prop) (f : St -> T -> res St) l : forall b s s',
  (forall i a s s1, nth_error l i = Some a -> P (b + i) s -> f s a = Ok s1 -> P (b + S i) s1) ->
  P b s -> foldM f l s = Ok s' -> P (b + length l) s'.
Proof.
  induction l as [|a l IH]; intros b s s' H HP E; cbn [foldM length] in *.
  - inversion E; subst. rewrite Nat.add_0_r. auto.
  - apply bind_ok in E as (s1 & E1 & E). replace (b + S (length l)) with (S b + length l) by lia.
    apply (IH (S b) s1 s'); auto.
    + intros i x t t1 Hi Pi Ei. replace (S b + S i) with (b + S (S i)) by lia. apply (H (S i) x t t1); auto.
      replace (b + S i) with (S b + i) by lia. auto.
    + replace (S b) with (b + 1) by lia. apply (H 0 a s s1); auto. rewrite Nat.add_0_r. auto.
Qed.
Lemma foldM_seq_inv {St} (P : nat -> St -> Prop) (g : St -> nat -> res St) n b s s' :
  (forall i s s1, b <= i < b + n -> P i s -> g s i = Ok s1 -> P (S i) s1) -> P b s -> foldM g (seq b n) s = Ok s' -> P (b + n) s'.
Proof.
  intros H HP E. pose proof (foldM_index_inv P g (seq b n) b s s') as L. rewrite seq_length in L. apply L; auto.
  intros i a t t1 Hi Pi Ei. rewrite nth_error_seq in Hi. destruct (Nat.ltb_spec i n) as [Hn|]; inversion Hi; subst.
  replace (b + S i) with (S (b + i)) by lia. apply (H (b + i) t t1); auto. lia.
Qed.

Section DitherZero.
Context {A : Arith}.

Record zero_laws (K : f32 -> Prop) (C : px -> Prop) : Prop := {
  zl_scale : forall k, K k -> px_scale px0 k = px0;
  zl_add : px_add px0 px0 = px0;
  zl_sub : forall c, C c -> px_sub c c = px0;
  zl_small : (err_energy px0 <f (fofZ 2 /f fofZ 256 /f fofZ 256)) = true;
  zl_16 : forall k, In k [1; 3; 5; 7]%Z -> K (sixteenths k);
  zl_75 : K (flit 75 100)
}.
(** The search returns the colour itself, whatever the hint. *)
Definition finds (n : nearest) (c : px) : Prop := forall g, nth_error (n_pal n) (fst (search n c g)) = Some c.
(** Index [k] holds colour [c]. *)
Definition holds (n : nearest) (c : px) (k : nat) : Prop := nth_error (n_pal n) k = Some c.

Section Env.
Variables (K : f32 -> Prop) (C : px -> Prop) (Z0 : zero_laws K C) (E : dither_env).
Definition env_zero (dm : list Z) : Prop := K (e_base E) /\ forall l, In l dm -> K (e_base E *f fofZ l).
Definition zeros (l : list px) : Prop := Forall (fun e => e = px0) l.

Lemma zeros_nth l i e : zeros l -> idx l i = Ok e -> e = px0.
Proof. intros Zl H. apply idx_ok, nth_error_In in H. unfold zeros in Zl. rewrite Forall_forall in Zl. auto. Qed.
Lemma err_add_zero l i k l' : zeros l -> K k -> err_add l i px0 k = Ok l' -> zeros l'.
Proof.
  intros Zl Hk H. unfold err_add in H. apply bind_ok in H as (x & Hx & H). apply set_idx_ok in H as [_ ->].
  apply Forall_upd; auto. rewrite (zeros_nth _ _ _ Zl Hx), (zl_scale _ _ Z0), (zl_add _ _ Z0); auto.
Qed.
Lemma err_set_zero l i k l' : zeros l -> K k -> err_set l i px0 k = Ok l' -> zeros l'.
Proof. intros Zl Hk H. unfold err_set in H. apply set_idx_ok in H as [_ ->]. apply Forall_upd; auto. apply (zl_scale _ _ Z0); auto. Qed.
Lemma zeros_repeat n : zeros (repeat px0 n).
Proof. apply Forall_forall. intros x Hx. apply repeat_spec in Hx. auto. Qed.
Lemma dithered_zero level m p : K level -> get_dithered_pixel level m px0 p = p.
Proof. intros H. unfold get_dithered_pixel. rewrite (zl_scale _ _ Z0) by auto. cbv zeta. rewrite (zl_small _ _ Z0). auto. Qed.

Definition dst_zero (even : bool) (row : list px) (x : nat) (st : dstate) : Prop :=
  zeros (s_this st) /\ zeros (s_next st) /\ length (s_out st) = e_w E /\
  (forall c v, c < e_w E -> seen even (e_w E) x c -> nth_error row c = Some v -> exists k, nth_error (s_out st) c = Some k /\ holds (e_n E) v k).

Lemma dither_px_zero row dmap even x st st' : env_zero dmap -> length row = e_w E ->
  (forall c, In c row -> C c /\ finds (e_n E) c) -> x < e_w E -> dst_zero even row x st ->
  dither_px E row dmap [] even st x = Ok st' -> dst_zero even row (S x) st'.
Proof.
  intros [B1 B2] LR F X (Z1 & Z2 & LO & O) H. unfold dither_px in H. cbv zeta in H.
  set (w := e_w E) in *. set (col := if even then x else w - 1 - x) in *.
  assert (HC : col < w) by (unfold col; destruct even; lia).
  apply bind_ok in H as (input & HI & H). apply bind_ok in H as (te & HT & H). rewrite (zeros_nth _ _ _ Z1 HT) in H.
  rewrite dithered_zero in H.
  2:{ destruct (nth_error dmap col) as [l|] eqn:El; [apply B2; eapply nth_error_In; eauto|exact B1]. }
  apply bind_ok in H as (g & _ & H). apply idx_ok in HI.
  destruct (F input) as [Ci Fi]; [eapply nth_error_In; eauto|]. pose proof (Fi g) as FG.
  destruct (search (e_n E) input g) as [m dd]. cbn [fst] in FG. apply bind_ok in H as (op & HO & H).
  apply idx_ok in HO. assert (op = input) by congruence. subst op.
  replace (nth_error (@nil px) col) with (@None px) in H by (destruct col; auto). cbn [bind] in H.
  apply bind_ok in H as (out' & HS & H). apply set_idx_ok in HS as [_ ->].
  rewrite (zl_sub _ _ Z0) in H by auto. rewrite (zl_scale _ _ Z0 _ (zl_75 _ _ Z0)) in H.
  replace (if e_max E <f err_energy px0 then px0 else px0) with px0 in H by (destruct (_ <f _); auto).
  assert (O' : forall c v, c < w -> seen even w (S x) c -> nth_error row c = Some v ->
             exists k, nth_error (upd (s_out st) col m) c = Some k /\ holds (e_n E) v k).
  { intros c v Hc Hs Hv. destruct (Nat.eq_dec col c) as [<-|NE].
    - exists m. split; [apply nth_error_upd_eq; lia|]. unfold holds. congruence.
    - rewrite nth_error_upd_neq by auto. apply O; auto. unfold seen, col in *. destruct even; lia. }
  pose proof (zl_16 _ _ Z0) as K16.
  assert (K1 : K (sixteenths 1)) by (apply K16; cbn; auto). assert (K3 : K (sixteenths 3)) by (apply K16; cbn; auto).
  assert (K5 : K (sixteenths 5)) by (apply K16; cbn; auto). assert (K7 : K (sixteenths 7)) by (apply K16; cbn; auto).
  destruct even; apply bind_ok in H as (t' & H1 & H); apply bind_ok in H as (n1 & H2 & H); apply bind_ok in H as (n2 & H3 & H);
    apply bind_ok in H as (n3 & H4 & H); inversion H; subst st'; unfold dst_zero; cbn [s_this s_next s_out]; rewrite upd_length.
  - apply err_add_zero in H1; auto. apply err_add_zero in H2; auto. apply err_add_zero in H3; auto. apply err_set_zero in H4; auto.
  - apply err_add_zero in H1; auto. apply err_set_zero in H2; auto. apply err_add_zero in H3; auto. apply err_add_zero in H4; auto.
Qed.

Definition halves_zero (dif : list px * list px) : Prop := zeros (fst dif) /\ zeros (snd dif).
Lemma dither_row_zero row dmap even dif out dif' out' : env_zero dmap -> length row = e_w E ->
  (forall c, In c row -> C c /\ finds (e_n E) c) -> halves_zero dif -> length out = e_w E ->
  dither_row E row dmap [] even dif out = Ok (dif', out') -> halves_zero dif' /\ Forall2 (holds (e_n E)) row out'.
Proof.
  intros V LR F [D1 D2] LO H. unfold dither_row in H. rewrite LR, LO, Nat.eqb_refl in H. cbn [andb negb] in H.
  apply bind_ok in H as (st & H1 & H).
  assert (I : dst_zero even row (0 + e_w E) st).
  { eapply (foldM_seq_inv (dst_zero even row)); [|  |exact H1].
    - intros i s s1 Hi Pi Ei. eapply dither_px_zero; eauto. lia.
    - unfold dst_zero. cbn [s_this s_next s_out]. split; [destruct even; auto|]. split; [apply zeros_repeat|]. split; auto.
      intros c v Hc Hs. unfold seen in Hs. destruct even; lia. }
  destruct I as (Z1 & Z2 & L & O). inversion H; subst. split; [destruct even; split; auto|].
  cbn [plus] in O. assert (LL : length (s_out st) = length row) by lia.
  assert (G : forall (l : list px) (m : list nat), length m = length l ->
            (forall c v, nth_error l c = Some v -> exists k, nth_error m c = Some k /\ holds (e_n E) v k) -> Forall2 (holds (e_n E)) l m).
  { clear. induction l as [|a l IH]; intros [|b m] L H; cbn in L; try discriminate; constructor.
    - destruct (H 0 a eq_refl) as (k & Hk & ?). inversion Hk; subst. auto.
    - apply IH; [lia|]. intros c v Hc. apply (H (S c) v Hc). }
  apply G; auto. intros c v Hv. assert (c < e_w E) by (rewrite <- LR; apply nth_error_Some; congruence).
  apply O; auto. unfold seen. destruct even; lia.
Qed.

Section Rows.
Variables (d : drows) (pxs : list (list rgba)) (dm : list Z).
Hypotheses (S : shows d pxs) (W : d_w d = e_w E) (V : env_zero dm).
Definition prow (r : list rgba) : list px := map (from_rgba (gamma_lut (d_gamma d))) r.
Hypothesis F : forall r c, In r pxs -> In c (prow r) -> C c /\ finds (e_n E) c.

Lemma env_zero_slice row w : env_zero (dmap_slice dm row w).
Proof.
  destruct V as [V1 V2]. split; auto. intros l Hl. apply V2. unfold dmap_slice, slice in Hl.
  destruct (Nat.leb _ _); [|destruct Hl]. apply firstn_In, skipn_In in Hl. auto.
Qed.
Lemma dither_image_row_zero row dif out dif' out' r : nth_error pxs row = Some r -> halves_zero dif -> length out = e_w E ->
  dither_image_row E d None dm row dif out = Ok (dif', out') -> halves_zero dif' /\ Forall2 (holds (e_n E)) (prow r) out'.
Proof.
  intros R D L H. unfold dither_image_row in H. rewrite (shows_row d pxs row r S R) in H. cbn [bind] in H.
  pose proof (sh_rows _ _ S) as SR. rewrite Forall_forall in SR. destruct (SR r) as [Lr _]; [eapply nth_error_In; eauto|].
  change (map _ r) with (prow r) in H. apply (dither_row_zero (prow r)) in H; auto.
  - apply env_zero_slice.
  - unfold prow. rewrite map_length. lia.
  - intros c Hc. apply (F r c); auto. eapply nth_error_In; eauto.
Qed.
Lemma holds_length l m : Forall2 (holds (e_n E)) l m -> length m = length l.
Proof. intros H. apply Forall2_len in H. auto. Qed.

Lemma row_len row r : nth_error pxs row = Some r -> length (prow r) = e_w E.
Proof.
  intros R. unfold prow. rewrite map_length. pose proof (sh_rows _ _ S) as SR. rewrite Forall_forall in SR.
  destruct (SR r) as [Lr _]; [eapply nth_error_In; eauto|]. lia.
Qed.
Lemma warm_up_zero start scratch dif : start <= d_h d -> length scratch = e_w E ->
  warm_up E d None dm start scratch = Ok dif -> halves_zero dif.
Proof.
  intros H L Hw. unfold warm_up in Hw. cbv zeta in Hw. destruct (Nat.ltb_spec 2 start) as [H2|H2].
  - apply bind_ok in Hw as ([dif0 sc] & H1 & Hw). inversion Hw; subst dif0.
    assert (I : halves_zero (fst (dif, sc)) /\ length (snd (dif, sc)) = e_w E).
    { eapply (foldM_seq_inv (fun _ st => halves_zero (fst st) /\ length (snd st) = e_w E)); [| |exact H1].
      - intros i [df s] [df1 s1] Hi [I1 I2] Ei. cbn [fst snd] in *.
        destruct (nth_error pxs i) as [r|] eqn:R; [|apply nth_error_None in R; rewrite (sh_len _ _ S) in R; lia].
        destruct (dither_image_row_zero i df s df1 s1 r R I1 I2 Ei) as [J1 J2]. split; auto.
        rewrite (holds_length _ _ J2). eapply row_len; eauto.
      - cbn [fst snd]. split; auto. split; apply zeros_repeat. }
    apply I.
  - inversion Hw; subst. split; apply zeros_repeat.
Qed.

Definition exact_rows (start : nat) (outs : list (list nat)) : Prop :=
  forall y r, nth_error pxs (start + y) = Some r -> y < length outs -> exists o, nth_error outs y = Some o /\ Forall2 (holds (e_n E)) (prow r) o.
Lemma dither_chunk_zero start dif rows outs : start + length rows <= d_h d -> halves_zero dif -> Forall (fun r => length r = e_w E) rows ->
  dither_chunk E d None dm start dif rows = Ok outs -> length outs = length rows /\ exact_rows start outs.
Proof.
  intros H D Fr Hc. unfold dither_chunk in Hc. apply bind_ok in Hc as ([dif1 outs1] & H1 & Hc). inversion Hc; subst outs1.
  assert (I : halves_zero dif1 /\ length outs = 0 + length (enumerate rows) /\ exact_rows start outs).
  { eapply (foldM_index_inv (fun n st => halves_zero (fst st) /\ length (snd st) = n /\ exact_rows start (snd st))) in H1; [exact H1| |].
    - intros n [i r0] [df os] [df1 os1] Hn (I1 & I2 & I3) Ei. cbn [fst snd] in *. rewrite nth_error_enumerate in Hn.
      destruct (nth_error rows n) as [r'|] eqn:Er; [|discriminate]. inversion Hn; subst i r'.
      assert (Hl : n < length rows) by (apply nth_error_Some; congruence).
      apply bind_ok in Ei as ([df2 o] & E1 & Ei). inversion Ei; subst df2 os1.
      destruct (nth_error pxs (start + n)) as [r|] eqn:R; [|apply nth_error_None in R; rewrite (sh_len _ _ S) in R; lia].
      destruct (dither_image_row_zero (start + n) df r0 df1 o r R I1) as [J1 J2]; auto.
      { rewrite Forall_forall in Fr. apply Fr. eapply nth_error_In; eauto. }
      split; auto. rewrite app_length. cbn [length]. split; [lia|]. intros y r2 R2 Hy. rewrite app_length in Hy. cbn [length] in Hy.
      destruct (Nat.eq_dec y n) as [->|NE].
      + rewrite nth_error_app2 by lia. replace (n - length os) with 0 by lia. exists o. split; auto. congruence.
      + rewrite nth_error_app1 by lia. apply I3; auto. lia.
    - cbn [fst snd]. split; auto. split; auto. intros y r R Hy. cbn in Hy. lia. }
  rewrite enumerate_length in I. destruct I as (_ & I1 & I2). auto.
Qed.

Lemma exact_app a b : exact_rows 0 a -> exact_rows (length a) b -> exact_rows 0 (a ++ b).
Proof.
  intros H1 H2 y r R Hy. cbn [plus] in R. rewrite app_length in Hy. destruct (Nat.lt_ge_cases y (length a)) as [L|L].
  - rewrite nth_error_app1 by auto. apply H1; auto.
  - rewrite nth_error_app2 by auto. apply H2; [|lia]. replace (length a + (y - length a)) with y by lia. auto.
Qed.
Variables (u : unspec) (rcb : callback).
Lemma floyd_chunks_zero stage1 cs : forall start done s s',
  exact_rows 0 done -> length done = start -> start + length (concat cs) = d_h d ->
  Forall (fun c => Forall (fun r => length r = e_w E) c) cs ->
  floyd_chunks u rcb E d None dm stage1 (d_h d) start done cs s = (Ok tt, s') ->
  length (r_out s') = d_h d /\ exact_rows 0 (r_out s').
Proof.
  induction cs as [|c cs IH]; intros start done s s' FD LD T FC H; cbn [floyd_chunks] in H.
  - unfold put_out, smod in H. inversion H; subst. cbn [r_out]. cbn in T. split; [lia|auto].
  - cbn [concat] in T. rewrite app_length in T. apply Forall_cons_iff in FC as [Fc FC].
    apply sbind_ok in H as (k & s1 & H1 & H). apply sbind_ok in H as (dif & s2 & H2 & H).
    unfold slift in H2. inversion H2 as [[H3 H4]]. subst s2.
    apply warm_up_zero in H3; [|lia|rewrite map_length, seq_length; auto].
    apply sbind_ok in H as (stop & s3 & H5 & H). destruct stop.
    + apply sbind_ok in H as (x & s4 & _ & H). discriminate.
    + apply sbind_ok in H as (o & s4 & H6 & H). unfold slift in H6. inversion H6 as [[H7 H8]]. subst s4.
      apply dither_chunk_zero in H7; auto; [|lia]. destruct H7 as [L7 X7].
      apply IH in H; auto.
      * apply exact_app; auto. rewrite LD. auto.
      * rewrite app_length. lia.
      * lia.
Qed.
End Rows.
End Env.

(** * The whole dithered remap *)
Definition base_level (q : qresult) : f32 :=
  let inv := f1 -f q_dither q in ffma inv (fneg inv) f1 *f (fofZ 15 /f fofZ 16).
Definition levels (K : f32 -> Prop) (q : qresult) : Prop :=
  K (base_level q) /\ K (base_level q *f (f1 /f fofZ 255)) /\ forall l, byte l -> K (base_level q *f (f1 /f fofZ 255) *f fofZ l).
(** Row [y] of the output holds the colours of row [y] of the image. *)
Definition rows_exact (n : nearest) (g : f64) (pxs : list (list rgba)) (outs : list (list nat)) : Prop :=
  forall y r, nth_error pxs y = Some r -> exists o, nth_error outs y = Some o /\ Forall2 (holds n) (map (from_rgba (gamma_lut g)) r) o.

Section Remap.
Variables (K : f32 -> Prop) (C : px -> Prop) (Z0 : zero_laws K C) (u : unspec) (U : unspec_ok u) (rcb : callback).
Definition all_found (g : f64) (pxs : list (list rgba)) (n : nearest) : Prop :=
  forall r c, In r pxs -> In c r -> C (from_rgba (gamma_lut g) c) /\ finds n (from_rgba (gamma_lut g) c).

Lemma floyd_zero (p : palf) max_err rm s pxs n s' : image_ok (r_img s) pxs -> shaped (r_img s) (r_out s) -> i_bg (r_img s) = None ->
  levels K (r_q s) -> nearest_new p = Ok n -> all_found (d_gamma (i_px (r_img s))) pxs n ->
  floyd u rcb p max_err rm s = (Ok tt, s') ->
  length (r_out s') = i_h (r_img s) /\ rows_exact n (d_gamma (i_px (r_img s))) pxs (r_out s').
Proof.
  intros I [LO FO] B (K1 & K2 & K3) N F H. unfold floyd in H.
  apply sbind_ok in H as (s0 & sx & H0 & H). unfold sget in H0. inversion H0; subst s0 sx. clear H0. cbv zeta in H.
  rewrite N in H. apply sbind_ok in H as (n0 & sx & H0 & H). unfold slift in H0. inversion H0; subst n0 sx. clear H0.
  apply sbind_ok in H as (x0 & s1 & H0 & H). unfold prepare_bg in H0. unfold sbind, sget in H0. rewrite B in H0. unfold sret in H0.
  inversion H0; subst s1. clear H0. rewrite B in H.
  apply sbind_ok in H as (tc & sx & H0 & H). unfold slift in H0. inversion H0; subst tc sx. clear H0.
  apply sbind_ok in H as (x1 & s1 & H0 & H). destruct (prepare_image_eq s pxs I) as (d & E1 & S1 & I1). rewrite E1 in H0.
  inversion H0; subst s1. clear H0. apply sbind_ok in H as (s2 & sx & H0 & H). unfold sget in H0. inversion H0; subst s2 sx. clear H0.
  set (s1 := upd_img s (set_px (r_img s) d)) in *.
  change (r_out s1) with (r_out s) in H. set (i1 := r_img s1) in *. change (i_h i1) with (d_h (i_px i1)) in H.
  set (dm := if dmode_is_none (q_dmap (r_q s)) then [] else _) in H.
  assert (DM : Forall byte dm).
  { unfold dm. destruct (dmode_is_none _); [constructor|].
    destruct (i_dmap (r_img s)) as [m|] eqn:D; [apply (proj2 (im_dmap _ _ I m D))|].
    destruct (i_edges (r_img s)) as [m|] eqn:D2; [apply (proj2 (im_edges _ _ I m D2))|constructor]. }
  match type of H with context [DEnv ?w ?n ?b ?e ?t ?g] => set (E := DEnv w n b e t g) in H end.
  destruct S1 as (W1 & Hh1 & G1 & _).
  pose proof (sh_h _ _ (im_px _ _ I1)) as HH. change (0 < d_h (i_px i1)) in HH.
  set (nc := num_chunks u _ _ _) in *.
  assert (NC : 1 <= nc) by (apply num_chunks_pos; auto).
  set (size := (d_h (i_px i1) + nc - 1) / nc) in *.
  assert (SZ : 0 < size). { unfold size. apply Nat.div_str_pos. lia. }
  apply (floyd_chunks_zero K C Z0 E (i_px i1) pxs dm) in H.
  - destruct H as [Q1 Q2]. change (d_h (i_px i1)) with (d_h d) in Q1. rewrite Hh1 in Q1. split; [exact Q1|].
    intros y r R. destruct (Q2 y r) as (o & O1 & O2); auto.
    + rewrite Q1. change (i_h (r_img s)) with (d_h (i_px (r_img s))). rewrite <- (sh_len _ _ (im_px _ _ I)). apply nth_error_Some. congruence.
    + exists o. split; auto. unfold prow in O2. change (d_gamma (i_px i1)) with (d_gamma d) in O2. rewrite G1 in O2. exact O2.
  - apply I1.
  - reflexivity.
  - unfold E, env_zero. cbn [e_base]. fold (base_level (r_q s)). destruct dm as [|l0 dm']; [split; [exact K1|intros l []]|].
    split; [exact K2|]. intros l Hl. apply K3. rewrite Forall_forall in DM. auto.
  - intros r c Hr Hc. unfold prow in Hc. apply in_map_iff in Hc as (c8 & <- & Hc). change (d_gamma (i_px i1)) with (d_gamma d). rewrite G1.
    apply (F r c8); auto.
  - intros y r R Hy. cbn in Hy. lia.
  - reflexivity.
  - cbn [plus]. rewrite chunks_concat by auto. rewrite LO. change (d_h (i_px i1)) with (d_h d). rewrite Hh1. reflexivity.
  - apply chunks_rows; auto. change (e_w E) with (d_w d). rewrite W1. exact FO.
Qed.

(** What the pass before dithering may do to the palette. *)
Definition pre_pass (p : palf) (pxs : list (list rgba)) (i : image) (e : f64) (p' : palf) : Prop :=
  exists s1 s2, image_ok (r_img s1) pxs /\ keeps i (r_img s1) /\ shaped (r_img s1) (r_out s1) /\
    remap_to_palette u false p s1 = (Ok (e, p'), s2).

Lemma write_dithered (CL : CastLaws A) q s pxs s' : entry_ok q s pxs -> i_bg (r_img s) = None -> (q_dither q =f f0) = false ->
  levels K q ->
  (forall p e n, (p = q_pal q /\ e = q_err q) \/ (exists e', pre_pass (q_pal q) pxs (r_img s) e' p /\ e = Some e' /\ q_dmap q <> DmNone /\ i_dmap (r_img s) = None) ->
     nearest_new (fst (init_int_palette p (q_gamma q) (q_post q))) = Ok n -> all_found (d_gamma (i_px (r_img s))) pxs n) ->
  write_remapped u rcb s = (Ok tt, s') ->
  exists p e n, ((p = q_pal q /\ e = q_err q) \/ (exists e', pre_pass (q_pal q) pxs (r_img s) e' p /\ e = Some e' /\ q_dmap q <> DmNone /\ i_dmap (r_img s) = None)) /\
    nearest_new (fst (init_int_palette p (q_gamma q) (q_post q))) = Ok n /\
    r_q s' = set_rem q (Some (snd (init_int_palette p (q_gamma q) (q_post q)), e)) /\
    length (r_out s') = i_h (r_img s) /\ rows_exact n (d_gamma (i_px (r_img s))) pxs (r_out s').
Proof.
  intros (EQ & I & SH & P) B D KL HF H. unfold write_remapped in H.
  apply sbind_ok in H as (s0 & sx & H0 & H). unfold sget in H0. inversion H0; subst s0 sx. clear H0. cbv zeta in H. rewrite EQ in H.
  apply sbind_ok in H as (stop & s1 & H0 & H). destruct stop; [discriminate|].
  assert (S1 : r_q s1 = r_q s /\ r_img s1 = r_img s /\ r_out s1 = r_out s) by (unfold on_world, progress in H0; inversion H0; auto).
  destruct S1 as (S1a & S1b & S1c). apply sbind_ok in H as (x0 & s2 & H1 & H).
  unfold put_img, smod in H1. inversion H1; subst s2. clear H1 H0.
  destruct (free_keeps _ _ I) as [K0 I0]. set (i0 := set_px _ _) in *. set (s2 := RSt _ i0 _ _) in *.
  assert (SH2 : shaped (r_img s2) (r_out s2)) by (cbn; rewrite S1c; apply (shaped_keeps (r_img s)); auto).
  rewrite D in H. apply sbind_ok in H as ([me p] & s3 & H1 & H).
  pose proof (generate_dither_map_ok u U CL (q_dmap q) (negb (is_none (i_bg (r_img s)))) (q_pal q) s2 pxs I0 SH2 P) as R1.
  unfold runs in R1. rewrite H1 in R1. destruct R1 as (R1 & R2 & R3 & R4 & R5 & R6). cbn [fst snd] in *.
  assert (PP : exists e, (match me with Some e => Some e | None => q_err q end) = e /\
            ((p = q_pal q /\ e = q_err q) \/ (exists e', pre_pass (q_pal q) pxs (r_img s) e' p /\ e = Some e' /\ q_dmap q <> DmNone /\ i_dmap (r_img s) = None))).
  { eexists. split; [reflexivity|]. unfold optionally_generate_dither_map in H1.
    apply sbind_ok in H1 as (s0 & sx & H0 & H1). unfold sget in H0. inversion H0; subst s0 sx. clear H0. cbv zeta in H1.
    destruct (negb (_ && _)) eqn:AL in H1; [unfold sret in H1; inversion H1; subst; left; auto|].
    assert (DM : q_dmap q <> DmNone /\ i_dmap (r_img s) = None).
    { apply negb_false_iff, andb_true_iff in AL as [AL AL2]. split; [|cbn [r_img s2 i_dmap i0 set_px] in AL2; destruct (i_dmap (r_img s)); [discriminate|reflexivity]].
      intros DM. rewrite DM, andb_false_r in AL. discriminate. }
    apply sbind_ok in H1 as ([err p1] & s4 & H2 & H1). apply sbind_ok in H1 as (s5 & s6 & _ & H1).
    apply sbind_ok in H1 as (i2 & s7 & _ & H1). apply sbind_ok in H1 as (x1 & s8 & _ & H1). unfold sret in H1. inversion H1; subst.
    right. exists err. split; [|auto]. exists s2, s4. split; [exact I0|]. split; [exact K0|]. split; auto. }
  destruct PP as (e & PE & PP). apply sbind_ok in H as (stop2 & s4 & H2 & H). destruct stop2; [discriminate|].
  assert (S4 : r_q s4 = r_q s3 /\ r_img s4 = r_img s3 /\ r_out s4 = r_out s3) by (unfold on_world, progress in H2; inversion H2; auto).
  destruct S4 as (S4a & S4b & S4c). rewrite PE in H. clear PE.
  destruct (init_int_palette p (q_gamma q) (q_post q)) as [p2 ip] eqn:IP.
  apply sbind_ok in H as ([] & s5 & HF5 & H). unfold put_q, smod in H. inversion H; subst s'. cbn [r_q r_out].
  assert (KP : keeps (r_img s) (r_img s3)) by (eapply keeps_trans; eauto).
  assert (Lp : length p2 = length (q_pal q)).
  { unfold init_int_palette in IP. inversion IP. rewrite map_length. apply R5. }
  destruct (nearest_new_ok p2) as (n & N & _); [lia|].
  exists p, e, n. split; auto. rewrite IP. cbn [fst snd]. split; auto. split; auto.
  assert (G : d_gamma (i_px (r_img s4)) = d_gamma (i_px (r_img s))) by (rewrite S4b; apply KP).
  assert (B4 : i_bg (r_img s4) = None).
  { rewrite S4b. destruct KP as (_ & _ & KB). rewrite B in KB. auto. }
  assert (DH : i_h (r_img s4) = i_h (r_img s)) by (rewrite S4b; apply (keeps_dims _ _ KP)).
  rewrite <- G, <- DH. eapply floyd_zero; [| |exact B4| |exact N| |exact HF5].
  - rewrite S4b. auto.
  - rewrite S4b, S4c. apply (shaped_keeps (r_img s)); auto. apply (shaped_back _ _ _ K0 R4).
  - rewrite S4a, R1. cbn. rewrite S1a, EQ. auto.
  - rewrite G. eapply HF; [exact PP|]. rewrite IP. auto.
Qed.
End Remap.
End DitherZero.
