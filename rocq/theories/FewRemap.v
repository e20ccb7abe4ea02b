(** Remapping to a palette that contains every colour of the image, in any
    arithmetic where equal colours are found and their averages are known up to
    a relation [near] that rounding to 8 bits undoes. *)
From Verif Require Import Base BaseFacts Arith Order Pal World Attr Hist MedianCut Nearest Kmeans Blur ImageM Quant Remap
  SpecHist SpecImage BlurFacts ImageFacts HistFacts MedianFacts SearchFacts NearFacts TreeFacts QuantFacts RemapFacts AttrFacts Api ApiFacts ResultFacts ReuseFacts
  PalFacts DitherZero LosslessReal.
Open Scope nat_scope.

Section FewRemap.
Context {A : Arith}.
Variables (good : px -> Prop) (near : px -> px -> Prop) (avg_of : Z -> coloravg -> px -> Prop) (cap : Z).
Record avg_laws : Prop := {
  av_new : forall c, good c -> avg_of 0 (CAvg dpx0 d0) c;
  av_more : forall N N' a c, (N <= N')%Z -> avg_of N a c -> avg_of N' a c;
  av_add : forall N a c v, good c -> byte v -> (N + 1 <= cap)%Z -> avg_of N a c -> avg_of (N + 1) (avg_add a c (fofZ v)) c;
  av_both : forall N1 N2 a b c, (N1 + N2 <= cap)%Z -> avg_of N1 a c -> avg_of N2 b c ->
    avg_of (N1 + N2) (CAvg (dpx_add (c_sum a) (c_sum b)) (c_total a +d c_total b)) c;
  av_fin : forall N a c pop, (N <= cap)%Z -> good c -> avg_of N a c -> near c (fst (finalize_entry (a, (c, pop))));
  av_refl : forall c, good c -> near c c;
  av_zero : f2d f0 = d0;
  av_zero2 : (d0 +d d0) = d0
}.
Hypothesis L : avg_laws.

Definition centred (p : palf) (N : Z) (k : kmeans) : Prop :=
  length (k_avg k) = length p /\
  forall j a c, nth_error (k_avg k) j = Some a -> nth_error (colors_of p) j = Some c -> avg_of N a c.
Lemma update_centred p N k c v m k' : centred p N k -> good c -> byte v -> (N + 1 <= cap)%Z -> nth_error (colors_of p) m = Some c ->
  update_color k c (fofZ v) m = Ok k' -> centred p (N + 1) k'.
Proof.
  intros [Lk H] G V HN M E. unfold update_color in E. apply bind_ok in E as (a & Ha & E). inversion E; subst. apply idx_ok in Ha.
  split; [cbn [k_avg]; rewrite upd_length; auto|]. cbn [k_avg]. intros j a' c' Hj Hc.
  destruct (Nat.eq_dec m j) as [<-|NE].
  - assert (Lm : m < length (k_avg k)) by (apply nth_error_Some; congruence). rewrite nth_error_upd_eq in Hj by auto. inversion Hj; subst.
    assert (c' = c) by congruence. subst. apply (av_add L); auto. eapply H; eauto.
  - rewrite nth_error_upd_neq in Hj by auto. apply (av_more L N); [lia|]. eapply H; eauto.
Qed.
Lemma centred_new p : Forall good (colors_of p) -> centred p 0 (km_new (length p)).
Proof.
  intros F. split; [cbn [km_new k_avg]; apply repeat_length|]. intros j a c Hj Hc. cbn [km_new k_avg] in Hj. apply nth_error_In, repeat_spec in Hj. subst a.
  apply (av_new L). rewrite Forall_forall in F. apply F. eapply nth_error_In; eauto.
Qed.
Lemma centred_merge p N1 N2 a b : (N1 + N2 <= cap)%Z -> centred p N1 a -> centred p N2 b -> centred p (N1 + N2) (km_merge a b).
Proof.
  intros HN [La Ha] [Lb Hb']. unfold km_merge. rewrite combine_skip by lia. rewrite app_nil_r. split; cbn [k_avg].
  - rewrite map_length, combine_length. lia.
  - intros j x c Hj Hc. rewrite nth_error_map, nth_error_combine in Hj.
    destruct (nth_error (k_avg a) j) as [xa|] eqn:Ea; [|discriminate]. destruct (nth_error (k_avg b) j) as [xb|] eqn:Eb; [|discriminate].
    cbn [option_map] in Hj. inversion Hj; subst. cbn [fst snd]. apply (av_both L); eauto.
Qed.
Definition zsum (l : list Z) : Z := fold_right Z.add 0%Z l.
Lemma centred_fold p Ns ks : Forall2 (centred p) Ns ks -> Forall (fun n => 0 <= n)%Z Ns -> forall N k, (N + zsum Ns <= cap)%Z -> centred p N k ->
  centred p (N + zsum Ns) (fold_left km_merge ks k).
Proof.
  induction 1 as [|N1 k1 Ns ks H1 H IH]; intros P N k HN K; cbn [fold_left zsum fold_right] in *.
  - rewrite Z.add_0_r. auto.
  - fold (zsum Ns) in *. apply Forall_cons_iff in P as [P1 P]. assert (0 <= zsum Ns)%Z.
    { clear - P. induction P; cbn; try lia. fold (zsum l). lia. }
    replace (N + (N1 + zsum Ns))%Z with (N + N1 + zsum Ns)%Z by lia. apply IH; [auto|lia|]. apply centred_merge; auto. lia.
Qed.
Lemma centred_reduce p Ns ks k : Forall2 (centred p) Ns ks -> Forall (fun n => 0 <= n)%Z Ns -> (zsum Ns <= cap)%Z ->
  km_reduce ks = Some k -> centred p (zsum Ns) k.
Proof.
  intros F P HN E. destruct F as [|N1 k1 Ns ks H1 H]; [discriminate|]. inversion E; subst. apply Forall_cons_iff in P as [P1 P].
  apply centred_fold; auto.
Qed.
Lemma finalize_centred (p : palf) N k : (N <= cap)%Z -> Forall good (colors_of p) -> centred p N k -> Forall2 near (colors_of p) (colors_of (fst (km_finalize k p))).
Proof.
  intros HN G [Lk H]. unfold km_finalize. cbn [fst]. rewrite combine_skip by auto. rewrite app_nil_r. unfold colors_of in *. rewrite map_map.
  revert Lk H. generalize (k_avg k). induction p as [|[c pop] p IH]; intros l Lk H; destruct l as [|a l]; try discriminate; cbn [combine map]; constructor.
  - cbn [fst map] in *. apply Forall_cons_iff in G as [G _]. apply (av_fin L N); auto. apply (H 0 a c); reflexivity.
  - apply Forall_cons_iff in G as [_ G]. apply IH; auto. intros j. exact (H (S j)).
Qed.

Section Pass.
Variables (p : palf) (n : nearest) (N : nearest_new p = Ok n) (G : Forall good (colors_of p)).
Hypothesis FI : forall c, In c (colors_of p) -> finds n c.
Variables (imp : option (list Z)) (IMP : forall m, imp = Some m -> Forall byte m).

Lemma weight_byte j : byte (match imp with Some m => match nth_error m j with Some v => v | None => 1%Z end | None => 1%Z end).
Proof.
  destruct imp as [m|] eqn:E; [|unfold byte; lia]. destruct (nth_error m j) as [v|] eqn:V; [|unfold byte; lia]. specialize (IMP m eq_refl).
  rewrite Forall_forall in IMP. apply IMP. eapply nth_error_In; eauto.
Qed.
Lemma remap_px_centred row w l : forall k c last outs err k' last' outs' err', (forall cp, In cp l -> In (snd cp) (colors_of p)) ->
  (c + Z.of_nat (length l) <= cap)%Z -> centred p c k ->
  foldM (remap_px n [] 0 imp row w) l (k, last, outs, err) = Ok (k', last', outs', err') -> centred p (c + Z.of_nat (length l)) k'.
Proof.
  induction l as [|[col inp] l IH]; intros k c last outs err k' last' outs' err' F HN K E; cbn [foldM] in E.
  - inversion E; subst. cbn [length]. rewrite Z.add_0_r. auto.
  - apply bind_ok in E as ([[[k1 l1] o1] e1] & E1 & E). cbn [length] in *. replace (c + Z.of_nat (S (length l)))%Z with (c + 1 + Z.of_nat (length l))%Z by lia.
    eapply IH; [|lia| |exact E].
    + intros cp H. apply F. right. auto.
    + unfold remap_px in E1. assert (IN : In inp (colors_of p)) by exact (F (col, inp) (or_introl eq_refl)). pose proof (FI inp IN last) as FF.
      destruct (search n inp last) as [m df]. cbn [fst] in FF. replace (nth_error (@nil px) col) with (@None px) in E1 by (destruct col; auto).
      apply bind_ok in E1 as (k2 & E2 & E1). inversion E1; subst. destruct (nearest_new_inv p n N) as (_ & _ & NP). rewrite NP in FF.
      eapply update_centred; [exact K| |apply weight_byte|lia|exact FF|exact E2]. rewrite Forall_forall in G. auto.
Qed.
Variables (d : drows) (pxs : list (list rgba)) (S : shows d pxs).
Hypothesis Cov : forall r c, In r pxs -> In c r -> In (from_rgba (gamma_lut (d_gamma d)) c) (colors_of p).
Lemma remap_row_centred row c k k' o e : row < d_h d -> (c + Z.of_nat (d_w d) <= cap)%Z -> centred p c k ->
  remap_row n d None 0 imp row k = Ok (k', o, e) -> centred p (c + Z.of_nat (d_w d)) k'.
Proof.
  intros Hr HN K E. unfold remap_row in E. destruct (shows_row_ex d pxs row S Hr) as (r & R & Lr & _ & ER). rewrite ER in E. cbn [bind] in E.
  apply bind_ok in E as ([[[k1 l1] o1] e1] & E1 & E). inversion E; subst.
  assert (LE : length (enumerate (map (from_rgba (gamma_lut (d_gamma d))) r)) = d_w d) by (unfold enumerate; rewrite combine_length, seq_length, map_length; lia).
  rewrite <- LE in *. eapply remap_px_centred; [|exact HN|exact K|exact E1].
  intros [j v] H. apply In_enumerate in H. rewrite nth_error_map in H. destruct (nth_error r j) as [c8|] eqn:Ec; [|discriminate].
  cbn in H. inversion H; subst. apply (Cov r c8); eapply nth_error_In; eauto.
Qed.
Lemma remap_worker_centred work : forall c out errs k out' errs' k', Forall (fun r => r < d_h d) work -> (c + Z.of_nat (d_w d) * Z.of_nat (length work) <= cap)%Z -> centred p c k ->
  remap_worker n d None 0 imp (out, errs) (k, work) = Ok (out', errs', k') -> centred p (c + Z.of_nat (d_w d) * Z.of_nat (length work)) k'.
Proof.
  unfold remap_worker. cbn [fst snd]. induction work as [|r work IH]; intros c out errs k out' errs' k' F HN K E; cbn [foldM] in E.
  - inversion E; subst. cbn [length]. rewrite Z.mul_0_r, Z.add_0_r. auto.
  - apply Forall_cons_iff in F as [F1 F2]. apply bind_ok in E as ([[o1 e1] k1] & E1 & E). apply bind_ok in E1 as ([[k2 o] e] & E2 & E1).
    apply bind_ok in E1 as (o2 & _ & E1). inversion E1; subst. cbn [length] in *.
    replace (c + Z.of_nat (d_w d) * Z.of_nat (Datatypes.S (length work)))%Z with (c + Z.of_nat (d_w d) + Z.of_nat (d_w d) * Z.of_nat (length work))%Z in * by nia.
    eapply IH; [exact F2|exact HN| |exact E]. eapply remap_row_centred; eauto. nia.
Qed.
Definition loads (threads : list (list nat)) : list Z := map (fun t => (Z.of_nat (d_w d) * Z.of_nat (length t))%Z) threads.
Lemma loads_sum threads : zsum (loads threads) = (Z.of_nat (d_w d) * Z.of_nat (length (concat threads)))%Z.
Proof. induction threads as [|t l IH]; cbn; [lia|]. fold (loads l) (zsum (loads l)). rewrite IH, app_length. lia. Qed.
Lemma loads_pos threads : Forall (fun n => 0 <= n)%Z (loads threads).
Proof. apply Forall_map, Forall_forall. intros t _. lia. Qed.
Lemma zsum_in t l : Forall (fun n => 0 <= n)%Z l -> In t l -> (t <= zsum l)%Z.
Proof.
  induction l as [|x l IH]; intros F H; [destruct H|]. apply Forall_cons_iff in F as [F1 F2]. cbn. fold (zsum l).
  assert (0 <= zsum l)%Z by (clear - F2; induction F2; cbn; try lia; fold (zsum l); lia).
  destruct H as [->|H]; [lia|]. specialize (IH F2 H). lia.
Qed.
Lemma remap_rows_near threads main shape out out' err p' : Forall (Forall (fun r => r < d_h d)) threads ->
  (Z.of_nat (d_w d) * Z.of_nat (length (concat threads)) <= cap)%Z ->
  remap_rows n d None imp threads main shape out p = Ok (out', err, p') -> Forall2 near (colors_of p) (colors_of p').
Proof.
  intros F HC E. unfold remap_rows in E. cbn [bind] in E. cbv zeta in E.
  apply bind_ok in E as ([[o es] ks] & E1 & E). inversion E; subst. clear E. rewrite <- loads_sum in HC.
  assert (K : Forall2 (centred p) (loads threads) ks).
  { assert (GEN : forall ths kws o1 es1 ks1 Ns1, Forall2 (fun t kw => fst kw = km_new (length p) /\ snd kw = t) ths kws ->
       Forall (Forall (fun r => r < d_h d)) ths -> (forall t, In t (loads ths) -> (t <= cap)%Z) -> Forall2 (centred p) Ns1 ks1 ->
       forall o2 es2 ks2, foldM (fun '(out, errs, ks) kw => ' (o, e, k) <- remap_worker n d None 0 imp (out, errs) kw ;; Ok (o, e, ks ++ [k])) kws (o1, es1, ks1) = Ok (o2, es2, ks2) ->
       Forall2 (centred p) (Ns1 ++ loads ths) ks2).
    { clear E1 F HC ks. intros ths kws o1 es1 ks1 Ns1 H. revert o1 es1 ks1 Ns1.
      induction H as [|t [k0 t'] ths kws [H1 H2] H IH]; intros o1 es1 ks1 Ns1 F HC HK o2 es2 ks2 E; cbn [foldM] in E.
      - inversion E; subst. cbn [loads map]. rewrite app_nil_r. auto.
      - cbn [fst snd] in H1, H2. subst k0 t'. apply Forall_cons_iff in F as [F1 F2].
        apply bind_ok in E as ([[o3 es3] ks3] & E1 & E). apply bind_ok in E1 as ([[o4 e4] k4] & E4 & E1). inversion E1; subst.
        cbn [loads map]. fold (loads ths). change (?x :: ?y) with ([x] ++ y) at 1. rewrite app_assoc.
        eapply IH; [exact F2| | |exact E].
        + intros x Hx. apply HC. right. exact Hx.
        + apply Forall2_app; auto. constructor; [|constructor].
          rewrite <- (Z.add_0_l (Z.of_nat (d_w d) * Z.of_nat (length t))).
          eapply remap_worker_centred; [exact F1| |exact (centred_new p G)|exact E4]. apply HC. left. reflexivity. }
    eapply (GEN threads _ _ _ _ []) in E1; [exact E1| |exact F| |constructor].
    - clear. generalize (km_new (length p)). intros k0. unfold enumerate. generalize 0. induction threads as [|t l IH]; intros j; cbn [length seq combine map]; constructor; [|apply IH].
      cbn [fst snd]. destruct (Nat.eqb _ _); auto.
    - intros t Ht. pose proof (zsum_in t _ (loads_pos threads) Ht). lia. }
  destruct (km_reduce ks) as [k|] eqn:R.
  - eapply finalize_centred; [|exact G|]; [exact HC|]. eapply centred_reduce; eauto. apply loads_pos.
  - clear - G L. induction G; constructor; auto. apply (av_refl L). auto.
Qed.
End Pass.

Section Zero.
Variables (p : palf) (n : nearest) (FZ : forall c, In c (colors_of p) -> forall g, snd (search n c g) = f0).
Lemma zero_row_error l : Forall (fun x : nat * f32 => snd x = f0) l -> row_error l d0 = d0.
Proof.
  unfold row_error. induction l as [|x l IH]; intros F; [reflexivity|]. apply Forall_cons_iff in F as [F1 F2]. cbn [fold_left].
  rewrite F1, (av_zero L), (av_zero2 L). auto.
Qed.
Lemma stree_zero f t : (forall r, In r (stree_leaves t) -> f r = d0) -> stree_sum f t = d0.
Proof.
  induction t as [|r|l IHl r IHr]; intros F; cbn [stree_sum stree_leaves] in *; [reflexivity|apply F; left; auto|].
  rewrite IHl, IHr by (intros x Hx; apply F; apply in_app_iff; auto). apply (av_zero2 L).
Qed.
Lemma plain_zero b i pxs t : image_ok i pxs -> i_bg i = None ->
  (forall r c, In r pxs -> In c r -> In (from_rgba (gamma_lut (d_gamma (i_px i))) c) (colors_of p)) ->
  (forall y, In y (stree_leaves t) -> y < i_h i) -> plain_sum n b i t = d0.
Proof.
  intros I B Cov Ly. apply stree_zero. intros y Hy. apply zero_row_error. specialize (Ly y Hy).
  unfold plain_row, row_result, img_bg. rewrite B. replace (if b then option_map i_px None else None) with (@None drows) by (destruct b; auto).
  cbn [eff_bg bg_row]. destruct (shows_row_ex _ _ y (im_px _ _ I) Ly) as (r & R & _ & _ & ->).
  assert (Q : forall l last, (forall cp, In cp l -> In (snd cp) (colors_of p)) -> Forall (fun x : nat * f32 => snd x = f0) (pure_row n [] (eff_tidx n None) l last)).
  { clear - FZ. induction l as [|[col inp] l IH]; intros last F; cbn [pure_row]; constructor.
    - unfold bg_choice. replace (nth_error (@nil px) col) with (@None px) by (destruct col; auto). cbn [snd].
      apply FZ. apply (F (col, inp)). left. auto.
    - apply IH. intros cp H. apply F. right. auto. }
  apply Q. intros [c v] H. apply In_enumerate in H. rewrite nth_error_map in H. destruct (nth_error r c) as [c8|] eqn:Ec; [|discriminate].
  cbn in H. inversion H; subst. apply (Cov r c8); eapply nth_error_In; eauto.
Qed.
End Zero.

Section Whole.
Variables (u : unspec) (U : unspec_ok u) (K : f32 -> Prop) (Z0 : zero_laws K good) (CL : CastLaws A).
Variables (q : qresult) (P : 0 < length (q_pal q) <= 256) (G : Forall good (colors_of (q_pal q))).
Hypothesis HIT : forall (p : palf) n, colors_of p = colors_of (q_pal q) -> nearest_new p = Ok n ->
  forall c, In c (colors_of p) -> finds n c /\ forall g, snd (search n c g) = f0.
Variables (i : image) (pxs : list (list rgba)) (I : image_ok i pxs) (B : i_bg i = None).
Hypothesis Cov : forall r c, In r pxs -> In c r -> In (from_rgba (gamma_lut (d_gamma (i_px i))) c) (colors_of (q_pal q)).
Hypothesis DIV : (d0 /d dofZ (wrap32 (Z.of_nat (i_w i) * Z.of_nat (i_h i)))) = d0.
Hypothesis CAP : (Z.of_nat (i_w i) * Z.of_nat (i_h i) <= cap)%Z.
Lemma pre_pass_near e p' : pre_pass u (q_pal q) pxs i e p' -> Forall2 near (colors_of (q_pal q)) (colors_of p') /\ e = d0.
Proof.
  set (p := q_pal q) in *. intros (s1 & s2 & I1 & Ki & [LO FO] & E). destruct (nearest_new_ok p P) as (n & N & _).
  assert (Gm : d_gamma (i_px (r_img s1)) = d_gamma (i_px i)) by apply Ki.
  assert (B1 : i_bg (r_img s1) = None) by (destruct Ki as (_ & _ & KB); rewrite B in KB; auto).
  assert (W1 : i_w (r_img s1) = i_w i /\ i_h (r_img s1) = i_h i).
  { destruct Ki as ((X1 & X2 & _) & _). split; [exact X1|exact X2]. }
  destruct W1 as [W1 H1]. split.
  - unfold remap_to_palette in E. apply sbind_ok in E as (n' & sx & E0 & E). unfold slift in E0. rewrite N in E0. inversion E0; subst n' sx. clear E0.
    apply sbind_ok in E as (x0 & s3 & E0 & E). destruct (prepare_image_eq s1 pxs I1) as (d & E1 & S1 & I2). rewrite E1 in E0. inversion E0; subst s3. clear E0.
    apply sbind_ok in E as (x1 & s3 & E0 & E). unfold sret in E0. inversion E0; subst s3. clear E0.
    apply sbind_ok in E as (s3 & sx & E0 & E). unfold sget in E0. inversion E0; subst s3 sx. clear E0. cbv zeta in E.
    apply sbind_ok in E as (t & s3 & E0 & E). apply sbind_ok in E as ([[o er] p1] & s4 & E2 & E).
    unfold slift in E2. inversion E2 as [[E3 E4]]. subst s4. apply sbind_ok in E as (x2 & s5 & _ & E).
    destruct (dis_nan er); [discriminate|]. unfold sret in E. inversion E; subst p1. cbn [r_img upd_img] in E3.
    destruct S1 as (Wd & Hh1 & G1 & _).
    assert (CV : covers (i_h (r_img s1)) (u_rows u t (i_h (r_img s1)))) by apply (uo_rows _ U).
    apply (remap_rows_near p n N G) with (pxs := pxs) in E3; auto.
    + intros c Hc. apply (HIT p n eq_refl N c Hc).
    + intros m Hm. apply (im_imp _ _ I2 m Hm).
    + apply I2.
    + cbn [i_px set_px]. rewrite G1, Gm. exact Cov.
    + cbn [r_out upd_img]. rewrite LO. cbn [i_px set_px]. rewrite Hh1.
      change (d_h (i_px (r_img s1))) with (i_h (r_img s1)). apply covers_lt. exact CV.
    + cbn [r_out upd_img]. rewrite LO. cbn [i_px set_px]. rewrite Wd. change (d_w (i_px (r_img s1))) with (i_w (r_img s1)).
      unfold covers in CV. rewrite (Permutation.Permutation_length CV), seq_length, W1, H1. exact CAP.
  - destruct (remap_to_palette_eq u U false p s1 pxs n I1 LO N) as (i' & p2 & E2 & _). rewrite E in E2.
    rewrite (plain_zero p n (fun c Hc => proj2 (HIT p n eq_refl N c Hc)) false (r_img s1) pxs) in E2; auto.
    + destruct (dis_nan _); [discriminate|]. inversion E2. rewrite W1, H1. exact DIV.
    + rewrite Gm. exact Cov.
    + intros y. apply sum_leaves_lt. auto.
Qed.

(** Rounding the palette to 8 bits undoes [near]. *)
Hypothesis ST : forall p : palf, Forall2 near (colors_of (q_pal q)) (colors_of p) ->
  colors_of (fst (init_int_palette p (q_gamma q) (q_post q))) = colors_of (q_pal q).
Lemma near_self : Forall2 near (colors_of (q_pal q)) (colors_of (q_pal q)).
Proof. clear - G L. induction G; constructor; auto. apply (av_refl L). auto. Qed.
Lemma exact_remap rcb buf w q' i' out w' : q_err q = Some d0 -> levels K q ->
  remap_into u rcb q i buf w = (Ok tt, (q', i', out, w')) ->
  exists p : palf, Forall2 near (colors_of (q_pal q)) (colors_of p) /\
    q_rem q' = Some (snd (init_int_palette p (q_gamma q) (q_post q)), Some d0) /\
    forall y x r c, nth_error pxs y = Some r -> nth_error r x = Some c ->
    exists k, nth_error out (y * i_w i + x) = Some k /\ nth_error (colors_of (q_pal q)) k = Some (from_rgba (gamma_lut (d_gamma (i_px i))) c).
Proof.
  intros QE LV E.
  assert (FP : Forall (fun r => length r = i_w i) pxs).
  { eapply Forall_impl; [|apply (sh_rows _ _ (im_px _ _ I))]. intros r [? _]. auto. }
  assert (LP : length pxs = i_h i) by apply (sh_len _ _ (im_px _ _ I)).
  destruct (q_dither q =f f0) eqn:D.
  - destruct (plain_remap_eq u rcb q i pxs buf w q' i' out w' U I P D E) as (n & e & N & -> & -> & (t & T1 & T2 & ->) & _).
    exists (q_pal q). split; [apply near_self|]. pose proof (ST (q_pal q) near_self) as S2. set (p2 := fst (init_int_palette _ _ _)) in *.
    assert (Cov2 : forall r c, In r pxs -> In c r -> In (from_rgba (gamma_lut (d_gamma (i_px i))) c) (colors_of p2)) by (rewrite S2; exact Cov).
    split.
    + assert (T3 : forall y, In y (stree_leaves t) -> y < i_h i).
      { intros y Hy. eapply Permutation_in in Hy; [|exact T1]. apply in_seq in Hy. lia. }
      rewrite (plain_zero p2 n (fun c Hc => proj2 (HIT p2 n S2 N c Hc)) true i pxs t I B Cov2 T3).
      cbn [q_rem set_rem]. do 3 f_equal. exact DIV.
    + intros y x r c Y X. destruct (nearest_new_inv p2 n N) as (_ & NO & NP).
      destruct (rows_exact_at n (d_gamma (i_px i)) pxs (plain_out n true i) (i_w i) (i_h i) (skipn (i_w i * i_h i) buf)) with (y := y) (x := x) (r := r) (c := c)
        as (k & K1 & K2); auto.
      * apply plain_found; auto. intros r0 c0 Hr Hc. split; [exact Logic.I|]. apply (HIT p2 n S2 N). apply (Cov2 r0 c0); auto.
      * apply (plain_out_good n (length p2) true i pxs); auto.
      * exists k. split; auto. unfold DitherZero.holds in K2. rewrite NP, S2 in K2. exact K2.
  - unfold remap_into in E. cbv zeta in E. destruct (Nat.ltb_spec (length buf) (i_w i * i_h i)) as [Hlt|Hge]; [discriminate|].
    assert (Lf : length (firstn (i_w i * i_h i) buf) = i_w i * i_h i) by (rewrite firstn_length; lia).
    pose proof (sh_w _ _ (im_px _ _ I)) as HW. change (0 < i_w i) in HW.
    destruct (chunks_exact_shape (i_w i) (i_h i) (firstn (i_w i * i_h i) buf) HW Lf) as (LR & FR & _).
    destruct (write_remapped u rcb (RSt q i (chunks_exact (i_w i) (firstn (i_w i * i_h i) buf)) w)) as [r0 s'] eqn:WR.
    inversion E; subst. clear E. set (s0 := RSt q i _ w) in *.
    assert (EO : entry_ok q s0 pxs) by exact (conj eq_refl (conj I (conj (conj LR FR) P))).
    destruct (write_dithered K good Z0 u U rcb CL q s0 pxs s' EO B D LV) with (2 := WR) as (p & e & n & PP & N & RQ & LO & RX).
    + intros p e n PP N. intros r c Hr Hc.
      assert (CP : Forall2 near (colors_of (q_pal q)) (colors_of p)).
      { destruct PP as [[-> _]|(e' & PP & _)]; [apply near_self|]. apply (pre_pass_near _ _ PP). }
      pose proof (ST p CP) as S2. pose proof (Cov r c Hr Hc) as IN. split.
      * rewrite Forall_forall in G. apply G. exact IN.
      * apply (HIT _ n S2 N). rewrite S2. exact IN.
    + assert (CP : Forall2 near (colors_of (q_pal q)) (colors_of p) /\ e = Some d0).
      { destruct PP as [[-> ->]|(e' & PP & -> & _)]; [split; [apply near_self|exact QE]|]. destruct (pre_pass_near _ _ PP) as [? ->]. auto. }
      destruct CP as [CP ->]. exists p. split; auto. rewrite RQ. cbn [q_rem set_rem]. split; auto.
      intros y x r c Y X.
      destruct (rows_exact_at n (d_gamma (i_px i)) pxs (r_out s') (i_w i) (i_h i) (skipn (i_w i * i_h i) buf) RX LO LP FP y x r c Y X) as (k & K1 & K2).
      exists k. split; auto. destruct (nearest_new_inv _ n N) as (_ & _ & NP). unfold DitherZero.holds in K2. rewrite NP, (ST p CP) in K2. exact K2.
Qed.
End Whole.
End FewRemap.
