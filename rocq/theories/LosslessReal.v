(** Exact arithmetic: remapping to a palette that contains every colour of the
    image gives those colours back, dithered or not. *)
From Verif Require Import Base BaseFacts Arith Order Pal World Attr Hist MedianCut Nearest Kmeans Blur ImageM Quant Remap
  SpecHist SpecImage BlurFacts ImageFacts HistFacts MedianFacts SearchFacts NearFacts TreeFacts QuantFacts RemapFacts AttrFacts Api ApiFacts ResultFacts ReuseFacts
  PalFacts RealArith NearReal SearchReal DitherZero.
From Coq Require Import Reals Lra.
Open Scope nat_scope.

Section RowsFound.
Context {A : Arith}.
Lemma pure_row_found n tidx l : forall last, Forall (fun cp => finds n (snd cp)) l ->
  Forall2 (holds n) (map snd l) (map fst (pure_row n [] tidx l last)).
Proof.
  induction l as [|[col inp] l IH]; intros last F; cbn [pure_row map snd]; constructor; apply Forall_cons_iff in F as [F1 F2].
  - unfold bg_choice. replace (nth_error (@nil px) col) with (@None px) by (destruct col; auto). cbn [fst]. apply F1.
  - apply IH. auto.
Qed.
Lemma plain_found n b i pxs : image_ok i pxs -> i_bg i = None -> all_found (fun _ => True) (d_gamma (i_px i)) pxs n ->
  rows_exact n (d_gamma (i_px i)) pxs (plain_out n b i).
Proof.
  intros I B F y r R. pose proof (im_px _ _ I) as S.
  assert (Hy : y < i_h i) by (change (i_h i) with (d_h (i_px i)); rewrite <- (sh_len _ _ S); apply nth_error_Some; congruence).
  exists (map fst (plain_row n b i y)). split.
  - unfold plain_out. rewrite nth_error_map, nth_error_seq. destruct (Nat.ltb_spec y (i_h i)); [|lia]. reflexivity.
  - unfold plain_row, row_result, img_bg. rewrite B. replace (if b then option_map i_px None else None) with (@None drows) by (destruct b; auto).
    cbn [eff_bg bg_row]. rewrite (shows_row _ _ _ _ S R).
    rewrite <- (map_snd_enumerate (map (from_rgba (gamma_lut (d_gamma (i_px i)))) r)) at 1. apply pure_row_found.
    apply Forall_forall. intros [c v] Hc. apply In_enumerate in Hc. cbn [snd]. rewrite nth_error_map in Hc.
    destruct (nth_error r c) as [c8|] eqn:Ec; [|discriminate]. cbn in Hc. inversion Hc; subst.
    apply (F r c8); eapply nth_error_In; eauto.
Qed.
Lemma Forall2_nth2 {T V} (R : T -> V -> Prop) l m i a : Forall2 R l m -> nth_error l i = Some a -> exists b, nth_error m i = Some b /\ R a b.
Proof. apply Forall2_nth_error. Qed.
(** Reading a remapped buffer. *)
Lemma rows_exact_at n g pxs outs w h rest : rows_exact n g pxs outs -> length outs = h -> length pxs = h -> Forall (fun r => length r = w) pxs ->
  forall y x r c, nth_error pxs y = Some r -> nth_error r x = Some c ->
  exists k, nth_error (concat outs ++ rest) (y * w + x) = Some k /\ holds n (from_rgba (gamma_lut g) c) k.
Proof.
  intros E LO LP FP y x r c Y X.
  assert (FO : Forall (fun r => length r = w) outs).
  { apply Forall_forall. intros o Ho. apply In_nth_error in Ho as (j & Hj).
    destruct (nth_error pxs j) as [rj|] eqn:Rj.
    - destruct (E j rj Rj) as (o' & O1 & O2). assert (o' = o) by congruence. subst. apply Forall2_len in O2. rewrite map_length in O2.
      rewrite Forall_forall in FP. rewrite <- (FP rj); [lia|eapply nth_error_In; eauto].
    - apply nth_error_None in Rj. assert (j < length outs) by (apply nth_error_Some; congruence). lia. }
  destruct (E y r Y) as (o & O1 & O2). rewrite Forall_forall in FP. pose proof (FP r (nth_error_In _ _ Y)) as Lr.
  assert (Hx : x < w) by (rewrite <- Lr; apply nth_error_Some; congruence).
  assert (Hy : y < h) by (rewrite <- LP; apply nth_error_Some; congruence).
  destruct (Forall2_nth_error _ _ _ x (from_rgba (gamma_lut g) c) O2) as (k & K1 & K2); [rewrite nth_error_map, X; auto|].
  exists k. split; auto. rewrite nth_error_app1.
  - rewrite (nth_error_concat w); auto. rewrite O1. auto.
  - rewrite (concat_rows_length w), LO; auto. nia.
Qed.
End RowsFound.

Section LosslessReal.
Variable big : R.
Hypothesis Hb : (1 <= big)%R.
Let A : Arith := real big.
Local Existing Instance A.

Lemma real_zero_laws : zero_laws (fun _ => True) (fun _ => True).
Proof.
  constructor; auto.
  - intros k _. unfold px_scale, px0. cbn [pa pr pg pb]. f_equal; exact (Rmult_0_l k).
  - unfold px_add, px0. cbn [pa pr pg pb]. f_equal; exact (Rplus_0_l 0%R).
  - intros c _. unfold px_sub, px0. f_equal; exact (Rminus_diag_eq _ _ eq_refl).
  - unfold err_energy, px0. cbn [pa pr pg pb]. apply Rltb_lt. cbn. lra.
Qed.

Lemma real_finds (p : palf) n c : nearest_new p = Ok n -> In c (colors_of p) -> finds n c.
Proof.
  intros N I g. destruct (nearest_new_inv p n N) as (_ & _ & ->). apply In_nth_error in I as (j & J).
  destruct (search_exact big p n c g Hb N) as (pc & E & _ & M).
  { right. exists j, c. split; auto. rewrite (diff_self big). lra. }
  etransitivity; [exact E|]. f_equal. symmetry. apply (diff_zero big). specialize (M j c J). rewrite (diff_self big) in M.
  apply Rle_antisym; auto. apply diff_pos.
Qed.
Lemma real_hit_dist (p : palf) n c g : nearest_new p = Ok n -> In c (colors_of p) -> snd (search n c g) = 0%R.
Proof.
  intros N I. apply In_nth_error in I as (j & J).
  destruct (search_exact big p n c g Hb N) as (pc & E & S & M).
  { right. exists j, c. split; auto. rewrite (diff_self big). lra. }
  etransitivity; [exact S|]. specialize (M j c J). rewrite (diff_self big) in M.
  apply Rle_antisym; auto. apply diff_pos.
Qed.

(** ** The average of equal colours is that colour *)
Definition avg_of (a : coloravg) (c : px) : Prop :=
  (0 <= c_total a)%R /\ c_sum a = DPx (c_total a * pa c)%R (c_total a * pr c)%R (c_total a * pg c)%R (c_total a * pb c)%R.
Definition centred (p : palf) (k : kmeans) : Prop :=
  length (k_avg k) = length p /\
  forall j a c, nth_error (k_avg k) j = Some a -> nth_error (colors_of p) j = Some c -> avg_of a c.
Lemma avg_add_of a c v : avg_of a c -> (0 <= v)%R -> avg_of (avg_add a c v) c.
Proof.
  intros [T E] V. unfold avg_of, avg_add. cbn [c_sum c_total]. rewrite E. split; [apply Rplus_le_le_0_compat; auto|].
  unfold dpx_add, dpx_of, px_scale. cbn [da dr dg db pa pr pg pb]. cbn. f_equal; ring.
Qed.
Lemma update_centred p k c v m k' : centred p k -> (0 <= v)%R -> nth_error (colors_of p) m = Some c ->
  update_color k c v m = Ok k' -> centred p k'.
Proof.
  intros [L H] V M E. unfold update_color in E. apply bind_ok in E as (a & Ha & E). inversion E; subst. apply idx_ok in Ha.
  split; [cbn [k_avg]; rewrite upd_length; auto|]. cbn [k_avg]. intros j a' c' Hj Hc.
  destruct (Nat.eq_dec m j) as [<-|NE].
  - assert (Lm : m < length (k_avg k)) by (apply nth_error_Some; congruence). rewrite nth_error_upd_eq in Hj by auto. inversion Hj; subst.
    assert (c' = c) by congruence. subst. apply avg_add_of; auto. eapply H; eauto.
  - rewrite nth_error_upd_neq in Hj by auto. eapply H; eauto.
Qed.
Lemma centred_new p : centred p (km_new (length p)).
Proof.
  split; [cbn [km_new k_avg]; apply repeat_length|]. intros j a c Hj _. cbn [km_new k_avg] in Hj. apply nth_error_In, repeat_spec in Hj. subst a.
  split; [cbn; lra|]. unfold dpx0. cbn. f_equal; ring.
Qed.
Lemma combine_skip {T V} (l : list T) (m : list V) : length l = length m -> skipn (length m) l = [].
Proof. intros E. rewrite <- E. apply skipn_all. Qed.
Lemma centred_merge p a b : centred p a -> centred p b -> centred p (km_merge a b).
Proof.
  intros [La Ha] [Lb Hb']. unfold km_merge. rewrite combine_skip by lia. rewrite app_nil_r. split; cbn [k_avg].
  - rewrite map_length, combine_length. lia.
  - intros j x c Hj Hc. rewrite nth_error_map, nth_error_combine in Hj.
    destruct (nth_error (k_avg a) j) as [xa|] eqn:Ea; [|discriminate]. destruct (nth_error (k_avg b) j) as [xb|] eqn:Eb; [|discriminate].
    cbn [option_map] in Hj. inversion Hj; subst. cbn [fst snd]. destruct (Ha j xa c Ea Hc) as [Ta Sa]. destruct (Hb' j xb c Eb Hc) as [Tb Sb].
    unfold avg_of. cbn [c_sum c_total]. split; [apply Rplus_le_le_0_compat; auto|]. rewrite Sa, Sb. unfold dpx_add. cbn. f_equal; ring.
Qed.
Lemma centred_reduce p ks k : Forall (centred p) ks -> km_reduce ks = Some k -> centred p k.
Proof.
  intros F E. destruct ks as [|k0 ks]; [discriminate|]. inversion E; subst. apply Forall_cons_iff in F as [F0 F]. clear E.
  revert k0 F0. induction ks as [|k1 ks IH]; intros k0 F0; cbn [fold_left]; auto. apply Forall_cons_iff in F as [F1 F]. apply IH; auto.
  apply centred_merge; auto.
Qed.
Lemma finalize_centred (p : palf) k : centred p k -> colors_of (fst (km_finalize k p)) = colors_of p.
Proof.
  intros [L H]. unfold km_finalize. cbn [fst]. rewrite combine_skip by auto. rewrite app_nil_r. apply list_eq_nth_error. intros j.
  unfold colors_of. rewrite !nth_error_map, nth_error_combine. specialize (H j).
  destruct (nth_error (k_avg k) j) as [a|] eqn:Ea.
  - unfold colors_of in H. rewrite nth_error_map in H. destruct (nth_error p j) as [[c pop]|]; [|reflexivity]. cbn [option_map fst] in *.
    f_equal. destruct (H a c eq_refl eq_refl) as [T S]. unfold finalize_entry. destruct (pop_is_fixed pop); [reflexivity|]. cbn [fst].
    destruct (@dlt A d0 (c_total a)) eqn:P; [|reflexivity]. apply Rltb_lt in P. change (@d0 A) with 0%R in P.
    destruct (negb _); [|reflexivity]. cbn [andb]. rewrite S. destruct c as [ca cr cg cb]. cbn [da dr dg db pa pr pg pb]. cbn.
    f_equal; field; lra.
  - apply nth_error_None in Ea. assert (Q : nth_error p j = None) by (apply nth_error_None; lia). rewrite Q. reflexivity.
Qed.

(** ** The plain pass keeps the palette *)
Section Pass.
Variables (p : palf) (n : nearest) (N : nearest_new p = Ok n) (imp : option (list Z)) (IMP : forall m, imp = Some m -> Forall byte m).

Lemma weight_pos j : (0 <= IZR (match imp with Some m => match nth_error m j with Some v => v | None => 1%Z end | None => 1%Z end))%R.
Proof.
  destruct imp as [m|] eqn:E; [|lra]. destruct (nth_error m j) as [v|] eqn:V; [|lra]. apply IZR_le. specialize (IMP m eq_refl).
  rewrite Forall_forall in IMP. destruct (IMP v); [eapply nth_error_In; eauto|auto].
Qed.
Lemma remap_px_centred row w l : forall k last outs err k' last' outs' err', (forall cp, In cp l -> In (snd cp) (colors_of p)) -> centred p k ->
  foldM (remap_px n [] 0 imp row w) l (k, last, outs, err) = Ok (k', last', outs', err') -> centred p k'.
Proof.
  induction l as [|[col inp] l IH]; intros k last outs err k' last' outs' err' F K E; cbn [foldM] in E.
  - inversion E; subst. auto.
  - apply bind_ok in E as ([[[k1 l1] o1] e1] & E1 & E). eapply IH; [| |exact E].
    + intros cp H. apply F. right. auto.
    + unfold remap_px in E1. pose proof (real_finds p n inp N (F (col, inp) (or_introl eq_refl)) last) as FI.
      destruct (search n inp last) as [m df]. cbn [fst] in FI. replace (nth_error (@nil px) col) with (@None px) in E1 by (destruct col; auto).
      apply bind_ok in E1 as (k2 & E2 & E1). inversion E1; subst. eapply update_centred; [exact K| | |exact E2].
      * apply weight_pos.
      * destruct (nearest_new_inv p n N) as (_ & _ & NP). rewrite NP in FI. exact FI.
Qed.
Variables (d : drows) (pxs : list (list rgba)) (S : shows d pxs).
Hypothesis Cov : forall r c, In r pxs -> In c r -> In (from_rgba (gamma_lut (d_gamma d)) c) (colors_of p).
Lemma remap_row_centred row k k' o e : row < d_h d -> centred p k -> remap_row n d None 0 imp row k = Ok (k', o, e) -> centred p k'.
Proof.
  intros Hr K E. unfold remap_row in E. destruct (shows_row_ex d pxs row S Hr) as (r & R & _ & _ & ER). rewrite ER in E. cbn [bind] in E.
  apply bind_ok in E as ([[[k1 l1] o1] e1] & E1 & E). inversion E; subst. eapply remap_px_centred; [|exact K|exact E1].
  intros [c v] H. apply In_enumerate in H. rewrite nth_error_map in H. destruct (nth_error r c) as [c8|] eqn:Ec; [|discriminate].
  cbn in H. inversion H; subst. apply (Cov r c8); eapply nth_error_In; eauto.
Qed.
Lemma remap_worker_centred work : forall out errs k out' errs' k', Forall (fun r => r < d_h d) work -> centred p k ->
  remap_worker n d None 0 imp (out, errs) (k, work) = Ok (out', errs', k') -> centred p k'.
Proof.
  unfold remap_worker. cbn [fst snd]. induction work as [|r work IH]; intros out errs k out' errs' k' F K E; cbn [foldM] in E.
  - inversion E; subst. auto.
  - apply Forall_cons_iff in F as [F1 F2]. apply bind_ok in E as ([[o1 e1] k1] & E1 & E). apply bind_ok in E1 as ([[k2 o] e] & E2 & E1).
    apply bind_ok in E1 as (o2 & _ & E1). inversion E1; subst. eapply IH; [exact F2| |exact E]. eapply remap_row_centred; eauto.
Qed.
Lemma remap_rows_keep threads main shape out out' err p' : Forall (Forall (fun r => r < d_h d)) threads ->
  remap_rows n d None imp threads main shape out p = Ok (out', err, p') -> colors_of p' = colors_of p.
Proof.
  intros F E. unfold remap_rows in E. cbn [bind] in E. cbv zeta in E.
  apply bind_ok in E as ([[o es] ks] & E1 & E). inversion E; subst. clear E.
  assert (K : Forall (centred p) ks).
  { change ks with (snd (out', es, ks)). revert E1. match goal with |- foldM ?g ?l ?s0 = _ -> _ => intros E1;
      apply (foldM_inv g (fun st => Forall (centred p) (snd st)) l s0) in E1; auto end.
    - cbn [snd]. intros [[o1 es1] ks1] kw [[o2 es2] ks2] Hk Pk Ek. cbn [snd] in *. apply bind_ok in Ek as ([[o3 e3] k3] & E3 & Ek).
      inversion Ek; subst. apply Forall_app. split; auto. constructor; auto.
      apply in_map_iff in Hk as ([i wk] & <- & Hw). cbn [fst snd] in E3.
      eapply remap_worker_centred; [| |exact E3].
      + rewrite Forall_forall in F. apply F. apply In_enumerate in Hw. eapply nth_error_In; eauto.
      + destruct (Nat.eqb _ _); apply centred_new.
    - constructor. }
  destruct (km_reduce ks) as [k|] eqn:R; [|reflexivity]. apply finalize_centred. eapply centred_reduce; eauto.
Qed.
End Pass.

Lemma zero_row_error l : Forall (fun x : nat * f32 => snd x = 0%R) l -> row_error l 0%R = 0%R.
Proof.
  unfold row_error. induction l as [|x l IH]; intros F; [reflexivity|]. apply Forall_cons_iff in F as [F1 F2]. cbn [fold_left].
  rewrite F1. change (fold_left (fun (e : f64) (x : nat * f32) => dadd e (f2d (snd x))) l (0 + 0)%R = 0%R). rewrite Rplus_0_l. auto.
Qed.
Lemma stree_zero f t : (forall r, In r (stree_leaves t) -> f r = 0%R) -> stree_sum f t = 0%R.
Proof.
  induction t as [|r|l IHl r IHr]; intros F; cbn [stree_sum stree_leaves] in *; [reflexivity|apply F; left; auto|].
  rewrite IHl, IHr by (intros x Hx; apply F; apply in_app_iff; auto). exact (Rplus_0_l 0%R).
Qed.
Lemma plain_zero (p : palf) n b i pxs t : nearest_new p = Ok n -> image_ok i pxs -> i_bg i = None ->
  (forall r c, In r pxs -> In c r -> In (from_rgba (gamma_lut (d_gamma (i_px i))) c) (colors_of p)) ->
  (forall y, In y (stree_leaves t) -> y < i_h i) -> plain_sum n b i t = 0%R.
Proof.
  intros N I B Cov L. apply stree_zero. intros y Hy. apply zero_row_error. specialize (L y Hy).
  unfold plain_row, row_result, img_bg. rewrite B. replace (if b then option_map i_px None else None) with (@None drows) by (destruct b; auto).
  cbn [eff_bg bg_row]. destruct (shows_row_ex _ _ y (im_px _ _ I) L) as (r & R & _ & _ & ->).
  assert (G : forall l last, (forall cp, In cp l -> In (snd cp) (colors_of p)) -> Forall (fun x : nat * f32 => snd x = 0%R) (pure_row n [] (eff_tidx n None) l last)).
  { clear - N Hb. induction l as [|[col inp] l IH]; intros last F; cbn [pure_row]; constructor.
    - unfold bg_choice. replace (nth_error (@nil px) col) with (@None px) by (destruct col; auto). cbn [snd].
      apply (real_hit_dist p); auto. apply (F (col, inp)). left. auto.
    - apply IH. intros cp H. apply F. right. auto. }
  apply G. intros [c v] H. apply In_enumerate in H. rewrite nth_error_map in H. destruct (nth_error r c) as [c8|] eqn:Ec; [|discriminate].
  cbn in H. inversion H; subst. apply (Cov r c8); eapply nth_error_In; eauto.
Qed.

Section Whole.
Variables (u : unspec) (U : unspec_ok u).
Lemma pre_pass_keep (p : palf) pxs i e p' : 0 < length p <= 256 -> i_bg i = None ->
  (forall r c, In r pxs -> In c r -> In (from_rgba (gamma_lut (d_gamma (i_px i))) c) (colors_of p)) ->
  pre_pass u p pxs i e p' -> colors_of p' = colors_of p /\ e = 0%R.
Proof.
  intros P B Cov (s1 & s2 & I & K & [LO FO] & E). destruct (nearest_new_ok p P) as (n & N & _).
  assert (G : d_gamma (i_px (r_img s1)) = d_gamma (i_px i)) by apply K.
  assert (B1 : i_bg (r_img s1) = None) by (destruct K as (_ & _ & KB); rewrite B in KB; auto).
  split.
  - unfold remap_to_palette in E. apply sbind_ok in E as (n' & sx & E0 & E). unfold slift in E0. rewrite N in E0. inversion E0; subst n' sx. clear E0.
    apply sbind_ok in E as (x0 & s3 & E0 & E). destruct (prepare_image_eq s1 pxs I) as (d & E1 & S1 & I1). rewrite E1 in E0. inversion E0; subst s3. clear E0.
    apply sbind_ok in E as (x1 & s3 & E0 & E). unfold sret in E0. inversion E0; subst s3. clear E0.
    apply sbind_ok in E as (s3 & sx & E0 & E). unfold sget in E0. inversion E0; subst s3 sx. clear E0. cbv zeta in E.
    apply sbind_ok in E as (t & s3 & E0 & E). apply sbind_ok in E as ([[o er] p1] & s4 & E2 & E).
    unfold slift in E2. inversion E2 as [[E3 E4]]. subst s4. apply sbind_ok in E as (x2 & s5 & _ & E).
    destruct (dis_nan er); [discriminate|]. unfold sret in E. inversion E; subst p1. cbn [r_img upd_img] in E3.
    destruct S1 as (W1 & Hh1 & G1 & _).
    apply (remap_rows_keep p n N) with (pxs := pxs) in E3; auto.
    + intros m Hm. apply (im_imp _ _ I1 m Hm).
    + apply I1.
    + cbn [i_px set_px]. rewrite G1, G. exact Cov.
    + cbn [r_out upd_img]. rewrite LO. cbn [i_px set_px]. rewrite Hh1.
      change (d_h (i_px (r_img s1))) with (i_h (r_img s1)). apply covers_lt. apply (uo_rows _ U).
  - destruct (remap_to_palette_eq u U false p s1 pxs n I LO N) as (i' & p2 & E2 & _). rewrite E in E2.
    rewrite (plain_zero p n false (r_img s1) pxs) in E2; auto.
    + destruct (dis_nan _); [discriminate|]. inversion E2. change (0 / IZR (wrap32 (Z.of_nat (i_w (r_img s1)) * Z.of_nat (i_h (r_img s1)))) = 0)%R. unfold Rdiv. ring.
    + rewrite G. exact Cov.
    + intros y. apply sum_leaves_lt. auto.
Qed.

(** The palette survives rounding to 8 bits. *)
Definition stable (q : qresult) : Prop := forall p : palf, colors_of p = colors_of (q_pal q) ->
  colors_of (fst (init_int_palette p (q_gamma q) (q_post q))) = colors_of (q_pal q).
Lemma exact_remap rcb q i pxs buf w q' i' out w' : image_ok i pxs -> i_bg i = None -> 0 < length (q_pal q) <= 256 ->
  q_err q = Some 0%R -> stable q ->
  (forall r c, In r pxs -> In c r -> In (from_rgba (gamma_lut (d_gamma (i_px i))) c) (colors_of (q_pal q))) ->
  remap_into u rcb q i buf w = (Ok tt, (q', i', out, w')) ->
  exists p : palf, colors_of p = colors_of (q_pal q) /\
    q_rem q' = Some (snd (init_int_palette p (q_gamma q) (q_post q)), Some 0%R) /\
    forall y x r c, nth_error pxs y = Some r -> nth_error r x = Some c ->
    exists k, nth_error out (y * i_w i + x) = Some k /\ nth_error (colors_of p) k = Some (from_rgba (gamma_lut (d_gamma (i_px i))) c).
Proof.
  intros I B P QE ST Cov E.
  assert (FP : Forall (fun r => length r = i_w i) pxs).
  { eapply Forall_impl; [|apply (sh_rows _ _ (im_px _ _ I))]. intros r [? _]. auto. }
  assert (LP : length pxs = i_h i) by apply (sh_len _ _ (im_px _ _ I)).
  destruct (q_dither q =f f0) eqn:D.
  - destruct (plain_remap_eq u rcb q i pxs buf w q' i' out w' U I P D E) as (n & e & N & -> & -> & (t & T1 & T2 & ->) & _).
    exists (q_pal q). split; auto. specialize (ST (q_pal q) eq_refl). set (p2 := fst (init_int_palette _ _ _)) in *.
    assert (Cov2 : forall r c, In r pxs -> In c r -> In (from_rgba (gamma_lut (d_gamma (i_px i))) c) (colors_of p2)) by (rewrite ST; exact Cov).
    split.
    + assert (T3 : forall y, In y (stree_leaves t) -> y < i_h i).
      { intros y Hy. eapply Permutation_in in Hy; [|exact T1]. apply in_seq in Hy. lia. }
      rewrite (plain_zero p2 n true i pxs t N I B Cov2 T3).
      cbn [q_rem set_rem]. do 3 f_equal. change (0 / IZR (wrap32 (Z.of_nat (i_w i) * Z.of_nat (i_h i))) = 0)%R. unfold Rdiv. ring.
    + intros y x r c Y X. destruct (nearest_new_inv p2 n N) as (_ & NO & NP).
      destruct (rows_exact_at n (d_gamma (i_px i)) pxs (plain_out n true i) (i_w i) (i_h i) (skipn (i_w i * i_h i) buf)) with (y := y) (x := x) (r := r) (c := c)
        as (k & K1 & K2); auto.
      * apply plain_found; auto. intros r0 c0 Hr Hc. split; [exact Logic.I|]. apply (real_finds p2 n _ N). apply (Cov2 r0 c0); auto.
      * apply (plain_out_good n (length p2) true i pxs); auto.
      * exists k. split; auto. unfold holds in K2. rewrite NP, ST in K2. exact K2.
  - unfold remap_into in E. cbv zeta in E. destruct (Nat.ltb_spec (length buf) (i_w i * i_h i)) as [Hlt|Hge]; [discriminate|].
    assert (Lf : length (firstn (i_w i * i_h i) buf) = i_w i * i_h i) by (rewrite firstn_length; lia).
    pose proof (sh_w _ _ (im_px _ _ I)) as HW. change (0 < i_w i) in HW.
    destruct (chunks_exact_shape (i_w i) (i_h i) (firstn (i_w i * i_h i) buf) HW Lf) as (LR & FR & _).
    destruct (write_remapped u rcb (RSt q i (chunks_exact (i_w i) (firstn (i_w i * i_h i) buf)) w)) as [r0 s'] eqn:WR.
    inversion E; subst. clear E. set (s0 := RSt q i _ w) in *.
    assert (EO : entry_ok q s0 pxs) by exact (conj eq_refl (conj I (conj (conj LR FR) P))).
    destruct (write_dithered (fun _ => True) (fun _ => True) real_zero_laws u U rcb (real_cast big) q s0 pxs s'
       EO B D (conj Logic.I (conj Logic.I (fun _ _ => Logic.I)))) with (2 := WR) as (p & e & n & PP & N & RQ & LO & RX).
    + intros p e n PP N. intros r c Hr Hc. split; auto. apply (real_finds _ n _ N).
      assert (CP : colors_of p = colors_of (q_pal q)).
      { destruct PP as [[-> _]|(e' & PP & _)]; auto. destruct (pre_pass_keep _ _ _ _ _ P B Cov PP). auto. }
      rewrite (ST p CP). apply (Cov r c); auto.
    + assert (CP : colors_of p = colors_of (q_pal q) /\ e = Some 0%R).
      { destruct PP as [[-> ->]|(e' & PP & -> & _)]; auto. destruct (pre_pass_keep _ _ _ _ _ P B Cov PP) as [? ->]. auto. }
      destruct CP as [CP ->]. exists p. split; auto. rewrite RQ. cbn [q_rem set_rem]. split; auto.
      intros y x r c Y X.
      destruct (rows_exact_at n (d_gamma (i_px i)) pxs (r_out s') (i_w i) (i_h i) (skipn (i_w i * i_h i) buf) RX LO LP FP y x r c Y X) as (k & K1 & K2).
      exists k. split; auto. destruct (nearest_new_inv _ n N) as (_ & _ & NP). unfold holds in K2. rewrite NP, (ST p CP), <- CP in K2. exact K2.
Qed.
End Whole.
End LosslessReal.
