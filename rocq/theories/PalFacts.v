(** Palette order, posterization, fixed colours, frozen palettes. *)
From Verif Require Import Base BaseFacts Arith Order Pal World Attr Hist MedianCut Nearest Kmeans Blur ImageM Quant Remap
  SpecHist SpecImage SpecAttr AttrFacts ImageFacts HistFacts SearchFacts QuantFacts RemapFacts Api ApiFacts ResultFacts SpecPal.
From Coq Require Import Sorting.Sorted.
Open Scope nat_scope.

(** * Sorting when only some values are comparable *)
Section On.
Context {T : Type}.
Variables (cmp : T -> T -> comparison) (P : T -> Prop).
Hypothesis trans : forall x y z, P x -> P y -> P z -> cmp x y <> Gt -> cmp y z <> Gt -> cmp x z <> Gt.
Hypothesis total : forall x y, P x -> P y -> cmp x y = Gt -> cmp y x <> Gt.
Lemma insert_by_on x l : P x -> Forall P l -> StronglySorted (fun a b => cmp a b <> Gt) l ->
  StronglySorted (fun a b => cmp a b <> Gt) (insert_by cmp x l).
Proof.
  intros Px F S. induction S as [|y l S IH H]; cbn [insert_by]; [repeat constructor|].
  apply Forall_cons_iff in F as [Py F].
  assert (G : cmp x y <> Gt -> StronglySorted (fun a b => cmp a b <> Gt) (x :: y :: l)).
  { intros N. constructor; [constructor; auto|]. constructor; auto. rewrite Forall_forall in *. intros z Hz.
    apply (trans x y z); auto. }
  destruct (cmp x y) eqn:E; [apply G; congruence..|]. constructor; [auto|].
  eapply Permutation_Forall; [apply insert_by_perm|]. constructor; auto.
Qed.
Lemma sort_by_on l : Forall P l -> StronglySorted (fun a b => cmp a b <> Gt) (sort_by cmp l).
Proof.
  induction 1 as [|x l Px F IH]; cbn [sort_by]; [constructor|]. apply insert_by_on; auto.
  eapply Permutation_Forall; [apply sort_by_perm|auto].
Qed.
Lemma min_by_on l a : Forall P l -> min_by cmp l = Some a -> Forall (fun y => cmp a y <> Gt) l.
Proof.
  destruct l as [|b l]; cbn [min_by]; [discriminate|]. intros F H; inversion H; subst; clear H.
  apply Forall_cons_iff in F as [Pb F].
  assert (R : forall x, P x -> cmp x x <> Gt) by (intros x Px H; apply (total x x Px Px H); auto).
  assert (G : forall l b, P b -> Forall P l -> let m := fold_left (fun x y => match cmp x y with Gt => y | _ => x end) l b in
             P m /\ cmp m b <> Gt /\ Forall (fun y => cmp m y <> Gt) l).
  { clear l b F Pb. induction l as [|c l IH]; intros b Pb F; cbn [fold_left].
    - cbn. auto.
    - apply Forall_cons_iff in F as [Pc F]. destruct (cmp b c) eqn:E.
      + destruct (IH b Pb F) as (H0 & H1 & H2). split; auto. split; auto. constructor; auto. apply (trans _ b c); auto. congruence.
      + destruct (IH b Pb F) as (H0 & H1 & H2). split; auto. split; auto. constructor; auto. apply (trans _ b c); auto. congruence.
      + destruct (IH c Pc F) as (H0 & H1 & H2). split; auto. split; [|constructor; auto]. apply (trans _ c b); auto. }
  destruct (G l b Pb F) as (G0 & G1 & G2). constructor; auto.
Qed.
End On.

(** * Palette order *)
Section Order.
Context {A : Arith} {O : OrdLaws A}.
Lemma fcmp_not_gt a b : (a <=f a) = true -> (b <=f b) = true -> fcmp a b <> Gt -> (a <=f b) = true.
Proof.
  intros Ha Hb. unfold fcmp. destruct (a <f b) eqn:E; [intros _; apply flt_fle; auto|].
  destruct (b <f a) eqn:E2; [congruence|]. intros _. destruct (fle_total b a Hb Ha); [congruence|auto].
Qed.
Lemma fle_not_gt a b : (a <=f b) = true -> fcmp a b <> Gt.
Proof.
  intros H. unfold fcmp. destruct (a <f b); [discriminate|]. destruct (b <f a) eqn:E; [|discriminate].
  pose proof (fle_flt_trans _ _ _ H E). rewrite flt_irrefl in H0. discriminate.
Qed.
(** Alpha and popularity are comparable (not NaN). *)
Definition comparable (e : px * f32) : Prop :=
  (pa (fst e) <=f pa (fst e)) = true /\ (popularity (snd e) <=f popularity (snd e)) = true.

Definition before (x y : px * f32) : Prop :=
  (is_transp (fst y) = true -> is_transp (fst x) = true) /\
  (is_transp (fst x) = is_transp (fst y) -> (popularity (snd y) <=f popularity (snd x)) = true).

Definition key_cmp (last : bool) (x y : px * f32) : comparison :=
  cmp_then (cmp_bool (Bool.eqb (is_transp (fst x)) last) (Bool.eqb (is_transp (fst y)) last))
           (cmp_rev (fcmp (popularity (snd x)) (popularity (snd y)))).
Definition key_le (last : bool) (x y : px * f32) : Prop :=
  (Bool.eqb (is_transp (fst x)) last = true -> Bool.eqb (is_transp (fst y)) last = true) /\
  (is_transp (fst x) = is_transp (fst y) -> (popularity (snd y) <=f popularity (snd x)) = true).
Lemma fcmp_opp a b : CompOpp (fcmp a b) = fcmp b a.
Proof.
  unfold fcmp. destruct (a <f b) eqn:E, (b <f a) eqn:E2; auto.
  pose proof (flt_fle _ _ E) as L. pose proof (fle_flt_trans _ _ _ L E2). rewrite flt_irrefl in H. discriminate.
Qed.
Lemma key_cmp_le last x y : comparable x -> comparable y -> (key_cmp last x y <> Gt <-> key_le last x y).
Proof.
  intros [_ Cx] [_ Cy]. unfold key_cmp, key_le, cmp_rev. rewrite fcmp_opp.
  assert (Q : fcmp (popularity (snd y)) (popularity (snd x)) <> Gt <-> (popularity (snd y) <=f popularity (snd x)) = true).
  { split; [apply fcmp_not_gt; auto|apply fle_not_gt]. }
  destruct (is_transp (fst x)), (is_transp (fst y)), last; cbn [Bool.eqb cmp_bool cmp_then]; intuition congruence.
Qed.
Lemma key_le_trans last x y z : key_le last x y -> key_le last y z -> key_le last x z.
Proof.
  intros [K1 P1] [K2 P2]. split; [auto|]. intros E.
  assert (E1 : is_transp (fst x) = is_transp (fst y)).
  { destruct (is_transp (fst x)), (is_transp (fst y)), (is_transp (fst z)), last; cbn in *; try congruence; exfalso; intuition congruence. }
  apply (fle_trans _ (popularity (snd y))); [apply P2; congruence|auto].
Qed.
Lemma sorted_key last p : Forall comparable p -> StronglySorted (key_le last) (sort_by (key_cmp last) p).
Proof.
  intros F. assert (S : StronglySorted (fun a b => key_cmp last a b <> Gt) (sort_by (key_cmp last) p)).
  { apply (sort_by_on _ comparable); auto.
    - intros x y z Cx Cy Cz. rewrite !key_cmp_le by auto. apply key_le_trans.
    - intros x y Cx Cy E N. revert E. assert (key_cmp last x y <> Gt); [|auto]. rewrite key_cmp_le in * by auto.
      unfold key_cmp, cmp_rev in *. rewrite fcmp_opp in N. split.
      + destruct (is_transp (fst x)), (is_transp (fst y)), last; cbn in *; congruence.
      + intros E. rewrite E in N. destruct (Bool.eqb (is_transp (fst y)) last); cbn in N;
        (apply fcmp_not_gt; [apply Cy|apply Cx|]; rewrite <- fcmp_opp, N; discriminate). }
  assert (F' : Forall comparable (sort_by (key_cmp last) p)) by (eapply Permutation_Forall; [apply sort_by_perm|auto]).
  revert F'. induction S as [|x l S IH H]; intros F'; [constructor|]. apply Forall_cons_iff in F' as [Cx F']. constructor; auto.
  rewrite Forall_forall in *. intros y Hy. apply key_cmp_le; auto.
Qed.

Lemma nth_enumerate {T} (l : list T) i x : In (i, x) (enumerate l) <-> nth_error l i = Some x.
Proof.
  split; [apply In_enumerate|]. intros N. unfold enumerate. apply nth_error_In with (n := i).
  rewrite nth_error_combine, N. assert (i < length l) by (apply nth_error_Some; congruence).
  rewrite (nth_error_nth' _ 0) by (rewrite seq_length; auto). rewrite seq_nth by auto. reflexivity.
Qed.

(** With [last_index_transparent] the last entry is the one with lowest alpha,
    if there is a transparent one. *)
Lemma palette_sorted a p p' : Forall comparable p -> sort_palette a p = Ok p' ->
  Permutation p p' /\
  (a_last_transp a = false -> StronglySorted before p') /\
  (a_last_transp a = true -> (exists e, In e p /\ is_transp (fst e) = true) ->
     exists e, nth_error p' (length p' - 1) = Some e /\ is_transp (fst e) = true /\
               forall x, In x p -> (pa (fst e) <=f pa (fst x)) = true).
Proof.
  intros F E. assert (P : Permutation p p').
  { destruct (sort_palette_ok a p) as (p2 & E2 & P). rewrite E in E2. inversion E2; subst; auto. }
  split; auto. unfold sort_palette in E. cbv zeta in E. fold (key_cmp (a_last_transp a)) in E.
  set (srt := sort_by _ p) in E.
  assert (PS : Permutation p srt) by apply sort_by_perm.
  assert (FS : Forall comparable srt) by (eapply Permutation_Forall; eauto).
  destruct (a_last_transp a) eqn:La.
  - split; [discriminate|]. intros _ (e & He & Te).
    set (cands := filter _ _) in E. set (c := fun x y : nat * px => fcmp (pa (snd x)) (pa (snd y))) in E.
    assert (CN : exists i0 c0, nth_error srt i0 = Some c0 /\ is_transp (fst c0) = true).
    { eapply Permutation_in in He; [|exact PS]. apply In_nth_error in He as (i0 & N). eauto. }
    destruct CN as (i0 & c0 & N0 & T0).
    assert (I0 : In (i0, fst c0) cands).
    { apply filter_In. split; auto. apply nth_enumerate. unfold colors_of. rewrite nth_error_map, N0. auto. }
    destruct (min_by c cands) as [[i m]|] eqn:M; [|apply min_by_none in M; rewrite M in I0; destruct I0].
    assert (Fc : Forall (fun ic : nat * px => (pa (snd ic) <=f pa (snd ic)) = true) cands).
    { apply Forall_forall. intros [j x] Hj. apply filter_In in Hj as [Hj _]. apply nth_enumerate in Hj. unfold colors_of in Hj.
      rewrite nth_error_map in Hj. destruct (nth_error srt j) as [y|] eqn:Ny; [|discriminate]. inversion Hj; subst. cbn.
      rewrite Forall_forall in FS. apply (FS y). eapply nth_error_In; eauto. }
    pose proof (min_by_in c cands _ M) as Hin. apply filter_In in Hin as [Hi Ti]. cbn in Ti. apply nth_enumerate in Hi.
    unfold colors_of in Hi. rewrite nth_error_map in Hi. destruct (nth_error srt i) as [x|] eqn:Nx; [|discriminate]. inversion Hi; subst m. clear Hi.
    pose proof (min_by_on c (fun ic : nat * px => (pa (snd ic) <=f pa (snd ic)) = true)) as MB.
    assert (H1 : Forall (fun y => c (i, fst x) y <> Gt) cands).
    { apply MB; auto.
      - intros p1 p2 p3 Q1 Q2 Q3 R1 R2. unfold c in *. apply fle_not_gt. apply (fle_trans _ (pa (snd p2))); apply fcmp_not_gt; auto.
      - intros p1 p2 Q1 Q2 R1. unfold c in *. rewrite <- fcmp_opp, R1. discriminate. }
    clear MB. exists x. assert (LE : length srt - 1 < length srt).
    { assert (i < length srt) by (apply nth_error_Some; congruence). lia. }
    rewrite (swap_length _ _ _ _ E). split.
    + rewrite (swap_nth _ _ _ _ (length srt - 1) E). destruct (Nat.eqb_spec (length srt - 1) i); auto; subst; auto.
      rewrite Nat.eqb_refl; auto.
    + split; [exact Ti|]. intros y Hy.
      assert (Cx : comparable x) by (rewrite Forall_forall in FS; apply FS; eapply nth_error_In; eauto).
      assert (Cy : comparable y) by (rewrite Forall_forall in F; apply F; auto).
      destruct (is_transp (fst y)) eqn:Ty.
      * eapply Permutation_in in Hy; [|exact PS]. apply In_nth_error in Hy as (j & Ny).
        assert (Ij : In (j, fst y) cands).
        { apply filter_In. split; auto. apply nth_enumerate. unfold colors_of. rewrite nth_error_map, Ny. auto. }
        rewrite Forall_forall in H1. specialize (H1 _ Ij). unfold c in H1. cbn in H1. apply fcmp_not_gt; [apply Cx|apply Cy|auto].
      * unfold is_transp in *. pose proof (fle_refl_r _ _ Ti) as RM.
        destruct (fle_total MAX_TRANSP_A (pa (fst y)) RM (proj1 Cy)) as [L|L]; [|congruence].
        apply (fle_trans _ MAX_TRANSP_A); auto. apply flt_fle; auto.
  - split; [|discriminate]. intros _. inversion E; subst p'. pose proof (sorted_key false p F) as S. fold srt in S.
    clear -S. induction S as [|x l S IH H]; constructor; auto. eapply Forall_impl; [|exact H]. intros y [K1 K2]. split; auto.
    destruct (is_transp (fst x)), (is_transp (fst y)); cbn in *; intuition congruence.
Qed.
End Order.

(** * A new result's palette has been sorted last *)
Section Sorted.
Context {A : Arith}.
Lemma sbind_ok {St T V} (m : ST St T) (k : T -> ST St V) s v s' : sbind m k s = (Ok v, s') ->
  exists x s1, m s = (Ok x, s1) /\ k x s1 = (Ok v, s').
Proof. unfold sbind. destruct (m s) as [[x|e|] s1]; try discriminate. eauto. Qed.
Lemma result_new_sorted u cb a h freeze g w q w' : result_new u cb a h freeze g w = (Ok q, w') ->
  exists p, sort_palette a p = Ok (q_pal q).
Proof.
  intros E. unfold result_new in E. apply sbind_ok in E as (s1 & w1 & _ & E). destruct s1; [discriminate|].
  destruct (target_mse a (length (hi_items h))) as [[mm tm] pf].
  apply sbind_ok in E as ([p err] & w2 & _ & E). apply sbind_ok in E as (s2 & w3 & _ & E). destruct s2; [discriminate|].
  cbv zeta in E. destruct (match err with Some _ => _ | None => _ end); [discriminate|].
  apply sbind_ok in E as (p2 & w4 & E2 & E). unfold slift in E2. inversion E2; subst. unfold sret in E. inversion E; subst. cbn [q_pal]. eauto.
Qed.
Lemma quantize_internal_sorted u cb a freeze h w q s' : quantize_internal u cb a freeze (h, w) = (Ok q, s') ->
  exists p, sort_palette a p = Ok (q_pal q).
Proof.
  unfold quantize_internal. destruct (match hg_map h, hg_fixed h with [], [] => true | _, _ => false end); [discriminate|].
  destruct (progress cb f0 w) as [[[]|e|] w1]; try discriminate;
  (destruct (progress cb _ w1) as [[[]|e2|] w2]; try discriminate;
   (destruct (finalize_builder u h _) as [hi h'];
    match goal with |- context [result_new u cb a hi freeze ?g w2] => destruct (result_new u cb a hi freeze g w2) as [r w3] eqn:E end;
    intros H; injection H as -> _; eapply result_new_sorted; eauto)).
Qed.
Lemma quantize_sorted u cb a i w q s' : quantize u cb a (i, w) = (Ok q, s') -> exists p, sort_palette a p = Ok (q_pal q).
Proof.
  unfold quantize. destruct (add_image u cb a (hist_new a, i, w)) as [[[]|e|] [[h i'] w']]; try discriminate.
  destruct (quantize_internal u cb a false (h, w')) as [r [h2 w2]] eqn:E. intros H. injection H as -> _.
  eapply quantize_internal_sorted; eauto.
Qed.
Definition made_by u cb a (q : qresult) : Prop :=
  (exists h w s', hist_r h /\ hist_quantize u cb a (h, w) = (Ok q, s')) \/
  (exists i pxs w s', image_r i pxs /\ quantize u cb a (i, w) = (Ok q, s')).
Lemma made_by_sorted u cb a q : made_by u cb a q -> exists p, sort_palette a p = Ok (q_pal q).
Proof.
  intros [(h & w & s' & _ & E)|(i & pxs & w & s' & _ & E)].
  - eapply quantize_internal_sorted; eauto.
  - eapply quantize_sorted; eauto.
Qed.
Lemma result_order (O : OrdLaws A) u cb a q : made_by u cb a q -> Forall comparable (q_pal q) ->
  (a_last_transp a = false -> StronglySorted before (q_pal q)) /\
  (a_last_transp a = true -> (exists e, In e (q_pal q) /\ is_transp (fst e) = true) ->
     exists e, nth_error (q_pal q) (length (q_pal q) - 1) = Some e /\ is_transp (fst e) = true /\
               forall x, In x (q_pal q) -> (pa (fst e) <=f pa (fst x)) = true).
Proof.
  intros M F. destruct (made_by_sorted u cb a q M) as (p & E).
  assert (P : Permutation p (q_pal q)).
  { destruct (sort_palette_ok a p) as (p2 & E2 & P). rewrite E in E2. inversion E2; subst; auto. }
  assert (F' : Forall comparable p) by (eapply Permutation_Forall; [apply Permutation_sym; eauto|auto]).
  destruct (palette_sorted a p (q_pal q) F' E) as (_ & S1 & S2). split; auto. intros La (e & He & Te).
  destruct S2 as (x & N & T & L); auto. { exists e. split; auto. eapply Permutation_in; [apply Permutation_sym|]; eauto. }
  exists x. split; auto. split; auto. intros y Hy. apply L. eapply Permutation_in; [apply Permutation_sym|]; eauto.
Qed.
End Sorted.

(** * Posterization *)
Open Scope Z_scope.
Definition posterize_check (b v : Z) : bool :=
  let p := posterize_channel v b in ((p mod 2 ^ b =? p / 2 ^ (8 - b)) && (0 <=? p) && (p <? 256))%bool.
Lemma posterize_sweep : forallb (fun b => forallb (posterize_check b) (map Z.of_nat (seq 0 256))) [0; 1; 2; 3; 4] = true.
Proof. vm_compute. reflexivity. Qed.
Lemma posterize_ok b v : 0 <= b <= 4 -> byte v -> posterized b (posterize_channel v b) /\ byte (posterize_channel v b).
Proof.
  intros Hb Hv. pose proof posterize_sweep as S. rewrite forallb_forall in S.
  assert (Ib : In b [0; 1; 2; 3; 4]) by (cbn; lia). specialize (S b Ib). rewrite forallb_forall in S.
  assert (Iv : In v (map Z.of_nat (seq 0 256))). { unfold byte in Hv. apply in_map_iff. exists (Z.to_nat v). split; [lia|]. apply in_seq. lia. }
  specialize (S v Iv). unfold posterize_check in S. apply andb_prop in S as [S S2]. apply andb_prop in S as [S S1].
  apply Z.eqb_eq in S. apply Z.leb_le in S1. apply Z.ltb_lt in S2. split; [exact S|]. split; lia.
Qed.
(** There are exactly [2^(8-b)] such values. *)
Lemma levels b : 0 <= b <= 4 -> length (filter (fun v => v mod 2 ^ b =? v / 2 ^ (8 - b)) (map Z.of_nat (seq 0 256))) = Z.to_nat (2 ^ (8 - b)).
Proof.
  intros H. assert (b = 0 \/ b = 1 \/ b = 2 \/ b = 3 \/ b = 4) as [->|[->|[->|[->| ->]]]] by lia; vm_compute; reflexivity.
Qed.

Section Poster.
Context {A : Arith} {C : CastLaws A}.
Lemma to_rgb_ok c g : rgba_ok (to_rgb c g).
Proof.
  unfold to_rgb. destruct (_ <f _); [repeat split; cbn; lia|]. unfold rgba_ok, byte. cbn [cr cg cb ca]. repeat split; apply fto_u8_range.
Qed.
Definition entry_posterized (b : Z) (c : rgba) : Prop := c = transparent_filler \/ (posterized_color b c /\ rgba_ok c).
Lemma int_entry_posterized g b e : 0 <= b <= 4 -> entry_posterized b (snd (int_entry g b e)).
Proof.
  intros Hb. unfold int_entry, entry_posterized. cbn [snd].
  destruct (to_rgb_ok (fst e) g) as (R1 & R2 & R3 & R4).
  set (c := rgba_map _ _). destruct (Z.eqb_spec (ca c) 0) as [E|E]; destruct (pop_is_fixed (snd e)); cbn [andb negb].
  2:{ left. rewrite E. reflexivity. }
  all: right; unfold c, posterized_color, rgba_ok, rgba_map; cbn [cr cg cb ca]; repeat split; apply posterize_ok; auto.
Qed.
Definition shown_posterized (q : qresult) : Prop :=
  0 <= q_post q <= 4 /\ Forall (entry_posterized (q_post q)) (q_int q) /\
  (forall ip e, q_rem q = Some (ip, e) -> Forall (entry_posterized (q_post q)) ip).
Lemma init_int_posterized p g b : 0 <= b <= 4 -> Forall (entry_posterized b) (snd (init_int_palette p g b)).
Proof. intros Hb. cbn [init_int_palette snd]. apply Forall_map. apply Forall_forall. intros e _. apply int_entry_posterized; auto. Qed.


(** One remap replaces at most the remapped palette. *)
Lemma remap_step u cb m q i pxs buf w r q' i' out w' : unspec_ok u -> result_r m q -> image_r i pxs ->
  remap_into u cb q i buf w = (r, (q', i', out, w')) ->
  q' = q \/ exists (p : palf) e, q' = set_rem q (Some (snd (init_int_palette p (q_gamma q) (q_post q)), e)) /\
                         keeps_fixed (q_pal q) p /\ ((q_dither q =f f0) = true -> p = q_pal q).
Proof.
  intros U Q I E. pose proof (remap_into_ok u cb q i pxs buf w U (reach_image _ _ I) (reach_pal m q Q)) as P. rewrite E in P.
  destruct P as (_ & _ & _ & _ & P). destruct r as [[]|e|]; [|left; apply P|contradiction].
  destruct P as (_ & _ & ip & e & -> & _ & p & K & -> & D). right. eauto 6.
Qed.
Lemma prepare_step u m q i pxs buf w r q' i' out w' : unspec_ok u -> result_r m q -> image_r i pxs -> length buf = (i_w i * i_h i)%nat ->
  prepare_for_dithering u q i buf w = (r, (q', i', out, w')) ->
  q' = q \/ exists p : palf, q' = set_pal q p /\ keeps_fixed (q_pal q) p.
Proof.
  intros U Q I B E. pose proof (prepare_ok u q i pxs buf w U (reach_image _ _ I) (reach_pal m q Q) B) as P. rewrite E in P.
  destruct P as (_ & _ & _ & P). destruct r as [[]|e|]; [|left; apply P|contradiction]. auto.
Qed.
Lemma later_reach gam pal m q q' : result_r m q -> later gam pal q q' -> result_r m q'.
Proof.
  intros R L. revert R. induction L as [q|q q1 v q2 L IH E|q q1 v q2 L IH G E|q q1 L IH G|q q1 u cb i pxs buf w r q2 i' out w' L IH U I E|q q1 u i pxs buf w r q2 i' out w' L IH U I B E]; intros R; [exact R|..]; specialize (IH R).
  - exact (rr_dither m q1 v q2 IH E).
  - exact (rr_gamma m q1 v q2 IH E).
  - exact (rr_palette m q1 IH).
  - exact (rr_remap u cb m q1 i pxs buf w r q2 i' out w' U IH I E).
  - exact (rr_prepare u m q1 i pxs buf w r q2 i' out w' U IH I B E).
Qed.
Lemma later_remap gam pal q q1 u cb i pxs buf w : later gam pal q q1 -> unspec_ok u -> image_r i pxs ->
  later gam pal q (fst (fst (fst (snd (remap_into u cb q1 i buf w))))).
Proof. intros L U I. destruct (remap_into u cb q1 i buf w) as [r [[[q2 i'] out] w']] eqn:E. exact (la_remap gam pal q q1 u cb i pxs buf w r q2 i' out w' L U I E). Qed.
(** Induction over the calls, with what each one does to the object. *)
Lemma later_invariant gam pal m q (P : qresult -> Prop) :
  result_r m q -> P q ->
  (forall q1 v, P q1 -> result_r m q1 -> P (QResult None (q_pal q1) (q_int q1) v (q_gamma q1) (q_err q1) (q_post q1) (q_dmap q1) (q_single q1))) ->
  (gam = true -> forall q1 v, P q1 -> result_r m q1 -> P (QResult None (q_pal q1) (q_int q1) (q_dither q1) v (q_err q1) (q_post q1) (q_dmap q1) (q_single q1))) ->
  (pal = true -> forall q1, P q1 -> result_r m q1 -> P (snd (palette q1))) ->
  (forall q1 (p : palf) e, P q1 -> result_r m q1 -> keeps_fixed (q_pal q1) p -> ((q_dither q1 =f f0) = true -> p = q_pal q1) ->
     P (set_rem q1 (Some (snd (init_int_palette p (q_gamma q1) (q_post q1)), e)))) ->
  (forall q1 (p : palf), P q1 -> result_r m q1 -> keeps_fixed (q_pal q1) p -> P (set_pal q1 p)) ->
  forall q', later gam pal q q' -> P q'.
Proof.
  intros R P0 PD PG PP PR PQ q' L. revert R P0.
  induction L as [q|q q1 v q2 L IH E|q q1 v q2 L IH G E|q q1 L IH G|q q1 u cb i pxs buf w r q2 i' out w' L IH U I E|q q1 u i pxs buf w r q2 i' out w' L IH U I B E]; intros R P0; [exact P0|..];
    assert (R1 := later_reach _ _ m _ _ R L); specialize (IH R P0).
  - unfold set_dithering_level in E. destruct (negb _); [discriminate|]. inversion E; subst. auto.
  - unfold set_output_gamma in E. destruct (_ || _)%bool; [discriminate|]. inversion E; subst. auto.
  - auto.
  - destruct (remap_step u cb m q1 i pxs buf w r q2 i' out w' U R1 I E) as [->|(p & e & -> & K & D)]; auto.
  - destruct (prepare_step u m q1 i pxs buf w r q2 i' out w' U R1 I B E) as [->|(p & -> & K)]; auto.
Qed.
Lemma made_by_reach u cb a q : unspec_ok u -> usable a -> made_by u cb a q -> result_r (a_max_colors a) q.
Proof.
  intros U Ha [(h & w & s' & H & E)|(i & pxs & w & s' & I & E)].
  - eapply rr_hist; eauto.
  - eapply rr_image; eauto.
Qed.
Lemma made_by_fresh u cb a q : unspec_ok u -> usable a -> made_by u cb a q ->
  q_rem q = None /\ q_int q = [] /\ q_post q = a_post_out a /\ q_dither q = f1.
Proof.
  intros U Ha [(h & w & s' & H & E)|(i & pxs & w & s' & I & E)].
  - pose proof (quantize_internal_ok u U cb a true h w (usable_colors a Ha) (reach_hist h H)) as P. unfold runs in P. unfold hist_quantize in E.
    rewrite E in P. tauto.
  - unfold quantize in E. pose proof (add_image_ok u cb a (hist_new a) i w pxs U (reach_image _ _ I) (hist_new_wf a)) as P0.
    destruct (add_image u cb a (hist_new a, i, w)) as [[[]|e|] [[h i'] w']]; try discriminate.
    pose proof (quantize_internal_ok u U cb a false h w' (usable_colors a Ha) (proj1 P0)) as P. unfold runs in P.
    destruct (quantize_internal u cb a false (h, w')) as [r [h2 w2]]. injection E as -> _. tauto.
Qed.
Lemma palette_posterized q : shown_posterized q -> Forall (entry_posterized (q_post q)) (fst (palette q)) /\ shown_posterized (snd (palette q)).
Proof.
  intros (B & I & R). unfold palette. destruct (q_rem q) as [[ip e]|] eqn:ER.
  { cbn [fst snd]. split; [eapply R; eauto|]. split; auto. split; auto. rewrite ER. auto. }
  destruct (q_int q) as [|c l] eqn:EI; [|cbn [fst snd]; split; auto; split; [auto|]; rewrite EI, ER; auto].
  pose proof (init_int_posterized (q_pal q) (q_gamma q) (q_post q) B) as F.
  destruct (init_int_palette (q_pal q) (q_gamma q) (q_post q)) as [p' ip]. cbn [fst snd] in *. split; auto.
  split; [auto|]. split; [exact F|]. cbn [q_rem]. discriminate.
Qed.
Lemma posterization_kept u cb a b a0 q q' : unspec_ok u -> usable a0 -> set_min_posterization a0 b = Ok a -> made_by u cb a q -> later true true q q' ->
  Forall (entry_posterized b) (fst (palette q')).
Proof.
  intros U Ha0 Eb M L.
  assert (Hb : 0 <= b <= 4).
  { unfold set_min_posterization in Eb. destruct (Z.leb_spec 0 b), (Z.leb_spec b 4); cbn in Eb; try discriminate. lia. }
  assert (Ha : usable a). { apply (us_call a0 (CallPosterization b)); auto. cbn. lia. }
  assert (Pa : a_post_out a = b).
  { unfold set_min_posterization in Eb. destruct (negb _); [discriminate|]. inversion Eb. auto. }
  destruct (made_by_fresh u cb a q U Ha M) as (R0 & I0 & P0 & _). rewrite Pa in P0. rewrite <- P0 in Hb.
  assert (S : shown_posterized q' /\ q_post q' = b).
  { revert q' L. apply (later_invariant true true (a_max_colors a)).
    - eapply made_by_reach; eauto.
    - split; auto. split; auto. rewrite R0, I0. split; [constructor|discriminate].
    - intros q1 v [(B & I & R) E] _. split; auto. split; auto. split; auto. cbn. discriminate.
    - intros _ q1 v [(B & I & R) E] _. split; auto. split; auto. split; auto. cbn. discriminate.
    - intros _ q1 [S E] _. split; [apply palette_posterized; auto|]. rewrite <- E. unfold palette.
      destruct (q_rem q1) as [[? ?]|]; auto. destruct (q_int q1); auto.
    - intros q1 p e [(B & I & R) E] _ _ _. split; [|exact E]. split; [exact B|]. split; [exact I|].
      intros ip e' H. inversion H; subst ip. apply init_int_posterized; auto.
    - intros q1 p [(B & I & R) E] _ _. split; [|exact E]. split; [exact B|]. split; [exact I|]. exact R. }
  destruct S as [S <-]. apply palette_posterized; auto.
Qed.
End Poster.

(** * Frozen palettes *)
Open Scope nat_scope.
Section Frozen.
Context {A : Arith} {C : CastLaws A}.
Definition frozen (q : qresult) : Prop := Forall (fun e => pop_is_fixed (snd e) = true) (q_pal q).
Lemma keeps_all_fixed (p p' : palf) : keeps_fixed p p' -> Forall (fun e => pop_is_fixed (snd e) = true) p -> p' = p.
Proof.
  intros [L K] F. apply list_eq_nth_error. intros i. destruct (nth_error p i) as [[c w]|] eqn:N.
  - apply K; auto. rewrite Forall_forall in F. apply (F (c, w)). eapply nth_error_In; eauto.
  - apply nth_error_None. rewrite L. apply nth_error_None. auto.
Qed.
Lemma hist_quantize_frozen u cb a h w q s' : fix_law -> unspec_ok u -> usable a -> hist_r h ->
  hist_quantize u cb a (h, w) = (Ok q, s') -> frozen q.
Proof.
  intros law U Ha H E. pose proof (quantize_internal_ok u U cb a true h w (usable_colors a Ha) (reach_hist h H)) as P. unfold runs in P.
  unfold hist_quantize in E. rewrite E in P. destruct P as (_ & _ & _ & _ & _ & _ & _ & _ & _ & _ & _ & P & _). specialize (P eq_refl).
  unfold frozen. eapply Forall_impl; [|exact P]. intros e (w0 & ->). apply law.
Qed.
Definition shown_now (q : qresult) : list rgba := snd (init_int_palette (q_pal q) (q_gamma q) (q_post q)).
Lemma palette_fresh q : q_rem q = None -> q_int q = [] -> fst (palette q) = shown_now q.
Proof. intros R I. unfold palette, shown_now. rewrite R, I. destruct (init_int_palette _ _ _). auto. Qed.

Lemma frozen_remaps m q q' : result_r m q -> frozen q -> q_rem q = None -> q_int q = [] -> later true false q q' ->
  fst (palette q') = snd (init_int_palette (q_pal q) (q_gamma q') (q_post q)).
Proof.
  intros R F R0 I0 L.
  assert (S : q_pal q' = q_pal q /\ q_int q' = [] /\ q_post q' = q_post q /\
              (forall ip e, q_rem q' = Some (ip, e) -> ip = snd (init_int_palette (q_pal q) (q_gamma q') (q_post q)))).
  { revert q' L. apply (later_invariant true false m); auto; try discriminate.
    - rewrite R0. repeat (split; auto). discriminate.
    - intros q1 v (P & I & B & S) _. repeat (split; auto). cbn. discriminate.
    - intros _ q1 v (P & I & B & S) _. repeat (split; auto). cbn. discriminate.
    - intros q1 p e (P & I & B & S) _ K _. repeat (split; auto). intros ip e' H. cbn in H. injection H as <- _. cbn [q_gamma set_rem].
      rewrite <- B. rewrite (keeps_all_fixed _ _ K); auto; rewrite P; auto.
    - intros q1 p (P & I & B & S) _ K. rewrite (keeps_all_fixed _ _ K) by (rewrite P; exact F). repeat (split; auto). }
  destruct S as (P & I & B & S). unfold palette. destruct (q_rem q') as [[ip e]|] eqn:E.
  - cbn [fst]. eapply S; eauto.
  - rewrite I, P, B. destruct (init_int_palette _ _ _); auto.
Qed.

(** With palette() in between: the rounded palette must be shown the same. *)
Definition stable_shown (q : qresult) : Prop :=
  snd (init_int_palette (fst (init_int_palette (q_pal q) (q_gamma q) (q_post q))) (q_gamma q) (q_post q)) = shown_now q.
Lemma frozen_calls m q q' : result_r m q -> frozen q -> stable_shown q -> q_rem q = None -> q_int q = [] -> later false true q q' ->
  fst (palette q') = fst (palette q).
Proof.
  intros R F ST R0 I0 L. set (rp := fst (init_int_palette (q_pal q) (q_gamma q) (q_post q))).
  assert (Frp : Forall (fun e => pop_is_fixed (snd e) = true) rp).
  { unfold rp, init_int_palette. cbn [fst]. apply Forall_map. eapply Forall_impl; [|exact F]. auto. }
  assert (S : ((q_pal q' = q_pal q /\ q_int q' = []) \/ (q_pal q' = rp /\ q_int q' = shown_now q)) /\ q_gamma q' = q_gamma q /\ q_post q' = q_post q /\
              (forall ip e, q_rem q' = Some (ip, e) -> ip = shown_now q)).
  { revert q' L. apply (later_invariant false true m); auto; try discriminate.
    - rewrite R0. repeat (split; auto). discriminate.
    - intros q1 v (P & G & B & S) _. repeat (split; auto). cbn. discriminate.
    - intros _ q1 (P & G & B & S) _. unfold palette. destruct (q_rem q1) as [[ip e]|] eqn:E1.
      { cbn [snd]. rewrite E1. auto. }
      destruct P as [[P I]|[P I]]; rewrite I.
      + rewrite P, G, B. change (init_int_palette (q_pal q) (q_gamma q) (q_post q)) with (rp, shown_now q).
        cbn. repeat (split; auto); discriminate.
      + destruct (shown_now q) eqn:EQ.
        * pose proof (reach_pal m q R) as LP. exfalso. assert (length (shown_now q) = 0) by (rewrite EQ; auto).
          unfold shown_now, init_int_palette in H. cbn [snd] in H. rewrite map_length in H. lia.
        * cbn [snd]. rewrite E1. repeat (split; auto); discriminate.
    - intros q1 p e (P & G & B & S) _ K _. repeat (split; auto). intros ip e' H. cbn in H. injection H as <- _.
      rewrite G, B. destruct P as [[P I]|[P I]]; rewrite P in K.
      + rewrite (keeps_all_fixed _ _ K); auto.
      + rewrite (keeps_all_fixed _ _ K); auto; exact ST.
    - intros q1 p (P & G & B & S) _ K. rewrite (keeps_all_fixed _ _ K).
      + repeat (split; auto).
      + destruct P as [[-> _]|[-> _]]; auto. }
  destruct S as (P & G & B & S). rewrite (palette_fresh q) by auto. unfold palette. destruct (q_rem q') as [[ip e]|] eqn:E.
  - cbn [fst]. eapply S; eauto.
  - destruct P as [[P I]|[P I]]; rewrite I.
    + rewrite P, G, B. unfold shown_now. destruct (init_int_palette _ _ _); auto.
    + destruct (shown_now q) eqn:EQ; auto.
      pose proof (reach_pal m q R) as LP. exfalso. assert (length (shown_now q) = 0) by (rewrite EQ; auto).
      unfold shown_now, init_int_palette in H. cbn [snd] in H. rewrite map_length in H. lia.
Qed.

(** * palette() and the output gamma *)
Lemma gamma_ignored q v q' : q_rem q = None -> length (q_pal q) <> 0 -> set_output_gamma (snd (palette q)) v = Ok q' ->
  fst (palette q') = fst (palette q).
Proof.
  intros R N E. unfold set_output_gamma in E. destruct (_ || _)%bool; [discriminate|]. inversion E; subst q'. clear E.
  unfold palette. rewrite R. destruct (q_int q) as [|c l] eqn:I.
  - destruct (init_int_palette (q_pal q) (q_gamma q) (q_post q)) as [p ip] eqn:E. cbn [snd q_int q_rem fst].
    destruct ip; auto. exfalso. apply N. unfold init_int_palette in E. inversion E. apply map_eq_nil in H1. rewrite H1. auto.
  - cbn [snd q_rem q_int fst]. rewrite I. auto.
Qed.
Lemma gamma_followed q v q' : q_int q = [] -> set_output_gamma q v = Ok q' ->
  fst (palette q') = snd (init_int_palette (q_pal q) v (q_post q)).
Proof.
  intros I E. unfold set_output_gamma in E. destruct (_ || _)%bool; [discriminate|]. inversion E; subst q'. unfold palette. cbn. rewrite I. auto.
Qed.
End Frozen.
