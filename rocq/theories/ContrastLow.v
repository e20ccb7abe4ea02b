(** Automatically generated importance is never below 80, if that holds for
    single pixels ([low_px]); for any arithmetic. *)
From Verif Require Import Base BaseFacts Arith Order Pal World Attr Hist Nearest Kmeans Blur ImageM Quant SpecImage SpecHist BlurFacts ImageFacts HistFacts.
Open Scope nat_scope.

Section ContrastLow.
Context {A : Arith} {C : CastLaws A}.
Variable Good : px -> Prop.
Definition low_px : Prop := forall p c n pl nl, Good p -> Good c -> Good n -> Good pl -> Good nl -> (80 <= fst (contrast_px p c n pl nl))%Z.
Hypothesis L : low_px.

Lemma contrast_row_low w a b c o : Forall Good a -> Forall Good b -> Forall Good c -> contrast_row w a b c = Ok o ->
  Forall (fun ne => 80 <= fst ne)%Z o.
Proof.
  intros Ga Gb Gc E. unfold contrast_row in E. apply bind_ok in E as (c0 & E0 & E). apply bind_ok in E as ([[x y] oo] & E1 & E).
  inversion E; subst oo. clear E. rewrite Forall_forall in Ga, Gb, Gc.
  assert (G0 : Good c0) by (apply Gb; apply idx_ok in E0; eapply nth_error_In; eauto).
  match type of E1 with foldM ?g ?l ?s0 = _ => pose proof (foldM_inv g
    (fun st => Good (fst (fst st)) /\ Good (snd (fst st)) /\ Forall (fun ne => 80 <= fst ne)%Z (snd st)) l s0 (x, y, o)) as INV end.
  destruct INV as (_ & _ & R); auto; [|cbn; auto].
  intros [[c1 n1] o1] i [[c2 n2] o2] _ (P1 & P2 & P3) E2. cbn [fst snd] in *.
  apply bind_ok in E2 as (nx & X1 & E2). apply bind_ok in E2 as (pl & X2 & E2). apply bind_ok in E2 as (nl & X3 & E2). inversion E2; subst.
  assert (Good n2) by (apply Gb; apply idx_ok in X1; eapply nth_error_In; eauto).
  assert (Good pl) by (apply Ga; apply idx_ok in X2; eapply nth_error_In; eauto).
  assert (Good nl) by (apply Gc; apply idx_ok in X3; eapply nth_error_In; eauto).
  split; auto. split; auto. apply Forall_app. split; auto.
Qed.
Lemma contrast_rows_low w n : forall a b rest o, Forall Good a -> Forall Good b -> Forall (Forall Good) rest -> contrast_rows w n a b rest = Ok o ->
  Forall (fun ne => 80 <= fst ne)%Z o.
Proof.
  induction n as [|n IH]; intros a b rest o Ga Gb Gr E; cbn [contrast_rows] in E.
  - inversion E. constructor.
  - destruct rest as [|r t].
    + apply bind_ok in E as (o1 & E1 & E). apply bind_ok in E as (o2 & E2 & E). inversion E; subst. apply Forall_app. split.
      * eapply contrast_row_low; [| | |exact E1]; auto.
      * eapply IH; [| | |exact E2]; auto.
    + apply Forall_cons_iff in Gr as [G1 G2]. apply bind_ok in E as (o1 & E1 & E). apply bind_ok in E as (o2 & E2 & E). inversion E; subst.
      apply Forall_app. split.
      * eapply contrast_row_low; [| | |exact E1]; auto.
      * eapply IH; [| | |exact E2]; auto.
Qed.
Lemma contrast_maps_low i pxs i' : image_ok i pxs -> (forall r c, In r pxs -> In c r -> Good (from_rgba (gamma_lut (d_gamma (i_px i))) c)) ->
  contrast_maps i = Ok i' -> i' = i \/ exists m, i_imp i' = Some m /\ Forall (BlurFacts.in_range 80 255) m.
Proof.
  intros I G E. destruct (contrast_maps_spec i pxs I) as [[_ Q]|(_ & ne & n & e & d & F & B & Ln & FC & Q & _)]; rewrite Q in E; inversion E; subst; [left; auto|right].
  exists n. split; [reflexivity|]. pose proof (im_px _ _ I) as S.
  assert (LOW : Forall (fun ne => 80 <= fst ne)%Z ne).
  { unfold fresh_maps in F. destruct (map (map (from_rgba (gamma_lut (d_gamma (i_px i))))) pxs) as [|first rest] eqn:M; [discriminate|].
    assert (GR : Forall (Forall Good) (first :: rest)).
    { rewrite <- M. apply Forall_forall. intros r Hr. apply in_map_iff in Hr as (r0 & <- & H0). apply Forall_forall. intros c Hc.
      apply in_map_iff in Hc as (c0 & <- & H1). eapply G; eauto. }
    apply Forall_cons_iff in GR as [G1 G2]. eapply contrast_rows_low; [| | |exact F]; auto. }
  assert (R : Forall (BlurFacts.in_range 80 255) (map fst ne)).
  { apply Forall_map. apply Forall_forall. intros x Hx. rewrite Forall_forall in B, LOW. specialize (B x Hx). specialize (LOW x Hx).
    unfold BlurFacts.in_range, byte in *. lia. }
  destruct (filter_chain_spec (i_w i) (i_h i) (map fst ne) (map snd ne) 80 255) as (n' & e' & E' & _ & _ & _ & _ & R').
  - apply (sh_w _ _ S).
  - apply (sh_h _ _ S).
  - rewrite map_length. auto.
  - rewrite map_length. auto.
  - apply Forall_map. eapply Forall_impl; [|exact B]. intros ? [? ?]; auto.
  - apply Forall_map. eapply Forall_impl; [|exact B]. intros ? [? ?]; auto.
  - exact R.
  - rewrite FC in E'. inversion E'; subst. exact R'.
Qed.
(** The importance map in use after [add_image], when the user gave none. *)
Lemma add_image_low u cb a h i w pxs r h' i' w' : image_ok i pxs -> (forall r c, In r pxs -> In c r -> Good (from_rgba (gamma_lut (d_gamma (i_px i))) c)) ->
  i_imp i = None -> add_image u cb a (h, i, w) = (r, (h', i', w')) -> forall m, i_imp i' = Some m -> Forall (BlurFacts.in_range 80 255) m.
Proof.
  intros I G N E m M. unfold add_image in E. rewrite N in E.
  assert (Q : exists i1, (if a_contrast a then contrast_maps i else Ok i) = Ok i1 /\ (i1 = i \/ exists m, i_imp i1 = Some m /\ Forall (BlurFacts.in_range 80 255) m)).
  { destruct (a_contrast a); [|eauto].
    destruct (contrast_maps_spec i pxs I) as [[_ Q]|(_ & ne & n & e & d & _ & _ & _ & _ & Q & _)]; rewrite Q; eexists; (split; [reflexivity|]);
      eapply contrast_maps_low; eauto. }
  destruct Q as (i1 & Q1 & Q2). rewrite Q1 in E.
  assert (EI : i' = i1).
  { unfold progress in E. destruct (cb _ _); [inversion E; auto|]. destruct (all_rgba_rows _); inversion E; auto. }
  subst i'. destruct Q2 as [->|(m' & M' & R)]; [congruence|]. rewrite M in M'. inversion M'; subst. auto.
Qed.
End ContrastLow.
