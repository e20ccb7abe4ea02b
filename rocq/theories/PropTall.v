(** C06 without the restriction of [C06_remap_progress_partial] is false. *)
From Verif Require Import Base BaseFacts Arith Order Pal World Attr Hist Nearest Kmeans Blur ImageM Quant Remap SpecHist SpecImage SpecAttr SpecProgress
  AttrFacts ImageFacts Ieee USeq Api ApiFacts ProgressFacts ProgressIeee ProgressAll Witness.
From Flocq Require Import IEEE754.BinarySingleNaN.
Open Scope nat_scope.

(** A palette made at speed 10, for which remapping makes no dither map. *)
Definition hasty : attrs := get_ok (set_speed attrs_new 10) attrs_new.
Lemma hasty_eq : set_speed attrs_new 10 = Ok hasty.
Proof. vm. Qed.
Definition res_hasty : qresult := call_r (quantize useq never hasty (img2, world0)) no_result.
Lemma res_hasty_eq : quantize useq never hasty (img2, world0) = (Ok res_hasty, snd (quantize useq never hasty (img2, world0))).
Proof. vm. Qed.
Lemma res_hasty_r : result_r 256 res_hasty.
Proof.
  refine (rr_image useq never hasty img2 _ world0 res_hasty _ useq_ok _ img2_r res_hasty_eq).
  apply (us_call attrs_new (CallSpeed 10)); [apply us_new|cbn; lia|exact hasty_eq].
Qed.
(** An image of 128 columns and 21511045 rows, all red, and a machine with
    4639 processors: 4638 chunks of 4638 rows and a last one of one row. *)
Definition tall_row (_ : nat) : list rgba := repeat red (Z.to_nat 128).
Lemma tall_image : exists i pxs, image_r i pxs /\ Z.of_nat (i_w i) = 128%Z /\ Z.of_nat (i_h i) = 21511045%Z.
Proof.
  assert (E : exists i, image_new_fn tall_row 128 21511045 d0 = Ok i).
  { unfold image_new_fn. replace (negb _) with false by reflexivity. unfold image_new_internal.
    replace (negb (check_image_size 128 21511045)) with false by reflexivity.
    replace (negb _) with false by reflexivity. eexists. reflexivity. }
  destruct E as (i & E). exists i, (callback_rows tall_row (Z.to_nat 21511045)).
  assert (RO : forall y, y < Z.to_nat 21511045 -> length (tall_row y) = Z.to_nat 128 /\ Forall rgba_ok (tall_row y)).
  { intros y _. unfold tall_row. rewrite repeat_length. split; auto. apply Forall_forall. intros c Hc. apply repeat_spec in Hc. subst c. repeat constructor; cbn; lia. }
  split; [apply (ir_fn tall_row 128 21511045 d0 i); auto; lia|].
  destruct (new_fn_ok tall_row 128 21511045 d0 i ltac:(lia) ltac:(lia) RO E) as (_ & W & H & _).
  rewrite W, H, !Z2Nat.id by lia. auto.
Qed.
Definition many : unspec := u_seq (Z.to_nat 4639) (fun _ _ => 0).
Lemma many_ok : unspec_ok many.
Proof. apply u_seq_ok; intros; lia. Qed.
Lemma tall_chunks w h : Z.of_nat w = 128%Z -> Z.of_nat h = 21511045%Z -> Z.of_nat (num_chunks many false w h) = 4639%Z.
Proof.
  intros W H. unfold num_chunks. change (u_cpus many) with (Z.to_nat 4639). set (b := if Nat.ltb 128 h then 2 else 1).
  assert (B : (Z.of_nat b <= 2)%Z) by (unfold b; destruct (Nat.ltb 128 h); cbn; lia). clearbody b.
  rewrite Nat2Z.inj_min, Nat2Z.inj_max, Nat2Z.inj_min, Nat2Z.inj_div, W, H, !Z2Nat.id by (vm_compute; congruence).
  change (128 * 21511045 / 524288)%Z with 5251%Z. change (21511045 / Z.of_nat 128)%Z with 168055%Z. lia.
Qed.
(** The last chunk is reported with a number above 100. *)
Lemma tall_pct h : Z.of_nat h = 21511045%Z -> forall s, Z.of_nat s = 21511044%Z -> in_range (row_pct 0 s h) = false.
Proof.
  intros H s S. unfold row_pct. rewrite H, S. vm.
Qed.
(** C06 without the restriction is false: remapping this image succeeds and
    reports a number above 100. *)
Theorem C06_remap_progress_refuted : exists pow32 pow64, let A := ieee pow32 pow64 in
  exists u cb m (q : qresult) i pxs buf, unspec_ok u /\ result_r m q /\ image_r i pxs /\
  fst (remap_into u cb q i buf world0) = Ok tt /\
  ~ percentages [] (w_trace (snd (snd (remap_into u cb q i buf world0)))).
Proof.
  exists (fun x _ => x), (fun x _ => x). cbv zeta. destruct tall_image as (i & pxs & I & W & H).
  exists many, never, 256, res_hasty, i, pxs, (repeat 0 (i_w i * i_h i)).
  split; [exact many_ok|]. split; [exact res_hasty_r|]. split; [exact I|].
  assert (D : (q_dither res_hasty =f f0) = false) by vm. assert (N : q_dmap res_hasty = DmNone) by vm.
  assert (SG : q_single res_hasty = false) by vm.
  destruct (no_draft_succeeds many many_ok never toy_cast 256 res_hasty i pxs (repeat 0 (i_w i * i_h i)) world0 res_hasty_r I D N) as (out & E).
  { reflexivity. }
  { rewrite repeat_length. lia. }
  change (ieee (fun x _ => x) (fun x _ => x)) with toy.
  rewrite E. split; [reflexivity|]. cbn [snd]. intros (l & El & F). rewrite app_nil_r in El. subst l.
  pose proof (remap_all_told many many_ok never toy_cast 256 res_hasty i pxs _ world0 out res_hasty_r I D E) as T.
  rewrite N, SG in T. cbn [dmode_is_none] in T. cbv zeta in T. set (nc := num_chunks many false (i_w i) (i_h i)) in T.
  assert (NC : Z.of_nat nc = 4639%Z) by (apply tall_chunks; auto). clearbody nc.
  assert (SZ : Z.of_nat ((i_h i + nc - 1) / nc) = 4638%Z).
  { rewrite Nat2Z.inj_div, Nat2Z.inj_sub, Nat2Z.inj_add, H, NC by lia. reflexivity. }
  set (size := (i_h i + nc - 1) / nc) in T, SZ. clearbody size. specialize (T (Z.to_nat 4638)).
  assert (S : Z.of_nat (Z.to_nat 4638 * size) = 21511044%Z) by (rewrite Nat2Z.inj_mul, Z2Nat.id, SZ by lia; reflexivity).
  rewrite Forall_forall in F. specialize (F _ (T ltac:(lia))). rewrite (tall_pct _ H _ S) in F. discriminate.
Qed.
Print Assumptions C06_remap_progress_refuted.
