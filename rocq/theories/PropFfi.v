(** C05, C41, C49, C50, C51: the C interface. *)
From Verif Require Import Base Arith Order Pal World Attr Hist Nearest Kmeans Blur ImageM Quant Remap SpecAttr SpecHist SpecImage
  AttrFacts Api Ffi FfiFacts FfiReach.
Open Scope Z_scope.

(** * C05 *)
(** The answer of a setter is LIQ_OK or LIQ_VALUE_OUT_OF_RANGE as documented
    for the argument it sees, which is the caller's modulo 256 for
    [liq_set_quality] and [liq_set_min_posterization]; a rejected call changes
    nothing. *)
Theorem C05_answers :
  forall (A : Arith) u cb s c a k x,
  c_setting c = Some (a, k) -> c_typed k -> obj s a = Some (CObj TAttr (BAttr x)) ->
  exists s', ccall_run u cb s c = Ret (RErr (if call_valid (narrowed k) then None else Some ValueOutOfRange)) s' /\
    (call_valid (narrowed k) = false -> s' = s).
Proof. exact (fun A => @setting_answer A). Qed.
Print Assumptions C05_answers.
(** C05 (proved part).  So the documented ranges are honoured for all numbers
    of colours and speeds, and for qualities and bits that fit in a byte.
    Missing: larger qualities and bits, see below. *)
Definition byte_args (k : call) : Prop :=
  match k with
  | CallPosterization b => 0 <= b < 256
  | CallQuality mn tg => 0 <= mn < 256 /\ 0 <= tg < 256
  | _ => True
  end.
Theorem C05_ranges_partial :
  forall (A : Arith) u cb s c a k x,
  c_setting c = Some (a, k) -> c_typed k -> byte_args k -> obj s a = Some (CObj TAttr (BAttr x)) ->
  exists s', ccall_run u cb s c = Ret (RErr (if call_valid k then None else Some ValueOutOfRange)) s' /\
    (call_valid k = false -> s' = s).
Proof.
  intros A u cb s c a k x K T B O. assert (N : narrowed k = k).
  { destruct k; cbn in *; auto; rewrite !Z.mod_small by lia; auto. }
  pose proof (@setting_answer A u cb s c a k x K T O) as H. rewrite N in H. exact H.
Qed.
Print Assumptions C05_ranges_partial.
(** C05 is false beyond a byte: a target quality of 300 is taken for 44, one of
    256 posterization bits for none. *)
Theorem C05_truncated_refuted :
  forall (A : Arith) u cb w, let a := Some 0%nat in
  (exists s, cprog u cb (CState [] w) [liq_attr_create; liq_set_quality a 0 300] = Ret (RErr None) s /\
     cprog u cb (CState [] w) [liq_attr_create; liq_set_quality a 0 44] = Ret (RErr None) s /\
     call_valid (CallQuality 0 300) = false) /\
  (exists s, cprog u cb (CState [] w) [liq_attr_create; liq_set_min_posterization a 256] = Ret (RErr None) s /\
     ccall_run u cb s (liq_get_min_posterization a) = Ret (RInt 0) s /\ call_valid (CallPosterization 256) = false).
Proof.
  intros A u cb w a. split; eexists; (split; [reflexivity|]); split; reflexivity.
Qed.
Print Assumptions C05_truncated_refuted.
Example C05_example : forall (A : Arith) u cb w, let a := Some 0%nat in
  (exists s, cprog u cb (CState [] w) [liq_attr_create; liq_set_quality a 0 100] = Ret (RErr None) s) /\
  cprog u cb (CState [] w) [liq_attr_create; liq_set_quality a 0 101] = Ret (RErr (Some ValueOutOfRange)) (CState [CObj TAttr (BAttr attrs_new)] w) /\
  cprog u cb (CState [] w) [liq_attr_create; liq_set_quality a 60 50] = Ret (RErr (Some ValueOutOfRange)) (CState [CObj TAttr (BAttr attrs_new)] w) /\
  cprog u cb (CState [] w) [liq_attr_create; liq_set_min_posterization a 5] = Ret (RErr (Some ValueOutOfRange)) (CState [CObj TAttr (BAttr attrs_new)] w) /\
  cprog u cb (CState [] w) [liq_attr_create; liq_set_speed a 11] = Ret (RErr (Some ValueOutOfRange)) (CState [CObj TAttr (BAttr attrs_new)] w) /\
  cprog u cb (CState [] w) [liq_attr_create; liq_set_max_colors a 65538] = Ret (RErr (Some ValueOutOfRange)) (CState [CObj TAttr (BAttr attrs_new)] w).
Proof. intros A u cb w a. split; [eexists; reflexivity|]. repeat split; reflexivity. Qed.

(** * C41 *)
(** C41 (proved part).  All but nine functions answer with their failure value
    and change nothing when an object they are given is NULL, released or of
    another type. *)
Theorem C41_rejects_partial :
  forall (A : Arith) u cb s c, unchecked c = false -> (exists p t, In (p, t) (args c) /\ ~ is_a s p t) ->
  ccall_run u cb s c = Ret (failure c) s.
Proof. exact (fun A => @rejects A). Qed.
Print Assumptions C41_rejects_partial.
(** The other nine: setting the speed and creating an image with a row callback
    use any object they are given; the two opacity functions succeed on a
    released one; destroying twice or with the wrong function, and handing over
    a released image, an object of another type or the image itself as its
    background, are undefined. *)
Definition red : rgba := Rgba 200 0 0 255.
Definition stops_undefined {A : Arith} (cs : list ccall) : Prop := forall u cb w, cprog u cb (CState [] w) cs = Undefined.
Theorem C41_unchecked_refuted :
  forall (A : Arith), let o (n : nat) := Some n in
  let pixels := Some [red] in
  let attr_and_hist := [liq_attr_create; liq_histogram_create (o 0%nat)] in
  let two_images := [liq_attr_create; liq_image_create_rgba (o 0%nat) pixels 1 1 d0; liq_image_create_rgba (o 0%nat) pixels 1 1 d0] in
  (d0 <=d d0) = true -> (d0 <=d d1) = true ->
  stops_undefined (attr_and_hist ++ [liq_set_speed (o 1%nat) 5]) /\
  stops_undefined (attr_and_hist ++ [liq_image_create_custom (o 1%nat) (fun _ => [red]) 1 1 d0]) /\
  (forall u cb w, exists s s', cprog u cb (CState [] w) [liq_attr_create; liq_attr_destroy (o 0%nat)] = Ret RVoid s /\
     ~ is_a s (o 0%nat) TAttr /\
     ccall_run u cb s (liq_set_min_opacity (o 0%nat) 1) = Ret (RErr None) s' /\
     ccall_run u cb s (liq_get_min_opacity (o 0%nat)) = Ret (RInt 0) s') /\
  stops_undefined [liq_attr_create; liq_attr_destroy (o 0%nat); liq_attr_destroy (o 0%nat)] /\
  stops_undefined (attr_and_hist ++ [liq_attr_destroy (o 1%nat)]) /\
  stops_undefined (attr_and_hist ++ [liq_histogram_destroy (o 0%nat)]) /\
  stops_undefined (attr_and_hist ++ [liq_image_destroy (o 0%nat)]) /\
  stops_undefined (attr_and_hist ++ [liq_result_destroy (o 0%nat)]) /\
  stops_undefined (two_images ++ [liq_image_set_background (o 1%nat) (o 0%nat)]) /\
  stops_undefined (two_images ++ [liq_image_destroy (o 2%nat); liq_image_set_background (o 1%nat) (o 2%nat)]) /\
  stops_undefined (two_images ++ [liq_image_set_background (o 1%nat) (o 1%nat)]) /\
  stops_undefined (two_images ++ [liq_image_set_background (o 1%nat) (o 2%nat); liq_image_get_width (o 2%nat)]).
Proof.
  intros A o pixels ah im L0 L1.
  assert (I : forall u cb w, exists i j,
    cprog u cb (CState [] w) im = Ret (RPtr (o 2%nat)) (CState [CObj TAttr (BAttr attrs_new); CObj TImage (BImage i); CObj TImage (BImage j)] w) /\
    set_background i j <> Panic).
  { intros u cb w. unfold im. cbn [cprog ccall_run]. unfold pixels, new_obj, guard, good, inner_attr, obj, o.
    cbn [c_objs app length nth_error o_tag tag_eqb andb]. replace (c_image_size_ok 1 1) with true by reflexivity.
    unfold image_new_internal. replace (check_image_size 1 1) with true by reflexivity. cbn [negb]. rewrite L0, L1. cbn [andb negb created].
    unfold new_obj. cbn [c_objs app length nth_error o_tag tag_eqb andb c_world].
    do 2 eexists. split; [reflexivity|]. unfold set_background. destruct (i_bg _); [discriminate|]. destruct (negb _); discriminate. }
  assert (K : forall cs, cs <> [] -> (forall u cb w i j, set_background i j <> Panic ->
      cprog u cb (CState [CObj TAttr (BAttr attrs_new); CObj TImage (BImage i); CObj TImage (BImage j)] w) cs = Undefined) ->
      stops_undefined (im ++ cs)).
  { intros cs N H u cb w. destruct (I u cb w) as (i & j & E & P). specialize (H u cb w i j P).
    clear - N H E. unfold im in *. revert E. destruct cs as [|c cs]; [congruence|].
    cbn [cprog app]. intros E. destruct (ccall_run u cb (CState [] w) _) as [x s| |]; try discriminate.
    destruct (ccall_run u cb s _) as [x' s'| |]; try discriminate. rewrite E. exact H. }
  split; [intros u cb w; reflexivity|]. split; [intros u cb w; reflexivity|].
  split. { intros u cb w. do 2 eexists. split; [reflexivity|]. split; [|split; reflexivity]. intros (n & x & E1 & E2 & E3).
    injection E1 as <-. cbn in E2. injection E2 as <-. discriminate. }
  split; [intros u cb w; reflexivity|]. split; [intros u cb w; reflexivity|]. split; [intros u cb w; reflexivity|].
  split; [intros u cb w; reflexivity|]. split; [intros u cb w; reflexivity|].
  split; [apply K; [discriminate|reflexivity]|].
  split; [apply K; [discriminate|reflexivity]|].
  split; [apply K; [discriminate|reflexivity]|].
  apply K; [discriminate|]. intros u cb w i j P. cbn [cprog ccall_run].
  unfold good, obj, o. cbn [c_objs nth_error o_tag tag_eqb andb negb Nat.eqb]. unfold inner_image, obj. cbn [c_objs nth_error].
  unfold done. destruct (set_background i j); [reflexivity|reflexivity|congruence].
Qed.
Print Assumptions C41_unchecked_refuted.
(** Released, of another type, NULL. *)
Example C41_example : forall (A : Arith) u cb w, let o (n : nat) := Some n in
  exists s, cprog u cb (CState [] w) [liq_attr_create; liq_histogram_create (o 0%nat); liq_attr_copy (o 0%nat); liq_attr_destroy (o 2%nat)] = Ret RVoid s /\
    ccall_run u cb s (liq_set_max_colors (o 2%nat) 16) = Ret (RErr (Some InvalidPointer)) s /\
    ccall_run u cb s (liq_histogram_quantize (o 0%nat) (o 1%nat)) = Ret (RErr (Some InvalidPointer)) s /\
    ccall_run u cb s (liq_get_speed None) = Ret (RInt 4294967295) s /\
    ccall_run u cb s (liq_histogram_create (o 1%nat)) = Ret (RPtr None) s /\
    ccall_run u cb s (liq_get_speed (o 0%nat)) = Ret (RInt 4) s.
Proof. intros A u cb w o. eexists. split; [reflexivity|]. repeat split; reflexivity. Qed.

(** * C49 *)
(** A bitmap is accepted exactly when its sizes are positive, at most
    INT_MAX/64 by INT_MAX/8, its bytes can be counted by an [int], and gamma is
    in 0..1. *)
Theorem C49_accepted_sizes :
  forall (A : Arith) u cb s a x buf w h g, obj s a = Some (CObj TAttr (BAttr x)) -> u32 w -> u32 h ->
  (exists i s', ccall_run u cb s (liq_image_create_rgba a (Some buf) w h g) = Ret (RPtr (Some i)) s') <->
  (1 <= w <= (2 ^ 31 - 1) / 64 /\ 1 <= h <= (2 ^ 31 - 1) / 8 /\ 4 * (w * h) <= 2 ^ 31 - 1) /\ (d0 <=d g) = true /\ (g <=d d1) = true.
Proof. exact (fun A => @create_accepts A). Qed.
Print Assumptions C49_accepted_sizes.
(** In every program that asks [liq_image_create_custom] only for such images,
    all images have between 1 and INT_MAX/4 pixels, whatever is done to them:
    no 32-bit count of pixels overflows. *)
Theorem C49_no_overflow :
  forall (A : Arith) (C : CastLaws A) s n i, c_reach fits_int s -> nth_error (c_objs s) n = Some (CObj TImage (BImage i)) ->
  1 <= Z.of_nat (i_w i) * Z.of_nat (i_h i) <= (2 ^ 31 - 1) / 4.
Proof. exact (fun A C => @c_program_sizes A C). Qed.
Print Assumptions C49_no_overflow.
Example C49_example : forall (A : Arith) u cb w buf g, let a := Some 0%nat in
  let s := CState [CObj TAttr (BAttr attrs_new)] w in
  ccall_run u cb s (liq_image_create_rgba a (Some buf) 65536 65536 g) = Ret (RPtr None) s /\
  ccall_run u cb s (liq_image_create_rgba a (Some buf) 0 5 g) = Ret (RPtr None) s /\
  c_image_size_ok 23170 23170 = true /\ c_image_size_ok 23171 23171 = false.
Proof. intros A u cb w buf g a s. repeat split; reflexivity. Qed.

(** * C50 *)
(** A call leaves alone all objects it is not given; it only adds objects. *)
Theorem C50_frame :
  forall (A : Arith) u cb s c x s', ccall_run u cb s c = Ret x s' ->
  (length (c_objs s) <= length (c_objs s'))%nat /\
  forall n, (n < length (c_objs s))%nat -> ~ In (Some n) (map fst (args c)) -> nth_error (c_objs s') n = nth_error (c_objs s) n.
Proof. exact (fun A => @frame A). Qed.
Print Assumptions C50_frame.
Example C50_example : forall (A : Arith) u cb w, exists s s',
  cprog u cb (CState [] w) [liq_attr_create; liq_attr_copy (Some 0%nat)] = Ret (RPtr (Some 1%nat)) s /\
  ccall_run u cb s (liq_set_speed (Some 1%nat) 10) = Ret (RErr None) s' /\
  ccall_run u cb s' (liq_get_speed (Some 0%nat)) = Ret (RInt 4) s' /\
  ccall_run u cb s' (liq_get_speed (Some 1%nat)) = Ret (RInt 10) s'.
Proof. intros A u cb w. do 2 eexists. repeat split; reflexivity. Qed.

(** * C51 *)
(** A program that keeps to the documented rules holds only objects of the Rust
    interface, to which the other theorems apply, and its next call, if it
    keeps to the rules, returns: it is neither undefined nor aborts. *)
Theorem C51_c_programs :
  forall (A : Arith) (C : CastLaws A) s, c_reach any_size s ->
  (forall n a, nth_error (c_objs s) n = Some (CObj TAttr (BAttr a)) -> usable a) /\
  (forall n i, nth_error (c_objs s) n = Some (CObj TImage (BImage i)) -> exists pxs, image_r i pxs) /\
  (forall n h, nth_error (c_objs s) n = Some (CObj THist (BHist h)) -> hist_r h) /\
  (forall n q, nth_error (c_objs s) n = Some (CObj TResult (BResult q)) -> exists m, result_r m q) /\
  (forall u cb c, unspec_ok u -> proper any_size s c -> exists x s', ccall_run u cb s c = Ret x s').
Proof. exact (fun A C => @c_program_objects A C). Qed.
Print Assumptions C51_c_programs.

(** A whole program: two settings, an image, quantizing, remapping into a
    buffer, the palette, a background for a second image, and cleaning up. *)
From Verif Require Import Witness.
Definition session : list ccall :=
  let o (n : nat) := Some n in
  [liq_attr_create; liq_set_max_colors (o 0) 16; liq_set_speed (o 0) 5;
   liq_image_create_rgba (o 0) (Some [Witness.red; Witness.blue]) 2 1 d0;
   liq_image_quantize (o 1) (o 0); liq_set_dithering_level (o 2) f0;
   liq_write_remapped_image (o 2) (o 1) (Some [9; 9; 9]); liq_get_palette (o 2);
   liq_image_create_rgba (o 0) (Some [Witness.red; Witness.red]) 2 1 d0;
   liq_image_set_background (o 1) (o 3);
   liq_result_destroy (o 2); liq_image_destroy (o 1); liq_attr_destroy (o 0)]%nat.
Fixpoint answers (s : cstate) (cs : list ccall) : list (option cret) :=
  match cs with
  | [] => []
  | c :: t => match ccall_run useq never s c with Ret r s' => Some r :: answers s' t | _ => [None] end
  end.
Definition after (cs : list ccall) : cstate :=
  fold_left (fun s c => match ccall_run useq never s c with Ret _ s' => s' | _ => s end) cs (CState [] world0).
(** Checking the rules about objects by computation. *)
Definition handedb (s : cstate) (p : handle) : bool :=
  match obj s p with Some (CObj TImage Gone) => true | _ => false end.
Definition aliveb (s : cstate) (p : handle) (t : tag) : bool := (good s t p && negb (handedb s p))%bool.
Definition objectsb (s : cstate) (c : ccall) : bool :=
  match c with
  | liq_attr_destroy p => aliveb s p TAttr
  | liq_image_destroy p => aliveb s p TImage
  | liq_result_destroy p => aliveb s p TResult
  | liq_histogram_destroy p => aliveb s p THist
  | liq_image_set_background (Some i) (Some b) =>
      (aliveb s (Some i) TImage && aliveb s (Some b) TImage && negb (Nat.eqb i b))%bool
  | liq_set_speed a _ | liq_image_create_custom a _ _ _ _ => aliveb s a TAttr
  | liq_image_set_background _ _ => false
  | _ => forallb (fun a => negb (handedb s (fst a))) (args c)
  end.
Lemma handedb_no s p : handedb s p = false -> ~ handed_over s p.
Proof. intros H (n & -> & E). unfold handedb in H. cbn [obj] in H. rewrite E in H. discriminate. Qed.
Lemma aliveb_yes s p t : aliveb s p t = true -> alive s p t.
Proof.
  unfold aliveb. intros H. apply andb_prop in H as [H1 H2]. split; [apply good_is_a, H1|]. apply handedb_no. destruct (handedb s p); auto.
Qed.
Lemma objectsb_yes s c : objectsb s c = true -> caller_objects s c.
Proof.
  assert (F : forallb (fun a => negb (handedb s (fst a))) (args c) = true -> forall p t, In (p, t) (args c) -> ~ handed_over s p).
  { intros H p t I. apply handedb_no. rewrite forallb_forall in H. specialize (H _ I). cbn in H. destruct (handedb s p); auto. }
  destruct c; cbn [objectsb caller_objects]; auto using aliveb_yes.
  destruct i as [i|], b as [b|]; try discriminate. intros H. apply andb_prop in H as [H H3]. apply andb_prop in H as [H1 H2].
  split; [|split]; auto using aliveb_yes. intros E. injection E as ->. rewrite Nat.eqb_refl in H3. discriminate.
Qed.
Definition stepb (s : cstate) (c : ccall) : bool :=
  (objectsb s c && match ccall_run useq never s c with Ret _ _ => true | _ => false end)%bool.
Fixpoint runb (s : cstate) (cs : list ccall) : bool :=
  match cs with
  | [] => true
  | c :: t => (stepb s c && match ccall_run useq never s c with Ret _ s' => runb s' t | _ => false end)%bool
  end.
Lemma runb_reach cs : forall s, c_reach any_size s -> runb s cs = true ->
  Forall (fun c => forall s, caller_data any_size s c) cs ->
  c_reach any_size (fold_left (fun s c => match ccall_run useq never s c with Ret _ s' => s' | _ => s end) cs s).
Proof.
  induction cs as [|c cs IH]; intros s R B D; cbn [fold_left runb] in *; auto. apply andb_prop in B as [B1 B2].
  unfold stepb in B1. apply andb_prop in B1 as [B0 _]. apply Forall_cons_iff in D as [D1 D2].
  destruct (ccall_run useq never s c) as [x s'| |] eqn:E; try discriminate. apply IH; auto.
  eapply cr_call; [exact useq_ok|exact R| |exact E]. split; [apply D1|apply objectsb_yes, B0].
Qed.
Example C51_example :
  c_reach any_size (after session) /\
  map o_tag (c_objs (after session)) = [TFreed; TFreed; TFreed; TImage] /\
  answers (CState [] world0) session =
    [Some (RPtr (Some 0%nat)); Some (RErr None); Some (RErr None); Some (RPtr (Some 1%nat)); Some (RPtr (Some 2%nat)); Some (RErr None);
     Some (RBuf None [1; 0; 9]%nat); Some (RPal (Some [Witness.blue; Witness.red])); Some (RPtr (Some 3%nat)); Some (RErr None);
     Some RVoid; Some RVoid; Some RVoid].
Proof.
  assert (R : runb (CState [] world0) session = true) by vm.
  assert (D : Forall (fun c => forall s, caller_data any_size s c) session).
  { unfold session. repeat apply Forall_cons; try apply Forall_nil; intros s; cbn [caller_data]; unfold u32, i32; try exact I;
      try (change (2 ^ 32) with 4294967296); try (change (2 ^ 31) with 2147483648);
      first [lia | split; [lia|split; [lia|split; [cbn; lia|]]]; repeat constructor; cbn; lia]. }
  split; [exact (runb_reach session (CState [] world0) (cr_start any_size world0) R D)|].
  split; vm.
Qed.
