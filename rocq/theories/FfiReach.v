(** What a C program that keeps to the documented rules can hold: its calls
    are defined, never abort, and its objects are objects of the Rust
    interface. *)
From Verif Require Import Base BaseFacts Arith Order Pal World Attr Hist Nearest Kmeans Blur ImageM Quant Remap
  SpecAttr SpecHist SpecImage ImageFacts AttrFacts HistFacts QuantFacts RemapFacts ApiFacts Api ResultFacts Ffi FfiFacts.
Section FfiReach.
Context {A : Arith} {C : CastLaws A}.
Open Scope Z_scope.
(** A condition on the sizes of images. *)
Variable fits : nat -> nat -> Prop.

(** Every object is released, or an object of the Rust interface of the type
    its tag says. *)
Definition held_obj (o : cobj) : Prop :=
  match o_tag o, o_body o with
  | TAttr, BAttr a => usable a
  | TImage, BImage i => fits (i_w i) (i_h i) /\ exists pxs, image_r i pxs
  | TResult, BResult q => exists m, result_r m q
  | THist, BHist h => hist_r h
  | TImage, Gone | TFreed, Gone => True
  | _, _ => False
  end.
Definition held (s : cstate) : Prop := forall n o, nth_error (c_objs s) n = Some o -> held_obj o.

(** * The caller's side *)
Definition u32 (z : Z) : Prop := 0 <= z < 2 ^ 32.
Definition i32 (z : Z) : Prop := - 2 ^ 31 <= z < 2 ^ 31.
(** Integers are of their C types and buffers are as large as documented. *)
Definition caller_data (s : cstate) (c : ccall) : Prop :=
  match c with
  | liq_set_max_colors _ v => u32 v
  | liq_set_speed _ v => i32 v
  | liq_image_add_fixed_color _ c | liq_histogram_add_fixed_color _ c _ => rgba_ok c
  | liq_image_set_importance_map _ (Some m) _ => Forall byte m
  | liq_image_create_custom _ row w h _ =>
      u32 w /\ u32 h /\ fits (Z.to_nat w) (Z.to_nat h) /\ forall y, (y < Z.to_nat h)%nat -> length (row y) = Z.to_nat w /\ Forall rgba_ok (row y)
  | liq_image_create_rgba_rows _ (Some rows) w h _ =>
      u32 w /\ u32 h /\ length rows = Z.to_nat h /\
      forall r, In (Some r) rows -> length r = Z.to_nat w /\ Forall rgba_ok r
  | liq_image_create_rgba _ (Some buf) w h _ => u32 w /\ u32 h /\ w * h <= Z.of_nat (length buf) /\ Forall rgba_ok buf
  | liq_histogram_add_colors _ _ (Some es) n _ => n <= Z.of_nat (length es) /\ Forall addition_ok es
  | liq_write_remapped_image_rows _ _ _ => rows_fit s c
  | _ => True
  end.
(** An object of type [t] that was not released or handed over. *)
Definition alive (s : cstate) (p : handle) (t : tag) : Prop := is_a s p t /\ ~ handed_over s p.
(** Objects: the functions that do not check need the right ones; the others
    may be called with anything but an image that was handed over. *)
Definition caller_objects (s : cstate) (c : ccall) : Prop :=
  match c with
  | liq_set_min_opacity _ _ | liq_get_min_opacity _ => True
  | liq_attr_destroy p => p = None \/ alive s p TAttr
  | liq_image_destroy p => p = None \/ alive s p TImage
  | liq_result_destroy p => p = None \/ alive s p TResult
  | liq_histogram_destroy p => p = None \/ alive s p THist
  | liq_image_set_background i b => alive s i TImage /\ alive s b TImage /\ i <> b
  | liq_set_speed a _ | liq_image_create_custom a _ _ _ _ => alive s a TAttr
  | _ => forall p t, In (p, t) (args c) -> ~ handed_over s p
  end.
Definition proper (s : cstate) (c : ccall) : Prop := caller_data s c /\ caller_objects s c.

Lemma same_size i i' pxs : image_r i pxs -> image_r i' pxs -> i_w i' = i_w i /\ i_h i' = i_h i.
Proof.
  intros H H'. apply reach_image in H, H'. destruct (im_px _ _ H) as [W1 H1 L1 R1 _ _], (im_px _ _ H') as [W2 H2 L2 R2 _ _].
  unfold i_w, i_h. split; [|congruence]. destruct pxs as [|r pxs]; [cbn in L1; lia|].
  apply Forall_inv in R1, R2. destruct R1, R2. congruence.
Qed.
Lemma held_size i i' pxs : fits (i_w i) (i_h i) -> image_r i pxs -> image_r i' pxs -> fits (i_w i') (i_h i') /\ exists pxs, image_r i' pxs.
Proof. intros Q H H'. destruct (same_size i i' pxs H H') as [-> ->]. eauto. Qed.

(** * Keeping objects held *)
Definition fine (o : cout) : Prop := exists x s', o = Ret x s' /\ held s'.
Lemma fine_ret x s : held s -> fine (Ret x s).
Proof. intros H. exists x, s. auto. Qed.
Definition tag_of (s : cstate) (p : handle) : option tag := option_map o_tag (obj s p).
Lemma obj_set_obj s p q o : obj (set_obj s p o) q = if match p, q with Some x, Some y => Nat.eqb x y | _, _ => false end
  then option_map (fun _ => o) (obj s q) else obj s q.
Proof.
  destruct p as [n|], q as [m|]; cbn; auto. destruct (Nat.eqb_spec n m) as [->|N].
  - destruct (nth_error (c_objs s) m) as [x|] eqn:E; cbn.
    + apply nth_error_upd_eq. apply nth_error_Some. congruence.
    + apply nth_error_None. rewrite upd_length. apply nth_error_None. auto.
  - apply nth_error_upd_neq. auto.
Qed.
Lemma tag_set_body s p b q : tag_of (set_body s p b) q = tag_of s q.
Proof.
  unfold tag_of, set_body. destruct (obj s p) as [o|] eqn:E; auto. rewrite obj_set_obj.
  destruct p as [n|], q as [m|]; auto. destruct (Nat.eqb_spec n m) as [->|]; auto. rewrite E. reflexivity.
Qed.
Lemma held_obj_of s p o : held s -> obj s p = Some o -> held_obj o.
Proof. intros H E. destruct p as [n|]; [|discriminate]. exact (H n o E). Qed.
Lemma held_set_obj s p o : held s -> held_obj o -> held (set_obj s p o).
Proof.
  intros H O n x E. assert (E' : obj (set_obj s p o) (Some n) = Some x) by exact E. rewrite obj_set_obj in E'.
  destruct (match p with Some x0 => Nat.eqb x0 n | None => false end).
  - destruct (obj s (Some n)); [|discriminate]. injection E' as <-. auto.
  - exact (H n x E').
Qed.
Lemma held_set_body s p b t : held s -> tag_of s p = Some t -> held_obj (CObj t b) -> held (set_body s p b).
Proof.
  intros H T O. unfold set_body. unfold tag_of in T. destruct (obj s p) as [o|] eqn:E; auto.
  cbn in T. injection T as <-. apply held_set_obj; auto.
Qed.
Lemma held_world s w : held s -> held (set_world s w).
Proof. intros H. exact H. Qed.
Lemma held_new s t b : held s -> held_obj (CObj t b) -> fine (new_obj s t b).
Proof.
  intros H O. apply fine_ret. intros n o E. cbn [c_objs] in E.
  destruct (Nat.lt_ge_cases n (length (c_objs s))) as [L|L].
  - rewrite nth_error_app1 in E by auto. exact (H n o E).
  - rewrite nth_error_app2 in E by auto. destruct (n - length (c_objs s))%nat as [|k]; cbn in E.
    + injection E as <-. auto.
    + destruct k; discriminate.
Qed.
Lemma fine_guard (b : bool) x s k : held s -> (b = true -> fine k) -> fine (guard b x s k).
Proof. intros H K. unfold guard. destruct b; auto. apply fine_ret; auto. Qed.
Lemma held_coherent s : held s -> coherent s.
Proof.
  intros H n o E. specialize (H n o E). unfold held_obj in H. unfold coherent_obj. destruct (o_tag o), (o_body o); tauto.
Qed.

Lemma held_attr s p k : held s -> good s TAttr p = true ->
  (forall a, usable a -> tag_of s p = Some TAttr -> fine (k a)) -> fine (inner_attr s p k).
Proof.
  intros H G K. destruct (coherent_attr s p k (held_coherent s H) G) as (a & E & ->). apply K.
  - exact (held_obj_of s p _ H E).
  - unfold tag_of. rewrite E. reflexivity.
Qed.
Lemma held_hist s p k : held s -> good s THist p = true ->
  (forall h, hist_r h -> tag_of s p = Some THist -> fine (k h)) -> fine (inner_hist s p k).
Proof.
  intros H G K. destruct (coherent_hist s p k (held_coherent s H) G) as (a & E & ->). apply K.
  - exact (held_obj_of s p _ H E).
  - unfold tag_of. rewrite E. reflexivity.
Qed.
Lemma held_result s p k : held s -> good s TResult p = true ->
  (forall m q, result_r m q -> tag_of s p = Some TResult -> fine (k q)) -> fine (inner_result s p k).
Proof.
  intros H G K. destruct (coherent_result s p k (held_coherent s H) G) as (a & E & ->).
  destruct (held_obj_of s p _ H E) as [m R]. apply (K m a R). unfold tag_of. rewrite E. reflexivity.
Qed.
Lemma held_image s p k : held s -> good s TImage p = true -> ~ handed_over s p ->
  (forall i pxs, fits (i_w i) (i_h i) -> image_r i pxs -> obj s p = Some (CObj TImage (BImage i)) -> fine (k i)) -> fine (inner_image s p k).
Proof.
  intros H G N K. destruct (coherent_image s p k (held_coherent s H) G N) as (a & E & ->).
  destruct (held_obj_of s p _ H E) as [Z [m R]]. apply (K a m Z R E).
Qed.
Lemma obj_tag s p t b : obj s p = Some (CObj t b) -> tag_of s p = Some t.
Proof. intros E. unfold tag_of. rewrite E. reflexivity. Qed.
Lemma fine_done {T} s p (f : T -> body) (r : res T) t : held s -> tag_of s p = Some t -> r <> Panic ->
  (forall x, r = Ok x -> held_obj (CObj t (f x))) -> fine (done s p f r).
Proof.
  intros H E P K. unfold done. destruct r as [x|e|]; [|apply fine_ret; auto|contradiction].
  apply fine_ret. eapply held_set_body; eauto.
Qed.
Lemma fine_quantized s r m : held s -> r <> Panic -> (forall q, r = Ok q -> result_r m q) -> fine (quantized s r).
Proof.
  intros H P K. unfold quantized. destruct r as [q|e|]; [|apply fine_ret; auto|contradiction].
  apply held_new; auto. cbn. eauto.
Qed.
Lemma fine_created s r : held s -> r <> Panic -> (forall i, r = Ok i -> fits (i_w i) (i_h i) /\ exists pxs, image_r i pxs) -> fine (created s r).
Proof.
  intros H P K. unfold created. destruct r as [q|e|]; [|apply fine_ret; auto|contradiction]. apply held_new; auto. cbn. auto.
Qed.
Lemma fine_or_null o : fine o -> fine (or_null o).
Proof. intros (x & s' & -> & H). cbn. destruct x; apply fine_ret; auto. Qed.

(** * Setters *)
Lemma attr_call a c : usable a -> call_typed c -> apply_call a c <> Panic /\ forall a', apply_call a c = Ok a' -> usable a'.
Proof.
  intros U T. split.
  - destruct (apply_call_accepts a c T) as [H1 H2]. destruct (call_valid c).
    + destruct (H1 eq_refl) as [a' ->]. discriminate.
    + rewrite (H2 eq_refl). discriminate.
  - intros a' E. eapply us_call; eauto.
Qed.
Lemma as_u8_byte z : 0 <= as_u8 z < 256.
Proof. unfold as_u8, wrap8. apply Z.mod_pos_bound. lia. Qed.
Lemma fine_attr s a x c : held s -> usable x -> tag_of s a = Some TAttr -> call_typed c -> fine (done s a BAttr (apply_call x c)).
Proof.
  intros H U T Y. destruct (attr_call x c U Y) as [P K]. eapply fine_done; eauto.
Qed.

Lemma Forall_head {T} (P : T -> Prop) n l : Forall P l -> Forall P (firstn n l).
Proof. intros F. rewrite <- (firstn_skipn n l) in F. apply Forall_app in F. apply F. Qed.

(** * Images *)
Lemma c_size_spec w h : 0 <= w -> 0 <= h -> c_image_size_ok w h = true <->
  1 <= w /\ 1 <= h /\ 4 * (w * h) <= 2 ^ 31 - 1 /\ w <= (2 ^ 31 - 1) / 64 /\ h <= (2 ^ 31 - 1) / 8.
Proof.
  intros Hw Hh. unfold c_image_size_ok, I32_MAX.
  destruct (Z.eqb_spec w 0) as [->|Nw]; cbn [orb]; [split; [discriminate|lia]|].
  destruct (Z.eqb_spec h 0) as [->|Nh]; cbn [orb]; [split; [discriminate|lia]|].
  rewrite Bool.negb_true_iff, !Bool.orb_false_iff, !Z.ltb_ge.
  change (2147483647 / 4) with 536870911. change (2147483647 / 16 / 4) with 33554431. change (2147483647 / 8) with 268435455.
  change ((2 ^ 31 - 1) / 64) with 33554431. change ((2 ^ 31 - 1) / 8) with 268435455.
  assert (Q : w <= 536870911 / h <-> w * h <= 536870911).
  { split; intros L.
    - pose proof (Z.mul_div_le 536870911 h ltac:(lia)). nia.
    - apply Z.div_le_lower_bound; lia. }
  rewrite Q. lia.
Qed.
Lemma c_size_ok w h : u32 w -> u32 h -> c_image_size_ok w h = true -> 1 <= w /\ 1 <= h /\ 4 * (w * h) <= 2 ^ 31 - 1.
Proof. intros W H E. unfold u32 in *. apply c_size_spec in E; lia. Qed.
Lemma new_internal_size src w h g i : image_new_internal src w h g = Ok i -> i_w i = Z.to_nat w /\ i_h i = Z.to_nat h.
Proof.
  unfold image_new_internal. destruct (negb _); [discriminate|]. destruct (negb _); [discriminate|]. intros E. injection E as <-. auto.
Qed.
(** The images made from C bitmaps are those of [Image::new]. *)
Lemma create_bitmap buf w h g : 0 <= w -> 0 <= h -> c_image_size_ok w h = true -> w * h <= Z.of_nat (length buf) ->
  image_new_internal (SrcPixels buf (map (fun i => i * Z.to_nat w)%nat (seq 0 (Z.to_nat h)))) w h g = image_new_stride buf w h w g.
Proof.
  intros Hw Hh S L. apply c_size_spec in S as (S1 & S2 & S3 & S4 & S5); auto.
  change ((2 ^ 31 - 1) / 64) with 33554431 in S4. change ((2 ^ 31 - 1) / 8) with 268435455 in S5.
  unfold image_new_stride, u32_ok, U32_MAX.
  destruct (Z.leb_spec w 4294967295); [|lia]. destruct (Z.leb_spec h 4294967295); [|lia]. cbn [andb negb].
  pose proof (for_pixels_spec buf w h w Hw Hh Hw) as F.
  destruct (Z.ltb_spec w w); [lia|]. destruct (Z.eqb_spec h 0); [lia|]. destruct (Z.eqb_spec w 0); [lia|]. cbn [orb] in F.
  destruct (Z.ltb_spec (Z.of_nat (length buf)) (w * (h - 1) + w)); [lia|]. rewrite F. reflexivity.
Qed.
Lemma new_internal_res src w h g : image_new_internal src w h g <> Panic.
Proof.
  unfold image_new_internal. destruct (negb _); [discriminate|]. destruct (negb _); discriminate.
Qed.
Lemma all_some_spec {T} (l : list (option T)) r : all_some l = Some r -> l = map Some r.
Proof.
  revert r. induction l as [|[x|] l IH]; cbn; intros r E; try discriminate.
  - injection E as <-. reflexivity.
  - destruct (all_some l) as [t|]; [|discriminate]. injection E as <-. cbn. f_equal. auto.
Qed.
Lemma concat_same {T} (rows : list (list T)) w : (forall r, In r rows -> length r = w) -> length (concat rows) = (length rows * w)%nat.
Proof.
  induction rows as [|r rows IH]; cbn; auto. intros H. rewrite app_length, IH by auto. rewrite (H r) by auto. lia.
Qed.

(** * One call *)
Variable u : unspec.
Variable cb : callback.
Hypothesis Hu : unspec_ok u.
Hypothesis HP : forall w h, 1 <= w -> 1 <= h -> 4 * (w * h) <= 2 ^ 31 - 1 -> fits (Z.to_nat w) (Z.to_nat h).

Lemma fine_quantize_image s a i : held s -> good s TAttr a = true -> good s TImage i = true -> ~ handed_over s i ->
  fine (quantize_image u cb s a i).
Proof.
  intros H G1 G2 N. unfold quantize_image. apply held_attr; auto. intros x X TX. apply held_image; auto. intros im pxs SZ IM E.
  destruct (quantize u cb x (im, c_world s)) as [r [im' w']] eqn:Q.
  apply fine_quantized with (m := a_max_colors x).
  - apply held_world. eapply held_set_body; eauto using obj_tag. cbn. apply (held_size im im' pxs SZ IM). eapply ir_quantize; eauto.
  - intros ->. pose proof (quantize_ok u cb x im (c_world s) pxs Hu X (reach_image im pxs IM)) as P. rewrite Q in P. tauto.
  - intros q ->. eapply rr_image; eauto.
Qed.
Lemma remap_fine s q i qr im pxs m buf k : held s -> tag_of s q = Some TResult -> tag_of s i = Some TImage ->
  result_r m qr -> fits (i_w im) (i_h im) -> image_r im pxs ->
  (forall r qr' im' out w', remap_into u cb qr im buf (c_world s) = (r, (qr', im', out, w')) -> r <> Panic ->
     held (set_world (set_body (set_body s q (BResult qr')) i (BImage im')) w') -> fine (k r qr' im' out w')) ->
  fine (let '(r, (qr', im', out, w')) := remap_into u cb qr im buf (c_world s) in k r qr' im' out w').
Proof.
  intros H T1 T2 R SZ IM K. destruct (remap_into u cb qr im buf (c_world s)) as [r [[[qr' im'] out] w']] eqn:E. apply K; auto.
  - intros ->. pose proof (remap_reach u cb m qr im pxs buf (c_world s) Hu R IM) as P. rewrite E in P. apply P.
  - apply held_world. apply held_set_body with TImage.
    + apply held_set_body with TResult; auto. cbn. exists m. eapply rr_remap; eauto.
    + rewrite tag_set_body. auto.
    + cbn. apply (held_size im im' pxs SZ IM). eapply ir_remap; eauto.
Qed.
Lemma fine_destroy t s p : held s -> t <> TFreed -> p = None \/ alive s p t -> fine (destroy t s p).
Proof.
  intros H T [->|[(n & o & -> & E & G) N]]; [apply fine_ret; auto|].
  unfold destroy. cbn [obj]. rewrite E. pose proof (H n o E) as O. destruct o as [t' b]. cbn in G. subst t'.
  unfold held_obj in O. cbn in O.
  assert (K : fine (Ret RVoid (set_obj s (Some n) (CObj TFreed Gone)))).
  { apply fine_ret. apply held_set_obj; auto. exact I. }
  destruct t, b; try tauto; try (exact K). destruct N. exists n. auto.
Qed.

Ltac no_hand P := let x := fresh in intros x; eapply P; [|exact x];
  cbn; first [left; reflexivity | right; left; reflexivity | right; right; left; reflexivity].
Theorem call_fine s c : held s -> proper s c -> fine (ccall_run u cb s c).
Proof.
  intros H [D O]. destruct c; cbn [ccall_run caller_data caller_objects] in *;
    try (apply fine_ret; assumption);
    try (apply fine_destroy; auto; discriminate);
    try (apply fine_guard; [exact H|]; intros G; apply held_attr; [exact H|exact G|]; intros x X T;
         first [ apply fine_ret; assumption
               | apply held_new; [exact H|]; cbn; first [exact X|apply hr_new, X] ]; fail);
    try (apply fine_guard; [exact H|]; intros G; apply held_result; [exact H|exact G|]; intros m x X T;
         first [ apply fine_ret; assumption ]; fail);
    try (apply fine_guard; [exact H|]; intros G; apply held_image; [exact H|exact G|no_hand O|]; intros x pxs SZ X T;
         first [ apply fine_ret; assumption ]; fail).
  - apply held_new; auto. cbn. apply us_new.
  - apply fine_guard; auto; intros G; apply held_attr; auto; intros x X T. apply fine_ret.
    apply held_set_body with TAttr; auto. cbn. apply us_last; auto.
  - apply fine_guard; auto; intros G; apply held_attr; auto; intros x X T.
    apply (fine_attr s a x (CallMaxColors v)); auto.
  - apply fine_guard; auto; intros G; apply held_attr; auto; intros x X T.
    apply (fine_attr s a x (CallPosterization (as_u8 v))); auto. apply as_u8_byte.
  - destruct O as [O _]. apply held_attr; [exact H|apply good_is_a, O|]; intros x X T.
    apply (fine_attr s a x (CallSpeed v)); auto.
  - apply fine_guard; auto; intros G; apply held_attr; auto; intros x X T.
    apply (fine_attr s a x (CallQuality (as_u8 mn) (as_u8 tg))); auto. split; apply as_u8_byte.
  - apply fine_guard; auto. intros G. apply andb_prop in G as [G1 G2]. apply fine_or_null, fine_quantize_image; auto. no_hand O.
  - apply fine_guard; auto. intros G. apply andb_prop in G as [G1 G2]. apply fine_quantize_image; auto. no_hand O.
  - (* remap, contiguous *)
    apply fine_guard; auto. intros G. apply andb_prop in G as [G1 G2]. apply held_result; auto. intros m qr R T.
    apply held_image; auto; [no_hand O|]. intros im pxs SZ IM E.
    destruct buf as [buf|]; [|apply fine_ret; auto]. destruct (Nat.ltb _ _); [apply fine_ret; auto|].
    apply remap_fine with (q := q) (i := i) (pxs := pxs) (m := m); eauto using obj_tag. intros r qr' im' out w' _ NP HS.
    destruct r; [| |contradiction]; apply fine_ret; auto.
  - (* remap, rows *)
    apply fine_guard; auto. intros G. apply andb_prop in G as [G1 G2]. apply held_result; auto. intros m qr R T.
    apply held_image; auto; [no_hand O|]. intros im pxs SZ IM E.
    destruct rows as [rows|]; [|apply fine_ret; auto]. cbn [rows_fit] in D. destruct (D _ _ E) as [D1 D2].
    assert (F : (Nat.eqb (length rows) (i_h im) && forallb (fun r => Nat.eqb (length r) (i_w im)) rows)%bool = true).
    { apply andb_true_intro. split; [apply Nat.eqb_eq; auto|]. apply forallb_forall. intros r I. apply Nat.eqb_eq.
      rewrite Forall_forall in D2. auto. }
    rewrite F. cbn [negb].
    apply remap_fine with (q := q) (i := i) (pxs := pxs) (m := m); eauto using obj_tag. intros r qr' im' out w' _ NP HS.
    destruct r; [| |contradiction]; apply fine_ret; auto.
  - (* image fixed colour *)
    apply fine_guard; auto. intros G. apply held_image; auto; [no_hand O|]. intros im pxs SZ IM E.
    eapply fine_done; eauto using obj_tag.
    + unfold image_add_fixed_color. destruct (Nat.leb _ _); discriminate.
    + intros x X. cbn. apply (held_size im x pxs SZ IM). eapply ir_fixed; eauto.
  - (* background *)
    destruct O as ([O1 O2] & [O3 O4] & O5). rewrite (proj2 (good_is_a s TImage i) O1), (proj2 (good_is_a s TImage b) O3). cbn [andb negb].
    destruct (match i, b with Some x, Some y => Nat.eqb x y | _, _ => false end) eqn:Q.
    { destruct i, b; try discriminate. apply Nat.eqb_eq in Q. congruence. }
    apply held_image; [auto|apply good_is_a; auto|auto|]. intros im pxs SZ IM E.
    apply held_image; [auto|apply good_is_a; auto|auto|]. intros bg bp SB BG EB.
    eapply fine_done with (t := TImage).
    + apply held_set_body with TImage; eauto using obj_tag.
    + rewrite tag_set_body. eapply obj_tag; eauto.
    + unfold set_background. destruct (i_bg bg); [discriminate|]. destruct (negb _); discriminate.
    + intros x X. cbn. apply (held_size im x pxs SZ IM). eapply ir_bg; eauto.
  - (* importance map *)
    apply fine_guard; auto. intros G. apply held_image; auto; [no_hand O|]. intros im pxs SZ IM E.
    destruct imp as [[|m0 m]|]; try (apply fine_ret; auto; fail). destruct (Nat.ltb _ _); [apply fine_ret; auto|].
    destruct (_ || _)%bool; [|apply fine_ret; auto]. eapply fine_done; eauto using obj_tag.
    + unfold set_importance_map. destruct (negb _); discriminate.
    + intros x X. cbn. apply (held_size im x pxs SZ IM). eapply ir_imp; [exact IM| |exact X]. apply Forall_head. auto.
  - (* ownership *)
    apply fine_guard; auto. intros G. apply held_image; auto; [no_hand O|]. intros im pxs SZ IM E.
    destruct (_ || _)%bool; [apply fine_ret; auto|]. destruct (d_src _) as [? [|]|]; apply fine_ret; auto.
  - (* custom *)
    destruct O as [O _]. apply held_attr; [exact H|apply good_is_a, O|]; intros x X T. destruct D as (D1 & D2 & DP & D3).
    apply fine_created; auto; [apply new_internal_res|]. intros i E. split; [destruct (new_internal_size _ _ _ _ _ E) as [-> ->]; exact DP|]. exists (callback_rows row (Z.to_nat h)).
    unfold u32 in *. apply ir_fn with w g; try lia; auto. unfold image_new_fn, u32_ok, U32_MAX.
    destruct (Z.leb_spec w 4294967295); [|lia]. destruct (Z.leb_spec h 4294967295); [|lia]. exact E.
  - (* rows *)
    apply fine_guard; auto. intros G. apply andb_prop in G as [G1 G2]. apply held_attr; auto. intros x X T.
    destruct rows as [rows|]; [|apply fine_ret; auto]. destruct (all_some rows) as [rs|] eqn:AS; [|apply fine_ret; auto].
    apply all_some_spec in AS. subst rows. destruct D as (D1 & D2 & D3 & D4). rewrite map_length in D3.
    apply fine_created; auto; [apply new_internal_res|]. intros i E. split; [destruct (new_internal_size _ _ _ _ _ E) as [-> ->]; apply c_size_ok in G2; auto; apply HP; apply G2|].
    assert (W : forall r, In r rs -> length r = Z.to_nat w /\ Forall rgba_ok r) by (intros r I; apply D4, in_map, I).
    unfold u32 in *. unfold rows_source in E. rewrite D3, create_bitmap in E; auto; try lia.
    + eexists. eapply ir_stride; [| | | |exact E]; try lia. apply Forall_concat. apply Forall_forall. intros r I. apply W, I.
    + rewrite (concat_same rs (Z.to_nat w)) by (intros r I; apply W, I). rewrite D3. nia.
  - (* bitmap *)
    destruct pixels as [buf|]; [|apply fine_ret; auto].
    apply fine_guard; auto. intros G. apply andb_prop in G as [G1 G2]. apply held_attr; auto. intros x X T.
    destruct D as (D1 & D2 & D3 & D4). unfold u32 in *.
    apply fine_created; auto; [apply new_internal_res|]. intros i E. split; [destruct (new_internal_size _ _ _ _ _ E) as [-> ->]; apply c_size_ok in G2; auto; apply HP; apply G2|].
    rewrite create_bitmap in E; auto; try lia.
    eexists. eapply ir_stride; [| | | |exact E]; try lia; auto.
  - (* histogram fixed colour *)
    apply fine_guard; auto. intros G. apply held_hist; auto. intros x X T.
    eapply fine_done; eauto.
    + unfold hist_add_fixed_color. destruct (Nat.leb _ _); discriminate.
    + intros h' E. cbn. eapply hr_fixed; eauto.
  - (* colours *)
    apply fine_guard; auto. intros G. apply andb_prop in G as [G1 G2]. apply held_hist; auto. intros x X T.
    destruct (n <? 0); [apply fine_ret; auto|]. destruct (n =? 0); [apply fine_ret; auto|].
    destruct entries as [es|]; [|apply fine_ret; auto]. destruct D as [D1 D2].
    eapply fine_done; eauto.
    + unfold add_colors. destruct (_ || _)%bool; [discriminate|]. destruct (negb _); discriminate.
    + intros h' E. cbn. eapply hr_colors; [exact X| |exact E]. apply Forall_head; auto.
  - (* add image *)
    apply fine_guard; auto. intros G. apply andb_prop in G as [G G3]. apply andb_prop in G as [G1 G2].
    apply held_attr; auto. intros x X T. apply held_hist; auto. intros hi HI TH. apply held_image; auto; [no_hand O|]. intros im pxs SZ IM E.
    destruct (add_image u cb x (hi, im, c_world s)) as [r [[hi' im'] w']] eqn:Q.
    assert (NP : r <> Panic).
    { intros ->. pose proof (add_image_ok u cb x hi im (c_world s) pxs Hu (reach_image im pxs IM) (reach_hist hi HI)) as P. rewrite Q in P. tauto. }
    assert (HS : held (set_world (set_body (set_body s h (BHist hi')) i (BImage im')) w')).
    { apply held_world. apply held_set_body with TImage.
      - apply held_set_body with THist; auto. cbn. eapply hr_image; eauto.
      - rewrite tag_set_body. eapply obj_tag; eauto.
      - cbn. apply (held_size im im' pxs SZ IM). eapply ir_hist; eauto. }
    destruct r; [| |contradiction]; apply fine_ret; auto.
  - (* histogram quantize *)
    apply fine_guard; auto. intros G. apply andb_prop in G as [G1 G2].
    apply held_attr; auto. intros x X T. apply held_hist; auto. intros hi HI TH.
    destruct (hist_quantize u cb x (hi, c_world s)) as [r [hi' w']] eqn:Q.
    apply fine_quantized with (m := a_max_colors x).
    + apply held_world. apply held_set_body with THist; auto. cbn. eapply hr_quantize; eauto.
    + intros ->. pose proof (hist_quantize_ok u cb x hi (c_world s) Hu X (reach_hist hi HI)) as P. rewrite Q in P. tauto.
    + intros q ->. eapply rr_hist; eauto.
  - (* palette *)
    apply fine_guard; auto. intros G. apply held_result; auto. intros m x X T.
    pose proof (rr_palette m x X) as P. destruct (palette x) as [p x']. apply fine_ret. apply held_set_body with TResult; auto. cbn. eauto.
  - apply fine_guard; auto. intros G. apply held_result; auto. intros m x X T. eapply fine_done; eauto.
    + unfold set_output_gamma. destruct (_ || _)%bool; discriminate.
    + intros x' E. cbn. exists m. eapply rr_gamma; eauto.
  - apply fine_guard; auto. intros G. apply held_result; auto. intros m x X T. eapply fine_done; eauto.
    + unfold set_dithering_level. destruct (negb _); discriminate.
    + intros x' E. cbn. exists m. eapply rr_dither; eauto.
Qed.
End FfiReach.

(** * Programs *)
(** The states of C programs that keep to the rules (with any schedules,
    progress callbacks and unspecified behaviour); [fits] restricts the sizes
    asked of [liq_image_create_custom]. *)
Section Programs.
Context {A : Arith} {C : CastLaws A}.
Open Scope Z_scope.
Inductive c_reach (fits : nat -> nat -> Prop) : cstate -> Prop :=
| cr_start w : c_reach fits (CState [] w)
| cr_call u cb s c x s' : unspec_ok u -> c_reach fits s -> proper fits s c -> ccall_run u cb s c = Ret x s' -> c_reach fits s'.
Definition fits_int (w h : nat) : Prop := (1 <= w)%nat /\ (1 <= h)%nat /\ 4 * (Z.of_nat w * Z.of_nat h) <= 2 ^ 31 - 1.
Lemma fits_int_ok w h : 1 <= w -> 1 <= h -> 4 * (w * h) <= 2 ^ 31 - 1 -> fits_int (Z.to_nat w) (Z.to_nat h).
Proof. intros. unfold fits_int. rewrite !Z2Nat.id by lia. lia. Qed.
Definition any_size (w h : nat) : Prop := True.

Lemma reach_held (fits : nat -> nat -> Prop) s :
  (forall w h, 1 <= w -> 1 <= h -> 4 * (w * h) <= 2 ^ 31 - 1 -> fits (Z.to_nat w) (Z.to_nat h)) -> c_reach fits s -> held fits s.
Proof.
  intros F. induction 1 as [w|u cb s c x s' U R IH P E].
  - intros [|n] o H; discriminate.
  - destruct (call_fine fits u cb U F s c IH P) as (x' & s'' & E' & H). rewrite E in E'. injection E' as <- <-. exact H.
Qed.
Lemma c_program_objects s : c_reach any_size s ->
  (forall n a, nth_error (c_objs s) n = Some (CObj TAttr (BAttr a)) -> usable a) /\
  (forall n i, nth_error (c_objs s) n = Some (CObj TImage (BImage i)) -> exists pxs, image_r i pxs) /\
  (forall n h, nth_error (c_objs s) n = Some (CObj THist (BHist h)) -> hist_r h) /\
  (forall n q, nth_error (c_objs s) n = Some (CObj TResult (BResult q)) -> exists m, result_r m q) /\
  (forall u cb c, unspec_ok u -> proper any_size s c -> exists x s', ccall_run u cb s c = Ret x s').
Proof.
  intros R. assert (H : held any_size s) by (apply reach_held; auto; intros; exact I).
  split; [|split; [|split; [|split]]].
  - intros n a E. exact (H n _ E).
  - intros n i E. exact (proj2 (H n _ E)).
  - intros n h E. exact (H n _ E).
  - intros n q E. exact (H n _ E).
  - intros u cb c U P. destruct (call_fine any_size u cb U (fun _ _ _ _ _ => I) s c H P) as (x & s' & E & _). eauto.
Qed.
Lemma c_program_sizes s n i : c_reach fits_int s -> nth_error (c_objs s) n = Some (CObj TImage (BImage i)) ->
  1 <= Z.of_nat (i_w i) * Z.of_nat (i_h i) <= (2 ^ 31 - 1) / 4.
Proof.
  intros R E. assert (H : held fits_int s) by (apply reach_held; auto; intros; apply fits_int_ok; auto).
  destruct (H n _ E) as [(F1 & F2 & F3) _]. change ((2 ^ 31 - 1) / 4) with 536870911.
  change (2 ^ 31 - 1) with 2147483647 in F3. cbn [o_body] in *. split; [|lia].
  assert (1 <= Z.of_nat (i_w i)) by lia. assert (1 <= Z.of_nat (i_h i)) by lia. nia.
Qed.

(** Which bitmaps are accepted. *)
Lemma create_accepts u cb s a x buf w h g : obj s a = Some (CObj TAttr (BAttr x)) -> u32 w -> u32 h ->
  (exists i s', ccall_run u cb s (liq_image_create_rgba a (Some buf) w h g) = Ret (RPtr (Some i)) s') <->
  (1 <= w <= (2 ^ 31 - 1) / 64 /\ 1 <= h <= (2 ^ 31 - 1) / 8 /\ 4 * (w * h) <= 2 ^ 31 - 1) /\ (d0 <=d g) = true /\ (g <=d d1) = true.
Proof.
  intros E [W1 W2] [H1 H2]. cbn [ccall_run]. unfold good, guard, inner_attr. rewrite E. cbn [tag_eqb o_tag andb].
  pose proof (c_size_spec w h W1 H1) as S. destruct (c_image_size_ok w h).
  - assert (S' := proj1 S eq_refl). unfold created.
    destruct (image_new_internal_spec (SrcPixels buf (map (fun i => (i * Z.to_nat w)%nat) (seq 0 (Z.to_nat h)))) w h g W1 H1) as [(D & G & Q)|(N & Q)]; rewrite Q.
    + split; [intros _; split; [tauto|exact G]|]. intros _. do 2 eexists. reflexivity.
    + split; [intros (i & s' & X); discriminate|]. intros (D & G). exfalso. apply N. split; [|exact G].
      unfold dims_ok. change ((2 ^ 31 - 1) / 64) with 33554431 in D. change ((2 ^ 31 - 1) / 8) with 268435455 in D.
      change (2 ^ 63 - 1) with 9223372036854775807. lia.
  - split; [intros (i & s' & X); discriminate|]. intros (D & _). exfalso. discriminate (proj2 S ltac:(tauto)).
Qed.

(** * Settings *)
Definition c_setting (c : ccall) : option (handle * call) :=
  match c with
  | liq_set_max_colors a v => Some (a, CallMaxColors v)
  | liq_set_speed a v => Some (a, CallSpeed v)
  | liq_set_min_posterization a v => Some (a, CallPosterization v)
  | liq_set_quality a mn tg => Some (a, CallQuality mn tg)
  | _ => None
  end.
(** What the library makes of the arguments. *)
Definition narrowed (c : call) : call :=
  match c with
  | CallPosterization b => CallPosterization (b mod 256)
  | CallQuality mn tg => CallQuality (mn mod 256) (tg mod 256)
  | c => c
  end.
(** The arguments have their C types. *)
Definition c_typed (c : call) : Prop :=
  match c with
  | CallMaxColors n => u32 n
  | CallSpeed v => i32 v
  | CallPosterization b => i32 b
  | CallQuality mn tg => u32 mn /\ u32 tg
  end.
Lemma setting_answer u cb s c a k x : c_setting c = Some (a, k) -> c_typed k -> obj s a = Some (CObj TAttr (BAttr x)) ->
  exists s', ccall_run u cb s c = Ret (RErr (if call_valid (narrowed k) then None else Some ValueOutOfRange)) s' /\
    (call_valid (narrowed k) = false -> s' = s).
Proof.
  intros K T O.
  assert (G : call_typed (narrowed k) /\ ccall_run u cb s c = done s a BAttr (apply_call x (narrowed k))).
  { destruct c; try discriminate K; cbn [c_setting] in K; injection K as <- <-; cbn [ccall_run narrowed];
      unfold good, guard, inner_attr; rewrite O; cbn [o_tag tag_eqb apply_call call_typed c_typed] in *; (split; [|reflexivity]); auto.
    - apply Z.mod_pos_bound; lia.
    - split; apply Z.mod_pos_bound; lia. }
  destruct G as [G ->]. destruct (apply_call_accepts x (narrowed k) G) as [A1 A2]. unfold done.
  destruct (call_valid (narrowed k)).
  - destruct (A1 eq_refl) as [x' ->]. eexists. split; [reflexivity|discriminate].
  - rewrite (A2 eq_refl). eexists. split; [reflexivity|auto].
Qed.
End Programs.
