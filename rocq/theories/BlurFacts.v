(** Proofs about the byte-map filters. *)
From Verif Require Import Base BaseFacts Blur SpecImage.
Open Scope nat_scope.

Lemma nth_error_concat {A} w (ls : list (list A)) y x : Forall (fun l => length l = w) ls -> x < w ->
  nth_error (concat ls) (y * w + x) = match nth_error ls y with Some l => nth_error l x | None => None end.
Proof.
  intros H Hx. revert y. induction H as [|l ls Hl _ IH]; intros y; cbn [concat].
  - rewrite (proj2 (nth_error_None (@nil A) (y * w + x))) by (cbn; lia). destruct y; auto.
  - destruct y as [|y]; cbn [nth_error].
    + cbn. apply nth_error_app1. lia.
    + rewrite nth_error_app2 by (cbn; lia). rewrite <- IH. f_equal. cbn. lia.
Qed.
Lemma concat_length {A} w (ls : list (list A)) : Forall (fun l => length l = w) ls -> length (concat ls) = w * length ls.
Proof. induction 1; cbn; auto. rewrite app_length. lia. Qed.

Lemma slice_ok {T} (s : list T) off len : off + len <= length s -> slice s off len = Ok (firstn len (skipn off s)).
Proof. intros H. unfold slice. apply Nat.leb_le in H. rewrite H. auto. Qed.
Lemma slice_inv {T} (s : list T) off len r : slice s off len = Ok r -> off + len <= length s /\ r = firstn len (skipn off s) /\ length r = len.
Proof.
  unfold slice. destruct (Nat.leb (off + len) (length s)) eqn:E; [|discriminate]. apply Nat.leb_le in E.
  intros H; inversion H; subst. repeat split; auto. rewrite firstn_length, skipn_length. lia.
Qed.
Lemma splice_ok {T} (d : list T) off x : off + length x <= length d ->
  splice d off x = Ok (firstn off d ++ x ++ skipn (off + length x) d).
Proof. intros H. unfold splice. apply Nat.leb_le in H. rewrite H. auto. Qed.

(** Row-by-row overwriting of a whole map. *)
Lemma fill_rows w h (dst : list Z) (f : list Z -> nat -> res (list Z)) (g : nat -> list Z) :
  length dst = w * h ->
  (forall d j, j < h -> f d j = splice d (j * w) (g j)) ->
  (forall j, j < h -> length (g j) = w) ->
  foldM f (seq 0 h) dst = Ok (concat (map g (seq 0 h))).
Proof.
  intros Hd Hf Hg.
  destruct (foldM_seq_total (fun j d => d = concat (map g (seq 0 j)) ++ skipn (j * w) dst) f h 0 dst) as (d' & E & P).
  - intros j d Hj ->. exists (concat (map g (seq 0 (j + 1))) ++ skipn ((j + 1) * w) dst). split; auto.
    assert (L : length (concat (map g (seq 0 j))) = j * w).
    { rewrite (concat_length w), map_length, seq_length; [lia|]. apply Forall_forall. intros l Hl.
      apply in_map_iff in Hl as (k & <- & Hk). apply in_seq in Hk. apply Hg; lia. }
    assert (j * w + w <= w * h) by nia.
    rewrite Hf, splice_ok by (rewrite ?Hg, ?app_length, ?L, ?skipn_length by lia; lia).
    f_equal. rewrite Hg by lia.
    rewrite firstn_app, L, Nat.sub_diag, <- L, firstn_all, L. cbn [firstn]. rewrite app_nil_r.
    rewrite skipn_app, L. rewrite skipn_all2 by lia. replace (j * w + w - j * w) with w by lia. cbn [app].
    rewrite skipn_skipn'. replace (w + j * w) with ((j + 1) * w) by lia.
    rewrite seq_app, map_app, concat_app. cbn. rewrite app_nil_r, <- app_assoc. auto.
  - cbn. auto.
  - rewrite E, P. f_equal. cbn [Nat.add]. rewrite skipn_all2 by (rewrite Hd; lia). apply app_nil_r.
Qed.

Definition rowat (row : list Z) (w : nat) (x : Z) : Z := nth (clampn w x) row 0%Z.
Lemma clampn_lt n k : 0 < n -> clampn n k < n.
Proof. unfold clampn. lia. Qed.
Lemma clampn_id n k : k < n -> clampn n (Z.of_nat k) = k.
Proof. unfold clampn. lia. Qed.

Lemma nth_error_eq_nth {A} (l : list A) i d : i < length l -> nth_error l i = Some (nth i l d).
Proof. intros H. apply nth_error_nth'. auto. Qed.
Lemma idx_nth {A} (l : list A) i d : i < length l -> idx l i = Ok (nth i l d).
Proof. intros H. apply idx_ok. apply nth_error_nth'. auto. Qed.

Definition op3_at (op : Z -> Z -> Z) (w : nat) (row prevrow nextrow : list Z) (i : nat) : Z :=
  op (nth i row 0%Z) (op (op (rowat row w (Z.of_nat i - 1)) (rowat row w (Z.of_nat i + 1)))
                         (op (nth i nextrow 0%Z) (nth i prevrow 0%Z))).

(** Needs only: in the last column the code combines (left, left op centre)
    instead of (centre, left op centre). *)
Lemma op3_row_eq op w row prevrow nextrow :
  (forall a b c, op a (op (op a b) c) = op b (op (op a b) c)) ->
  0 < w -> length row = w -> length prevrow = w -> length nextrow = w ->
  op3_row op w row prevrow nextrow = Ok (map (op3_at op w row prevrow nextrow) (seq 0 w)).
Proof.
  intros Hop Hw L1 L2 L3. unfold op3_row. destruct (Nat.eqb_spec w 0); [lia|].
  rewrite (idx_nth row 0 0%Z) by lia. cbn [bind].
  match goal with |- context [foldM ?F (seq 0 (w - 1)) ?s0] => set (f := F);
    destruct (foldM_seq_total (fun i (st : Z * Z * list Z) =>
      fst (fst st) = nth (i - 1) row 0%Z /\ snd (fst st) = nth i row 0%Z /\
      snd st = map (op3_at op w row prevrow nextrow) (seq 0 i)) f (w - 1) 0 s0) as (st & E & P1 & P2 & P3) end.
  - intros i [[c n0] o] Hi (Q1 & Q2 & Q3). cbn [fst snd] in *. subst c n0 o. unfold f.
    rewrite (idx_nth row (i + 1) 0%Z), (idx_nth nextrow i 0%Z), (idx_nth prevrow i 0%Z) by lia. cbn [bind].
    eexists; split; [reflexivity|]. cbn [fst snd]. split; [f_equal; lia|]. split; [f_equal; lia|].
    rewrite seq_app, map_app. cbn [map seq]. f_equal. f_equal. unfold op3_at. cbn [Nat.add]. f_equal. f_equal. f_equal.
    + unfold rowat, clampn. f_equal. lia.
    + unfold rowat, clampn. f_equal. lia.
  - cbn. auto.
  - rewrite E. destruct st as [[c n0] o]. cbn [bind fst snd] in *. subst c n0 o.
    rewrite (idx_nth nextrow (w - 1) 0%Z), (idx_nth prevrow (w - 1) 0%Z) by lia. cbn [bind].
    f_equal. cbn [Nat.add]. replace (seq 0 w) with (seq 0 (w - 1) ++ [w - 1]).
    + rewrite map_app. cbn [map]. f_equal. f_equal. unfold op3_at.
      replace (rowat row w (Z.of_nat (w - 1) - 1)) with (nth (w - 1 - 1) row 0%Z) by (unfold rowat, clampn; f_equal; lia).
      replace (rowat row w (Z.of_nat (w - 1) + 1)) with (nth (w - 1) row 0%Z) by (unfold rowat, clampn; f_equal; lia).
      apply Hop.
    + replace w with ((w - 1) + 1) at 3 by lia. rewrite seq_app. auto.
Qed.

Definition map_row (m : list Z) (w j : nat) : list Z := firstn w (skipn (j * w) m).
Lemma map_row_length m w h j : length m = w * h -> j < h -> length (map_row m w j) = w.
Proof. intros Hm Hj. unfold map_row. rewrite firstn_length, skipn_length. nia. Qed.
Lemma nth_map_row m w j i : i < w -> nth i (map_row m w j) 0%Z = nth (j * w + i) m 0%Z.
Proof.
  intros Hi. unfold map_row. rewrite !nth_default_eq || idtac.
  destruct (nth_error (firstn w (skipn (j * w) m)) i) as [v|] eqn:E.
  - rewrite (nth_error_nth _ _ _ E). rewrite nth_error_firstn in E. destruct (Nat.ltb_spec i w); [|lia].
    rewrite nth_error_skipn in E. rewrite (nth_error_nth _ _ _ E). auto.
  - rewrite nth_overflow by (apply nth_error_None; auto). rewrite nth_error_firstn in E.
    destruct (Nat.ltb_spec i w); [|lia]. rewrite nth_error_skipn in E.
    rewrite nth_overflow; auto. apply nth_error_None; auto.
Qed.
Lemma rowat_map_row m w h j x : 0 < w -> j < h -> rowat (map_row m w j) w x = at_clamped m w h x (Z.of_nat j).
Proof.
  intros Hw Hj. unfold rowat, at_clamped. rewrite clampn_id by auto. apply nth_map_row. apply clampn_lt; auto.
Qed.

Lemma concat_rows_nth (g : nat -> nat -> Z) w h x y : x < w -> y < h ->
  nth (y * w + x) (concat (map (fun j => map (g j) (seq 0 w)) (seq 0 h))) 0%Z = g y x.
Proof.
  intros Hx Hy. apply nth_error_nth. rewrite nth_error_concat; auto.
  - rewrite nth_error_map, nth_error_seq. destruct (Nat.ltb_spec y h); [|lia]. cbn.
    rewrite nth_error_map, nth_error_seq. destruct (Nat.ltb_spec x w); [|lia]. auto.
  - apply Forall_forall. intros l Hl. apply in_map_iff in Hl as (j & <- & _). rewrite map_length, seq_length. auto.
Qed.

Lemma op3_eq op w h src dst :
  (forall a b c, op a (op (op a b) c) = op b (op (op a b) c)) ->
  0 < w -> 0 < h -> length src = w * h -> length dst = w * h ->
  exists out, op3 op src dst w h = Ok out /\ length out = w * h /\
    forall x y, x < w -> y < h ->
      nth (y * w + x) out 0%Z = op3_at op w (map_row src w y) (map_row src w (y - 1)) (map_row src w (Nat.min (y + 1) (h - 1))) x.
Proof.
  intros Hop Hw Hh Hs Hd. unfold op3.
  rewrite (fill_rows w h dst _ (fun j => map (op3_at op w (map_row src w j) (map_row src w (j - 1)) (map_row src w (Nat.min (j + 1) (h - 1)))) (seq 0 w))); auto.
  - eexists; split; [reflexivity|]. split.
    + rewrite (concat_length w), map_length, seq_length; auto. apply Forall_forall. intros l Hl.
      apply in_map_iff in Hl as (k & <- & Hk). rewrite map_length, seq_length. auto.
    + intros x y Hx Hy. apply (concat_rows_nth (fun j => op3_at op w (map_row src w j) (map_row src w (j - 1)) (map_row src w (Nat.min (j + 1) (h - 1))))); auto.
  - intros d j Hj. assert (j * w + w <= w * h) by nia. assert ((j - 1) * w + w <= w * h) by nia.
    assert (Nat.min (j + 1) (h - 1) < h) by lia.
    assert (Nat.min (j + 1) (h - 1) * w + w <= w * h) by nia.
    rewrite !slice_ok by lia. cbn [bind]. fold (map_row src w j) (map_row src w (j - 1)) (map_row src w (Nat.min (j + 1) (h - 1))).
    rewrite op3_row_eq; auto; try (apply (map_row_length _ w h); auto; lia).
  - intros j Hj. rewrite map_length, seq_length. auto.
Qed.

Lemma op3_at_clamped op src w h x y : x < w -> y < h -> 0 < w ->
  op3_at op w (map_row src w y) (map_row src w (y - 1)) (map_row src w (Nat.min (y + 1) (h - 1))) x =
  (let p := at_clamped src w h in let x := Z.of_nat x in let y := Z.of_nat y in
   op (p x y) (op (op (p (x - 1) y) (p (x + 1) y)) (op (p x (y + 1)) (p x (y - 1)))))%Z.
Proof.
  intros Hx Hy Hw. unfold op3_at. cbv zeta.
  rewrite !(rowat_map_row _ _ h) by auto. rewrite !nth_map_row by auto.
  unfold at_clamped. rewrite !clampn_id by auto.
  replace (clampn h (Z.of_nat y + 1)) with (Nat.min (y + 1) (h - 1)) by (unfold clampn; lia).
  replace (clampn h (Z.of_nat y - 1)) with (y - 1) by (unfold clampn; lia). auto.
Qed.

Lemma max3_spec w h src dst : 0 < w -> 0 < h -> length src = w * h -> length dst = w * h ->
  exists out, liq_max3 src dst w h = Ok out /\ length out = w * h /\
    forall x y, x < w -> y < h -> is_max (nth (y * w + x) out 0%Z) (plus5 src w h (Z.of_nat x) (Z.of_nat y)).
Proof.
  intros Hw Hh Hs Hd. destruct (op3_eq Z.max w h src dst) as (out & E & L & N); auto; [intros; lia|].
  exists out. repeat split; auto; rewrite N, (op3_at_clamped _ _ _ h) by auto; cbv zeta; unfold plus5; cbv zeta; cbn [In];
  generalize (at_clamped src w h); intros p.
  - lia.
  - repeat constructor; lia.
Qed.
Lemma min3_spec w h src dst : 0 < w -> 0 < h -> length src = w * h -> length dst = w * h ->
  exists out, liq_min3 src dst w h = Ok out /\ length out = w * h /\
    forall x y, x < w -> y < h -> is_min (nth (y * w + x) out 0%Z) (plus5 src w h (Z.of_nat x) (Z.of_nat y)).
Proof.
  intros Hw Hh Hs Hd. destruct (op3_eq Z.min w h src dst) as (out & E & L & N); auto; [intros; lia|].
  exists out. repeat split; auto; rewrite N, (op3_at_clamped _ _ _ h) by auto; cbv zeta; unfold plus5; cbv zeta; cbn [In];
  generalize (at_clamped src w h); intros p.
  - lia.
  - repeat constructor; lia.
Qed.

(** * Blur *)
Open Scope Z_scope.
Lemma run_sum_snoc f a n : run_sum f a (S n) = run_sum f a n + f (a + Z.of_nat n).
Proof.
  revert a. induction n as [|n IH]; intros a; [cbn [run_sum Z.of_nat]; rewrite !Z.add_0_r; lia|].
  cbn [run_sum] in *. rewrite IH. replace (a + 1 + Z.of_nat n) with (a + Z.of_nat (S n)) by lia. lia.
Qed.
Lemma run_sum_shift f a n : run_sum f (a + 1) n = run_sum f a n - f a + f (a + Z.of_nat n).
Proof. pose proof (run_sum_snoc f a n). cbn [run_sum] in H. lia. Qed.
Lemma run_sum_app f a n m : run_sum f a (n + m) = run_sum f a n + run_sum f (a + Z.of_nat n) m.
Proof.
  revert a. induction n as [|n IH]; intros a; cbn [run_sum Nat.add].
  - replace (a + Z.of_nat 0) with a by lia. lia.
  - rewrite IH. replace (a + 1 + Z.of_nat n) with (a + Z.of_nat (S n)) by lia. lia.
Qed.
Lemma run_sum_bounds f a n lo hi : (forall x, lo <= f x <= hi) -> lo * Z.of_nat n <= run_sum f a n <= hi * Z.of_nat n.
Proof.
  intros H. revert a. induction n as [|n IH]; intros a; cbn [run_sum]; [lia|].
  specialize (IH (a + 1)). specialize (H a). lia.
Qed.
Lemma run_sum_ext f g a n : (forall x, f x = g x) -> run_sum f a n = run_sum g a n.
Proof. intros H. revert a. induction n; intros a; cbn; auto. rewrite H, IHn. auto. Qed.
Lemma moving_avg_ext s f g x : (forall x, f x = g x) -> moving_avg s f x = moving_avg s g x.
Proof. intros. unfold moving_avg. rewrite (run_sum_ext f g) by auto. auto. Qed.
Lemma moving_avg_bounds s f x lo hi : (0 < s)%nat -> (forall x, lo <= f x <= hi) -> lo <= moving_avg s f x <= hi.
Proof.
  intros Hs H. unfold moving_avg. pose proof (run_sum_bounds f (x - Z.of_nat s + 1) (2 * s) lo hi H) as B.
  split.
  - apply Z.div_le_lower_bound; lia.
  - apply Z.lt_succ_r. apply Z.div_lt_upper_bound; lia.
Qed.

Lemma rowat_bounds lo hi row w x : (0 < w)%nat -> length row = w -> Forall (fun v => lo <= v <= hi) row -> lo <= rowat row w x <= hi.
Proof.
  intros Hw L F. rewrite Forall_forall in F. apply F. unfold rowat. apply nth_In. rewrite L. apply clampn_lt; auto.
Qed.

Lemma u16_ok z : 0 <= z < 65536 -> u16 z = Ok z.
Proof. intros H. unfold u16. destruct (Z.leb_spec 0 z), (Z.ltb_spec z 65536); auto; lia. Qed.

Lemma blur_row_eq row w size : (0 < size <= 128)%nat -> (2 * size + 1 <= w)%nat -> length row = w -> Forall byte row ->
  blur_row row w size = Ok (map (fun i => moving_avg size (rowat row w) (Z.of_nat i)) (seq 0 w)).
Proof.
  intros Hs Hw L B. unfold blur_row. rewrite (idx_nth row 0 0) by lia. cbn [bind].
  rewrite slice_ok by lia. cbn [bind skipn].
  assert (RB : forall x, 0 <= rowat row w x <= 255).
  { intros x. apply rowat_bounds; auto; [lia|]. eapply Forall_impl; [|exact B]. unfold byte. intros; lia. }
  assert (R0 : forall x, x <= 0 -> rowat row w x = nth 0 row 0) by (intros; unfold rowat, clampn; f_equal; lia).
  (* initial sum *)
  rewrite (u16_ok (nth 0 row 0 * Z.of_nat size)) by (specialize (RB 0); rewrite R0 in RB by lia; nia). cbn [bind].
  assert (H0 : foldM (fun s v => u16 (s + v)) (firstn size row) (nth 0 row 0 * Z.of_nat size)
               = Ok (run_sum (rowat row w) (- Z.of_nat size) (2 * size))).
  { assert (G : forall k, (k <= size)%nat -> foldM (fun s v => u16 (s + v)) (firstn k row) (nth 0 row 0 * Z.of_nat size)
               = Ok (run_sum (rowat row w) (- Z.of_nat size) (size + k))).
    { induction k as [|k IH]; intros Hk.
      - cbn [firstn foldM]. rewrite Nat.add_0_r. f_equal.
        assert (C : forall n a, a + Z.of_nat n <= 1 -> run_sum (rowat row w) a n = nth 0 row 0 * Z.of_nat n).
        { induction n as [|n IH]; intros a Ha; cbn [run_sum]; [lia|]. rewrite IH by lia. rewrite R0 by lia. lia. }
        rewrite C by lia. auto.
      - assert (F : firstn (S k) row = firstn k row ++ [nth k row 0]).
        { apply list_eq_nth_error. intros i. rewrite nth_error_firstn. destruct (Nat.ltb_spec i (S k)).
          - destruct (Nat.eq_dec i k) as [->|].
            + rewrite nth_error_app2 by (rewrite firstn_length; lia). rewrite firstn_length, Nat.min_l, Nat.sub_diag by lia. cbn. apply nth_error_eq_nth. lia.
            + rewrite nth_error_app1 by (rewrite firstn_length; lia). rewrite nth_error_firstn. destruct (Nat.ltb_spec i k); auto; lia.
          - symmetry. apply nth_error_None. rewrite app_length, firstn_length. cbn. lia. }
        rewrite F, foldM_app, IH by lia. cbn [bind foldM]. replace (size + S k)%nat with (S (size + k)) by lia.
        rewrite run_sum_snoc.
        replace (rowat row w (- Z.of_nat size + Z.of_nat (size + k))) with (nth k row 0) by (unfold rowat, clampn; f_equal; lia).
        pose proof (run_sum_bounds (rowat row w) (- Z.of_nat size) (size + k) 0 255 RB).
        specialize (RB (Z.of_nat k)). unfold rowat in RB. rewrite clampn_id in RB by lia.
        rewrite u16_ok by lia. auto. }
    replace (2 * size)%nat with (size + size)%nat by lia. apply G. lia. }
  rewrite H0. cbn [bind].
  destruct (foldM_seq_total (fun i (st : Z * list Z) => fst st = run_sum (rowat row w) (Z.of_nat i - Z.of_nat size) (2 * size) /\
      snd st = map (fun i => moving_avg size (rowat row w) (Z.of_nat i)) (seq 0 i)) (blur_out row w size) w 0
      (run_sum (rowat row w) (- Z.of_nat size) (2 * size), [])) as (st & E & P1 & P2).
  - intros i [sum o] Hi (Q1 & Q2). cbn [fst snd] in *. unfold blur_out.
    rewrite (idx_nth row _ 0) by (destruct (Nat.ltb_spec i size); lia). cbn [bind].
    rewrite (idx_nth row _ 0) by (destruct (Nat.ltb_spec i (w - size)); lia). cbn [bind].
    replace (nth (if Nat.ltb i size then 0%nat else (i - size)%nat) row 0) with (rowat row w (Z.of_nat i - Z.of_nat size))
      by (unfold rowat, clampn; f_equal; destruct (Nat.ltb_spec i size); lia).
    replace (nth (if Nat.ltb i (w - size) then (i + size)%nat else (w - 1)%nat) row 0) with (rowat row w (Z.of_nat i - Z.of_nat size + Z.of_nat (2 * size)))
      by (unfold rowat, clampn; f_equal; destruct (Nat.ltb_spec i (w - size)); lia).
    pose proof (run_sum_bounds (rowat row w) (Z.of_nat i - Z.of_nat size + 1) (2 * size) 0 255 RB) as B1.
    assert (B2 : 0 <= sum - rowat row w (Z.of_nat i - Z.of_nat size) < 65536).
    { rewrite Q1. replace (2 * size)%nat with (S (2 * size - 1)) by lia. cbn [run_sum].
      pose proof (run_sum_bounds (rowat row w) (Z.of_nat i - Z.of_nat size + 1) (2 * size - 1) 0 255 RB). lia. }
    assert (N : sum - rowat row w (Z.of_nat i - Z.of_nat size) + rowat row w (Z.of_nat i - Z.of_nat size + Z.of_nat (2 * size))
                = run_sum (rowat row w) (Z.of_nat i - Z.of_nat size + 1) (2 * size)).
    { rewrite run_sum_shift, Q1. lia. }
    rewrite u16_ok by lia. cbn [bind]. rewrite N. rewrite u16_ok by lia. cbn [bind].
    eexists; split; [reflexivity|]. cbn [fst snd]. split; [f_equal; lia|].
    rewrite Q2, seq_app, map_app. cbn [map seq Nat.add]. f_equal. f_equal.
    replace (Z.of_nat size * 2) with (2 * Z.of_nat size) by lia. fold (moving_avg size (rowat row w) (Z.of_nat i)).
    unfold wrap8. apply Z.mod_small. pose proof (moving_avg_bounds size (rowat row w) (Z.of_nat i) 0 255 ltac:(lia) RB). lia.
  - cbn. auto.
  - rewrite E. destruct st as [sm o]. cbn [bind fst snd Nat.add] in *. congruence.
Qed.

Lemma upd_total n (l : list Z) i v : length l = n -> (i < n)%nat -> set_idx l i v = Ok (upd l i v) /\ length (upd l i v) = n.
Proof. intros. rewrite set_idx_lt by lia. rewrite upd_length. auto. Qed.

(** Column [j] of a transposed map is written. *)
Lemma write_column (outs dst : list Z) (w h j : nat) : length outs = w -> length dst = (w * h)%nat -> (j < h)%nat ->
  exists d, foldM (fun dst iv => set_idx dst (fst iv * h + j) (snd iv)) (enumerate outs) dst = Ok d /\
    length d = (w * h)%nat /\
    forall i k, (i < w)%nat -> (k < h)%nat -> nth (i * h + k) d 0 = if Nat.eqb k j then nth i outs 0 else nth (i * h + k) dst 0.
Proof.
  intros Lo Ld Hj.
  assert (G : forall n, (n <= w)%nat -> exists d,
     foldM (fun dst iv => set_idx dst (fst iv * h + j) (snd iv)) (firstn n (enumerate outs)) dst = Ok d /\
     length d = (w * h)%nat /\
     forall i k, (i < w)%nat -> (k < h)%nat -> nth (i * h + k) d 0 = if (Nat.eqb k j && Nat.ltb i n)%bool then nth i outs 0 else nth (i * h + k) dst 0).
  { induction n as [|n IH]; intros Hn.
    - exists dst. split; [reflexivity|]. split; auto. intros i k Hi Hk.
      destruct (Nat.ltb_spec i 0); [lia|]. rewrite andb_false_r. auto.
    - destruct IH as (d & E & L & N); [lia|].
      assert (F : firstn (S n) (enumerate outs) = firstn n (enumerate outs) ++ [(n, nth n outs 0)]).
      { apply list_eq_nth_error. intros i. rewrite nth_error_firstn. destruct (Nat.ltb_spec i (S n)).
        - destruct (Nat.eq_dec i n) as [->|].
          + rewrite nth_error_app2 by (rewrite firstn_length, enumerate_length; lia).
            rewrite firstn_length, enumerate_length, Nat.min_l, Nat.sub_diag by lia. cbn.
            rewrite nth_error_enumerate, (nth_error_eq_nth outs n 0) by lia. auto.
          + rewrite nth_error_app1 by (rewrite firstn_length, enumerate_length; lia).
            rewrite nth_error_firstn. destruct (Nat.ltb_spec i n); auto; lia.
        - symmetry. apply nth_error_None. rewrite app_length, firstn_length. cbn. lia. }
      rewrite F, foldM_app, E. cbn [bind foldM fst snd].
      assert (n * h + j < w * h)%nat by nia.
      rewrite set_idx_lt by lia. cbn [bind]. eexists; split; [reflexivity|]. split; [rewrite upd_length; auto|].
      intros i k Hi Hk. destruct (Nat.eq_dec (i * h + k) (n * h + j)) as [Eq|Ne].
      + rewrite Eq. rewrite (nth_error_nth _ _ _ (nth_error_upd_eq d (n * h + j) (nth n outs 0) ltac:(lia))).
        assert (i = n) by nia. subst i. assert (k = j) by lia. subst k. rewrite Nat.eqb_refl.
        destruct (Nat.ltb_spec n (S n)); [auto|lia].
      + transitivity (nth (i * h + k) d 0).
        { destruct (nth_error d (i * h + k)) as [v|] eqn:V.
          - rewrite (nth_error_nth _ _ _ V). apply nth_error_nth. rewrite nth_error_upd_neq; auto.
          - apply nth_error_None in V. nia. }
        rewrite N by auto. destruct (Nat.eqb_spec k j); auto. subst k.
        assert (i <> n) by congruence. destruct (Nat.ltb_spec i n), (Nat.ltb_spec i (S n)); auto; lia. }
  destruct (G w) as (d & E & L & N); [lia|]. exists d.
  rewrite firstn_all2 in E by (rewrite enumerate_length; lia). split; auto. split; auto.
  intros i k Hi Hk. rewrite N by auto. destruct (Nat.ltb_spec i w); [|lia]. rewrite andb_true_r. auto.
Qed.

Lemma nth_error_chunks_row w h (m : list Z) j : (0 < w)%nat -> length m = (w * h)%nat -> (j < h)%nat ->
  nth_error (chunks_exact w m) j = Some (map_row m w j).
Proof.
  intros Hw L Hj. rewrite (chunks_exact_eq w h) by auto.
  assert (j * w < length m)%nat by nia.
  rewrite nth_error_chunks_some by auto. auto.
Qed.

Lemma blur_1d_eq src dst w h size : (0 < size <= 128)%nat -> (2 * size + 1 <= w)%nat -> (2 * size + 1 <= h)%nat ->
  length src = (w * h)%nat -> length dst = (w * h)%nat -> Forall byte src ->
  exists d, blur_1d src dst w h size = Ok d /\ length d = (w * h)%nat /\
    forall i j, (i < w)%nat -> (j < h)%nat ->
      nth (i * h + j) d 0 = moving_avg size (fun x => at_clamped src w h x (Z.of_nat j)) (Z.of_nat i).
Proof.
  intros Hs Hw Hh Ls Ld B. unfold blur_1d.
  destruct (Nat.ltb_spec w (2 * size + 1)); [lia|]. destruct (Nat.ltb_spec h (2 * size + 1)); [lia|]. cbn [orb].
  assert (E : enumerate (chunks_exact w src) = map (fun j => (j, map_row src w j)) (seq 0 h)).
  { apply list_eq_nth_error. intros j. rewrite nth_error_enumerate, nth_error_map, nth_error_seq.
    destruct (Nat.ltb_spec j h).
    - rewrite (nth_error_chunks_row w h); auto. lia.
    - cbn. replace (nth_error (chunks_exact w src) j) with (@None (list Z)); auto.
      symmetry. apply nth_error_None. rewrite (chunks_exact_eq w h) by (auto; lia).
      rewrite (proj2 (chunks_exact_mul w h src ltac:(lia) Ls)). lia. }
  rewrite E.
  assert (G : forall n, (n <= h)%nat -> exists d,
    foldM (fun dst jr => outs <- blur_row (snd jr) w size ;;
             foldM (fun dst iv => set_idx dst (fst iv * h + fst jr) (snd iv)) (enumerate outs) dst)
          (map (fun j => (j, map_row src w j)) (seq 0 n)) dst = Ok d /\ length d = (w * h)%nat /\
    forall i j, (i < w)%nat -> (j < n)%nat ->
      nth (i * h + j) d 0 = moving_avg size (fun x => at_clamped src w h x (Z.of_nat j)) (Z.of_nat i)).
  { induction n as [|n IH]; intros Hn.
    - exists dst. split; [reflexivity|]. split; auto. intros; lia.
    - destruct IH as (d & E1 & L & N); [lia|]. rewrite seq_S, map_app, foldM_app, E1. cbn [bind map foldM fst snd Nat.add].
      assert (RL : length (map_row src w n) = w) by (apply (map_row_length _ w h); auto; lia).
      rewrite blur_row_eq; auto.
      2:{ unfold map_row. apply Forall_forall. intros x Hx. rewrite Forall_forall in B. apply B. eapply skipn_In, firstn_In; eauto. }
      cbn [bind].
      destruct (write_column (map (fun i => moving_avg size (rowat (map_row src w n) w) (Z.of_nat i)) (seq 0 w)) d w h n) as (d' & E2 & L2 & N2); auto; [rewrite map_length, seq_length; auto|].
      rewrite E2. cbn [bind]. exists d'. split; auto. split; auto. intros i j Hi Hj.
      rewrite N2 by lia. destruct (Nat.eqb_spec j n) as [->|]; [|apply N; lia].
      erewrite nth_error_nth; [|rewrite nth_error_map, nth_error_seq; destruct (Nat.ltb_spec i w); [reflexivity|lia]].
      cbn [Nat.add]. apply moving_avg_ext. intros x. apply rowat_map_row; lia. }
  apply G. lia.
Qed.

Lemma blur_1d_small src dst w h size : (w < 2 * size + 1)%nat \/ (h < 2 * size + 1)%nat -> blur_1d src dst w h size = Ok dst.
Proof.
  intros H. unfold blur_1d. destruct (Nat.ltb_spec w (2 * size + 1)); auto.
  destruct (Nat.ltb_spec h (2 * size + 1)); auto. lia.
Qed.

Lemma at_clamped_bounds lo hi m w h x y : (0 < w)%nat -> (0 < h)%nat -> length m = (w * h)%nat ->
  Forall (fun v => lo <= v <= hi) m -> lo <= at_clamped m w h x y <= hi.
Proof.
  intros Hw Hh L F. rewrite Forall_forall in F. apply F. unfold at_clamped. apply nth_In. rewrite L.
  pose proof (clampn_lt w x Hw). pose proof (clampn_lt h y Hh). nia.
Qed.

(** Every cell of a map satisfies [P] when the cells do, by coordinates. *)
Lemma Forall_by_cell (P : Z -> Prop) w h m : length m = (w * h)%nat ->
  (forall x y, (x < w)%nat -> (y < h)%nat -> P (nth (y * w + x) m 0)) -> Forall P m.
Proof.
  intros L H. apply Forall_forall. intros v Hv. apply In_nth with (d := 0) in Hv as (i & Hi & <-).
  assert (w <> 0)%nat by (intros ->; lia).
  rewrite (Nat.div_mod_eq i w), Nat.mul_comm. apply H.
  - apply Nat.mod_upper_bound; auto.
  - apply Nat.div_lt_upper_bound; auto. lia.
Qed.

Lemma is_max_bounds v l lo hi : is_max v l -> Forall (fun a => lo <= a <= hi) l -> lo <= v <= hi.
Proof. intros [I _] F. rewrite Forall_forall in F. auto. Qed.
Lemma is_min_bounds v l lo hi : is_min v l -> Forall (fun a => lo <= a <= hi) l -> lo <= v <= hi.
Proof. intros [I _] F. rewrite Forall_forall in F. auto. Qed.

Definition in_range (lo hi v : Z) : Prop := lo <= v <= hi.

Lemma max3_range lo hi w h src dst out : (0 < w)%nat -> (0 < h)%nat -> length src = (w * h)%nat -> length dst = (w * h)%nat ->
  Forall (in_range lo hi) src -> liq_max3 src dst w h = Ok out -> length out = (w * h)%nat /\ Forall (in_range lo hi) out.
Proof.
  intros Hw Hh Ls Ld F E. destruct (max3_spec w h src dst) as (o & E' & L & N); auto.
  rewrite E in E'. inversion E'; subst o. split; auto. apply (Forall_by_cell _ w h); auto.
  intros x y Hx Hy. eapply is_max_bounds; [apply N; auto|]. unfold plus5. cbv zeta.
  repeat (apply Forall_cons; [apply at_clamped_bounds; auto|]); apply Forall_nil.
Qed.
Lemma min3_range lo hi w h src dst out : (0 < w)%nat -> (0 < h)%nat -> length src = (w * h)%nat -> length dst = (w * h)%nat ->
  Forall (in_range lo hi) src -> liq_min3 src dst w h = Ok out -> length out = (w * h)%nat /\ Forall (in_range lo hi) out.
Proof.
  intros Hw Hh Ls Ld F E. destruct (min3_spec w h src dst) as (o & E' & L & N); auto.
  rewrite E in E'. inversion E'; subst o. split; auto. apply (Forall_by_cell _ w h); auto.
  intros x y Hx Hy. eapply is_min_bounds; [apply N; auto|]. unfold plus5. cbv zeta.
  repeat (apply Forall_cons; [apply at_clamped_bounds; auto|]); apply Forall_nil.
Qed.

Lemma blur_spec src tmp w h size : (0 < size <= 128)%nat -> (0 < w)%nat -> (0 < h)%nat ->
  length src = (w * h)%nat -> length tmp = (w * h)%nat -> Forall byte src ->
  exists out tmp', liq_blur src tmp w h size = Ok (out, tmp') /\ length out = (w * h)%nat /\ length tmp' = (w * h)%nat /\
    (if (Nat.ltb w (2 * size + 1) || Nat.ltb h (2 * size + 1))%bool then out = src /\ tmp' = tmp
     else Forall byte tmp' /\ forall x y, (x < w)%nat -> (y < h)%nat -> nth (y * w + x) out 0 = blurred src w h size (Z.of_nat x) (Z.of_nat y)).
Proof.
  intros Hs Hw Hh Ls Lt B. unfold liq_blur.
  destruct (Nat.ltb_spec w (2 * size + 1)); cbn [orb].
  { rewrite blur_1d_small by auto. cbn [bind]. rewrite blur_1d_small by lia. cbn [bind]. eexists _, _. split; [reflexivity|]. auto. }
  destruct (Nat.ltb_spec h (2 * size + 1)); cbn [orb].
  { rewrite blur_1d_small by auto. cbn [bind]. rewrite blur_1d_small by lia. cbn [bind]. eexists _, _. split; [reflexivity|]. auto. }
  destruct (blur_1d_eq src tmp w h size) as (t & E1 & L1 & N1); auto. rewrite E1. cbn [bind].
  assert (B' : Forall byte t).
  { apply (Forall_by_cell byte h w); [lia|]. intros x y Hx Hy. rewrite N1 by auto.
    unfold byte. pose proof (moving_avg_bounds size (fun x0 => at_clamped src w h x0 (Z.of_nat x)) (Z.of_nat y) 0 255).
    enough (0 <= moving_avg size (fun x0 => at_clamped src w h x0 (Z.of_nat x)) (Z.of_nat y) <= 255) by lia.
    apply H1; [lia|]. intros x0. apply at_clamped_bounds; auto. eapply Forall_impl; [|exact B]. unfold byte; cbn; intros; lia. }
  destruct (blur_1d_eq t src h w size) as (o & E2 & L2 & N2); auto; try lia. rewrite E2. cbn [bind].
  eexists _, _. split; [reflexivity|]. split; [lia|]. split; [auto|]. split; auto. intros x y Hx Hy.
  rewrite N2 by auto. unfold blurred. apply moving_avg_ext. intros y'.
  unfold at_clamped at 1. rewrite clampn_id by auto. rewrite N1 by (auto; apply clampn_lt; auto).
  apply moving_avg_ext. intros x'. unfold at_clamped. f_equal. f_equal. f_equal. apply clampn_id. apply clampn_lt; auto.
Qed.

Lemma blur_range lo hi src tmp w h size out tmp' : (0 < size <= 128)%nat -> (0 < w)%nat -> (0 < h)%nat ->
  length src = (w * h)%nat -> length tmp = (w * h)%nat -> Forall byte src -> Forall (in_range lo hi) src ->
  liq_blur src tmp w h size = Ok (out, tmp') ->
  length out = (w * h)%nat /\ length tmp' = (w * h)%nat /\ Forall (in_range lo hi) out.
Proof.
  intros Hs Hw Hh Ls Lt B F E. destruct (blur_spec src tmp w h size) as (o & t & E' & L1 & L2 & C); auto.
  rewrite E in E'. inversion E'; subst o t. split; auto. split; auto.
  destruct (Nat.ltb w (2 * size + 1) || Nat.ltb h (2 * size + 1))%bool.
  - destruct C as [-> _]. auto.
  - destruct C as [_ C]. apply (Forall_by_cell _ w h); auto. intros x y Hx Hy. rewrite C by auto.
    unfold in_range, blurred. apply moving_avg_bounds; [lia|]. intros y'. apply moving_avg_bounds; [lia|]. intros x'.
    apply at_clamped_bounds; auto.
Qed.
