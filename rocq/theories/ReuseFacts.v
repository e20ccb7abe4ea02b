(** Using images and results again: the reported remapping error, uninitialised
    scratch rows, importance maps. *)
From Verif Require Import Base BaseFacts Arith Order Pal World Attr Hist MedianCut Nearest Kmeans Blur ImageM Quant Remap
  SpecHist SpecImage BlurFacts ImageFacts HistFacts MedianFacts SearchFacts NearFacts QuantFacts RemapFacts AttrFacts Api ApiFacts ResultFacts.
Open Scope nat_scope.

Section ReuseFacts.
Context {A : Arith}.

(** * The error of an undithered remap *)
(** Sum over rows (in the order given by [t]) of the sums along the rows. *)
Definition sum_of_rows (w : nat) (dist : nat -> nat -> f32) (t : stree) : f64 :=
  stree_sum (fun y => fold_left (fun e x => e +d f2d (dist y x)) (seq 0 w) d0) t.

Lemma row_error_nth (l : list (nat * f32)) d : forall k e, 
  row_error l e = fold_left (fun e x => e +d f2d (snd (nth (x - k) l d))) (seq k (length l)) e.
Proof.
  induction l as [|a l IH]; intros k e; cbn [row_error fold_left length seq]; auto.
  rewrite Nat.sub_diag. cbn [nth]. change (fold_left _ l _) with (row_error l (e +d f2d (snd a))).
  rewrite (IH (S k)). assert (G : forall m (f g : nat -> f64) e, (forall x, In x m -> f x = g x) -> 
     fold_left (fun e x => e +d f x) m e = fold_left (fun e x => e +d g x) m e).
  { clear. induction m as [|x m IH]; intros f g e H; cbn; auto. rewrite (H x) by (cbn; auto). apply IH. intros; apply H; cbn; auto. }
  apply (G _ (fun x => f2d (snd (nth (x - S k) l d))) (fun x => f2d (snd (nth (x - k) (a :: l) d)))).
  intros x Hx. apply in_seq in Hx. replace (x - k) with (S (x - S k)) by lia. auto.
Qed.

Lemma pure_row_dist (p : palf) n tidx : nearest_new p = Ok n -> forall l last x c px0, last < length p ->
  nth_error l x = Some (c, px0) ->
  exists m d pc, nth_error (pure_row n [] tidx l last) x = Some (m, d) /\ nth_error (colors_of p) m = Some pc /\ dist_to px0 pc d.
Proof.
  intros N l. pose proof (nearest_new_inv p n N) as (_ & NO & _).
  induction l as [|[c0 q0] l IH]; intros last x c q L E; [destruct x; discriminate|].
  destruct x as [|x]; cbn [nth_error] in E.
  - inversion E; subst. cbn [pure_row]. unfold bg_choice. replace (nth_error (@nil px) c) with (@None px) by (destruct c; auto).
    destruct (search_distance p n q last N L) as (pc & H1 & H2). do 3 eexists. split; [reflexivity|]. split; eauto.
  - cbn [pure_row nth_error]. eapply IH; eauto. apply search_idx; auto.
Qed.

Lemma plain_row_dist (p : palf) n i pxs y r x c : nearest_new p = Ok n -> image_ok i pxs -> i_bg i = None ->
  nth_error pxs y = Some r -> nth_error r x = Some c ->
  exists m d pc, nth_error (plain_row n true i y) x = Some (m, d) /\ nth_error (colors_of p) m = Some pc /\
    dist_to (from_rgba (gamma_lut (d_gamma (i_px i))) c) pc d.
Proof.
  intros N I B Y X. pose proof (nearest_new_inv p n N) as (LP & NO & _). unfold plain_row, row_result, img_bg. rewrite B.
  cbn [option_map eff_bg bg_row].
  rewrite (shows_row _ _ _ _ (im_px _ _ I) Y). eapply (pure_row_dist p n _ N _ 0 x x); [lia|].
  rewrite nth_error_enumerate, nth_error_map, X. reflexivity.
Qed.

Lemma plain_error u rcb m q i pxs buf w q' i' out w' : forall (C : CastLaws A), unspec_ok u -> result_r m q -> image_r i pxs ->
  (q_dither q =f f0) = true -> i_bg i = None -> remap_into u rcb q i buf w = (Ok tt, (q', i', out, w')) ->
  exists dist t,
    Permutation (stree_leaves t) (seq 0 (i_h i)) /\ dis_nan (sum_of_rows (i_w i) dist t) = false /\
    remap_err q' = Some (sum_of_rows (i_w i) dist t /d dofZ ((Z.of_nat (i_w i) * Z.of_nat (i_h i)) mod 2 ^ 32)) /\
    (forall y x r c, nth_error pxs y = Some r -> nth_error r x = Some c ->
       exists k pc, nth_error out (y * i_w i + x) = Some k /\
         nth_error (colors_of (fst (init_int_palette (q_pal q) (q_gamma q) (q_post q)))) k = Some pc /\
         dist_to (from_rgba (gamma_lut (d_gamma (i_px i))) c) pc (dist y x)).
Proof.
  intros C U R I D B E. pose proof (reach_image i pxs I) as IO. pose proof (reach_pal m q R) as P.
  destruct (plain_remap_eq u rcb q i pxs buf w q' i' out w' U IO P D E) as (n & e & N & -> & -> & (t & T1 & T2 & ->) & K).
  pose proof (nearest_new_inv _ n N) as (LP & NO & _).
  destruct (plain_out_good n _ true i pxs NO IO) as [G1 G2].
  assert (RL : forall y, y < i_h i -> length (plain_row n true i y) = i_w i).
  { intros y Y. destruct (plain_row_good n _ true i pxs y NO IO Y) as [L _]. rewrite map_length in L. auto. }
  set (dist := fun y x => snd (nth x (plain_row n true i y) (0, f0))).
  assert (SE : plain_sum n true i t = sum_of_rows (i_w i) dist t).
  { apply stree_sum_ext. intros y Hy. eapply Permutation_in in Hy; [|exact T1]. apply in_seq in Hy.
    rewrite (row_error_nth _ (0, f0) 0). rewrite RL by lia. unfold dist.
    assert (G : forall m (f g : nat -> f64) e, (forall x, f x = g x) -> fold_left (fun e (x : nat) => e +d f x) m e = fold_left (fun e x => e +d g x) m e).
    { clear. induction m as [|x m IH]; intros f g e H; cbn; auto. rewrite H. apply IH; auto. }
    apply (G _ (fun x => f2d (snd (nth (x - 0) (plain_row n true i y) (0, f0)))) (fun x => f2d (snd (nth x (plain_row n true i y) (0, f0))))).
    intros x. rewrite Nat.sub_0_r. auto. }
  exists dist, t. split; auto. split; [rewrite <- SE; auto|]. split; [rewrite <- SE; reflexivity|].
  intros y x r c Y X. destruct (plain_row_dist _ n i pxs y r x c N IO B Y X) as (k & d & pc & Q1 & Q2 & Q3).
  exists k, pc. pose proof (sh_rows _ _ (im_px _ _ IO)) as SR. rewrite Forall_forall in SR.
  destruct (SR r) as [Lr _]; [eapply nth_error_In; eauto|]. change (d_w (i_px i)) with (i_w i) in Lr.
  assert (Hx : x < i_w i) by (rewrite <- Lr; apply nth_error_Some; congruence).
  assert (Hy : y < i_h i) by (change (i_h i) with (d_h (i_px i)); rewrite <- (sh_len _ _ (im_px _ _ IO)); apply nth_error_Some; congruence).
  assert (F : Forall (fun r => length r = i_w i) (plain_out n true i)) by (eapply Forall_impl; [|exact G2]; intros ? [? _]; auto).
  split; [|split; auto; unfold dist; rewrite (nth_error_nth _ _ _ Q1); auto].
  rewrite nth_error_app1.
  - rewrite (nth_error_concat (i_w i)); auto. unfold plain_out. rewrite nth_error_map, nth_error_seq.
    destruct (Nat.ltb_spec y (i_h i)); [|lia]. cbn. rewrite nth_error_map, Q1. auto.
  - rewrite (concat_rows_length (i_w i)), G1; auto. nia.
Qed.

(** * Uninitialised scratch rows *)
Definition with_scratch (u : unspec) (s : nat -> nat -> nat) : unspec := {|
  u_map := u_map u; u_set := u_set u; u_select := u_select u; u_med3 := u_med3 u; u_batches := u_batches u;
  u_rows := u_rows u; u_main := u_main u; u_sum := u_sum u; u_cpus := u_cpus u; u_scratch := s |}.
Lemma with_scratch_ok u s : unspec_ok u -> (forall t c, s t c < 256) -> unspec_ok (with_scratch u s).
Proof. intros [] H. constructor; cbn; auto. Qed.

(** Without guesses from the output row its previous contents do not matter. *)
Definition alike (a b : dstate) : Prop :=
  s_this a = s_this b /\ s_next a = s_next b /\ s_bgused a = s_bgused b /\ s_last a = s_last b /\ length (s_out a) = length (s_out b).
Definition same_res {S T} (R : S -> T -> Prop) (a : res S) (b : res T) : Prop :=
  match a, b with Ok x, Ok y => R x y | Err e, Err f => e = f | Panic, Panic => True | _, _ => False end.
Lemma same_bind {S T S' T'} (R : S -> T -> Prop) (R' : S' -> T' -> Prop) a b f g :
  same_res R a b -> (forall x y, R x y -> same_res R' (f x) (g y)) -> same_res R' (bind a f) (bind b g).
Proof. destruct a, b; cbn; auto; try tauto. Qed.
Lemma same_bind1 {S S' T'} (R' : S' -> T' -> Prop) (a : res S) f g :
  (forall x, a = Ok x -> same_res R' (f x) (g x)) -> same_res R' (bind a f) (bind a g).
Proof. destruct a; cbn; auto. Qed.
Lemma same_foldM {S T X} (R : S -> T -> Prop) f g (l : list X) : (forall s t x, R s t -> same_res R (f s x) (g t x)) ->
  forall s t, R s t -> same_res R (foldM f l s) (foldM g l t).
Proof. intros H. induction l as [|x l IH]; intros s t HR; cbn [foldM]; auto. eapply same_bind; eauto. Qed.

Lemma dither_px_alike E row dmap bgp even a b x : e_guess E = false -> alike a b ->
  same_res alike (dither_px E row dmap bgp even a x) (dither_px E row dmap bgp even b x).
Proof.
  intros G (H1 & H2 & H3 & H4 & H5). unfold dither_px. rewrite G. rewrite <- H1, <- H2, <- H3, <- H4.
  apply same_bind1. intros inp _. cbv zeta. apply same_bind1. intros te _. cbn [bind].
  destruct (search _ _ _) as [m dd]. apply same_bind1. intros outpx _. apply same_bind1. intros [[mt o] us] _.
  apply (same_bind (fun l l' : list nat => length l = length l')).
  { unfold set_idx. rewrite <- H5. destruct (Nat.ltb _ _); cbn; auto. rewrite !upd_length. auto. }
  intros o1 o2 L. destruct even; repeat (apply same_bind1; intros ? _); cbn; repeat split; auto.
Qed.
Lemma dither_row_alike E row dmap bgp even dif a b : e_guess E = false -> length a = length b ->
  same_res (fun x y => fst x = fst y /\ length (snd x) = length (snd y))
    (dither_row E row dmap bgp even dif a) (dither_row E row dmap bgp even dif b).
Proof.
  intros G L. unfold dither_row. rewrite <- L. destruct (negb _); cbn; auto.
  eapply same_bind; [apply same_foldM; [intros; apply dither_px_alike; eauto|]|].
  - repeat split; auto.
  - intros [] [] (H1 & H2 & H3 & H4 & H5). cbn in *. subst. auto.
Qed.
Lemma warm_up_alike E d bg dm start a b : e_guess E = false -> length a = length b ->
  warm_up E d bg dm start a = warm_up E d bg dm start b.
Proof.
  intros G L. unfold warm_up. destruct (Nat.ltb 2 start); auto.
  assert (Q : same_res (fun x y => x = y)
     (bind (foldM (fun '(dif, sc) row => dither_image_row E d bg dm row dif sc) (seq (start - 2) 2) ((repeat px0 (e_w E + 2), repeat px0 (e_w E + 2)), a)) (fun '(dif, _) => Ok dif))
     (bind (foldM (fun '(dif, sc) row => dither_image_row E d bg dm row dif sc) (seq (start - 2) 2) ((repeat px0 (e_w E + 2), repeat px0 (e_w E + 2)), b)) (fun '(dif, _) => Ok dif))).
  { eapply (same_bind (fun x y => fst x = fst y /\ length (snd x) = length (snd y))).
    - apply same_foldM; [|auto]. intros [d1 s1] [d2 s2] y [H1 H2]. cbn in H1, H2. subst d2. unfold dither_image_row.
      apply same_bind1. intros r _. apply same_bind1. intros bp _. apply dither_row_alike; auto.
    - intros [d1 s1] [d2 s2] [H1 H2]. cbn in *. auto. }
  unfold same_res in Q. destruct (bind _ _), (bind _ _); subst; auto; tauto.
Qed.

Definition one_chunk (u : unspec) (q : qresult) (i : image) : Prop := i_h i <= 128 \/ u_cpus u = 1 \/ q_single q = true.
Lemma one_chunk_num u q i : unspec_ok u -> one_chunk u q i -> num_chunks u (q_single q) (i_w i) (i_h i) = 1.
Proof.
  intros U H. pose proof (uo_cpus _ U). unfold num_chunks. destruct (q_single q) eqn:QS; auto.
  destruct H as [H|[H|H]]; [|rewrite H; destruct (Nat.ltb 128 (i_h i)); lia|congruence].
  assert (i_h i / 128 <= 1) by (apply Nat.div_le_upper_bound; lia). destruct (Nat.ltb_spec 128 (i_h i)); lia.
Qed.

Lemma sbind_ext {S T V} (m m' : ST S T) (k k' : T -> ST S V) s : m s = m' s -> (forall a s', m s = (Ok a, s') -> k a s' = k' a s') ->
  sbind m k s = sbind m' k' s.
Proof. intros E H. unfold sbind. rewrite <- E. destruct (m s) as [[] s'] eqn:Q; auto. Qed.
Lemma floyd_chunks_scratch u s1 s2 rcb E d bg dm stage1 h : e_guess E = false -> forall cs start done st,
  floyd_chunks (with_scratch u s1) rcb E d bg dm stage1 h start done cs st =
  floyd_chunks (with_scratch u s2) rcb E d bg dm stage1 h start done cs st.
Proof.
  intros G cs. induction cs as [|c t IH]; intros start done st; cbn [floyd_chunks]; auto.
  apply sbind_ext; auto. intros k st1 _. apply sbind_ext.
  { unfold slift. f_equal. apply warm_up_alike; auto. rewrite !map_length. auto. }
  intros dif st2 _. apply sbind_ext; auto. intros [] st3 _; auto.
  apply sbind_ext; auto.
Qed.
Lemma floyd_chunks_one u s1 s2 rcb E d bg dm stage1 h c st :
  floyd_chunks (with_scratch u s1) rcb E d bg dm stage1 h 0 [] [c] st =
  floyd_chunks (with_scratch u s2) rcb E d bg dm stage1 h 0 [] [c] st.
Proof. reflexivity. Qed.
Lemma chunks_whole {T} n (l : list T) : length l = n -> 0 < n -> chunks n l = [l].
Proof.
  intros L H. unfold chunks. destruct l as [|a l]; [cbn in L; lia|]. cbn [length chunks_fuel].
  rewrite firstn_all2 by lia. rewrite skipn_all2 by lia. destruct (length l); auto.
Qed.

Lemma floyd_scratch u s1 s2 rcb (p : palf) me rm s pxs : unspec_ok u -> image_ok (r_img s) pxs -> length (r_out s) = i_h (r_img s) ->
  rm = false \/ one_chunk u (r_q s) (r_img s) ->
  floyd (with_scratch u s1) rcb p me rm s = floyd (with_scratch u s2) rcb p me rm s.
Proof.
  intros U I L H. unfold floyd. apply sbind_ext; auto. intros sa sz E. unfold sget in E. inversion E; subst sa sz; clear E. cbv zeta.
  apply sbind_ext; auto. intros n s' E. unfold slift in E. inversion E; subst s'; clear E.
  destruct (prepare_bg_eq s pxs I) as (ob & EB & KB & IB). apply sbind_ext; auto. intros x s' E. rewrite EB in E. inversion E; subst x s'; clear E.
  apply sbind_ext; auto. intros tc s' E. unfold slift in E. inversion E; subst s'; clear E.
  set (sb := upd_img s (set_bg (r_img s) ob)) in *. assert (IB' : image_ok (r_img sb) pxs) by exact IB.
  destruct (prepare_image_eq sb pxs IB') as (d & EI & SD & II). apply sbind_ext; auto.
  intros x s' E. rewrite EI in E. inversion E; subst x s'; clear E.
  apply sbind_ext; auto. intros sa sz E. unfold sget in E. inversion E; subst sa sz; clear E. cbv zeta. cbn [r_img r_q r_out upd_img sb].
  destruct H as [->|H]; [apply floyd_chunks_scratch; reflexivity|].
  assert (W : i_w (set_px (set_bg (r_img s) ob) d) = i_w (r_img s) /\ i_h (set_px (set_bg (r_img s) ob) d) = i_h (r_img s)).
  { destruct SD as (Q1 & Q2 & _). split; [exact Q1|exact Q2]. }
  destruct W as [W1 W2]. rewrite W1, W2.
  change (num_chunks (with_scratch u s1)) with (num_chunks u). change (num_chunks (with_scratch u s2)) with (num_chunks u).
  rewrite (one_chunk_num u _ _ U H). replace ((i_h (r_img s) + 1 - 1) / 1) with (i_h (r_img s)) by (rewrite Nat.div_1_r; lia).
  rewrite chunks_whole; auto. apply (sh_h _ _ (im_px _ _ I)).
Qed.

(** When a dithered remap takes guesses from the remapped output. *)
Definition no_guess (q : qresult) : Prop := dmode_is_none (q_dmap q) = true.
Lemma remap_scratch (C : CastLaws A) u s1 s2 rcb m q i pxs buf w : unspec_ok u -> (forall t c, s1 t c < 256) ->
  result_r m q -> image_r i pxs ->
  no_guess q \/ one_chunk u q i ->
  remap_into (with_scratch u s1) rcb q i buf w = remap_into (with_scratch u s2) rcb q i buf w.
Proof.
  intros U S1 R I H. pose proof (reach_image i pxs I) as IO. pose proof (reach_pal m q R) as P.
  unfold remap_into. cbv zeta. destruct (Nat.ltb_spec (length buf) (i_w i * i_h i)) as [HB|HB]; auto.
  assert (Lf : length (firstn (i_w i * i_h i) buf) = i_w i * i_h i) by (rewrite firstn_length; lia).
  pose proof (sh_w _ _ (im_px _ _ IO)) as HW. change (0 < i_w i) in HW.
  destruct (chunks_exact_shape (i_w i) (i_h i) (firstn (i_w i * i_h i) buf) HW Lf) as (L1 & F1 & _).
  set (s := RSt q i _ w).
  assert (E : write_remapped (with_scratch u s1) rcb s = write_remapped (with_scratch u s2) rcb s); [|rewrite E; auto].
  unfold write_remapped. apply sbind_ext; auto. intros sa sz E. unfold sget in E. inversion E; subst sa sz; clear E. cbv zeta. cbn [r_q r_img s].
  apply sbind_ext; auto. intros [] s' E; auto. unfold on_world, progress in E. cbn [r_q r_img r_out r_w s] in E.
  assert (Es : s' = RSt q i (chunks_exact (i_w i) (firstn (i_w i * i_h i) buf)) (r_w s')) by (inversion E; auto). clear E.
  destruct (free_keeps _ _ IO) as [K0 I0]. destruct (keeps_dims _ _ K0) as [W0 H0].
  apply sbind_ext; auto. intros x s2' E. unfold put_img, smod in E.
  set (i0 := set_px i (free_histogram_inputs (i_px i))) in *.
  assert (E2 : s2' = RSt q i0 (chunks_exact (i_w i) (firstn (i_w i * i_h i) buf)) (r_w s')).
  { rewrite Es in E. inversion E. reflexivity. }
  clear E. destruct (q_dither q =f f0) eqn:D; [reflexivity|].
  pose proof (generate_dither_map_ok (with_scratch u s1) (with_scratch_ok u s1 U S1) C (q_dmap q) (negb (is_none (i_bg i))) (q_pal q) s2' pxs) as GD.
  rewrite E2 in GD |- *. cbn [r_img r_out r_q] in GD.
  assert (SH : shaped i0 (chunks_exact (i_w i) (firstn (i_w i * i_h i) buf))).
  { apply (shaped_keeps i); auto. split; auto. }
  specialize (GD I0 SH P). unfold runs in GD.
  apply sbind_ext; [reflexivity|]. intros [me p] s3 E. rewrite E in GD. destruct GD as (G1 & G2 & G3 & G4 & G5 & _).
  apply sbind_ext; auto. intros [] s4 E4; auto.
  destruct (init_int_palette p (q_gamma q) (q_post q)) as [p2 ip]. apply sbind_ext; auto.
  unfold on_world, progress in E4. inversion E4; subst s4. destruct (keeps_dims _ _ G2) as [W3 H3].
  apply (floyd_scratch u s1 s2 rcb _ _ _ _ pxs); cbn [r_img r_out r_q]; auto; [rewrite H3; exact (proj1 G4)|].
  destruct H as [H|H].
  - left. unfold optionally_generate_dither_map in E. unfold no_guess in H. destruct (q_dmap q); try discriminate.
    cbn [dmode_is_always dmode_is_none negb andb orb] in E. unfold sbind, sget in E.
    rewrite !Bool.andb_false_r in E. cbn [andb negb orb] in E. unfold sret in E. inversion E. reflexivity.
  - right. rewrite G1. cbn [r_q]. unfold one_chunk in *. rewrite H3, H0. auto.
Qed.

(** * Importance maps *)
(** The call leaves the importance map alone. *)
Definition same_imp {T} (m : ST rst T) : Prop := forall s, i_imp (r_img (snd (m s))) = i_imp (r_img s).
Lemma si_bind {T V} (m : ST rst T) (k : T -> ST rst V) : same_imp m -> (forall a, same_imp (k a)) -> same_imp (sbind m k).
Proof.
  intros M K s. unfold sbind. specialize (M s). destruct (m s) as [[a| |] s']; cbn [snd] in *; auto. rewrite K. auto.
Qed.
Lemma si_get {V} (k : rst -> ST rst V) : (forall s, i_imp (r_img (snd (k s s))) = i_imp (r_img s)) -> same_imp (sbind sget k).
Proof. intros H s. unfold sbind, sget. apply H. Qed.
Lemma si_lift {T} (r : res T) : same_imp (slift r). Proof. intros s. auto. Qed.
Lemma si_ret {T} (a : T) : same_imp (sret a). Proof. intros s. auto. Qed.
Lemma si_err {T} e : same_imp (@serr rst T e). Proof. intros s. auto. Qed.
Lemma si_world {T} (m : ST world T) : same_imp (on_world m).
Proof. intros s. unfold on_world. destruct (m (r_w s)). auto. Qed.
Lemma si_out o : same_imp (put_out o). Proof. intros s. auto. Qed.
Lemma si_q q : same_imp (put_q q). Proof. intros s. auto. Qed.
Lemma si_prepare_image : same_imp prepare_image.
Proof. intros s. unfold prepare_image, sbind, sget, slift. destruct (prepare_iter _ _); auto. Qed.
Lemma si_prepare_bg : same_imp prepare_bg.
Proof. intros s. unfold prepare_bg, sbind, sget, slift. destruct (i_bg _); auto. destruct (prepare_iter _ _); auto. Qed.
Hint Resolve si_lift si_ret si_err si_world si_out si_q si_prepare_image si_prepare_bg : si.
Lemma si_remap u b (p : palf) : same_imp (remap_to_palette u b p).
Proof.
  unfold remap_to_palette. apply si_bind; auto with si. intros n. apply si_bind; auto with si. intros _.
  apply si_bind; [destruct b; auto with si|]. intros _. apply si_get. intros s.
  match goal with |- i_imp (r_img (snd (?m s))) = _ => change (i_imp (r_img (snd (m s))) = i_imp (r_img s)); revert s end.
  intros s. apply si_bind; auto with si. intros t. apply si_bind; auto with si. intros [[out err] p'].
  apply si_bind; auto with si. intros _. destruct (dis_nan err); auto with si.
Qed.
Lemma si_floyd_chunks u rcb E d bg dm st1 h cs : forall start done, same_imp (floyd_chunks u rcb E d bg dm st1 h start done cs).
Proof.
  induction cs as [|c t IH]; intros start done; cbn [floyd_chunks]; auto with si.
  apply si_bind; auto with si. intros k. apply si_bind; auto with si. intros dif. apply si_bind; auto with si. intros [].
  - apply si_bind; auto with si.
  - apply si_bind; auto with si.
Qed.
Lemma si_floyd u rcb p me rm : same_imp (floyd u rcb p me rm).
Proof.
  unfold floyd. apply si_get. intros s. cbv zeta. apply si_bind; auto with si. intros n. apply si_bind; auto with si. intros _.
  apply si_bind; auto with si. intros tc. apply si_bind; auto with si. intros _. apply si_get. intros s'. apply si_floyd_chunks.
Qed.
(** A remap without dithering, or without a generated dither map. *)
Lemma si_write u rcb s : (q_dither (r_q s) =f f0) = true \/ dmode_is_none (q_dmap (r_q s)) = true ->
  i_imp (r_img (snd (write_remapped u rcb s))) = i_imp (r_img s).
Proof.
  intros H. unfold write_remapped, sbind at 1, sget at 1. cbv zeta. unfold sbind at 1. unfold on_world at 1, progress at 1.
  match goal with |- context [if rcb ?t ?p then _ else _] => destruct (rcb t p) end; [reflexivity|].
  unfold sbind at 1, put_img at 1, smod at 1.
  set (s1 := RSt _ _ _ _). change (i_imp (r_img s)) with (i_imp (r_img s1)).
  destruct (q_dither (r_q s) =f f0) eqn:D.
  - destruct (init_int_palette _ _ _) as [p ip]. apply si_bind; [apply si_remap|]. intros [err p']. apply si_q.
  - destruct H as [H|H]; [congruence|]. apply si_bind.
    + unfold optionally_generate_dither_map. apply si_get. intros s2. cbv zeta. destruct (q_dmap (r_q s)); try discriminate.
      rewrite Bool.andb_false_r. cbn [dmode_is_always orb andb negb]. apply si_ret.
    + intros [me p]. apply si_bind; auto with si. intros [|]; auto with si. destruct (init_int_palette _ _ _) as [p' ip].
      apply si_bind; [apply si_floyd|]. intros _. apply si_q.
Qed.
Lemma remap_keeps_map u rcb q i buf w r q' i' out w' :
  (q_dither q =f f0) = true \/ dmode_is_none (q_dmap q) = true ->
  remap_into u rcb q i buf w = (r, (q', i', out, w')) -> i_imp i' = i_imp i.
Proof.
  intros H E. unfold remap_into in E. cbv zeta in E. destruct (Nat.ltb _ _); [inversion E; auto|].
  match type of E with context [write_remapped u rcb ?s] => pose proof (si_write u rcb s H) as Q; destruct (write_remapped u rcb s) as [r0 s0] end.
  inversion E; subst. exact Q.
Qed.
Lemma quantize_keeps_map (C : CastLaws A) u cb a i pxs w r i' w' m : image_ok i pxs -> i_imp i = Some m ->
  quantize u cb a (i, w) = (r, (i', w')) -> i_imp i' = Some m.
Proof.
  intros I M E. destruct (add_image_spec u cb a (hist_new a) i w pxs I) as (i1 & _ & _ & _ & _ & _ & _ & K & _ & S). cbv zeta in S.
  specialize (K m M). subst i1. unfold quantize in E. rewrite S in E. destruct (cb _ _); [inversion E; subst; auto|].
  destruct (all_rgba_rows _); [|inversion E; subst; auto..]. destruct (quantize_internal _ _ _ _ _) as [r1 [h1 w1]]. inversion E; subst; auto.
Qed.
Lemma add_image_keeps_map (C : CastLaws A) u cb a h i pxs w r h' i' w' m : image_ok i pxs -> i_imp i = Some m ->
  add_image u cb a (h, i, w) = (r, (h', i', w')) -> i_imp i' = Some m.
Proof.
  intros I M E. destruct (add_image_spec u cb a h i w pxs I) as (i1 & _ & _ & _ & _ & _ & _ & K & _ & S). cbv zeta in S.
  specialize (K m M). subst i1. rewrite S in E. destruct (cb _ _); [inversion E; subst; auto|].
  destruct (all_rgba_rows _); inversion E; subst; auto.
Qed.

(** * Quantizing an image again *)
(** Images that have not been remapped. *)
Inductive unremapped : image -> list (list rgba) -> Prop :=
| un_stride buf w h s g i : (0 <= w)%Z -> (0 <= h)%Z -> (0 <= s)%Z -> Forall rgba_ok buf -> image_new_stride buf w h s g = Ok i ->
    unremapped i (strided rgba_default buf (Z.to_nat w) (Z.to_nat h) (Z.to_nat s))
| un_fn cb w h g i : (0 <= w)%Z -> (0 <= h)%Z ->
    (forall y, y < Z.to_nat h -> length (cb y) = Z.to_nat w /\ Forall rgba_ok (cb y)) ->
    image_new_fn cb w h g = Ok i -> unremapped i (callback_rows cb (Z.to_nat h))
| un_imp i pxs m i' : unremapped i pxs -> Forall byte m -> set_importance_map i m = Ok i' -> unremapped i' pxs
| un_bg i pxs b bp i' : unremapped i pxs -> image_r b bp -> set_background i b = Ok i' -> unremapped i' pxs
| un_fixed i pxs c i' : unremapped i pxs -> rgba_ok c -> image_add_fixed_color i c = Ok i' -> unremapped i' pxs
| un_hist u cb a h i pxs w r h' i' w' : unspec_ok u -> usable a -> hist_r h -> unremapped i pxs ->
    add_image u cb a (h, i, w) = (r, (h', i', w')) -> unremapped i' pxs
| un_quantize u cb a i pxs w r i' w' : unspec_ok u -> usable a -> unremapped i pxs ->
    quantize u cb a (i, w) = (r, (i', w')) -> unremapped i' pxs.
Lemma unremapped_r i pxs : unremapped i pxs -> image_r i pxs.
Proof.
  induction 1 as [buf w h s g i W H S F E|cb w h g i W H F E|i pxs m i' U IH F E|i pxs b bp i' U IH R E|i pxs c i' U IH R E|u cb a h i pxs w r h' i' w' O Ha Hh U IH E|u cb a i pxs w r i' w' O Ha U IH E].
  - exact (ir_stride buf w h s g i W H S F E).
  - exact (ir_fn cb w h g i W H F E).
  - exact (ir_imp i pxs m i' IH F E).
  - exact (ir_bg i pxs b bp i' IH R E).
  - exact (ir_fixed i pxs c i' IH R E).
  - exact (ir_hist u cb a h i pxs w r h' i' w' O Ha Hh IH E).
  - exact (ir_quantize u cb a i pxs w r i' w' O Ha IH E).
Qed.
Lemma new_not_released src w h g i : image_new_internal src w h g = Ok i -> src <> SrcPixels [] [] -> ~ released (i_px i).
Proof.
  unfold image_new_internal, released. destruct (negb _); [discriminate|]. destruct (negb _); [discriminate|].
  intros E; inversion E; subst; auto.
Qed.
Lemma not_released (C : CastLaws A) i pxs : unremapped i pxs -> ~ released (i_px i).
Proof.
  induction 1 as [buf w h s g i W H S F E|cb w h g i W H F E|i pxs m i' U IH F E|i pxs b bp i' U IH R E|i pxs c i' U IH R E|u cb a h i pxs w r h' i' w' O Ha Hh U IH E|u cb a i pxs w r i' w' O Ha U IH E].
  - pose proof (reach_image _ _ (ir_stride buf w h s g i W H S F E)) as I. intros R. destruct (sh_src _ _ (im_px _ _ I)) as [[_ Q]|Q].
    + apply Q. unfold image_new_stride in E. repeat match type of E with (if ?b then _ else _) = _ => destruct b; [discriminate|] end.
      apply bind_ok in E as (x & _ & E). unfold image_new_internal in E. destruct (negb _); [discriminate|]. destruct (negb _); [discriminate|]. inversion E; auto.
    + destruct (shows_row_ex _ _ 0 (im_px _ _ I) (sh_h _ _ (im_px _ _ I))) as (r & Hr & _). apply Q in Hr. unfold row_rgba in Hr. rewrite R in Hr.
      cbn in Hr. discriminate.
  - unfold image_new_fn in E. destruct (negb _); [discriminate|]. apply (new_not_released _ _ _ _ _ E). discriminate.
  - unfold set_importance_map in E. destruct (negb _); [discriminate|]. inversion E; subst; auto.
  - unfold set_background in E. destruct (i_bg b); [discriminate|]. destruct (negb _); [discriminate|]. inversion E; subst; auto.
  - unfold image_add_fixed_color in E. destruct (Nat.leb _ _); [discriminate|]. inversion E; subst; auto.
  - pose proof (reach_image _ _ (unremapped_r _ _ U)) as I.
    destruct (add_image_spec u cb a h i w pxs I) as (i1 & _ & _ & _ & (_ & _ & P & _) & _ & _ & _ & _ & Q). cbv zeta in Q. rewrite Q in E.
    assert (i' = i1) as -> by (destruct (cb _ _); [|destruct (all_rgba_rows _)]; inversion E; auto).
    unfold released in *. rewrite P. auto.
  - pose proof (reach_image _ _ (unremapped_r _ _ U)) as I.
    destruct (add_image_spec u cb a (hist_new a) i w pxs I) as (i1 & _ & _ & _ & (_ & _ & P & _) & _ & _ & _ & _ & Q). cbv zeta in Q.
    unfold quantize in E. rewrite Q in E.
    assert (i' = i1) as ->.
    { destruct (cb _ _); [|destruct (all_rgba_rows _)]; try (inversion E; auto; fail). destruct (quantize_internal _ _ _ _ _) as [r1 [h1 w1]]. inversion E; auto. }
    unfold released in *. rewrite P. auto.
Qed.
Lemma requantize (C : CastLaws A) u cb a h i pxs w e s' : unremapped i pxs -> add_image u cb a (h, i, w) = (Err e, s') ->
  e = Aborted /\ exists told pct, cb told pct = true.
Proof.
  intros U E. pose proof (reach_image _ _ (unremapped_r _ _ U)) as I.
  destruct (add_image_spec u cb a h i w pxs I) as (i1 & _ & _ & _ & _ & _ & _ & _ & _ & Q). cbv zeta in Q. rewrite Q in E.
  destruct (cb _ _) eqn:CB; [inversion E; eauto|].
  rewrite (all_rgba_rows_live _ _ (im_px _ _ I) (not_released C _ _ U)) in E. discriminate.
Qed.
Lemma remap_again (C : CastLaws A) u cb m q i pxs buf w e s' : unspec_ok u -> result_r m q -> image_r i pxs ->
  i_w i * i_h i <= length buf -> remap_into u cb q i buf w = (Err e, s') ->
  (e = Aborted /\ exists told pct, cb told pct = true) \/ e = OutOfMemory.
Proof.
  intros U R I L E. pose proof (remap_reach u cb m q i pxs buf w U R I) as P. rewrite E in P. destruct s' as [[[q' i'] out] w'].
  destruct P as (_ & _ & _ & _ & _ & [(_ & H & _)|(_ & [H|H])]); [lia| |auto]. left. exact H.
Qed.
End ReuseFacts.
