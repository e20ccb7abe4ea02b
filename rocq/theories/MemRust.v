(** Safe Rust programs release what the library allocated exactly once, whatever
    they clone. *)
From Verif Require Import Base BaseFacts Mem MemFacts.
From Coq Require Import Permutation.
Open Scope nat_scope.

(** The library's blocks that are not released. *)
Definition lib_live (m : mem) : list nat := filter (fun b => live m b && is_lib m b)%bool (seq 0 (length (m_heap m))).
Definition held (m : mem) (t : list nat) : Prop := Permutation t (lib_live m).
(** Memory the library allocated or borrowed, not memory handed over by C. *)
Definition plain_cow (c : cow) : Prop := match c with Owned _ => False | _ => True end.
Definition plain_rows (r : mrows) : Prop :=
  match r_src r with MCallback => True | MPixels rows pixels => plain_cow rows /\ match pixels with Some c => plain_cow c | None => True end end.
Definition iowns (x : mimage) : list nat := owns (g_px x) ++ match g_bg x with Some b => owns b | None => [] end.
Definition plain_img (x : mimage) : Prop := plain_rows (g_px x) /\ match g_bg x with Some b => plain_rows b | None => True end.
Definition oowns (o : option mimage) : list nat := match o with Some x => iowns x | None => [] end.
Definition oplain (o : option mimage) : Prop := match o with Some x => plain_img x | None => True end.

Definition fr {T} (o : out T) (P : T -> Prop) : Prop := o = Fault ReadReleased \/ exists x, o = Fine x /\ P x.
Lemma fr_bind {T V} (o : out T) (f : T -> out V) P Q : fr o P -> (forall x, P x -> fr (f x) Q) -> fr (obind o f) Q.
Proof. intros [->|(x & -> & H)] K; [left; reflexivity|apply K; exact H]. Qed.
Lemma fr_fine {T} (x : T) (P : T -> Prop) : P x -> fr (Fine x) P.
Proof. right. eauto. Qed.

Lemma held_perm m t t' : Permutation t t' -> held m t -> held m t'.
Proof. intros P H. unfold held in *. rewrite <- P. exact H. Qed.
Lemma lib_live_In m b : In b (lib_live m) <-> live m b = true /\ is_lib m b = true.
Proof.
  unfold lib_live. rewrite filter_In, in_seq, andb_true_iff. split; [tauto|]. intros H. split; [|exact H]. destruct H as [H _]. unfold live in H.
  assert (b < length (m_heap m)); [|lia]. apply nth_error_Some. destruct (nth_error (m_heap m) b); [discriminate|discriminate H].
Qed.
Lemma lib_live_NoDup m : NoDup (lib_live m).
Proof. apply NoDup_filter, seq_NoDup. Qed.
Lemma alloc_at m lib ps m' b : alloc m lib ps = (m', b) -> b = length (m_heap m) /\ forall k, nth_error (m_heap m') k = if Nat.eqb k b then Some (Cell true lib ps) else nth_error (m_heap m) k.
Proof.
  intros E. inversion E; subst. split; [reflexivity|]. intros k. cbn [m_heap]. destruct (Nat.eqb_spec k (length (m_heap m))) as [->|N].
  - rewrite nth_error_app2, Nat.sub_diag by lia. reflexivity.
  - destruct (Nat.lt_ge_cases k (length (m_heap m))); [apply nth_error_app1; auto|].
    rewrite nth_error_app2 by lia. destruct (k - length (m_heap m)) as [|j] eqn:D; [lia|]. cbn. destruct j; symmetry; apply nth_error_None; auto.
Qed.
Lemma held_alloc m lib ps m' b t : alloc m lib ps = (m', b) -> held m t -> held m' (if lib then b :: t else t).
Proof.
  intros E H. destruct (alloc_at _ _ _ _ _ E) as [B N].
  assert (NB : ~ In b (lib_live m)).
  { intros I. apply lib_live_In in I as [I _]. unfold live in I. assert (X : nth_error (m_heap m) b = None) by (apply nth_error_None; lia). rewrite X in I. discriminate. }
  assert (NT : ~ In b t) by (intros I; apply NB; eapply Permutation_in; eauto).
  unfold held. apply NoDup_Permutation.
  - assert (ND : NoDup t) by (eapply Permutation_NoDup; [symmetry; exact H|apply lib_live_NoDup]). destruct lib; [constructor; auto|exact ND].
  - apply lib_live_NoDup.
  - intros x. rewrite lib_live_In. unfold live, is_lib. rewrite N. destruct (Nat.eqb_spec x b) as [->|D].
    + cbn [c_live c_lib]. destruct lib; split; [auto|left; reflexivity|contradiction|intros [_ Q]; discriminate].
    + change (In x (if lib then b :: t else t) <-> live m x = true /\ is_lib m x = true). rewrite <- lib_live_In.
      assert (X : In x (if lib then b :: t else t) <-> In x t) by (destruct lib; cbn; [split; [intros [Q|Q]; [congruence|exact Q]|auto]|tauto]).
      rewrite X. split; apply Permutation_in; [exact H|symmetry; exact H].
Qed.
Lemma held_kill m b t : held m (b :: t) -> (live m b && is_lib m b)%bool = true /\ held (kill m b) t.
Proof.
  intros H. assert (I : In b (lib_live m)) by (eapply Permutation_in; [exact H|left; reflexivity]). apply lib_live_In in I as [I1 I2].
  split; [rewrite I1, I2; reflexivity|].
  assert (ND : NoDup (b :: t)) by (eapply Permutation_NoDup; [symmetry; exact H|apply lib_live_NoDup]). inversion ND as [|? ? NI NT]; subst.
  apply NoDup_Permutation; [exact NT|apply lib_live_NoDup|]. intros x. rewrite lib_live_In. unfold kill. unfold live in I1. destruct (nth_error (m_heap m) b) as [c|] eqn:E; [|discriminate].
  unfold live, is_lib. cbn [m_heap]. assert (LB : b < length (m_heap m)) by (apply nth_error_Some; congruence).
  destruct (Nat.eq_dec b x) as [<-|D].
  - rewrite nth_error_upd_eq by exact LB. cbn. split; [contradiction|intros [Q _]; discriminate].
  - rewrite nth_error_upd_neq by exact D. change (In x t <-> live m x = true /\ is_lib m x = true). rewrite <- lib_live_In. split; intros Q.
    + eapply Permutation_in; [exact H|right; exact Q].
    + apply (Permutation_in _ (Permutation_sym H)) in Q as [Q|Q]; [congruence|exact Q].
Qed.

Lemma drop_cow_held m c t : plain_cow c -> held m (rel_blk c ++ t) -> exists m', drop_cow m c = Fine m' /\ held m' t.
Proof.
  destruct c as [p|p|b]; cbn; intros P H; [contradiction|destruct p as [[]|]; cbn in H; eauto|]. destruct (held_kill m b t H) as [L K]. rewrite L. eauto.
Qed.
Lemma drop_src_held m r t : plain_rows r -> held m (owns r ++ t) -> exists m', drop_src m (r_src r) = Fine m' /\ held m' t.
Proof.
  unfold plain_rows, owns, of_src. destruct (r_src r) as [rows pixels|]; cbn; [|eauto]. intros [P1 P2] H. rewrite <- app_assoc in H.
  destruct (drop_cow_held m rows _ P1 H) as (m1 & -> & H1). cbn [obind]. destruct pixels as [c|]; cbn in *; [apply drop_cow_held; auto|eauto].
Qed.
Lemma drop_image_held m x t : plain_img x -> held m (iowns x ++ t) -> exists m', drop_image m x = Fine m' /\ held m' t.
Proof.
  intros [P1 P2] H. unfold iowns in H. rewrite <- app_assoc in H. unfold drop_image. destruct (drop_src_held m _ _ P1 H) as (m1 & -> & H1). cbn [obind].
  destruct (g_bg x) as [b|]; cbn in *; [apply drop_src_held; auto|eauto].
Qed.
Lemma clone_cow_held m c t : plain_cow c -> held m t -> fr (clone_cow m c) (fun y => plain_cow (snd y) /\ held (fst y) (rel_blk (snd y) ++ t)).
Proof.
  destruct c as [p|p|b]; cbn [plain_cow]; intros P H; [contradiction|apply fr_fine; cbn; split; [exact I|destruct p as [[]|]; exact H]|].
  cbn [clone_cow]. unfold read. destruct (live m b); [|left; reflexivity]. cbn [obind]. destruct (alloc m true (ptrs_in m b)) as [m' b'] eqn:E.
  apply fr_fine. cbn. split; [exact I|]. exact (held_alloc _ _ _ _ _ _ E H).
Qed.
Lemma clone_rows_held m r t : plain_rows r -> held m t -> fr (clone_rows m r) (fun y => plain_rows (snd y) /\ held (fst y) (owns (snd y) ++ t)).
Proof.
  intros P H. unfold clone_rows, plain_rows in *. destruct (r_src r) as [rows pixels|].
  - destruct P as [P1 P2]. eapply fr_bind; [apply (clone_cow_held m rows t P1 H)|]. intros [m1 c1] [Q1 H1]. cbn [fst snd] in *. destruct pixels as [c|].
    + eapply fr_bind; [apply (clone_cow_held m1 c _ P2 H1)|]. intros [m2 c2] [Q2 H2]. apply fr_fine. cbn [fst snd with_src r_src owns of_src opt_cow] in *.
      split; [split; auto|]. unfold owns, of_src. cbn [r_src with_src opt_cow]. eapply held_perm; [|exact H2]. rewrite <- app_assoc. apply Permutation_app_swap_app.
    + apply fr_fine. cbn [fst snd with_src r_src]. split; [split; auto|]. unfold owns, of_src. cbn [r_src with_src opt_cow]. rewrite app_nil_r. exact H1.
  - destruct (alloc m true []) as [m1 b] eqn:E1. destruct (alloc m1 true _) as [m2 rb] eqn:E2. apply fr_fine. cbn. split; [auto|].
    exact (held_alloc _ _ _ _ _ _ E2 (held_alloc _ _ _ _ _ _ E1 H)).
Qed.
Lemma clone_image_held m x t : plain_img x -> held m t -> fr (clone_image m x) (fun y => plain_img (snd y) /\ held (fst y) (iowns (snd y) ++ t)).
Proof.
  intros [P1 P2] H. unfold clone_image. eapply fr_bind; [apply (clone_rows_held m _ t P1 H)|]. intros [m1 r1] [Q1 H1]. cbn [fst snd] in *. destruct (g_bg x) as [b|].
  - eapply fr_bind; [apply (clone_rows_held m1 b _ P2 H1)|]. intros [m2 r2] [Q2 H2]. apply fr_fine. cbn [fst snd] in *. split; [split; auto|].
    unfold iowns. cbn [g_px g_bg]. eapply held_perm; [|exact H2]. rewrite <- app_assoc. apply Permutation_app_swap_app.
  - apply fr_fine. split; [split; cbn; auto|]. unfold iowns. cbn [g_px g_bg fst snd]. rewrite app_nil_r. exact H1.
Qed.

(** Steps of a quantization or remap. *)
Definition good_step (f : istep) : Prop := forall m x t, plain_img x -> held m (iowns x ++ t) -> fr (f m x) (fun y => plain_img (snd y) /\ held (fst y) (iowns (snd y) ++ t)).
Definition good_rows (f : mem -> mrows -> out (mem * mrows)) : Prop :=
  forall m r t, plain_rows r -> held m (owns r ++ t) -> fr (f m r) (fun y => plain_rows (snd y) /\ held (fst y) (owns (snd y) ++ t)).
Lemma good_px f : good_rows f -> good_step (on_px f).
Proof.
  intros G m x t [P1 P2] H. unfold on_px. unfold iowns in H. rewrite <- app_assoc in H. eapply fr_bind; [apply (G m _ _ P1 H)|]. intros [m1 r1] [Q1 H1]. apply fr_fine.
  cbn [fst snd] in *. split; [split; auto|]. unfold iowns. cbn [g_px g_bg]. rewrite <- app_assoc. exact H1.
Qed.
Lemma good_bg f : good_rows f -> good_step (on_bg f).
Proof.
  intros G m x t [P1 P2] H. unfold on_bg. destruct (g_bg x) as [b|] eqn:B; [|apply fr_fine; cbn [fst snd]; split; [split; [auto|rewrite B; exact I]|exact H]].
  unfold iowns in H. rewrite B in H. eapply fr_bind; [apply (G m b (owns (g_px x) ++ t) P2)|].
  - eapply held_perm; [|exact H]. rewrite <- app_assoc. apply Permutation_app_swap_app.
  - intros [m1 r1] [Q1 H1]. apply fr_fine. cbn [fst snd] in *. split; [split; auto|]. unfold iowns. cbn [g_px g_bg]. eapply held_perm; [|exact H1].
    rewrite <- app_assoc. apply Permutation_app_swap_app.
Qed.
Lemma read_fr m b : fr (read m b) (fun _ => True).
Proof. unfold read. destruct (live m b); [apply fr_fine; exact I|left; reflexivity]. Qed.
Lemma read_all_fr m ps : fr (read_all m ps) (fun _ => True).
Proof.
  unfold read_all. assert (G : forall o, fr o (fun _ : unit => True) -> fr (fold_left (fun o p => _ <~~ o ;; read m (fst p)) ps o) (fun _ => True)); [|apply G, fr_fine; exact I].
  induction ps as [|p ps IH]; intros o H; cbn [fold_left]; [exact H|]. apply IH. eapply fr_bind; [exact H|]. intros _ _. apply read_fr.
Qed.
Lemma read_rows_fr m r : fr (read_rows m r) (fun _ => True).
Proof.
  unfold read_rows. destruct (r_src r) as [rows pixels|]; [|apply fr_fine; exact I]. eapply (fr_bind _ _ (fun _ => True)); [|intros ps _; apply read_all_fr].
  destruct rows as [[[b o]|]|[[b o]|]|b]; cbn [as_slice]; try (apply fr_fine; exact I); (eapply fr_bind; [apply read_fr|intros; apply fr_fine; exact I]).
Qed.
Lemma good_prepare a : good_rows (s_prepare a).
Proof.
  intros m r t P H. unfold s_prepare, prepare. destruct (_ || _)%bool; [apply fr_fine; auto|]. cbn [obind]. destruct (read_rows_fr m r) as [->|(? & -> & _)]; [left; reflexivity|]. apply fr_fine. auto.
Qed.
Lemma good_read_f : good_rows s_read_f.
Proof.
  intros m r t P H. unfold s_read_f, read_f. destruct (r_cached r); [apply fr_fine; auto|]. destruct (read_rows_fr m r) as [->|(? & -> & _)]; [left; reflexivity|]. apply fr_fine. auto.
Qed.
Lemma good_read_rgba : good_rows s_read_rgba.
Proof. intros m r t P H. unfold s_read_rgba, read_rgba. destruct (read_rows_fr m r) as [->|(? & -> & _)]; [left; reflexivity|]. apply fr_fine. auto. Qed.
Lemma good_free : good_rows free_inputs.
Proof.
  intros m r t P H. unfold free_inputs. destruct (r_cached r); [|apply fr_fine; auto]. destruct (drop_src_held m r t P H) as (m' & -> & H'). apply fr_fine. cbn. split; auto.
Qed.
Lemma good_quantize maps : Forall good_step (quantize_steps maps).
Proof. unfold quantize_steps. destruct maps; cbn [app]; repeat (apply Forall_nil || apply Forall_cons); apply good_px; (apply good_prepare || apply good_read_rgba). Qed.
Lemma good_remap maps : Forall good_step (remap_steps maps).
Proof.
  unfold remap_steps. destruct maps; cbn [app]; repeat (apply Forall_nil || apply Forall_cons); (apply good_px || apply good_bg); first [apply good_free|apply good_prepare|apply good_read_f].
Qed.
Lemma good_run l : Forall good_step l -> forall m x t, plain_img x -> held m (iowns x ++ t) -> fr (run_steps l m x) (fun y => plain_img (snd y) /\ held (fst y) (iowns (snd y) ++ t)).
Proof.
  intros F m x t P H. unfold run_steps.
  assert (G : forall o, fr o (fun y => plain_img (snd y) /\ held (fst y) (iowns (snd y) ++ t)) ->
    fr (fold_left (fun o f => x <~~ o ;; f (fst x) (snd x)) l o) (fun y => plain_img (snd y) /\ held (fst y) (iowns (snd y) ++ t))); [|apply G, fr_fine; auto].
  induction F as [|f l Gf F IH]; intros o O; cbn [fold_left]; [exact O|]. apply IH. eapply fr_bind; [exact O|]. intros [m1 x1] [P1 H1]. apply Gf; auto.
Qed.

(** Programs. *)
Definition rust_ok (s : mstate) : Prop := Forall oplain (s_imgs s) /\ held (s_mem s) (flat_map oowns (s_imgs s)).
Lemma take_img l i y : nth_error l i = Some y -> forall z, Permutation (flat_map oowns (upd l i z)) (oowns z ++ flat_map oowns (upd l i None)) /\ Permutation (flat_map oowns l) (oowns y ++ flat_map oowns (upd l i None)).
Proof.
  intros E z. assert (L : i < length l) by (apply nth_error_Some; congruence). rewrite !upd_split by exact L.
  apply nth_error_split in E as (l1 & l2 & -> & <-). replace (firstn (length l1) (l1 ++ y :: l2)) with l1 by (rewrite firstn_app, Nat.sub_diag, firstn_all, firstn_O, app_nil_r; reflexivity).
  replace (skipn (S (length l1)) (l1 ++ y :: l2)) with l2 by (rewrite skipn_app, skipn_all2 by lia; replace (S (length l1) - length l1) with 1 by lia; reflexivity).
  rewrite !flat_map_app. cbn [flat_map oowns app]. split; apply Permutation_app_swap_app.
Qed.
Lemma get_img_at s i x : get_img s i = Some x -> nth_error (s_imgs s) i = Some (Some x).
Proof. unfold get_img. destruct (nth_error (s_imgs s) i) as [[y|]|]; intros H; inversion H; reflexivity. Qed.
Lemma plain_at s i x : Forall oplain (s_imgs s) -> get_img s i = Some x -> plain_img x.
Proof. intros F G. apply get_img_at, nth_error_In in G. rewrite Forall_forall in F. exact (F _ G). Qed.
Definition rust_only (c : mcall) : Prop :=
  match c with UserFree _ | NewCRows _ _ _ | NewCBitmap _ _ _ | OwnImg _ _ _ => False | _ => True end.
Lemma run_img s i l : rust_ok s -> Forall good_step l -> fr (on_img s i l) rust_ok.
Proof.
  intros [F H] G. unfold on_img. destruct (get_img s i) as [x|] eqn:E; [|apply fr_fine; split; auto].
  destruct (take_img _ i _ (get_img_at _ _ _ E) None) as [_ P0]. eapply fr_bind; [apply (good_run l G _ x (flat_map oowns (upd (s_imgs s) i None)) (plain_at _ _ _ F E)); eapply held_perm; [exact P0|exact H]|].
  intros [m1 x1] [P1 H1]. apply fr_fine. cbn [fst snd] in *. split; [apply Forall_upd; auto|]. cbn [s_mem s_imgs put].
  destruct (take_img _ i _ (get_img_at _ _ _ E) (Some x1)) as [P2 _]. eapply held_perm; [symmetry; exact P2|exact H1].
Qed.
Lemma drop_img_ok s i x : rust_ok s -> get_img s i = Some x -> fr (m' <~~ drop_image (s_mem s) x ;; Fine (put s m' i None)) rust_ok.
Proof.
  intros [F H] E. destruct (take_img _ i _ (get_img_at _ _ _ E) None) as [_ P0].
  destruct (drop_image_held (s_mem s) x (flat_map oowns (upd (s_imgs s) i None)) (plain_at _ _ _ F E) (held_perm _ _ _ P0 H)) as (m' & -> & H').
  apply fr_fine. split; [apply Forall_upd; cbn; auto|exact H'].
Qed.
Lemma step_rust s c : rust_ok s -> rust_only c -> fr (mstep s c) rust_ok.
Proof.
  intros K R. pose proof K as [F H]. destruct c; try destruct R; cbn [mstep].
  - apply fr_fine. split; [exact F|]. cbn [s_mem s_imgs]. exact (held_alloc _ false ps _ _ _ (surjective_pairing _) H).
  - destruct (alloc (s_mem s) true []) as [m1 b] eqn:E1. destruct (alloc m1 true _) as [m2 rb] eqn:E2. apply fr_fine. split; cbn [s_mem s_imgs add_image_m].
    + apply Forall_app. split; [exact F|]. repeat constructor.
    + rewrite flat_map_app. eapply held_perm; [apply Permutation_app_comm|]. exact (held_alloc _ _ _ _ _ _ E2 (held_alloc _ _ _ _ _ _ E1 H)).
  - destruct (alloc (s_mem s) true _) as [m1 rb] eqn:E1. apply fr_fine. split; cbn [s_mem s_imgs add_image_m].
    + apply Forall_app. split; [exact F|]. repeat constructor.
    + rewrite flat_map_app. eapply held_perm; [apply Permutation_app_comm|]. destruct p. exact (held_alloc _ _ _ _ _ _ E1 H).
  - apply fr_fine. split; cbn [s_mem s_imgs add_image_m]; [apply Forall_app; split; [exact F|repeat constructor]|]. rewrite flat_map_app. cbn. rewrite app_nil_r. exact H.
  - destruct (get_img s i) as [x|] eqn:E; [|apply fr_fine; exact K]. eapply fr_bind; [apply (clone_image_held _ x _ (plain_at _ _ _ F E) H)|].
    intros [m1 x1] [P1 H1]. apply fr_fine. cbn [fst snd] in *. split; cbn [s_mem s_imgs]; [apply Forall_app; split; [exact F|repeat constructor; apply P1]|].
    rewrite flat_map_app. eapply held_perm; [apply Permutation_app_comm|]. cbn [flat_map oowns]. rewrite app_nil_r. exact H1.
  - destruct (get_img s i) as [x|] eqn:E; [apply drop_img_ok; auto|apply fr_fine; exact K].
  - destruct (get_img s i) as [x|] eqn:E; [|apply fr_fine; exact K]. destruct (get_img s j) as [y|] eqn:E2; [|apply fr_fine; exact K].
    destruct (Nat.eqb_spec i j) as [Q|Q]; [apply fr_fine; exact K|]. destruct (g_bg y) as [yb|] eqn:YB; [apply drop_img_ok; auto|].
    destruct (_ && _)%bool; [|apply drop_img_ok; auto].
    destruct (take_img _ j _ (get_img_at _ _ _ E2) None) as [_ P1]. set (l1 := upd (s_imgs s) j None) in *.
    assert (N1 : nth_error l1 i = Some (Some x)) by (unfold l1; rewrite nth_error_upd_neq by auto; apply get_img_at; exact E).
    destruct (take_img _ i _ N1 (Some (MImage (g_px x) (Some (g_px y))))) as [P2 P3]. set (t := flat_map oowns (upd l1 i None)) in *.
    pose proof (plain_at _ _ _ F E) as [X1 X2]. pose proof (plain_at _ _ _ F E2) as [Y1 _].
    assert (H2 : held (s_mem s) (match g_bg x with Some b => owns b | None => [] end ++ (owns (g_px x) ++ owns (g_px y)) ++ t)).
    { eapply held_perm; [|exact H]. rewrite P1, P3. cbn [oowns]. unfold iowns. rewrite YB, app_nil_r, <- !app_assoc.
      etransitivity; [apply Permutation_app_swap_app|]. etransitivity; [|apply Permutation_app_swap_app]. apply Permutation_app_head. apply Permutation_app_swap_app. }
    assert (D : exists m', match g_bg x with Some old => drop_src (s_mem s) (r_src old) | None => Fine (s_mem s) end = Fine m' /\ held m' ((owns (g_px x) ++ owns (g_px y)) ++ t)).
    { destruct (g_bg x) as [b|]; [apply drop_src_held; auto|eauto]. }
    destruct D as (m' & -> & H3). apply fr_fine. split; cbn [put s_mem s_imgs].
    + apply Forall_upd; [apply Forall_upd; cbn; auto|]. split; cbn; auto.
    + eapply held_perm; [symmetry; exact P2|]. exact H3.
  - apply run_img; [exact K|]. apply Forall_firstn', good_quantize.
  - apply run_img; [exact K|]. apply Forall_firstn', good_remap.
Qed.
Lemma run_rust cs : forall s, rust_ok s -> Forall rust_only cs -> fr (mrun s cs) rust_ok.
Proof. induction cs as [|c cs IH]; intros s K F; cbn [mrun]; [apply fr_fine; exact K|]. inversion F; subst. eapply fr_bind; [apply step_rust; auto|]. auto. Qed.
Lemma start_rust : rust_ok m_start.
Proof. split; [constructor|]. apply Permutation_refl. Qed.
Lemma oowns_rows l : flat_map oowns l = flat_map owns (allr l).
Proof.
  unfold allr. induction l as [|o l IH]; [reflexivity|]. cbn [flat_map]. rewrite flat_map_app, IH. f_equal.
  destruct o as [x|]; [|reflexivity]. cbn. unfold iowns. destruct (g_bg x); cbn; rewrite ?app_nil_r; reflexivity.
Qed.
Lemma rust_ok_says s : rust_ok s -> NoDup (flat_map owns (allr (s_imgs s))) /\
    (forall b, live (s_mem s) b = true /\ is_lib (s_mem s) b = true <-> exists r, In r (allr (s_imgs s)) /\ In b (owns r)) /\
    ((forall i, get_img s i = None) -> forall b, live (s_mem s) b = true -> is_lib (s_mem s) b = false).
Proof.
  intros [_ H]. rewrite oowns_rows in H.
  assert (Q : forall b, live (s_mem s) b = true /\ is_lib (s_mem s) b = true <-> exists r, In r (allr (s_imgs s)) /\ In b (owns r)).
  { intros b. rewrite <- lib_live_In, <- in_flat_map. split; apply Permutation_in; [symmetry|]; exact H. }
  split; [eapply Permutation_NoDup; [symmetry; exact H|apply lib_live_NoDup]|]. split; [exact Q|].
  intros N b L. destruct (is_lib (s_mem s) b) eqn:B; [|reflexivity]. exfalso. destruct (proj1 (Q b) (conj L B)) as (r & R & _).
  unfold allr in R. apply in_flat_map in R as (o & O & R). apply In_nth_error in O as (i & O). specialize (N i). unfold get_img in N. rewrite O in N. destruct o; [discriminate|destruct R].
Qed.
