(** What the progress callback is told and what happens when it breaks; any
    arithmetic. *)
From Verif Require Import Base BaseFacts Arith Order Pal World Attr Hist MedianCut Nearest Kmeans Blur ImageM Quant Remap
  AttrFacts SpecHist SpecImage ImageFacts HistFacts MedianFacts SearchFacts QuantFacts RemapFacts Api ApiFacts SpecProgress.
Open Scope nat_scope.

(** * Calls of the callback *)
Section Told.
Context {A : Arith}.
(** Every one of the calls [l] (most recent first), made after [b], satisfies
    [P history number]. *)
Fixpoint calls (P : list f32 -> f32 -> Prop) (b l : list f32) : Prop :=
  match l with
  | [] => True
  | p :: t => P (t ++ b) p /\ calls P b t
  end.
Lemma calls_app P b l1 l2 : calls P b (l1 ++ l2) <-> calls P (l2 ++ b) l1 /\ calls P b l2.
Proof. induction l1 as [|p l IH]; cbn; [tauto|]. rewrite IH, <- app_assoc. tauto. Qed.
Lemma calls_impl (P Q : list f32 -> f32 -> Prop) b l : (forall t p, P t p -> Q t p) -> calls P b l -> calls Q b l.
Proof. intros H. induction l as [|p l IH]; cbn; [auto|]. intros [H1 H2]. auto. Qed.
Lemma calls_const (P : f32 -> Prop) b l : calls (fun _ p => P p) b l <-> Forall P l.
Proof.
  induction l as [|p l IH]; cbn; [split; auto|]. rewrite IH. split; [intros [? ?]; auto|]. intros H. apply Forall_cons_iff in H. auto.
Qed.

Section Track.
Context {St : Type}.
Variable tr : St -> list f32.
Variable P : list f32 -> f32 -> Prop.

(** [told m s]: all calls made by [m] from state [s] satisfy [P]. *)
Definition told {T} (m : ST St T) (s : St) : Prop :=
  exists l, tr (snd (m s)) = l ++ tr s /\ calls P (tr s) l.
Lemma told_same {T} (m : ST St T) s : tr (snd (m s)) = tr s -> told m s.
Proof. intros H. exists []. cbn. auto. Qed.
Lemma told_bind {T V} (m : ST St T) (k : T -> ST St V) s : told m s ->
  (forall a s', m s = (Ok a, s') -> told (k a) s') -> told (sbind m k) s.
Proof.
  intros (l & E & F) K. unfold told, sbind. destruct (m s) as [[a|e|] s'] eqn:Em; cbn [snd] in *; try (exists l; split; auto; fail).
  destruct (K a s' eq_refl) as (l2 & E2 & F2). exists (l2 ++ l). rewrite E2, E, app_assoc. split; auto.
  apply calls_app. rewrite <- E. auto.
Qed.
(** The same unless the run is aborted. *)
Definition told_ok {T} (m : ST St T) (s : St) : Prop :=
  fst (m s) <> Err Aborted -> told m s.
Lemma told_ok_same {T} (m : ST St T) s : tr (snd (m s)) = tr s -> told_ok m s.
Proof. intros H _. apply told_same. auto. Qed.
Lemma told_ok_bind {T V} (m : ST St T) (k : T -> ST St V) s : told_ok m s ->
  (forall a s', m s = (Ok a, s') -> told_ok (k a) s') -> told_ok (sbind m k) s.
Proof.
  unfold told_ok, told, sbind. intros M K. destruct (m s) as [[a|e|] s'] eqn:Em; cbn [fst snd] in *; intros N; auto.
  - destruct (M ltac:(discriminate)) as (l & E1 & F1). destruct (K a s' eq_refl N) as (l2 & E2 & F2).
    exists (l2 ++ l). rewrite E2, E1, app_assoc. split; auto. apply calls_app. rewrite <- E1. auto.
  - apply M. congruence.
  - apply M. congruence.
Qed.
End Track.

Lemma told_progress cb (P : list f32 -> f32 -> Prop) pct w : P (w_trace w) pct -> told w_trace P (progress cb pct) w.
Proof. intros H. exists [pct]. cbn. auto. Qed.

(** * Numbers told while quantizing *)
Inductive quant_pct (a : attrs) : f32 -> Prop :=
| qp_add : quant_pct a (fofZ (a_st1 a) *f flit 40 100)
| qp_zero : quant_pct a f0
| qp_final : quant_pct a (fofZ (a_st1 a) *f flit 89 100)
| qp_stage1 : quant_pct a (fofZ (a_st1 a))
| qp_search left total : (0 < left <= total)%Z -> (total <= 47)%Z ->
    quant_pct a (let q := fofZ left /f fofZ (total + 1) in
                 ffma (ffma q (fneg q) f1) (fofZ (a_st2 a)) (fofZ (a_st1 a)))
| qp_refine i it : (0 <= i < it)%Z -> (it <= 31)%Z ->
    quant_pct a (ffma (fofZ i /f fofZ it *f fofZ (a_st3 a)) (flit 89 100) (fofZ (a_st1 a) +f fofZ (a_st2 a)))
| qp_end : quant_pct a (ffma (fofZ (a_st3 a)) (flit 95 100) (fofZ (a_st1 a) +f fofZ (a_st2 a))).

Section Quantize.
Variable u : unspec.
Variable cb : callback.
Variable a : attrs.
Let P (_ : list f32) (p : f32) : Prop := quant_pct a p.
Let tells {T} (m : ST world T) s := told w_trace P m s.

Lemma iteration_tells h (p : palf) b w : tells (iteration u h p b) w.
Proof. apply told_same. unfold iteration, sbind, tick, slift. reflexivity. Qed.
Lemma refine_tells it lim mm : (it <= 31)%Z -> forall fuel i h (p : palf) err w, (0 <= i)%Z -> tells (refine_loop u cb fuel a it lim mm i h p err) w.
Proof.
  intros Hit. induction fuel as [|f IH]; intros i h p err w Hi; cbn [refine_loop]; destruct (Z.ltb_spec i it); try (apply told_same; reflexivity).
  apply told_bind; [apply told_progress; constructor; lia|]. intros [] s' _; [apply told_same; reflexivity|].
  apply told_bind; [apply iteration_tells|]. intros [[e h'] p'] s2 _.
  destruct (match err with Some prev => _ | None => false end); [apply told_same; reflexivity|]. apply IH. destruct (_ <d e); lia.
Qed.
Lemma search_tells total tmse : (total <= 47)%Z -> forall fuel h mc left best over fails err w, (left <= total)%Z -> (0 <= fails)%Z ->
  tells (search_loop u cb fuel a total tmse h mc left best over fails err) w.
Proof.
  intros Ht. induction fuel as [|f IH]; intros h mc left best over fails err w Hl Hf; cbn [search_loop]; [apply told_same; reflexivity|]. cbv zeta.
  apply told_bind; [apply told_same; reflexivity|]. intros [p0 h1] s1 _. apply told_bind; [apply told_same; reflexivity|]. intros p1 s2 _.
  destruct (Z.leb_spec left 0); [apply told_same; reflexivity|].
  apply told_bind; [apply iteration_tells|]. intros [[e h2] p2] s3 _.
  set (better := (_ || _)%bool).
  match goal with |- context [if better then ?x else ?y] => set (X := x); set (Y := y) end.
  assert (G : exists best' over' mc' fails' left' err', (if better then X else Y) = (best', over', mc', fails', left', err') /\ (left' < left)%Z /\ (0 <= fails')%Z).
  { destruct better; do 6 eexists; (split; [reflexivity|]); lia. }
  destruct G as (best' & over' & mc' & fails' & left' & err' & -> & L & F').
  apply told_bind.
  { apply told_progress. rewrite Z.max_l by lia. apply (qp_search a left total); lia. }
  intros [] s4 _; cbn [orb]; [apply told_same; reflexivity|]. destruct (left' <=? 0)%Z; [apply told_same; reflexivity|]. apply IH; lia.
Qed.

Hypothesis Ha : attrs_ok a.
Lemma iterations_bound n known : (0 <= fst (kmeans_iterations a n known) <= 31)%Z.
Proof. pose proof (passes_bounded a n n known (ao_plan a Ha) (le_n n)) as B. unfold search_passes, refine_passes in B. lia. Qed.
Lemma trials_bound n : (0 <= feedback_loop_trials a n <= 47)%Z.
Proof. pose proof (passes_bounded a n n true (ao_plan a Ha) (le_n n)) as B. unfold search_passes, refine_passes in B. lia. Qed.
Lemma find_best_tells tm pf mm h w : tells (find_best_palette u cb a tm pf mm h) w.
Proof.
  unfold find_best_palette. destruct (_ && _)%bool; [apply told_same; reflexivity|]. cbv zeta.
  apply told_bind.
  { apply search_tells; [apply trials_bound|lia|lia]. }
  intros [[h' best] err] s1 _. destruct best as [p|]; [|apply told_same; reflexivity].
  apply told_bind; [|intros [[h2 p'] e'] s2 _; apply told_same; reflexivity].
  unfold refine_palette. pose proof (iterations_bound (length (hi_items h')) (match err with Some _ => true | None => false end)) as B.
  destruct (kmeans_iterations a _ _) as [it lim]. apply refine_tells; cbn in B; lia.
Qed.
Lemma result_new_tells h fz g w : tells (result_new u cb a h fz g) w.
Proof.
  unfold result_new. apply told_bind; [apply told_progress; constructor|]. intros [] s1 _; [apply told_same; reflexivity|].
  destruct (target_mse a _) as [[mm tm] pf]. apply told_bind; [apply find_best_tells|]. intros [p err] s2 _. cbv zeta.
  apply told_bind; [apply told_progress; constructor|]. intros [] s3 _; [apply told_same; reflexivity|].
  destruct (match err with Some _ => _ | None => _ end); [apply told_same; reflexivity|].
  apply told_bind; [apply told_same; reflexivity|]. intros p2 s4 _. apply told_same; reflexivity.
Qed.
Lemma quantize_internal_tells fz h w : exists l, w_trace (snd (snd (quantize_internal u cb a fz (h, w)))) = l ++ w_trace w /\ Forall (quant_pct a) l.
Proof.
  unfold quantize_internal. destruct (match hg_map h with [] => _ | _ => _ end); [exists []; cbn; auto|].
  unfold progress. destruct (cb (w_trace w) f0); [exists [f0]; cbn; split; auto; repeat constructor|]. cbn [w_trace].
  destruct (cb (f0 :: w_trace w) _).
  { eexists [_; f0]. cbn. split; [reflexivity|]. constructor; [apply qp_final|]. constructor; [apply qp_zero|auto]. }
  destruct (finalize_builder u h _) as [hi h']. set (w2 := World _ _).
  destruct (result_new_tells hi fz (unwrap_or (hg_gamma h) (dlit 45455 100000)) w2) as (l & E & F).
  destruct (result_new u cb a hi fz _ w2) as [r w3]. cbn [snd] in *. exists (l ++ [fofZ (a_st1 a) *f flit 89 100; f0]). rewrite E. cbn [w2 w_trace].
  rewrite <- app_assoc. split; [reflexivity|]. apply Forall_app. split; [apply (calls_const (quant_pct a)) in F; auto|].
  constructor; [apply qp_final|]. constructor; [apply qp_zero|auto].
Qed.
Lemma add_image_tells h i w : exists l, w_trace (snd (snd (add_image u cb a (h, i, w)))) = l ++ w_trace w /\ Forall (quant_pct a) l.
Proof.
  unfold add_image. destruct (match i_imp i with None => _ | Some _ => _ end) as [i1|e|]; [|exists []; cbn; auto..].
  cbv zeta. unfold progress. destruct (cb _ _).
  - eexists [_]. cbn. split; [reflexivity|]. constructor; [apply qp_add|auto].
  - destruct (all_rgba_rows _); (eexists [_]; cbn; split; [reflexivity|]; constructor; [apply qp_add|auto]).
Qed.
Lemma quantize_tells i w : exists l, w_trace (snd (snd (quantize u cb a (i, w)))) = l ++ w_trace w /\ Forall (quant_pct a) l.
Proof.
  unfold quantize. destruct (add_image_tells (hist_new a) i w) as (l & E & F).
  destruct (add_image u cb a (hist_new a, i, w)) as [[t|e|] [[h i'] w']]; cbn [snd] in *; [|exists l; auto..].
  destruct (quantize_internal_tells false h w') as (l2 & E2 & F2).
  destruct (quantize_internal u cb a false (h, w')) as [r [h2 w2]]. cbn [snd] in *. exists (l2 ++ l). rewrite E2, E, app_assoc. split; auto.
  apply Forall_app; auto.
Qed.
End Quantize.

(** * A callback that keeps breaking *)
Lemma latched cb b t p : latching cb -> broke cb b (p :: t) -> cb t p = true.
Proof.
  intros L (l1 & p0 & l2 & E & H). destruct l1 as [|p1 l1]; cbn in E; injection E as E1 E2; [congruence|].
  subst p1 t. clear -L H. revert p. induction l1 as [|q l IH]; intros p; cbn; apply L; [exact H|apply IH].
Qed.
(** Nothing was told since [b], or the last call did not ask to stop. *)
Definition goes_on (cb : callback) (b t : list f32) : Prop := t = b \/ exists p t0, t = p :: t0 /\ cb t0 p = false.
Lemma goes_on_not_broke cb b t : latching cb -> goes_on cb b t -> ~ broke cb b t.
Proof.
  intros L [-> | (p & t0 & -> & H)] B.
  - destruct B as (l1 & p & l2 & E & _). apply (f_equal (@length _)) in E. repeat (rewrite ?app_length in E; cbn in E). lia.
  - pose proof (latched cb b t0 p L B). congruence.
Qed.

Lemma goes_on_trans cb b t t' : goes_on cb b t -> goes_on cb t t' -> goes_on cb b t'.
Proof. intros H [-> | G]; auto. right. auto. Qed.

Section Break.
Variable u : unspec.
Variable U : unspec_ok u.
Variable cb : callback.
Variable a : attrs.
Hypothesis Ha : 1 <= a_max_colors a <= 256.
Definition ended (b : list f32) {T} (x : res T * world) : Prop := fst x = Err Aborted \/ goes_on cb b (w_trace (snd x)).
Lemma result_new_goes h fz g w b : hint_ok h -> ended b (result_new u cb a h fz g w).
Proof.
  intros Hh. unfold result_new. unfold sbind at 1, progress at 1. destruct (cb (w_trace w) _); [left; reflexivity|].
  destruct (target_mse a _) as [[mm tm] pf]. unfold sbind at 1.
  pose proof (find_best_palette_ok u U cb a tm pf mm h (World (fofZ (a_st1 a) :: w_trace w) (w_tick w)) Ha Hh) as R. unfold runs in R.
  destruct (find_best_palette u cb a tm pf mm h _) as [[[p err]|e|] w1]; [|contradiction..].
  cbv zeta. unfold sbind, progress. match goal with |- context [if cb ?t ?q then _ else _] => destruct (cb t q) eqn:C end; [left; reflexivity|].
  right. right. destruct (match err with Some e => match mm with Some m => m <d e | None => false end | None => false end).
  - unfold serr. cbn [snd w_trace]. do 2 eexists. split; [reflexivity|exact C].
  - unfold slift. destruct (sort_palette a _); cbn [snd w_trace sret]; (do 2 eexists; split; [reflexivity|exact C]).
Qed.
Lemma quantize_internal_goes fz h w : hist_wf h ->
  fst (quantize_internal u cb a fz (h, w)) = Err Aborted \/
  goes_on cb (w_trace w) (w_trace (snd (snd (quantize_internal u cb a fz (h, w))))).
Proof.
  intros W. unfold quantize_internal.
  destruct (match hg_map h, hg_fixed h with [], [] => true | _, _ => false end) eqn:Em; [right; left; reflexivity|].
  assert (NE : hg_map h <> [] \/ hg_fixed h <> []).
  { destruct (hg_map h); [|left; congruence]. destruct (hg_fixed h); [discriminate|right; congruence]. }
  unfold progress. destruct (cb (w_trace w) f0); [left; reflexivity|]. cbn [w_trace]. destruct (cb (f0 :: w_trace w) _); [left; reflexivity|].
  pose proof (finalize_ok u U h (unwrap_or (hg_gamma h) (dlit 45455 100000)) W NE) as (HO & _). cbv zeta.
  destruct (finalize_builder u h _) as [hi h']. cbn [fst] in HO.
  match goal with |- context [result_new u cb a hi fz ?g ?w0] => pose proof (result_new_goes hi fz g w0 (w_trace w) HO) as G; destruct (result_new u cb a hi fz g w0) as [r w3] end.
  cbn [fst snd] in *. exact G.
Qed.
Lemma add_image_goes h i w :
  fst (add_image u cb a (h, i, w)) = Err Aborted \/
  goes_on cb (w_trace w) (w_trace (snd (snd (add_image u cb a (h, i, w))))).
Proof.
  unfold add_image. destruct (match i_imp i with None => _ | Some _ => _ end) as [i1|e|]; [|right; left; reflexivity..].
  cbv zeta. unfold progress. match goal with |- context [cb ?t ?p] => destruct (cb t p) eqn:C end; [left; reflexivity|].
  right. right. destruct (all_rgba_rows _); cbn [snd w_trace]; (do 2 eexists; split; [reflexivity|exact C]).
Qed.
Lemma quantize_goes (C : CastLaws A) i w pxs : image_ok i pxs ->
  fst (quantize u cb a (i, w)) = Err Aborted \/
  goes_on cb (w_trace w) (w_trace (snd (snd (quantize u cb a (i, w))))).
Proof.
  intros I. unfold quantize. pose proof (add_image_ok u cb a (hist_new a) i w pxs U I (hist_new_wf a)) as P.
  pose proof (add_image_goes (hist_new a) i w) as G.
  destruct (add_image u cb a (hist_new a, i, w)) as [[[]|e|] [[h' i'] w']]; cbn [fst snd] in *; [|destruct G as [G|G]; [left; congruence|auto]..].
  destruct G as [G|G]; [discriminate|]. destruct P as (P1 & _).
  pose proof (quantize_internal_goes false h' w' P1) as Q. destruct (quantize_internal u cb a false (h', w')) as [r [h2 w2]]. cbn [fst snd] in *.
  destruct Q as [Q|Q]; [left; auto|right]. eapply goes_on_trans; eauto.
Qed.
End Break.

Lemma abort_image (C : CastLaws A) u cb a i pxs w : unspec_ok u -> usable a -> image_r i pxs -> latching cb ->
  broke cb (w_trace w) (w_trace (snd (snd (quantize u cb a (i, w))))) -> fst (quantize u cb a (i, w)) = Err Aborted.
Proof.
  intros U Ha R L B. destruct (quantize_goes u U cb a (usable_colors a Ha) C i w pxs) as [G|G]; auto.
  - apply (proj1 (proj2 objects_ok)). exact R.
  - destruct (goes_on_not_broke _ _ _ L G B).
Qed.
Lemma abort_hist (C : CastLaws A) u cb a h w : unspec_ok u -> usable a -> hist_r h -> latching cb ->
  broke cb (w_trace w) (w_trace (snd (snd (hist_quantize u cb a (h, w))))) -> fst (hist_quantize u cb a (h, w)) = Err Aborted.
Proof.
  intros U Ha R L B. destruct (quantize_internal_goes u U cb a (usable_colors a Ha) true h w) as [G|G]; auto.
  - apply (proj1 objects_ok). exact R.
  - destruct (goes_on_not_broke _ _ _ L G B).
Qed.
Lemma abort_add_image u cb a h i w :
  broke cb (w_trace w) (w_trace (snd (snd (add_image u cb a (h, i, w))))) -> fst (add_image u cb a (h, i, w)) = Err Aborted.
Proof.
  unfold add_image. assert (N : forall b, ~ broke cb b b).
  { intros b (l1 & p & l2 & E & _). apply (f_equal (@length _)) in E. repeat (rewrite ?app_length in E; cbn in E). lia. }
  destruct (match i_imp i with None => _ | Some _ => _ end) as [i1|e|]; cbn [snd]; intros B; [|destruct (N _ B)..].
  cbv zeta in *. unfold progress in *. match goal with |- context [cb ?t ?p] => destruct (cb t p) eqn:X end; [reflexivity|].
  exfalso. destruct (all_rgba_rows _); cbn [snd w_trace] in B; (destruct B as (l1 & p & l2 & E & H); destruct l1 as [|p1 l1]; cbn in E; injection E as E1 E2;
    [apply (f_equal (@length _)) in E2 as E3; rewrite app_length in E3; destruct l2; cbn in *; [congruence|lia]
    |apply (f_equal (@length _)) in E2; repeat (rewrite ?app_length in E2; cbn in E2); lia]).
Qed.

(** * Remapping *)
(** Every call made while remapping returned [Continue], if the remap succeeds. *)
Section RemapBreak.
Variable u : unspec.
Variable rcb : callback.
Let Q (t : list f32) (p : f32) : Prop := rcb t p = false.
Let rtr (s : rst) := w_trace (r_w s).
Let quiet {T} (m : ST rst T) s := told_ok rtr Q m s.
Lemma quiet_lift {T} (r : res T) s : quiet (slift r) s. Proof. apply told_ok_same. reflexivity. Qed.
Lemma quiet_same {T} (m : ST rst T) s : rtr (snd (m s)) = rtr s -> quiet m s. Proof. apply told_ok_same. Qed.
Lemma quiet_progress {T} pct (k : ST rst T) (f : ST rst T) s : (forall s, fst (k s) = Err Aborted) -> (forall s, quiet f s) ->
  quiet (stop <~ on_world (progress rcb pct) ;; if (stop : bool) then k else f) s.
Proof.
  intros K F. unfold quiet, told_ok, told, sbind, on_world, progress. destruct (rcb (w_trace (r_w s)) pct) eqn:C; [intros N; destruct (N (K _))|].
  intros N. destruct (F _ N) as (l & E1 & F1). unfold rtr in *. cbn [r_w w_trace] in E1, F1. exists (l ++ [pct]). rewrite <- app_assoc. split; auto.
  apply calls_app. cbn. auto.
Qed.
Lemma quiet_prepare_image s : quiet prepare_image s.
Proof. apply told_ok_same. unfold prepare_image, sbind, sget, slift, put_img, smod. destruct (prepare_iter _ _); reflexivity. Qed.
Lemma quiet_prepare_bg s : quiet prepare_bg s.
Proof.
  apply told_ok_same. unfold prepare_bg, sbind, sget, slift, put_img, smod. destruct (i_bg _); [|reflexivity]. destruct (prepare_iter _ _); reflexivity.
Qed.
Lemma quiet_remap b (p : palf) s : quiet (remap_to_palette u b p) s.
Proof.
  unfold remap_to_palette. apply told_ok_bind; [apply quiet_lift|]. intros n s1 _. apply told_ok_bind; [apply quiet_prepare_image|]. intros [] s2 _.
  apply told_ok_bind; [destruct b; [apply quiet_prepare_bg|apply told_ok_same; reflexivity]|]. intros [] s3 _.
  apply told_ok_bind; [apply told_ok_same; reflexivity|]. intros s4 s5 _. cbv zeta.
  apply told_ok_bind; [apply told_ok_same; reflexivity|]. intros t s6 _.
  apply told_ok_bind; [apply quiet_lift|]. intros [[o e] p'] s7 _.
  apply told_ok_bind; [apply told_ok_same; reflexivity|]. intros [] s8 _. destruct (dis_nan e); apply told_ok_same; reflexivity.
Qed.
Lemma quiet_chunks E d bg dm st1 h cs : forall start done s, quiet (floyd_chunks u rcb E d bg dm st1 h start done cs) s.
Proof.
  induction cs as [|c cs IH]; intros start done s; cbn [floyd_chunks]; [apply told_ok_same; reflexivity|].
  apply told_ok_bind; [apply told_ok_same; reflexivity|]. intros k s1 _. apply told_ok_bind; [apply quiet_lift|]. intros dif s2 _.
  apply quiet_progress.
  - reflexivity.
  - intros t. apply told_ok_bind; [apply quiet_lift|]. intros o s3 _. apply IH.
Qed.
Lemma quiet_floyd (p : palf) me rm s : quiet (floyd u rcb p me rm) s.
Proof.
  unfold floyd. apply told_ok_bind; [apply told_ok_same; reflexivity|]. intros s1 s2 _. cbv zeta.
  apply told_ok_bind; [apply quiet_lift|]. intros n s3 _. apply told_ok_bind; [apply quiet_prepare_bg|]. intros [] s4 _.
  apply told_ok_bind; [apply quiet_lift|]. intros tc s5 _. apply told_ok_bind; [apply quiet_prepare_image|]. intros [] s6 _.
  apply told_ok_bind; [apply told_ok_same; reflexivity|]. intros s7 s8 _. apply quiet_chunks.
Qed.
Lemma quiet_dither_map m b (p : palf) s : quiet (optionally_generate_dither_map u m b p) s.
Proof.
  unfold optionally_generate_dither_map. apply told_ok_bind; [apply told_ok_same; reflexivity|]. intros s1 s2 _. cbv zeta.
  destruct (negb _); [apply told_ok_same; reflexivity|]. apply told_ok_bind; [apply quiet_remap|]. intros [err p'] s3 _.
  apply told_ok_bind; [apply told_ok_same; reflexivity|]. intros s4 s5 _. apply told_ok_bind; [apply quiet_lift|]. intros i' s6 _.
  apply told_ok_bind; [apply told_ok_same; reflexivity|]. intros [] s7 _. apply told_ok_same; reflexivity.
Qed.
Lemma quiet_write s : quiet (write_remapped u rcb) s.
Proof.
  unfold write_remapped. apply told_ok_bind; [apply told_ok_same; reflexivity|]. intros s1 s2 _. cbv zeta.
  apply quiet_progress; [reflexivity|]. intros s3.
  apply told_ok_bind; [apply told_ok_same; reflexivity|]. intros [] s4 _. destruct (q_dither (r_q s1) =f f0).
  - destruct (init_int_palette _ _ _) as [p ip]. apply told_ok_bind; [apply quiet_remap|]. intros [err p'] s5 _. apply told_ok_same; reflexivity.
  - apply told_ok_bind; [apply quiet_dither_map|]. intros [me p] s5 _. apply quiet_progress; [reflexivity|]. intros s6.
    cbv zeta. destruct (init_int_palette _ _ _) as [p' ip]. apply told_ok_bind; [apply quiet_floyd|]. intros [] s7 _. apply told_ok_same; reflexivity.
Qed.
Lemma remap_quiet q i buf w : fst (remap_into u rcb q i buf w) <> Err Aborted ->
  exists l, w_trace (snd (snd (remap_into u rcb q i buf w))) = l ++ w_trace w /\ calls (fun t p => rcb t p = false) (w_trace w) l.
Proof.
  unfold remap_into. destruct (Nat.ltb _ _); [exists []; cbn; auto|]. cbv zeta.
  pose proof (quiet_write (RSt q i (chunks_exact (i_w i) (firstn (i_w i * i_h i) buf)) w)) as G. unfold quiet, told_ok, told, rtr in G. cbn [r_w] in G.
  destruct (write_remapped u rcb _) as [r s]. cbn [fst snd] in *. exact G.
Qed.
End RemapBreak.
(** A single request to stop is enough. *)
Lemma calls_not_broke cb b l : calls (fun t p => cb t p = false) b l -> ~ broke cb b (l ++ b).
Proof.
  intros C (l1 & p & l2 & E & H). change (p :: l2 ++ b) with ((p :: l2) ++ b) in E. rewrite app_assoc in E. apply app_inv_tail in E. subst l.
  apply calls_app in C as [_ [C _]]. congruence.
Qed.
Lemma abort_remap u cb q i buf w :
  broke cb (w_trace w) (w_trace (snd (snd (remap_into u cb q i buf w)))) -> fst (remap_into u cb q i buf w) = Err Aborted.
Proof.
  intros B. assert (D : fst (remap_into u cb q i buf w) = Err Aborted \/ fst (remap_into u cb q i buf w) <> Err Aborted).
  { destruct (fst (remap_into u cb q i buf w)) as [x|[]|]; auto; right; congruence. }
  destruct D as [D|D]; auto. exfalso. destruct (remap_quiet u cb q i buf w D) as (l & E1 & F). rewrite E1 in B. exact (calls_not_broke cb _ l F B).
Qed.

(** * Numbers told while remapping an image with [h] rows on [cpus] threads *)
Inductive remap_pct (cpus h : nat) : f32 -> Prop :=
| rp_start st1 : st1 = 0%Z \/ st1 = 20%Z -> remap_pct cpus h (fofZ st1 *f flit 25 100)
| rp_mapped st1 : st1 = 0%Z \/ st1 = 20%Z -> remap_pct cpus h (fofZ st1 *f flit 5 10)
| rp_chunk st1 nc j : st1 = 0%Z \/ st1 = 20%Z -> 1 <= nc <= Nat.max 1 cpus -> j * ((h + nc - 1) / nc) < h ->
    remap_pct cpus h (fofZ st1 +f fofZ (Z.of_nat (j * ((h + nc - 1) / nc))) *f (fofZ 100 -f fofZ st1) /f fofZ (Z.of_nat h)).
Section RemapTold.
Variable u : unspec.
Variable U : unspec_ok u.
Variable rcb : callback.
Let rtr (s : rst) := w_trace (r_w s).
Let tells h {T} (m : ST rst T) s := told rtr (fun _ p => remap_pct (u_cpus u) h p) m s.
Lemma rtells_progress h pct s : remap_pct (u_cpus u) h pct -> tells h (on_world (progress rcb pct)) s.
Proof. intros H. exists [pct]. cbn. auto. Qed.
Lemma rtells_prepare_image h s : tells h prepare_image s.
Proof. apply told_same. unfold prepare_image, sbind, sget, slift, put_img, smod. destruct (prepare_iter _ _); reflexivity. Qed.
Lemma rtells_prepare_bg h s : tells h prepare_bg s.
Proof.
  apply told_same. unfold prepare_bg, sbind, sget, slift, put_img, smod. destruct (i_bg _); [|reflexivity]. destruct (prepare_iter _ _); reflexivity.
Qed.
Lemma rtells_remap h b (p : palf) s : tells h (remap_to_palette u b p) s.
Proof.
  unfold remap_to_palette. apply told_bind; [apply told_same; reflexivity|]. intros n s1 _. apply told_bind; [apply rtells_prepare_image|]. intros [] s2 _.
  apply told_bind; [destruct b; [apply rtells_prepare_bg|apply told_same; reflexivity]|]. intros [] s3 _.
  apply told_bind; [apply told_same; reflexivity|]. intros s4 s5 _. cbv zeta.
  apply told_bind; [apply told_same; reflexivity|]. intros t s6 _.
  apply told_bind; [apply told_same; reflexivity|]. intros [[o e] p'] s7 _.
  apply told_bind; [apply told_same; reflexivity|]. intros [] s8 _. destruct (dis_nan e); apply told_same; reflexivity.
Qed.
Lemma rtells_chunks E d bg dm st1 h nc out : let size := (h + nc - 1) / nc in st1 = 0%Z \/ st1 = 20%Z -> 0 < size -> 1 <= nc <= Nat.max 1 (u_cpus u) ->
  forall j done s, j * size + length out = h ->
  tells h (floyd_chunks u rcb E d bg dm st1 h (j * size) done (chunks size out)) s.
Proof.
  intros size H1 HS HN. induction out as [|l Hl IH] using (chunks_ind size HS); intros j done s L.
  - rewrite chunks_nil. apply told_same; reflexivity.
  - rewrite chunks_cons by auto. cbn [floyd_chunks]. assert (0 < length l) by (destruct l; [congruence|cbn; lia]).
    apply told_bind; [apply told_same; reflexivity|]. intros k s1 _. apply told_bind; [apply told_same; reflexivity|]. intros dif s2 _.
    apply told_bind; [apply rtells_progress; apply rp_chunk; auto; fold size; lia|].
    intros [] s3 _; [apply told_same; reflexivity|]. apply told_bind; [apply told_same; reflexivity|]. intros o s4 _.
    destruct (Nat.le_gt_cases (length l) size) as [X|X].
    + rewrite (skipn_all2 l) by lia. rewrite chunks_nil. apply told_same; reflexivity.
    + rewrite firstn_length_le by lia. replace (j * size + size) with (S j * size) by lia. apply IH. rewrite skipn_length. lia.
Qed.
Lemma chunk_count single w h : 1 <= num_chunks u single w h <= Nat.max 1 (u_cpus u).
Proof.
  split; [apply num_chunks_pos; auto|]. unfold num_chunks. destruct single; lia.
Qed.
Lemma rtells_floyd (p : palf) me rm s pxs : image_ok (r_img s) pxs -> shaped (r_img s) (r_out s) -> tells (i_h (r_img s)) (floyd u rcb p me rm) s.
Proof.
  intros I [L F]. unfold floyd. apply told_bind; [apply told_same; reflexivity|]. intros s1 s2 E. unfold sget in E. inversion E; subst s1 s2. clear E. cbv zeta.
  apply told_bind; [apply told_same; reflexivity|]. intros n s3 E. unfold slift in E. inversion E; subst s3. clear E.
  apply told_bind; [apply rtells_prepare_bg|]. intros [] s4 E4.
  apply told_bind; [apply told_same; reflexivity|]. intros tc s5 E. unfold slift in E. inversion E; subst s5. clear E.
  apply told_bind; [apply rtells_prepare_image|]. intros [] s6 E6.
  apply told_bind; [apply told_same; reflexivity|]. intros s7 s8 E. unfold sget in E. inversion E; subst s7 s8. clear E.
  assert (D4 : i_h (r_img s4) = i_h (r_img s) /\ r_out s4 = r_out s).
  { unfold prepare_bg, sbind, sget, slift, put_img, smod, sret in E4. destruct (i_bg (r_img s)) as [b|]; [|inversion E4; auto].
    destruct (prepare_iter (i_px b) true); inversion E4. auto. }
  assert (D6 : i_h (r_img s6) = i_h (r_img s4) /\ r_out s6 = r_out s4).
  { unfold prepare_image, sbind, sget, slift, put_img, smod in E6. destruct (prepare_iter (i_px (r_img s4)) true) as [d| |] eqn:X; inversion E6; subst s6.
    cbn [r_img r_out]. split; auto. unfold i_h. cbn [set_px i_px]. unfold prepare_iter in X.
    destruct (d_f (i_px (r_img s4))); [inversion X; auto|]. destruct (_ && _)%bool; [inversion X; auto|].
    apply bind_ok in X as (rows & _ & X). inversion X. reflexivity. }
  destruct D4 as [D4 O4], D6 as [D6 O6]. assert (HH : i_h (r_img s6) = i_h (r_img s)) by congruence.
  rewrite HH, O6, O4. set (nc := num_chunks _ _ _ _). pose proof (chunk_count (q_single (r_q s)) (i_w (r_img s6)) (i_h (r_img s))) as NC. fold nc in NC.
  pose proof (sh_h _ _ (im_px _ _ I)) as HP. change (0 < i_h (r_img s)) in HP.
  refine (rtells_chunks _ _ _ _ _ _ nc _ _ _ NC 0 [] _ _).
  - destruct (dmode_is_none _); auto.
  - apply Nat.div_str_pos. lia.
  - cbn. lia.
Qed.
Lemma rtells_dither_map h m b (p : palf) s : tells h (optionally_generate_dither_map u m b p) s.
Proof.
  unfold optionally_generate_dither_map. apply told_bind; [apply told_same; reflexivity|]. intros s1 s2 _. cbv zeta.
  destruct (negb _); [apply told_same; reflexivity|]. apply told_bind; [apply rtells_remap|]. intros [err p'] s3 _.
  apply told_bind; [apply told_same; reflexivity|]. intros s4 s5 _. apply told_bind; [apply told_same; reflexivity|]. intros i' s6 _.
  apply told_bind; [apply told_same; reflexivity|]. intros [] s7 _. apply told_same; reflexivity.
Qed.
Lemma rtells_write (C : CastLaws A) q s pxs : entry_ok q s pxs -> tells (i_h (r_img s)) (write_remapped u rcb) s.
Proof.
  intros (EQ & I & SH & P). unfold write_remapped. apply told_bind; [apply told_same; reflexivity|].
  intros s1 s2 E. unfold sget in E. inversion E; subst s1 s2. clear E. cbv zeta. rewrite EQ.
  assert (ST : forall m, (if dmode_is_none m then 0%Z else 20%Z) = 0%Z \/ (if dmode_is_none m then 0%Z else 20%Z) = 20%Z) by (intros []; auto).
  apply told_bind; [apply rtells_progress; apply rp_start; auto|]. intros [] s3 E3; [apply told_same; reflexivity|].
  unfold on_world, progress in E3. inversion E3; subst s3. clear E3.
  apply told_bind; [apply told_same; reflexivity|]. intros [] s4 E4. unfold put_img, smod in E4. inversion E4; subst s4. clear E4.
  cbn [r_img r_out r_q r_w].
  destruct (q_dither q =f f0).
  - destruct (init_int_palette _ _ _) as [p ip]. apply told_bind; [apply rtells_remap|]. intros [err p'] s5 _. apply told_same; reflexivity.
  - destruct (free_keeps _ _ I) as [K0 I0]. set (s4 := RSt _ _ _ _).
    assert (SH4 : shaped (r_img s4) (r_out s4)) by (apply (shaped_keeps (r_img s)); auto).
    apply told_bind; [apply rtells_dither_map|]. intros [me p] s5 E5.
    pose proof (generate_dither_map_ok u U C (q_dmap q) (negb (is_none (i_bg (r_img s)))) (q_pal q) s4 pxs I0 SH4 P) as G. unfold runs in G.
    rewrite E5 in G. destruct G as (G1 & G2 & G3 & G4 & _).
    assert (K : keeps (r_img s) (r_img s5)) by (eapply keeps_trans; eauto).
    apply told_bind; [apply rtells_progress; apply rp_mapped; auto|]. intros [] s6 E6; [apply told_same; reflexivity|].
    unfold on_world, progress in E6. inversion E6; subst s6. clear E6.
    cbv zeta. destruct (init_int_palette _ _ _) as [p' ip]. apply told_bind; [|intros [] s7 _; apply told_same; reflexivity].
    destruct (keeps_dims _ _ K) as [_ HH]. rewrite <- HH. set (s6 := RSt _ _ _ _).
    change (i_h (r_img s5)) with (i_h (r_img s6)). apply (rtells_floyd _ _ _ s6 pxs); [exact G3|].
    apply (shaped_keeps (r_img s)); auto. apply (shaped_back _ _ _ K0 G4).
Qed.
Lemma remap_told (C : CastLaws A) m q i pxs buf w : result_r m q -> image_r i pxs ->
  exists l, w_trace (snd (snd (remap_into u rcb q i buf w))) = l ++ w_trace w /\ Forall (remap_pct (u_cpus u) (i_h i)) l.
Proof.
  intros R I. destruct objects_ok as (_ & OI & OR). pose proof (OI _ _ I) as I'. pose proof (OR _ _ R) as (L & M & _).
  unfold remap_into. destruct (Nat.ltb_spec (length buf) (i_w i * i_h i)) as [H|H]; [exists []; cbn; auto|]. cbv zeta.
  assert (Lf : length (firstn (i_w i * i_h i) buf) = i_w i * i_h i) by (rewrite firstn_length; lia).
  pose proof (sh_w _ _ (im_px _ _ I')) as HW. change (0 < i_w i) in HW.
  destruct (chunks_exact_shape (i_w i) (i_h i) (firstn (i_w i * i_h i) buf) HW Lf) as (L1 & F1 & _).
  set (s := RSt q i (chunks_exact (i_w i) (firstn (i_w i * i_h i) buf)) w).
  assert (E : entry_ok q s pxs) by (split; [reflexivity|]; split; [exact I'|]; split; [split; auto|lia]).
  destruct (rtells_write C q s pxs E) as (l & E1 & F2). destruct (write_remapped u rcb s) as [r s']. cbn [snd] in *.
  exists l. split; [exact E1|]. apply (calls_const (remap_pct (u_cpus u) (i_h i))) in F2. exact F2.
Qed.
End RemapTold.
(** Heights are 31-bit numbers. *)
Lemma height_small i pxs : image_r i pxs -> (Z.of_nat (length pxs) <= I32_MAX)%Z.
Proof.
  assert (N : forall src w h g i, (0 <= h)%Z -> image_new_internal src w h g = Ok i -> (Z.of_nat (Z.to_nat h) <= I32_MAX)%Z).
  { intros src w h g i0 H E. unfold image_new_internal, check_image_size in E. destruct (_ || _)%bool; [discriminate|].
    destruct (negb (negb _)) eqn:B; [discriminate|]. apply negb_false_iff, negb_true_iff, orb_false_iff in B as [B _].
    apply Z.ltb_ge in B. lia. }
  induction 1; auto.
  - unfold strided. rewrite map_length, seq_length. unfold image_new_stride in H3. destruct (negb _); [discriminate|].
    apply bind_ok in H3 as (src & _ & E). eauto.
  - unfold callback_rows. rewrite map_length, seq_length. unfold image_new_fn in H2. destruct (negb _) in H2; [discriminate|]. eauto.
Qed.
End Told.
