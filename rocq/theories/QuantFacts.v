(** Palette search and result construction: no panics, palette sizes, fixed
    colours; for any arithmetic. *)
From Verif Require Import Base BaseFacts Arith Pal World Attr Hist MedianCut Nearest Kmeans Blur ImageM Quant
  AttrFacts SpecHist ImageFacts HistFacts MedianFacts SearchFacts.
Open Scope nat_scope.

(** Outcome of a stateful computation: never a panic. *)
Definition runs {St T} (m : ST St T) (s : St) (Q : T -> St -> Prop) (E : error -> St -> Prop) : Prop :=
  match m s with
  | (Ok a, s') => Q a s'
  | (Err e, s') => E e s'
  | (Panic, _) => False
  end.
Lemma runs_bind {St T V} (m : ST St T) (k : T -> ST St V) s Q E :
  runs m s (fun a s' => runs (k a) s' Q E) E -> runs (sbind m k) s Q E.
Proof. unfold runs, sbind. destruct (m s) as [[a|e|] s']; auto. Qed.
Lemma runs_lift {St T} (r : res T) a (s : St) (Q : T -> St -> Prop) E : r = Ok a -> Q a s -> runs (slift r) s Q E.
Proof. intros -> H. exact H. Qed.
Lemma runs_weaken {St T} (m : ST St T) s (Q Q' : T -> St -> Prop) (E E' : error -> St -> Prop) :
  runs m s Q E -> (forall a s, Q a s -> Q' a s) -> (forall e s, E e s -> E' e s) -> runs m s Q' E'.
Proof. unfold runs. destruct (m s) as [[a|e|] s']; auto. Qed.

(** The callback asks to stop at least once. *)
Definition breaks {A : Arith} (cb : callback) : Prop := exists told pct, cb told pct = true.
Definition aborted {A : Arith} (cb : callback) (e : error) : Prop := e = Aborted /\ breaks cb.
Lemma aborted_intro {A : Arith} cb told pct : cb told pct = true -> aborted cb Aborted.
Proof. intros H. split; [reflexivity|]. exists told, pct. auto. Qed.
#[export] Hint Resolve aborted_intro : core.

Section QuantFacts.
Context {A : Arith}.
Variable u : unspec.
Variable U : unspec_ok u.
Variable cb : callback.

(** * Histograms given to the search *)
Definition hint_ok (h : hint) : Prop := clusters_fit (hi_clusters h) (length (hi_items h)) /\ 0 < length (hi_items h).
(** Same colours with the same weights, in any order. *)
Definition evolves (h h' : hint) : Prop :=
  Permutation (map core2 (hi_items h)) (map core2 (hi_items h')) /\
  hi_total h' = hi_total h /\ hi_clusters h' = hi_clusters h /\ hi_fixed h' = hi_fixed h.
Lemma evolves_refl h : evolves h h.
Proof. repeat split; auto. Qed.
Lemma evolves_trans a b c : evolves a b -> evolves b c -> evolves a c.
Proof. intros (P & T & C & F) (P' & T' & C' & F'). repeat split; try congruence. etransitivity; eauto. Qed.
Lemma evolves_length h h' : evolves h h' -> length (hi_items h') = length (hi_items h).
Proof. intros (P & _). apply Permutation_length in P. rewrite !map_length in P. auto. Qed.
Lemma evolves_ok h h' : evolves h h' -> hint_ok h -> hint_ok h'.
Proof. intros E [C L]. unfold hint_ok. rewrite (evolves_length _ _ E). destruct E as (_ & _ & -> & _). auto. Qed.
Lemma same_colors_evolves h h' : same_colors h h' -> evolves h h'.
Proof. intros (P & T & C & F). repeat split; auto. rewrite P. auto. Qed.
Lemma core_core2 l l' : Permutation (map core l) (map core l') -> Permutation (map core2 l) (map core2 l').
Proof.
  intros P. apply (Permutation_map (fun x => (fst (fst x), snd x))) in P. rewrite !map_map in P. exact P.
Qed.

(** * Palettes *)
(** Marking an entry as fixed makes it recognisable as fixed; true in IEEE and
    exact arithmetic ([FixLaw.v]). *)
Definition fix_law : Prop := forall w : f32, pop_is_fixed (pop_to_fixed w) = true.
Definition pal_ok (m : nat) (fixed : list px) (p : palf) : Prop :=
  1 <= length p <= m /\ Nat.min (length fixed) m <= length p /\ (fix_law -> has_fixed p fixed (length p)).
Lemma keeps_pal_ok m fixed p p' : keeps_fixed p p' -> pal_ok m fixed p -> pal_ok m fixed p'.
Proof.
  intros [L K] (B & M & F). split; [lia|]. split; [lia|]. intros law i c Hi Nc.
  rewrite L in Hi. destruct (F law i c Hi Nc) as (w & N). exists w. apply K; auto.
Qed.

Lemma iteration_runs h (p : palf) adjust w m fixed : m <= 256 -> pal_ok m fixed p ->
  runs (iteration u h p adjust) w (fun '(e, h', p') w' => same_colors h h' /\ pal_ok m fixed p' /\ length p' = length p /\ w_trace w' = w_trace w) (fun _ _ => False).
Proof.
  intros Hm P. unfold iteration. apply runs_bind. unfold tick, runs at 1.
  destruct (iteration_with_ok (u_batches u (w_tick w)) h p adjust) as (e & h' & p' & E & S & K).
  { destruct P; lia. }
  { intros n. apply (uo_batches u U). }
  eapply runs_lift; [exact E|]. split; auto. split; [eapply keeps_pal_ok; eauto|]. split; [apply K|]. auto.
Qed.

Lemma refine_loop_ok a m fixed fuel iterations limit mm : m <= 256 -> forall i h (p : palf) err w,
  (Z.to_nat (iterations - i) <= fuel) -> pal_ok m fixed p ->
  runs (refine_loop u cb fuel a iterations limit mm i h p err) w
    (fun '(h', p', err') w' => same_colors h h' /\ pal_ok m fixed p' /\
       (err <> None \/ (i < iterations)%Z -> ~ breaks cb -> err' <> None)) (fun _ _ => False).
Proof.
  intros Hm. induction fuel as [|f IH]; intros i h p err w Hf P; cbn [refine_loop].
  - destruct (Z.ltb_spec i iterations); [lia|]. split; [repeat split; auto|]. split; auto. intros [Q|Q]; [auto|lia].
  - destruct (Z.ltb_spec i iterations); [|split; [repeat split; auto|]; split; auto; intros [Q|Q]; [auto|lia]].
    apply runs_bind. unfold progress, runs at 1. destruct (cb _ _) eqn:CB.
    { split; [repeat split; auto|]. split; auto. intros _ N. exfalso. apply N. eexists; eauto. }
    apply runs_bind. eapply runs_weaken; [apply (iteration_runs h p false _ m fixed); auto| |auto].
    intros [[e h'] p'] w' (S & P' & L & _). cbv beta iota.
    destruct (match err with Some prev => _ | None => false end).
    + split; auto. split; auto. discriminate.
    + eapply runs_weaken; [apply IH; auto| |auto].
      * destruct (_ <d e); lia.
      * intros [[h2 p2] e2] w2 [S2 [P2 N2]]. split; [|split; [auto|intros _; apply N2; left; discriminate]].
        destruct S as (S1 & S2' & S3 & S4). destruct S2 as (T1 & T2 & T3 & T4). repeat split; congruence.
Qed.

Lemma search_loop_ok a total tmse fixed fuel : 1 <= a_max_colors a <= 256 -> forall h mc left best over fails err w,
  hint_ok h -> hi_fixed h = fixed -> 1 <= mc <= a_max_colors a -> Z.to_nat left < fuel ->
  (forall p, best = Some p -> pal_ok (a_max_colors a) fixed p) ->
  (0 <= fails)%Z ->
  runs (search_loop u cb fuel a total tmse h mc left best over fails err) w
    (fun '(h', best', err') w' => evolves h h' /\ exists p, best' = Some p /\ pal_ok (a_max_colors a) fixed p) (fun _ _ => False).
Proof.
  intros Ha. induction fuel as [|f IH]; intros h mc left best over fails err w Hh Hfx Hmc Hf Hb Hl; [lia|].
  cbn [search_loop]. cbv zeta.
  set (pc := (dmax (dmax tmse (unwrap_or err (quality_to_mse 1))) (quality_to_mse 51) *d dlit 12 10)%flt).
  destruct (mediancut_ok u U h mc (tmse *d over)%flt pc) as (p0 & h1 & E1 & L0 & PC & T1 & C1 & F1 & _); [apply Hh|lia|apply Hh|].
  apply runs_bind. eapply runs_lift; [exact E1|]. cbv beta iota.
  assert (EV1 : evolves h h1) by (split; [apply core_core2; auto|auto]).
  destruct (with_fixed_colors_ok p0 (a_max_colors a) (hi_fixed h1)) as (p1 & E2 & L1 & F2); [lia|lia|].
  apply runs_bind. eapply runs_lift; [exact E2|]. rewrite F1, Hfx in *.
  assert (P1 : pal_ok (a_max_colors a) fixed p1) by (split; [lia|split; [lia|auto]]).
  destruct (Z.leb_spec left 0) as [Z0|Z0].
  - split; auto. exists p1. auto.
  - apply runs_bind. eapply runs_weaken; [apply (iteration_runs h1 p1 _ _ (a_max_colors a) fixed); auto; lia| |auto].
    intros [[e h2] p2] w2 (S2 & P2 & L2 & _). cbv beta iota.
    assert (EV2 : evolves h h2) by (eapply evolves_trans; [exact EV1|apply same_colors_evolves; auto]).
    set (better := _ || _ || _).
    match goal with |- context [if better then ?x else ?y] => set (X := x); set (Y := y) end.
    assert (G : exists best' over' mc' fails' left' err', (if better then X else Y) = (best', over', mc', fails', left', err') /\
              (exists p, best' = Some p /\ pal_ok (a_max_colors a) fixed p) /\ 1 <= mc' <= a_max_colors a /\ (left' < left)%Z /\ (0 <= fails')%Z).
    { destruct better eqn:B.
      - do 6 eexists. split; [reflexivity|]. split; [eauto|]. destruct P2 as (P2 & _). split; [lia|]. split; lia.
      - destruct best as [p|] eqn:Eb; [|discriminate]. do 6 eexists. split; [reflexivity|]. split; [eauto|]. split; [lia|]. split; lia. }
    destruct G as (best' & over' & mc' & fails' & left' & err' & -> & (p3 & -> & P3) & M & L & Hfl').
    apply runs_bind. unfold progress, runs at 1. destruct (cb _ _); cbn [orb].
    + split; auto. exists p3; auto.
    + destruct (Z.leb_spec left' 0).
      * split; auto. exists p3; auto.
      * eapply runs_weaken; [apply IH; auto| |auto].
        -- eapply evolves_ok; eauto.
        -- destruct EV2 as (_ & _ & _ & ->). auto.
        -- lia.
        -- intros p Q. inversion Q; subst; auto.
        -- intros [[h4 b4] e4] w4 [EV4 Q]. split; auto. eapply evolves_trans; eauto.
Qed.

Lemma palette_from_histogram_ok h m : m <= 256 -> 1 <= length (hi_items h) <= m ->
  exists p, palette_from_histogram h m = Ok (p, Some d0) /\ pal_ok m (hi_fixed h) p.
Proof.
  intros Hm Hi. unfold palette_from_histogram.
  pose proof (push_all_ok (fun it => (h_color it, h_perc it)) (hi_items h) []) as E. cbn [fst snd app length] in E. rewrite E by lia. cbn [bind].
  destruct (with_fixed_colors_ok (map (fun it => (h_color it, h_perc it)) (hi_items h)) m (hi_fixed h)) as (p & -> & L & F); [rewrite map_length; lia|auto|].
  cbn [bind]. eexists; split; [reflexivity|]. rewrite map_length in L. split; [lia|]. split; [lia|auto].
Qed.

Lemma shrink_nonneg x n : (0 <= x -> 0 <= shrink_by_len x n)%Z.
Proof.
  intros H. unfold shrink_by_len. assert (T : forall y, (0 <= three_quarters y)%Z).
  { intros y. unfold three_quarters, wrap16. apply Z.mod_pos_bound. lia. }
  repeat destruct (Z.ltb _ _); auto.
Qed.
Lemma find_best_palette_ok a tmse perfect mm h w : 1 <= a_max_colors a <= 256 -> hint_ok h ->
  runs (find_best_palette u cb a tmse perfect mm h) w (fun '(p, err) _ => pal_ok (a_max_colors a) (hi_fixed h) p /\
      (a_max_mse a <> None -> (0 <= a_km_iter a)%Z -> ~ breaks cb -> err <> None)) (fun _ _ => False).
Proof.
  intros Ha Hh. unfold find_best_palette. destruct (_ && _)%bool eqn:B.
  - apply andb_true_iff in B as [B _]. apply Nat.leb_le in B.
    destruct (palette_from_histogram_ok h (a_max_colors a)) as (p & E & P); [lia|destruct Hh; lia|].
    eapply runs_lift; [exact E|]. split; auto. discriminate.
  - cbv zeta. apply runs_bind. eapply runs_weaken; [apply (search_loop_ok a _ tmse (hi_fixed h)); auto| |auto].
    + lia.
    + discriminate.
    + lia.
    + intros [[h' best] err] w' [EV (p & -> & P)]. cbv beta iota.
      apply runs_bind. unfold refine_palette. destruct (kmeans_iterations a (length (hi_items h')) _) as [it lim] eqn:KI.
      eapply runs_weaken; [apply (refine_loop_ok a (a_max_colors a) (hi_fixed h)); auto; lia| |auto].
      intros [[h2 p2] e2] w2 [_ [P2 N2]]. cbv beta iota. split; [exact P2|]. intros MM KI0. apply N2.
      destruct err; [left; discriminate|right]. unfold kmeans_iterations in KI. inversion KI.
      destruct (a_max_mse a); [|congruence]. rewrite !andb_true_r.
      pose proof (shrink_nonneg (a_km_iter a) (length (hi_items h')) KI0).
      destruct (Z.eqb_spec (shrink_by_len (a_km_iter a) (length (hi_items h'))) 0); cbn [andb negb]; lia.
Qed.

Lemma sort_palette_ok a p : exists p', sort_palette a p = Ok p' /\ Permutation p p'.
Proof.
  unfold sort_palette. cbv zeta. set (srt := sort_by _ p). assert (P : Permutation p srt) by apply sort_by_perm.
  destruct (a_last_transp a); [|eauto].
  destruct (min_by _ _) as [[i c]|] eqn:E; [|eauto].
  apply min_by_in in E. apply filter_In in E as [E _]. apply In_enumerate in E.
  assert (i < length srt) by (rewrite <- (map_length fst); apply nth_error_Some; unfold colors_of in E; congruence).
  destruct (swap_lt srt (length srt - 1) i) as (p' & E'); try lia.
  exists p'. split; auto. rewrite P. eapply swap_perm; eauto.
Qed.

(** Entries that must be in the palette: the first [m] fixed colours. *)
Definition contains_fixed (fixed : list px) (p : palf) : Prop :=
  forall i c, i < length p -> nth_error fixed i = Some c -> exists w, In (c, pop_to_fixed w) p.
Definition result_ok (m : nat) (fixed : list px) (q : qresult) : Prop :=
  1 <= length (q_pal q) <= m /\ Nat.min (length fixed) m <= length (q_pal q) /\ (fix_law -> contains_fixed fixed (q_pal q)).

(** The reported error does not exceed the allowed one, and it is known
    unless the callback interfered. *)
Definition allowed_mse (a : attrs) (len : nat) : option f64 := fst (fst (target_mse a len)).
Definition min_respected (a : attrs) (len : nat) (q : qresult) : Prop :=
  (forall e m, q_err q = Some e -> allowed_mse a len = Some m -> (m <d e) = false) /\
  (a_max_mse a <> None -> (0 <= a_km_iter a)%Z -> ~ breaks cb -> q_err q <> None).

Lemma result_new_ok a h freeze gamma w : 1 <= a_max_colors a <= 256 -> hint_ok h ->
  runs (result_new u cb a h freeze gamma) w
    (fun q _ => result_ok (a_max_colors a) (hi_fixed h) q /\ q_rem q = None /\ q_int q = [] /\ q_gamma q = gamma /\ q_dither q = f1 /\
                q_post q = a_post_out a /\ q_dmap q = a_dither a /\ q_single q = a_single a /\
                (freeze = true -> Forall (fun e => exists w, snd e = pop_to_fixed w) (q_pal q)) /\
                min_respected a (length (hi_items h)) q)
    (fun e _ => aborted cb e \/ (e = QualityTooLow /\ a_max_mse a <> None)).
Proof.
  intros Ha Hh. unfold result_new. apply runs_bind. unfold progress at 1, runs at 1. destruct (cb _ _) eqn:CB1; [unfold runs, serr; eauto|].
  destruct (target_mse a (length (hi_items h))) as [[mm tm] perfect] eqn:TM.
  apply runs_bind. eapply runs_weaken; [apply find_best_palette_ok; auto| |intros e s []].
  intros [p err] w1 ((B & M & F) & NE). cbv beta iota zeta.
  set (p1 := if freeze then map (fun e => (fst e, pop_to_fixed (snd e))) p else p). apply runs_bind. unfold progress at 1, runs at 1. match goal with |- context [if cb ?t ?p then _ else _] => destruct (cb t p) eqn:CB2 end; [unfold runs, serr; eauto|].
  assert (MM : mm <> None -> a_max_mse a <> None).
  { intros H. unfold target_mse in TM. destruct (a_max_mse a); [discriminate|]. inversion TM. congruence. }
  destruct (match err with Some e => _ | None => _ end) eqn:TL.
  { unfold runs, serr. cbv beta iota. right. split; auto. apply MM. destruct err, mm; discriminate. }
  destruct (sort_palette_ok a p1) as (p2 & E2 & P2). apply runs_bind. eapply runs_lift; [exact E2|].
  cbn. assert (L1 : length p1 = length p) by (unfold p1; destruct freeze; [apply map_length|auto]).
  assert (L2 : length p2 = length p) by (rewrite <- (Permutation_length P2); auto).
  split; [|repeat (split; auto)].
  - unfold result_ok. cbn [q_pal]. rewrite L2. split; [auto|split; [auto|]]. intros law i c Hi Nc. rewrite L2 in Hi.
    destruct (F law i c Hi Nc) as (w' & N). apply nth_error_In in N.
    assert (exists w, In (c, pop_to_fixed w) p1) as (w2 & Hin).
    { unfold p1. destruct freeze; [|eauto]. exists (pop_to_fixed w'). apply (in_map (fun e => (fst e, pop_to_fixed (snd e)))) in N. exact N. }
    exists w2. eapply Permutation_in; eauto.
  - intros ->. unfold p1 in P2. eapply Permutation_Forall; [exact P2|]. apply Forall_forall. intros e He.
    apply in_map_iff in He as (e0 & <- & _). cbn. eauto.
  - unfold allowed_mse. cbn [q_err]. rewrite TM. cbn [fst]. intros e m -> ->. exact TL.
Qed.

(** * Finalized histograms *)
Definition hist_wf (h : hist) : Prop :=
  Forall (fun e => rgba_ok (snd (snd e))) (hg_map h) /\ Forall (fun f => rgba_ok (fst f)) (hg_fixed h).

Lemma cluster_index_lt c : rgba_ok c -> cluster_index c < 16.
Proof.
  intros (Hr & Hg & Hb & Ha). unfold cluster_index, byte in *.
  assert (B : forall v, (0 <= v < 256)%Z -> (Z.shiftr v 7 = 0 \/ Z.shiftr v 7 = 1)%Z).
  { intros v Hv. rewrite Z.shiftr_div_pow2 by lia. change (2 ^ 7)%Z with 128%Z.
    assert (0 <= v / 128 < 2)%Z by (split; [apply Z.div_pos; lia|apply Z.div_lt_upper_bound; lia]). lia. }
  destruct (B _ Hr) as [-> | ->], (B _ Hg) as [-> | ->], (B _ Hb) as [-> | ->], (B _ Ha) as [-> | ->]; vm_compute; lia.
Qed.

Lemma parts_perm {T} (f : T -> nat) l n : Forall (fun x => f x < n) l ->
  Permutation l (concat (map (fun k => filter (fun v => Nat.eqb (f v) k) l) (seq 0 n))).
Proof.
  induction l as [|x l IH]; intros F.
  - cbn [filter]. induction (seq 0 n); cbn; auto.
  - apply Forall_cons_iff in F as [F1 F2]. specialize (IH F2).
    assert (G : forall b k, b <= f x < b + k ->
       Permutation (x :: concat (map (fun k => filter (fun v => Nat.eqb (f v) k) l) (seq b k)))
                   (concat (map (fun k => filter (fun v => Nat.eqb (f v) k) (x :: l)) (seq b k)))).
    { intros b k. revert b. induction k as [|k IHk]; intros b Hb; [lia|]. cbn [seq map concat filter].
      destruct (Nat.eqb_spec (f x) b) as [E|E].
      - cbn [app]. constructor. apply Permutation_app_head. subst b.
        assert (N : forall b' k', f x < b' -> map (fun k => filter (fun v => Nat.eqb (f v) k) l) (seq b' k') =
                       map (fun k => filter (fun v => Nat.eqb (f v) k) (x :: l)) (seq b' k')).
        { intros b' k'. revert b'. induction k' as [|k' IHk']; intros b' Hb'; cbn [seq map]; auto. rewrite IHk' by lia. f_equal. cbn [filter].
          destruct (Nat.eqb_spec (f x) b'); [lia|auto]. }
        rewrite N by lia. auto.
      - rewrite <- IHk by lia. rewrite Permutation_middle. auto. }
    rewrite <- G by lia. constructor. auto.
Qed.

Lemma cluster_bounds_fit counts : forall b, Forall (fun c => fst c <= snd c) (cluster_bounds b counts) /\
  fold_right (fun c s => snd c - fst c + s) 0 (cluster_bounds b counts) = fold_right plus 0 counts.
Proof.
  induction counts as [|n t IH]; intros b; cbn [cluster_bounds fold_right fst snd]; auto.
  destruct (IH (b + n)) as [F S]. split; [constructor; cbn; auto; lia|]. rewrite S. lia.
Qed.
Lemma concat_length {T} (ls : list (list T)) : length (concat ls) = fold_right plus 0 (map (@length _) ls).
Proof. induction ls; cbn; auto. rewrite app_length. auto. Qed.

Lemma hm_insert_nonempty m k v : hm_insert m k v <> [].
Proof. destruct m as [|[k' v'] m]; cbn; [congruence|destruct (rgba_eqb k k'); congruence]. Qed.
Lemma hm_insert_wf m k n c : rgba_ok c -> Forall (fun e : rgba * (Z * rgba) => rgba_ok (snd (snd e))) m ->
  Forall (fun e => rgba_ok (snd (snd e))) (hm_insert m k (n, c)).
Proof.
  intros Hc F. induction F as [|[k' v'] m Fv F IH]; cbn [hm_insert]; [constructor; auto|].
  destruct (rgba_eqb k k'); constructor; auto.
Qed.
Lemma hm_bump_wf m k n c : rgba_ok c -> Forall (fun e : rgba * (Z * rgba) => rgba_ok (snd (snd e))) m ->
  Forall (fun e => rgba_ok (snd (snd e))) (hm_bump m k n c).
Proof.
  intros Hc F. induction F as [|[k' [n' v']] m Fv F IH]; cbn [hm_bump]; [constructor; auto|].
  destruct (rgba_eqb k k'); constructor; auto.
Qed.

Lemma insert_fixed_wf h : hist_wf h -> hist_wf (insert_fixed u h) /\ hg_fixed (insert_fixed u h) = hg_fixed h /\
  hg_gamma (insert_fixed u h) = hg_gamma h /\ hg_bits (insert_fixed u h) = hg_bits h /\
  ((hg_map h <> [] \/ hg_fixed h <> []) -> hg_map (insert_fixed u h) <> []).
Proof.
  intros [M F]. unfold insert_fixed. cbn [hg_map hg_fixed with_map hg_gamma hg_bits].
  assert (F' : Forall (fun f => rgba_ok (fst f)) (u_set u (hg_fixed h))) by (eapply Permutation_Forall; [apply (uo_set u U)|auto]).
  assert (NE : hg_fixed h <> [] -> u_set u (hg_fixed h) <> []).
  { intros N E. apply N. pose proof (uo_set u U (hg_fixed h)) as P. rewrite E in P. apply Permutation_sym, Permutation_nil in P. auto. }
  revert F' NE. generalize (u_set u (hg_fixed h)). intros l F' NE.
  set (st := fun (m : hmap) (fc : rgba * Z) => let c := fst fc in hm_insert m (if negb (ca c =? 0)%Z then c else Rgba 0 0 0 0) (0%Z, c)).
  assert (G : forall m, Forall (fun e : rgba * (Z * rgba) => rgba_ok (snd (snd e))) m ->
     Forall (fun e : rgba * (Z * rgba) => rgba_ok (snd (snd e))) (fold_left st l m) /\ (m <> [] \/ l <> [] -> fold_left st l m <> [])).
  { clear NE M F. induction F' as [|f l Fl F' IH]; intros m Hm; cbn [fold_left]; [split; auto; intros [|]; congruence|].
    destruct (IH (st m f)) as [G1 G2]; [apply hm_insert_wf; auto|]. split; auto. intros _. apply G2. left. apply hm_insert_nonempty. }
  destruct (G (hg_map h) M) as [G1 G2]. split; [split; auto|]. do 3 (split; auto).
  intros [N|N]; apply G2; auto.
Qed.

Lemma finalize_ok h gamma : hist_wf h -> (hg_map h <> [] \/ hg_fixed h <> []) ->
  hint_ok (fst (finalize_builder u h gamma)) /\ hist_wf (snd (finalize_builder u h gamma)) /\
  length (hi_fixed (fst (finalize_builder u h gamma))) = length (hg_fixed h) /\
  length (hi_items (fst (finalize_builder u h gamma))) = length (hg_map (insert_fixed u h)).
Proof.
  intros W NE. destruct (insert_fixed_wf h W) as (W1 & F1 & _ & _ & N1). specialize (N1 NE).
  unfold finalize_builder. cbv zeta. cbn [fst snd hi_items hi_fixed].
  set (vals := map snd (u_map u (hg_map (insert_fixed u h)))).
  assert (FV : Forall (fun v => cluster_index (snd v) < 16) vals).
  { unfold vals. apply Forall_map. eapply Permutation_Forall; [apply (uo_map u U)|]. eapply Forall_impl; [|apply W1]. intros e. apply cluster_index_lt. }
  pose proof (parts_perm (fun v : Z * rgba => cluster_index (snd v)) vals 16 FV) as P.
  match type of P with Permutation _ (concat ?x) => set (parts := x) in * end.
  assert (LV : length (concat parts) = length (hg_map (insert_fixed u h))).
  { rewrite <- (Permutation_length P). unfold vals. rewrite map_length. symmetry. apply Permutation_length. apply (uo_map u U). }
  split; [|split; [auto|split]].
  - unfold hint_ok. cbn [hi_clusters hi_items]. rewrite map_length. split; [split; [apply cluster_bounds_fit|]|].
    + rewrite (proj2 (cluster_bounds_fit _ _)). symmetry. apply concat_length.
    + rewrite LV. destruct (hg_map (insert_fixed u h)); [congruence|cbn; lia].
  - rewrite map_length, sort_by_length, <- (Permutation_length (uo_set u U _)), F1. auto.
  - rewrite map_length. auto.
Qed.

(** * Quantization entry points *)

(** What a successful quantization gives: between 1 and [max_colors] entries,
    at least as many as there are fixed colours, the fixed colours among them. *)
Lemma quantize_internal_ok a freeze h w : 1 <= a_max_colors a <= 256 -> hist_wf h ->
  runs (quantize_internal u cb a freeze) (h, w)
    (fun q s => hist_wf (fst s) /\ hg_fixed (fst s) = hg_fixed h /\
       let hi := fst (finalize_builder u h (unwrap_or (hg_gamma h) (dlit 45455 100000))) in
       result_ok (a_max_colors a) (hi_fixed hi) q /\ length (hi_fixed hi) = length (hg_fixed h) /\
       q_rem q = None /\ q_int q = [] /\ q_dither q = f1 /\ q_gamma q = unwrap_or (hg_gamma h) (dlit 45455 100000) /\
       q_post q = a_post_out a /\ q_dmap q = a_dither a /\ q_single q = a_single a /\
       (freeze = true -> Forall (fun e => exists w, snd e = pop_to_fixed w) (q_pal q)) /\
       min_respected a (length (hi_items hi)) q)
    (fun e s => hist_wf (fst s) /\ hg_fixed (fst s) = hg_fixed h /\
       ((e = Unsupported /\ hg_map h = [] /\ hg_fixed h = []) \/ aborted cb e \/ (e = QualityTooLow /\ a_max_mse a <> None))).
Proof.
  intros Ha W. unfold runs, quantize_internal.
  destruct (match hg_map h, hg_fixed h with [], [] => true | _, _ => false end) eqn:Em.
  { destruct (hg_map h) eqn:E1; [|discriminate]. destruct (hg_fixed h) eqn:E2; [|discriminate]. cbn [fst]. split; auto. }
  assert (NE : hg_map h <> [] \/ hg_fixed h <> []).
  { destruct (hg_map h); [|left; congruence]. destruct (hg_fixed h); [discriminate|right; congruence]. }
  unfold progress. destruct (cb (w_trace w) f0) eqn:CB1; [cbn [fst]; eauto 6|]. cbn [w_trace].
  destruct (cb (f0 :: w_trace w) _) eqn:CB2; [cbn [fst]; eauto 6|].
  cbv zeta. set (g := unwrap_or _ _). pose proof (finalize_ok h g W NE) as (HO & HW & LF & _).
  assert (FX : hg_fixed (snd (finalize_builder u h g)) = hg_fixed h) by (apply (insert_fixed_wf h W)).
  destruct (finalize_builder u h g) as [hi h'] eqn:FB. cbn [fst snd] in *.
  match goal with |- context [result_new u cb a hi freeze g ?w0] => set (w2 := w0) end.
  pose proof (result_new_ok a hi freeze g w2 Ha HO) as R. unfold runs in R.
  destruct (result_new u cb a hi freeze g w2) as [[q|e|] w3]; cbn [fst]; [|split; [auto|split; auto]|auto].
  destruct R as (R1 & R2 & R3 & R4 & R5 & R6 & R7 & R8 & R9 & R10). do 12 (split; auto).
Qed.
End QuantFacts.
