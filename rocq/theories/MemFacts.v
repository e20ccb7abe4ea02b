(** Facts about the ownership model [Mem.v]. *)
From Verif Require Import Base BaseFacts Mem.
From Coq Require Import Permutation.
Open Scope nat_scope.

(** * What an image needs and what it will release *)
Definition cow_blk (c : cow) : list nat :=
  match c with Owned (Some (b, _)) | Borrowed (Some (b, _)) | Boxed b => [b] | _ => [] end.
Definition cow_ptrs (m : mem) (c : cow) : list ptr := concat (map (ptrs_in m) (cow_blk c)).
Definition opt_cow (o : option cow) (f : cow -> list nat) : list nat := match o with Some c => f c | None => [] end.
(** The blocks an image reads or holds on to. *)
Definition uses (m : mem) (r : mrows) : list nat :=
  match r_src r with
  | MCallback => []
  | MPixels rows pixels => cow_blk rows ++ map fst (cow_ptrs m rows) ++ opt_cow pixels cow_blk
  end.
Definition owned_blk (c : cow) : list nat := match c with Owned (Some (b, _)) => [b] | _ => [] end.
Definition rel_blk (c : cow) : list nat := match c with Owned (Some (b, _)) | Boxed b => [b] | _ => [] end.
Definition of_src (f : cow -> list nat) (r : mrows) : list nat :=
  match r_src r with MCallback => [] | MPixels rows pixels => f rows ++ opt_cow pixels f end.
(** The blocks its destruction releases; those of them that came from the caller. *)
Definition owns : mrows -> list nat := of_src rel_blk.
Definition c_owned : mrows -> list nat := of_src owned_blk.

Definition kind_ok (m : mem) (c : cow) : Prop :=
  match c with
  | Owned None => False
  | Owned (Some (b, o)) => o = 0 /\ is_lib m b = false
  | Boxed b => is_lib m b = true
  | Borrowed (Some (b, _)) => is_lib m b = false
  | Borrowed None => True
  end.
Record ok (m : mem) (r : mrows) : Prop := {
  ok_live : forall b, In b (uses m r) -> live m b = true;
  ok_nodup : NoDup (owns r);
  ok_src : match r_src r with
           | MCallback => True
           | MPixels rows pixels =>
               kind_ok m rows /\ (forall b o, rows = Borrowed (Some (b, o)) -> o = 0) /\
               (forall c, pixels = Some c -> kind_ok m c) /\
               (forall p, pixels = Some (Borrowed (Some p)) -> forall q, In q (cow_ptrs m rows) -> fst q = fst p)
           end }.
Definition apart (m : mem) (r r' : mrows) : Prop :=
  (forall b, In b (owns r) -> ~ In b (uses m r')) /\ (forall b, In b (owns r') -> ~ In b (uses m r)).
Fixpoint sep (m : mem) (l : list mrows) : Prop :=
  match l with
  | [] => True
  | r :: t => ok m r /\ Forall (apart m r) t /\ sep m t
  end.

Lemma apart_sym m r r' : apart m r r' -> apart m r' r.
Proof. intros [H1 H2]. split; assumption. Qed.
Lemma sep_perm m l l' : Permutation l l' -> sep m l -> sep m l'.
Proof.
  induction 1; cbn; auto.
  - intros (H1 & H2 & H3). split; [exact H1|]. split; [|auto]. eapply Permutation_Forall; eauto.
  - intros (H1 & H2 & H3 & H4 & H5). inversion H2; subst.
    split; [exact H3|]. split; [constructor; auto using apart_sym|]. auto.
Qed.
Lemma sep_app m l l' : sep m (l ++ l') -> sep m l'.
Proof. induction l; cbn; auto. intros (_ & _ & H); auto. Qed.
Lemma sep_cons m r l : sep m (r :: l) -> sep m l.
Proof. intros (_ & _ & H); exact H. Qed.

Lemma rel_sub_blk c b : In b (rel_blk c) -> In b (cow_blk c).
Proof. destruct c as [[[? ?]|]|[[? ?]|]|]; cbn; tauto. Qed.
Lemma owned_sub_rel c b : In b (owned_blk c) -> In b (rel_blk c).
Proof. destruct c as [[[? ?]|]|[[? ?]|]|]; cbn; tauto. Qed.
Lemma owns_uses m r b : In b (owns r) -> In b (uses m r).
Proof.
  unfold owns, of_src, uses. destruct (r_src r) as [rows pixels|]; auto.
  rewrite !in_app_iff. intros [H|H]; [left; apply rel_sub_blk; exact H|].
  right; right. destruct pixels; cbn in *; [apply rel_sub_blk; exact H|destruct H].
Qed.
Lemma c_owned_owns r b : In b (c_owned r) -> In b (owns r).
Proof.
  unfold owns, c_owned, of_src. destruct (r_src r) as [rows [c|]|]; auto; cbn; rewrite !in_app_iff;
    intros [H|H]; auto using owned_sub_rel.
Qed.

(** * Memory changes *)
(** [frees m m' bs]: [m'] is [m] with exactly the blocks [bs] released. *)
Record frees (m m' : mem) (bs : list nat) : Prop := {
  fr_len : length (m_heap m') = length (m_heap m);
  fr_ptrs : forall b, ptrs_in m' b = ptrs_in m b;
  fr_lib : forall b, is_lib m' b = is_lib m b;
  fr_live : forall b, live m' b = true <-> live m b = true /\ ~ In b bs }.
(** [grows m m']: [m'] has more blocks. *)
Record grows (m m' : mem) : Prop := {
  gr_len : length (m_heap m) <= length (m_heap m');
  gr_nth : forall b, b < length (m_heap m) -> nth_error (m_heap m') b = nth_error (m_heap m) b;
  gr_log : m_log m' = m_log m }.

Lemma frees_nil m : frees m m [].
Proof. constructor; auto. intros b; cbn; tauto. Qed.
Lemma frees_trans m m1 m2 a b : frees m m1 a -> frees m1 m2 b -> frees m m2 (a ++ b).
Proof.
  intros [H1 H2 H3 H4] [G1 G2 G3 G4]. constructor; try congruence; intros.
  rewrite G4, H4, in_app_iff. tauto.
Qed.
Lemma frees_uses m m' bs r : frees m m' bs -> uses m' r = uses m r.
Proof.
  intros H. unfold uses. destruct (r_src r); auto. unfold cow_ptrs.
  rewrite (map_ext (ptrs_in m') (ptrs_in m)); auto. apply fr_ptrs with bs; auto.
Qed.
Lemma frees_cow_ptrs m m' bs c : frees m m' bs -> cow_ptrs m' c = cow_ptrs m c.
Proof. intros H. unfold cow_ptrs. rewrite (map_ext (ptrs_in m') (ptrs_in m)); auto. apply fr_ptrs with bs; auto. Qed.
Lemma frees_kind m m' bs c : frees m m' bs -> kind_ok m c -> kind_ok m' c.
Proof. intros H. pose proof (fr_lib _ _ _ H). destruct c as [[[? ?]|]|[[? ?]|]|]; cbn; rewrite ?H0; auto. Qed.
Lemma frees_ok m m' bs r : frees m m' bs -> (forall b, In b bs -> ~ In b (uses m r)) -> ok m r -> ok m' r.
Proof.
  intros F D [O1 O2 O3]. constructor; auto.
  - intros b. rewrite (frees_uses _ _ _ _ F). intros I. apply (fr_live _ _ _ F). split; auto. intros J. exact (D _ J I).
  - destruct (r_src r) as [rows pixels|]; auto. destruct O3 as (A1 & A2 & A3 & A4).
    repeat split; auto; try (eapply frees_kind; eauto; fail).
    + intros c E. eapply frees_kind; eauto.
    + intros p E q. rewrite (frees_cow_ptrs _ _ _ _ F). eauto.
Qed.
Lemma frees_apart m m' bs r r' : frees m m' bs -> apart m r r' -> apart m' r r'.
Proof. intros F [A B]. split; intros b; rewrite (frees_uses _ _ _ _ F); auto. Qed.
Lemma frees_sep m m' bs l :
  frees m m' bs -> (forall r, In r l -> forall b, In b bs -> ~ In b (uses m r)) -> sep m l -> sep m' l.
Proof.
  intros F. induction l as [|r t IH]; cbn; auto. intros D (O & A & S). split; [|split].
  - eapply frees_ok; eauto.
  - eapply Forall_impl; [|exact A]. intros r'. apply frees_apart with bs; auto.
  - apply IH; auto.
Qed.

Lemma live_lt m b : live m b = true -> b < length (m_heap m).
Proof.
  unfold live. destruct (nth_error (m_heap m) b) eqn:E; [|discriminate]. intros _.
  apply nth_error_Some. congruence.
Qed.
Lemma grows_refl m : grows m m.
Proof. constructor; auto. Qed.
Lemma grows_trans m m1 m2 : grows m m1 -> grows m1 m2 -> grows m m2.
Proof.
  intros [A1 A2 A3] [B1 B2 B3]. constructor; try congruence; try lia.
  intros b L. rewrite B2, A2; auto. lia.
Qed.
Lemma alloc_grows m lib ps m' b : alloc m lib ps = (m', b) ->
  grows m m' /\ b = length (m_heap m) /\ length (m_heap m') = S b /\
  live m' b = true /\ is_lib m' b = lib /\ ptrs_in m' b = ps.
Proof.
  unfold alloc. intros E. apply pair_equal_spec in E as [<- <-]. cbn.
  assert (G : grows m (Mem (m_heap m ++ [Cell true lib ps]) (m_log m))).
  { constructor; cbn; auto. rewrite app_length; lia. intros. apply nth_error_app1; auto. }
  split; auto. split; auto. split. rewrite app_length; cbn; lia.
  unfold live, is_lib, ptrs_in. cbn. rewrite nth_error_app2, Nat.sub_diag by lia. cbn. auto.
Qed.
Lemma grows_at m m' b : grows m m' -> b < length (m_heap m) ->
  live m' b = live m b /\ is_lib m' b = is_lib m b /\ ptrs_in m' b = ptrs_in m b.
Proof. intros G L. unfold live, is_lib, ptrs_in. rewrite (gr_nth _ _ G) by auto. auto. Qed.
Lemma grows_cow_ptrs m m' c : grows m m' -> (forall b, In b (cow_blk c) -> live m b = true) -> cow_ptrs m' c = cow_ptrs m c.
Proof.
  intros G L. unfold cow_ptrs. f_equal. apply map_ext_in. intros b I.
  apply grows_at; auto. apply live_lt; auto.
Qed.
Lemma rows_live m r rows pixels b : r_src r = MPixels rows pixels -> ok m r -> In b (cow_blk rows) -> live m b = true.
Proof. intros E O I. apply (ok_live _ _ O). unfold uses. rewrite E, in_app_iff. auto. Qed.
Lemma grows_uses m m' r : grows m m' -> ok m r -> uses m' r = uses m r.
Proof.
  intros G O. unfold uses. destruct (r_src r) as [rows pixels|] eqn:E; auto.
  rewrite (grows_cow_ptrs m m'); auto. intros b I. eapply rows_live; eauto.
Qed.
Lemma grows_kind m m' c : grows m m' -> (forall b, In b (cow_blk c) -> live m b = true) -> kind_ok m c -> kind_ok m' c.
Proof.
  intros G L.
  assert (K : forall b, In b (cow_blk c) -> is_lib m' b = is_lib m b).
  { intros b I. apply grows_at; auto. apply live_lt; auto. }
  destruct c as [[[? ?]|]|[[? ?]|]|]; cbn in *; rewrite ?K; auto.
Qed.
Lemma grows_ok m m' r : grows m m' -> ok m r -> ok m' r.
Proof.
  intros G O. constructor.
  - intros b. rewrite (grows_uses _ _ _ G O). intros I. rewrite (proj1 (grows_at _ _ _ G (live_lt _ _ (ok_live _ _ O _ I)))).
    apply (ok_live _ _ O); auto.
  - apply (ok_nodup _ _ O).
  - pose proof (ok_live _ _ O) as L. unfold uses in L. pose proof (ok_src _ _ O) as X.
    destruct (r_src r) as [rows pixels|] eqn:E; auto. destruct X as (A1 & A2 & A3 & A4).
    assert (LR : forall b, In b (cow_blk rows) -> live m b = true) by (intros b I; apply L; rewrite in_app_iff; auto).
    repeat split; auto.
    + eapply grows_kind; eauto.
    + intros c Ec. eapply grows_kind; eauto. intros b I. apply L. rewrite !in_app_iff. subst; cbn; auto.
    + intros p Ep q. rewrite (grows_cow_ptrs _ _ _ G LR). eauto.
Qed.
Lemma grows_sep m m' l : grows m m' -> sep m l -> sep m' l.
Proof.
  intros G. induction l as [|r t IH]; cbn; auto. intros (O & A & S). split; [|split; [|auto]].
  - eapply grows_ok; eauto.
  - rewrite Forall_forall in *. intros r' I. assert (O' : ok m r').
    { clear - S I. induction t; [destruct I|]. destruct S as (? & ? & ?). destruct I; subst; auto. }
    destruct (A r' I) as [B C]. split; intros b; rewrite ?(grows_uses _ _ _ G O), ?(grows_uses _ _ _ G O'); auto.
Qed.
Lemma sep_ok m l r : sep m l -> In r l -> ok m r.
Proof. induction l; cbn; [tauto|]. intros (O & A & S) [->|I]; auto. Qed.

(** Adding an image: what it will release is new, what it uses nobody else releases. *)
Lemma sep_new m m' r l :
  grows m m' -> sep m l -> ok m' r ->
  (forall b, In b (owns r) -> length (m_heap m) <= b) ->
  (forall b r', In b (uses m' r) -> In r' l -> length (m_heap m) <= b \/ ~ In b (owns r')) ->
  sep m' (r :: l).
Proof.
  intros G S O N U. cbn. split; [exact O|]. split; [|eapply grows_sep; eauto].
  rewrite Forall_forall. intros r' I. pose proof (sep_ok _ _ _ S I) as O'. split; intros b Hb Hu.
  - rewrite (grows_uses _ _ _ G O') in Hu. pose proof (live_lt _ _ (ok_live _ _ O' _ Hu)). pose proof (N _ Hb). lia.
  - destruct (U b r' Hu I) as [K|K]; [|auto].
    pose proof (live_lt _ _ (ok_live _ _ O' _ (owns_uses m _ _ Hb))). lia.
Qed.

(** * Releasing *)
Lemma kill_frees m b : live m b = true -> frees m (kill m b) [b] /\ m_log (kill m b) = m_log m.
Proof.
  intros L. pose proof (live_lt _ _ L) as LT. unfold kill, live in *.
  destruct (nth_error (m_heap m) b) as [c|] eqn:E; [|discriminate].
  split; [|reflexivity].
  assert (K : forall x, nth_error (upd (m_heap m) b (Cell false (c_lib c) (c_ptrs c))) x =
              if Nat.eqb b x then Some (Cell false (c_lib c) (c_ptrs c)) else nth_error (m_heap m) x).
  { intros x. rewrite nth_error_upd. destruct (Nat.eqb_spec b x); auto.
    destruct (Nat.ltb_spec b (length (m_heap m))); auto; lia. }
  constructor; cbn.
  - apply upd_length.
  - intros x. unfold ptrs_in; cbn. rewrite K. destruct (Nat.eqb_spec b x); subst; rewrite ?E; auto.
  - intros x. unfold is_lib; cbn. rewrite K. destruct (Nat.eqb_spec b x); subst; rewrite ?E; auto.
  - intros x. unfold live; cbn. rewrite K. destruct (Nat.eqb_spec b x).
    + cbn. split; [discriminate|]. tauto.
    + tauto.
Qed.
Lemma frees_log m m' bs lg : frees m m' bs -> frees m (Mem (m_heap m') lg) bs.
Proof. intros [A B C D]. constructor; auto. Qed.
Lemma drop_cow_ok m c : kind_ok m c -> (forall b, In b (rel_blk c) -> live m b = true) ->
  exists m', drop_cow m c = Fine m' /\ frees m m' (rel_blk c) /\ m_log m' = owned_blk c ++ m_log m.
Proof.
  intros K L. destruct c as [[[b o]|]|p|b]; cbn [drop_cow rel_blk owned_blk kind_ok] in *.
  - destruct K as [-> K]. pose proof (L b (or_introl eq_refl)) as LB. rewrite LB, K. cbn [andb negb].
    destruct (kill_frees m b LB) as [F G]. eexists. split; [reflexivity|]. split.
    + apply frees_log. exact F.
    + cbn. rewrite G. reflexivity.
  - destruct K.
  - exists m. destruct p as [[? ?]|]; (split; [reflexivity|]; split; [apply frees_nil|reflexivity]).
  - pose proof (L b (or_introl eq_refl)) as LB. rewrite LB, K. cbn [andb].
    destruct (kill_frees m b LB) as [F G]. eexists. split; [reflexivity|]. split; auto.
Qed.
Lemma NoDup_app_split {X} (a b : list X) : NoDup (a ++ b) <-> NoDup a /\ NoDup b /\ (forall x, In x a -> ~ In x b).
Proof.
  induction a as [|x a IH]; cbn.
  - split; [intros H; repeat split; auto; constructor|intros (_ & H & _); exact H].
  - rewrite !NoDup_cons_iff, IH, in_app_iff. split.
    + intros (A & B & C & D). repeat split; auto. intros y [<-|I]; auto.
    + intros ((A & B) & C & D). repeat split; auto.
      intros [I|I]; auto. exact (D x (or_introl eq_refl) I).
Qed.
Lemma drop_src_ok m r : ok m r ->
  exists m', drop_src m (r_src r) = Fine m' /\ frees m m' (owns r) /\ Permutation (m_log m') (c_owned r ++ m_log m).
Proof.
  intros [L N S]. unfold owns, c_owned, of_src, uses in *. destruct (r_src r) as [rows pixels|]; cbn [drop_src].
  - destruct S as (S1 & S2 & S3 & S4). apply NoDup_app_split in N as (N1 & N2 & N3).
    destruct (drop_cow_ok m rows S1) as (m1 & E1 & F1 & G1).
    { intros b I. apply L. rewrite in_app_iff. left. apply rel_sub_blk; auto. }
    rewrite E1. cbn [obind]. destruct pixels as [c|]; cbn [opt_cow] in *.
    + destruct (drop_cow_ok m1 c) as (m2 & E2 & F2 & G2).
      * eapply frees_kind; eauto.
      * intros b I. apply (fr_live _ _ _ F1). split.
        -- apply L. rewrite !in_app_iff. right; right. apply rel_sub_blk; auto.
        -- intros J. exact (N3 b J I).
      * exists m2. split; auto. split. eapply frees_trans; eauto.
        rewrite G2, G1, !app_assoc. apply Permutation_app_tail, Permutation_app_comm.
    + exists m1. split; auto. rewrite !app_nil_r. split; auto. rewrite G1. reflexivity.
  - exists m. split; auto. split; [apply frees_nil|reflexivity].
Qed.

(** * The invariant.  [T]: the blocks the caller has handed over so far. *)
Definition logok (m : mem) : Prop := NoDup (m_log m) /\ (forall b, In b (m_log m) -> live m b = false /\ is_lib m b = false /\ b < length (m_heap m)).
Record inv (T : list nat) (m : mem) (l : list mrows) : Prop := {
  i_sep : sep m l;
  i_perm : Permutation T (m_log m ++ flat_map c_owned l);
  i_log : logok m }.

Lemma flat_map_perm {X Y} (f : X -> list Y) l l' : Permutation l l' -> Permutation (flat_map f l) (flat_map f l').
Proof. intros P. apply Permutation_flat_map. exact P. Qed.
Lemma inv_perm T m l l' : Permutation l l' -> inv T m l -> inv T m l'.
Proof.
  intros P [A B C]. constructor; auto.
  - eapply sep_perm; eauto.
  - rewrite B. apply Permutation_app_head, flat_map_perm, P.
Qed.
Lemma inv_ok T m l r : inv T m l -> In r l -> ok m r.
Proof. intros [A _ _] I. eapply sep_ok; eauto. Qed.
Lemma c_owned_kind m r b : ok m r -> In b (c_owned r) -> is_lib m b = false.
Proof.
  intros O. pose proof (ok_src _ _ O) as S. unfold c_owned, of_src. destruct (r_src r) as [rows pixels|]; [|intros []].
  destruct S as (S1 & _ & S3 & _). rewrite in_app_iff.
  assert (K : forall c, kind_ok m c -> In b (owned_blk c) -> is_lib m b = false).
  { intros [[[x o]|]|p|x]; cbn; try tauto. intros [_ H] [<-|[]]; auto. }
  intros [I|I]; [exact (K rows S1 I)|]. destruct pixels as [c|]; cbn in I; [|destruct I]. exact (K c (S3 c eq_refl) I).
Qed.
Lemma inv_drop T m r l : inv T m (r :: l) -> exists m', drop_src m (r_src r) = Fine m' /\ inv T m' l.
Proof.
  intros [S P [N D]]. destruct S as (O & A & S).
  destruct (drop_src_ok m r O) as (m' & E & F & G). exists m'. split; [exact E|]. rewrite Forall_forall in A. constructor.
  - eapply frees_sep; eauto. intros r' I b. exact (proj1 (A r' I) b).
  - rewrite P. cbn [flat_map]. rewrite G, !app_assoc. apply Permutation_app_tail, Permutation_app_comm.
  - assert (Dl : forall b, In b (c_owned r) -> live m b = true).
    { intros b I. apply (ok_live _ _ O). apply owns_uses, c_owned_owns, I. }
    split.
    + eapply Permutation_NoDup; [symmetry; exact G|]. apply NoDup_app_split. repeat split; auto.
      * pose proof (ok_nodup _ _ O) as K. unfold owns, c_owned, of_src in *. destruct (r_src r) as [rows pixels|]; [|constructor].
        assert (Q : forall c, owned_blk c = rel_blk c \/ owned_blk c = []).
        { intros [[[? ?]|]|[[? ?]|]|]; cbn; auto. }
        apply NoDup_app_split in K as (K1 & K2 & K3). apply NoDup_app_split. repeat split.
        -- destruct (Q rows) as [->| ->]; auto; constructor.
        -- destruct pixels as [c|]; cbn in *; [|constructor]. destruct (Q c) as [->| ->]; auto; constructor.
        -- intros x I J. apply (K3 x). apply owned_sub_rel; auto. destruct pixels as [c|]; cbn in *; [apply owned_sub_rel; auto|destruct J].
      * intros b I J. destruct (D b J) as [X _]. rewrite (Dl b I) in X. discriminate.
    + intros b I. rewrite (fr_lib _ _ _ F). apply (Permutation_in _ G) in I. rewrite in_app_iff in I.
      destruct (live m' b) eqn:L.
      * apply (fr_live _ _ _ F) in L as [L1 L2]. destruct I as [I|I].
        -- destruct L2. apply c_owned_owns; auto.
        -- destruct (D b I). congruence.
      * split; auto. rewrite (fr_len _ _ _ F). destruct I as [I|I]; [|split; apply D; auto].
        split; [eapply c_owned_kind; eauto|apply live_lt; auto].
Qed.
Lemma inv_tail T m r l : inv T m (r :: l) -> c_owned r = [] -> inv T m l.
Proof. intros [S P D] E. constructor; auto. exact (sep_cons _ _ _ S). rewrite P. cbn. rewrite E. reflexivity. Qed.

Lemma same_uses m r r' : r_src r' = r_src r -> uses m r' = uses m r.
Proof. unfold uses. intros ->. reflexivity. Qed.
Lemma same_owns r r' : r_src r' = r_src r -> owns r' = owns r /\ c_owned r' = c_owned r.
Proof. unfold owns, c_owned, of_src. intros ->. auto. Qed.
Lemma inv_same T m r r' l : r_src r' = r_src r -> inv T m (r :: l) -> inv T m (r' :: l).
Proof.
  intros E [S P D]. destruct S as (O & A & S). destruct (same_owns _ _ E) as [E1 E2]. constructor; auto.
  - split; [|split; auto].
    + destruct O as [O1 O2 O3]. constructor; rewrite ?(same_uses m _ _ E), ?E1, ?E; auto.
    + eapply Forall_impl; [|exact A]. intros x [B C]. split; rewrite ?(same_uses m _ _ E), ?E1; auto.
  - rewrite P. cbn. rewrite E2. reflexivity.
Qed.
Lemma inv_recycled T m r l : r_src r = MPixels (Borrowed None) None -> inv T m l -> inv T m (r :: l).
Proof.
  intros E [S P D].
  assert (U : uses m r = []) by (unfold uses; rewrite E; reflexivity).
  assert (W : owns r = []) by (unfold owns, of_src; rewrite E; reflexivity).
  assert (C : c_owned r = []) by (unfold c_owned, of_src; rewrite E; reflexivity).
  constructor; auto.
  - split; [|split; auto].
    + constructor; rewrite ?U, ?W.
      * intros b [].
      * constructor.
      * rewrite E. cbn. repeat split; auto; discriminate.
    + rewrite Forall_forall. intros x _. split; rewrite ?U, ?W; intros b H; [destruct H|auto].
  - cbn. rewrite C. exact P.
Qed.

(** * Reading *)
Lemma read_all_ok m ps : (forall p, In p ps -> live m (fst p) = true) -> read_all m ps = Fine tt.
Proof.
  intros H. unfold read_all. assert (G : forall o, o = Fine tt ->
    fold_left (fun o p => _ <~~ o ;; read m (fst p)) ps o = Fine tt).
  { induction ps as [|p t IH]; cbn; auto. intros o ->. apply IH. intros; apply H; cbn; auto.
    cbn. unfold read. rewrite H; cbn; auto. }
  auto.
Qed.
Lemma as_slice_ok m c : (forall b, In b (cow_blk c) -> live m b = true) -> as_slice m c = Fine (cow_ptrs m c).
Proof.
  intros H. unfold cow_ptrs. destruct c as [[[b o]|]|[[b o]|]|b]; cbn in *; auto;
    unfold read; rewrite H by auto; cbn; rewrite app_nil_r; reflexivity.
Qed.
Lemma read_rows_ok m r : ok m r -> read_rows m r = Fine tt.
Proof.
  intros O. pose proof (ok_live _ _ O) as L. unfold read_rows, uses in *. destruct (r_src r) as [rows pixels|]; auto.
  rewrite as_slice_ok. cbn. apply read_all_ok. intros p I. apply L. rewrite !in_app_iff. right; left. apply in_map; auto.
  intros b I. apply L. rewrite in_app_iff. auto.
Qed.

(** * Steps on one image *)
Definition rows_of (o : option mimage) : list mrows :=
  match o with None => [] | Some x => g_px x :: match g_bg x with Some b => [b] | None => [] end end.
Definition step_ok (f : istep) : Prop := forall T m x l, inv T m (rows_of (Some x) ++ l) ->
  exists m' x', f m x = Fine (m', x') /\ inv T m' (rows_of (Some x') ++ l).
Definition rstep_ok (f : mem -> mrows -> out (mem * mrows)) : Prop := forall T m r l, inv T m (r :: l) ->
  exists m' r', f m r = Fine (m', r') /\ inv T m' (r' :: l).

Lemma on_px_ok f : rstep_ok f -> step_ok (on_px f).
Proof.
  intros H T m x l I. cbn in I. destruct (H T m (g_px x) _ I) as (m' & r' & E & J).
  exists m', (MImage r' (g_bg x)). unfold on_px. rewrite E. cbn. auto.
Qed.
Lemma on_bg_ok f : rstep_ok f -> step_ok (on_bg f).
Proof.
  intros H T m x l I. unfold on_bg. cbn in I. destruct (g_bg x) as [b|] eqn:B.
  - cbn in I. destruct (H T m b (g_px x :: l)) as (m' & r' & E & J).
    { eapply inv_perm; [apply perm_swap|exact I]. }
    exists m', (MImage (g_px x) (Some r')). rewrite E. cbn. split; auto. eapply inv_perm; [apply perm_swap|exact J].
  - exists m, x. split; auto. cbn. rewrite B. exact I.
Qed.
Lemma s_prepare_ok a : rstep_ok (s_prepare a).
Proof.
  intros T m r l I. unfold s_prepare, prepare. destruct (r_cached r || a && low_mem r)%bool; cbn.
  - exists m, r. auto.
  - rewrite read_rows_ok by (eapply inv_ok; [exact I|left; auto]). cbn. do 2 eexists. split; [reflexivity|].
    eapply inv_same; [|exact I]. reflexivity.
Qed.
Lemma s_read_f_ok : rstep_ok s_read_f.
Proof.
  intros T m r l I. unfold s_read_f, read_f. exists m, r.
  rewrite read_rows_ok by (eapply inv_ok; [exact I|left; auto]). destruct (r_cached r); auto.
Qed.
Lemma s_read_rgba_ok : rstep_ok s_read_rgba.
Proof.
  intros T m r l I. unfold s_read_rgba, read_rgba. exists m, r.
  rewrite read_rows_ok by (eapply inv_ok; [exact I|left; auto]). auto.
Qed.
Lemma free_inputs_ok : rstep_ok free_inputs.
Proof.
  intros T m r l I. unfold free_inputs. destruct (r_cached r).
  - destruct (inv_drop _ _ _ _ I) as (m' & E & J). rewrite E. cbn. do 2 eexists. split; [reflexivity|].
    apply inv_recycled; auto.
  - exists m, r. auto.
Qed.
Lemma run_steps_ok fs : Forall step_ok fs -> step_ok (run_steps fs).
Proof.
  intros H T m x l. unfold run_steps. revert m x. induction H as [|f fs Hf H IH]; intros m x I; cbn.
  - exists m, x. auto.
  - destruct (Hf T m x l I) as (m1 & x1 & E & J). rewrite E. apply IH, J.
Qed.
Lemma Forall_firstn' {X} (P : X -> Prop) l n : Forall P l -> Forall P (firstn n l).
Proof. intros H. revert n. induction H; intros [|n]; cbn; constructor; auto. Qed.
Lemma quantize_steps_ok maps : Forall step_ok (quantize_steps maps).
Proof.
  unfold quantize_steps. destruct maps; cbn; repeat constructor; apply on_px_ok; auto using s_prepare_ok, s_read_rgba_ok.
Qed.
Lemma remap_steps_ok maps : Forall step_ok (remap_steps maps).
Proof.
  unfold remap_steps. destruct maps; cbn; repeat (constructor; [try (apply on_px_ok; auto using s_prepare_ok, s_read_f_ok, free_inputs_ok; fail);
    apply on_bg_ok; auto using s_prepare_ok, s_read_f_ok|]); constructor.
Qed.

(** * Programs *)
Definition allr (imgs : list (option mimage)) : list mrows := flat_map rows_of imgs.
Definition caller_block (s : mstate) (b : nat) : Prop :=
  live (s_mem s) b = true /\ is_lib (s_mem s) b = false /\ forall r, In r (allr (s_imgs s)) -> ~ In b (owns r).
Definition unused (m : mem) (l : list mrows) (b : nat) : Prop := forall r, In r l -> ~ In b (uses m r).
(** Images that can be cloned without sharing a buffer that one of them
    releases: borrowed pixels, callbacks, and images whose inputs were already
    released. *)
Definition clonable (r : mrows) : Prop :=
  r_src r = MCallback \/ r_src r = MPixels (Borrowed None) None \/
  exists b p, r_src r = MPixels (Boxed b) (Some (Borrowed (Some p))).
(** All image parts but the pixels of image [i]. *)
Definition others (s : mstate) (i : nat) (x : mimage) : list mrows :=
  match g_bg x with Some b => [b] | None => [] end ++ allr (upd (s_imgs s) i None).

(** What a caller must respect: buffers it lends are its own and stay allocated
    while used; a buffer is handed over only by the one image that uses it, and
    the pixels handed over start at the lowest row.  The conditions on
    [CloneImg] and [rows <> Borrowed None] go beyond the documentation. *)
Definition allowed (s : mstate) (c : mcall) : Prop :=
  let m := s_mem s in
  match c with
  | UserFree b => live m b = true /\ is_lib m b = false /\ unused m (allr (s_imgs s)) b
  | NewBorrowed _ _ _ p | NewCBitmap _ _ p => caller_block s (fst p)
  | NewCRows _ _ b => caller_block s b /\ forall p, In p (ptrs_in m b) -> caller_block s (fst p)
  | CloneImg i => forall x, get_img s i = Some x -> clonable (g_px x) /\ (forall b, g_bg x = Some b -> clonable b)
  | OwnImg i own_rows own_pixels =>
      forall x rows pixels, get_img s i = Some x -> r_src (g_px x) = MPixels rows pixels ->
      (own_rows = true -> rows <> Borrowed None /\
         forall b o, rows = Borrowed (Some (b, o)) ->
           unused m (others s i x) b /\ ~ In b (opt_cow pixels cow_blk)) /\
      (own_pixels = true -> (forall c, pixels = Some c -> forall p, c <> Borrowed p) /\
         (pixels = None -> exists b, is_lib m b = false /\ unused m (others s i x) b /\ ~ In b (cow_blk rows) /\
             In (b, 0) (cow_ptrs m rows) /\ forall q, In q (cow_ptrs m rows) -> fst q = b))
  | _ => True
  end.
(** The blocks a call hands over. *)
Definition handed (s : mstate) (c : mcall) : list nat :=
  match c with
  | OwnImg i own_rows own_pixels =>
      match get_img s i with
      | None => []
      | Some x =>
          match r_src (g_px x) with
          | MCallback => []
          | MPixels rows pixels =>
              (if own_rows then match rows with Borrowed (Some (b, _)) => [b] | _ => [] end else []) ++
              (if own_pixels then match pixels, cow_ptrs (s_mem s) rows with None, q :: _ => [fst q] | _, _ => [] end else [])
          end
      end
  | _ => []
  end.

Definition sinv (T : list nat) (s : mstate) : Prop := inv T (s_mem s) (allr (s_imgs s)).
Lemma allr_split imgs i o : nth_error imgs i = Some o ->
  Permutation (allr imgs) (rows_of o ++ allr (upd imgs i None)) /\
  forall y, Permutation (allr (upd imgs i y)) (rows_of y ++ allr (upd imgs i None)).
Proof.
  revert i. induction imgs as [|a t IH]; intros [|i]; cbn [nth_error]; try discriminate.
  - intros E. injection E as ->. cbn. split; auto.
  - intros E. destruct (IH i E) as [A B]. cbn [upd]. unfold allr in *. cbn [flat_map]. split.
    + rewrite A, !app_assoc. apply Permutation_app_tail, Permutation_app_comm.
    + intros y. rewrite (B y), !app_assoc. apply Permutation_app_tail, Permutation_app_comm.
Qed.
Lemma get_nth s i x : get_img s i = Some x -> nth_error (s_imgs s) i = Some (Some x).
Proof. unfold get_img. destruct (nth_error (s_imgs s) i) as [[?|]|]; congruence. Qed.
Lemma sinv_get T s i x : sinv T s -> get_img s i = Some x ->
  inv T (s_mem s) (rows_of (Some x) ++ allr (upd (s_imgs s) i None)).
Proof. intros I E. eapply inv_perm; [|exact I]. apply allr_split, get_nth, E. Qed.
Lemma sinv_put T s m i x y : get_img s i = Some x ->
  inv T m (rows_of y ++ allr (upd (s_imgs s) i None)) -> sinv T (put s m i y).
Proof.
  intros E I. unfold sinv, put. cbn. eapply inv_perm; [|exact I]. symmetry. eapply allr_split, get_nth, E.
Qed.

Lemma inv_grow T m m' l : grows m m' -> inv T m l -> inv T m' l.
Proof.
  intros G [S P [N D]]. constructor.
  - eapply grows_sep; eauto.
  - rewrite (gr_log _ _ G). exact P.
  - split; rewrite (gr_log _ _ G); auto. intros b I. destruct (D b I) as (A & B & C).
    destruct (grows_at _ _ _ G C) as (-> & -> & _). pose proof (gr_len _ _ G). repeat split; auto. lia.
Qed.
Lemma inv_new T m m' r l :
  grows m m' -> inv T m l -> ok m' r -> c_owned r = [] ->
  (forall b, In b (owns r) -> length (m_heap m) <= b) ->
  (forall b r', In b (uses m' r) -> In r' l -> length (m_heap m) <= b \/ ~ In b (owns r')) ->
  inv T m' (r :: l).
Proof.
  intros G I O C N U. destruct (inv_grow _ _ _ _ G I) as [S P D]. constructor; auto.
  - eapply sep_new; eauto. apply I.
  - cbn. rewrite C. exact P.
Qed.
Lemma inv_T T T' m l : Permutation T T' -> inv T m l -> inv T' m l.
Proof. intros P [A B C]. constructor; auto. rewrite <- P. exact B. Qed.

Lemma row_ptrs_in p h st q : In q (row_ptrs p h st) -> fst q = fst p.
Proof. unfold row_ptrs. rewrite in_map_iff. intros (i & <- & _). reflexivity. Qed.

(** New images with the library's own array of row pointers [rb] *)
Lemma boxed_rows_ok m m' rb p h st w hh T l px :
  grows m m' -> inv T m l -> length (m_heap m) <= rb -> live m' rb = true -> is_lib m' rb = true ->
  ptrs_in m' rb = row_ptrs p h st ->
  (px = None \/ px = Some (Borrowed (Some p)) \/ (px = Some (Boxed (fst p)) /\ is_lib m' (fst p) = true /\ length (m_heap m) <= fst p /\ fst p <> rb)) ->
  live m' (fst p) = true -> (px = Some (Boxed (fst p)) \/ is_lib m' (fst p) = false) ->
  (forall r, In r l -> length (m_heap m) <= fst p \/ ~ In (fst p) (owns r)) ->
  inv T m' (MRows w hh false (MPixels (Boxed rb) px) :: l).
Proof.
  intros G I N L K P X LP KP U.
  assert (Q : forall b, In b (uses m' (MRows w hh false (MPixels (Boxed rb) px))) -> b = rb \/ b = fst p).
  { intros b. unfold uses, cow_ptrs. cbn. rewrite app_nil_r, P, in_app_iff, in_map_iff.
    intros [<-|[(q & <- & J)|J]]; auto.
    - right. eapply row_ptrs_in; eauto.
    - destruct X as [->|[->|[-> _]]]; cbn in J; try tauto.
      + destruct p. cbn in *. destruct J; auto; tauto.
      + destruct J; auto; tauto. }
  eapply inv_new; eauto.
  - constructor.
    + intros b J. destruct (Q b J) as [->| ->]; auto.
    + unfold owns, of_src. cbn. destruct X as [->|[->|(-> & _ & _ & J)]]; cbn.
      * constructor; [intros []|constructor].
      * destruct p; cbn. constructor; [intros []|constructor].
      * constructor; [intros [J'|[]]; congruence|constructor; [intros []|constructor]].
    + cbn. split; auto. split; [discriminate|]. split.
      * intros c E. destruct X as [->|[->|(-> & J & _)]]; [discriminate| |]; injection E as <-; cbn.
        -- destruct p; cbn in *. destruct KP as [KP|KP]; [discriminate|exact KP].
        -- exact J.
      * intros p' E q. unfold cow_ptrs. cbn. rewrite app_nil_r, P. intros J. rewrite (row_ptrs_in _ _ _ _ J).
        destruct X as [->|[->|(-> & _)]]; congruence.
  - unfold c_owned, of_src. cbn. destruct X as [->|[->|(-> & _)]]; cbn; auto; destruct p; reflexivity.
  - unfold owns, of_src. cbn. intros b [<-|J]; auto. destruct X as [->|[->|(-> & _ & J' & _)]]; cbn in J.
    + destruct J.
    + destruct p; cbn in J; tauto.
    + destruct J as [<-|[]]. auto.
  - intros b r' J R. destruct (Q b J) as [->| ->]; auto.
Qed.

Lemma new_vec_ok T m h st l :
  inv T m l -> forall m1 b m2 rb, alloc m true [] = (m1, b) -> alloc m1 true (row_ptrs (b, 0) h st) = (m2, rb) ->
  forall w' h', inv T m2 (MRows w' h' false (MPixels (Boxed rb) (Some (Boxed b))) :: l).
Proof.
  intros I m1 b m2 rb E1 E2 w' h'. destruct (alloc_grows _ _ _ _ _ E1) as (G1 & B1 & L1 & V1 & K1 & _).
  destruct (alloc_grows _ _ _ _ _ E2) as (G2 & B2 & L2 & V2 & K2 & P2).
  assert (LT : b < length (m_heap m1)) by lia.
  destruct (grows_at _ _ _ G2 LT) as (V & K & _).
  apply (boxed_rows_ok m m2 rb (b, 0) h st w' h' T l (Some (Boxed b))); auto; cbn [fst].
  - eapply grows_trans; eauto.
  - lia.
  - right; right. repeat split; auto; try congruence; lia.
  - congruence.
  - intros. left. lia.
Qed.
Lemma new_borrowed_ok T s w h st p px m' rb :
  sinv T s -> caller_block s (fst p) -> alloc (s_mem s) true (row_ptrs p h st) = (m', rb) ->
  px = None \/ px = Some (Borrowed (Some p)) ->
  inv T m' (MRows w h false (MPixels (Boxed rb) px) :: allr (s_imgs s)).
Proof.
  intros I (C1 & C2 & C3) E X. destruct (alloc_grows _ _ _ _ _ E) as (G & B & L & V & K & P).
  destruct (grows_at _ _ (fst p) G) as (V' & K' & _); [apply live_lt; auto|].
  apply (boxed_rows_ok (s_mem s) m' rb p h st w h T _ px); auto; try congruence; try lia.
  - destruct X; auto.
Qed.

Lemma clone_rows_ok T m r l : inv T m l -> In r l -> clonable r ->
  exists m' r', clone_rows m r = Fine (m', r') /\ inv T m' (r' :: l) .
Proof.
  intros I R C. unfold clone_rows. destruct C as [E|[E|(b & p & E)]]; rewrite E.
  - destruct (alloc m true []) as [m1 b] eqn:E1. destruct (alloc m1 true (row_ptrs (b, 0) (r_h r) (r_w r))) as [m2 rb] eqn:E2.
    do 2 eexists. split; [reflexivity|].
    eapply (inv_same _ _ (MRows 0 0 false _)); [|eapply (new_vec_ok T m); eauto]. reflexivity.
  - cbn. do 2 eexists. split; [reflexivity|]. apply inv_recycled; auto.
  - cbn [clone_cow]. pose proof (inv_ok _ _ _ _ I R) as O.
    assert (LB : live m b = true) by (eapply rows_live; eauto; cbn; auto).
    unfold read. rewrite LB. cbn [obind].
    destruct (alloc m true (ptrs_in m b)) as [m1 b'] eqn:E1. cbn. do 2 eexists. split; [reflexivity|].
    destruct (alloc_grows _ _ _ _ _ E1) as (G & B & L & V & K & P).
    pose proof (ok_src _ _ O) as S. rewrite E in S. destruct S as (S1 & _ & S3 & S4).
    specialize (S3 _ eq_refl). specialize (S4 _ eq_refl).
    assert (CP : cow_ptrs m (Boxed b) = ptrs_in m b) by (unfold cow_ptrs; cbn; apply app_nil_r).
    assert (UP : In (fst p) (uses m r)).
    { unfold uses. rewrite E, !in_app_iff. right; right. destruct p; cbn; auto. }
    pose proof (ok_live _ _ O _ UP) as LP.
    destruct (grows_at _ _ (fst p) G) as (V' & K' & _); [apply live_lt; auto|].
    set (r' := with_src r (MPixels (Boxed b') (Some (Borrowed (Some p))))).
    assert (CP' : cow_ptrs m1 (Boxed b') = ptrs_in m b) by (unfold cow_ptrs; cbn; rewrite app_nil_r; auto).
    assert (Q : forall x, In x (uses m1 r') -> x = b' \/ x = fst p).
    { intros x. unfold uses, r'. cbn [r_src with_src]. rewrite CP', !in_app_iff, in_map_iff. cbn.
      intros [[<-|[]]|[(q & <- & J)|J]]; auto.
      - right. apply S4. rewrite CP. exact J.
      - destruct p; cbn in J. destruct J as [<-|[]]; auto. }
    eapply inv_new; [exact G|exact I| | | |].
    + constructor.
      * intros x J. destruct (Q x J) as [->| ->]; auto. congruence.
      * unfold owns, of_src, r'. cbn. destruct p; cbn. constructor; [intros []|constructor].
      * cbn [r_src with_src r']. split; [exact K|]. split; [discriminate|]. split.
        -- intros c Ec. injection Ec as <-. destruct p; cbn in *. congruence.
        -- intros p' Ep q. injection Ep as <-. rewrite CP', <- CP. apply S4.
    + unfold c_owned, of_src, r'. cbn. destruct p; reflexivity.
    + unfold owns, of_src, r'. cbn. destruct p; cbn. intros x [J|[]]. lia.
    + intros x r0 J R0. destruct (Q x J) as [->| ->]; [left; lia|]. right. intros W.
      (* [r0] releases a block that [r] uses: it is [r] itself, which releases only its row pointers *)
      assert (r0 = r \/ apart m r0 r) as [->|A].
      { destruct I as [S _ _]. clear - S R R0. induction l as [|a t IH]; [destruct R|].
        destruct S as (_ & F & S). rewrite Forall_forall in F. destruct R as [->|R], R0 as [->|R0]; auto.
        right. apply apart_sym; auto. }
      * unfold owns, of_src in W. rewrite E in W. cbn in W. destruct p as [pb po]; cbn in *.
        destruct W as [W|[]]. subst. congruence.
      * exact (proj1 A _ W UP).
Qed.

(** Handing over the row pointers, and the pixels *)
Lemma own_rows_inv T m r l b o pixels :
  inv T m (r :: l) -> r_src r = MPixels (Borrowed (Some (b, o))) pixels ->
  unused m l b -> ~ In b (opt_cow pixels cow_blk) ->
  inv (b :: T) m (with_src r (MPixels (Owned (Some (b, o))) pixels) :: l).
Proof.
  intros [S P D] E U N. destruct S as (O & A & S). set (r' := with_src r _).
  assert (EU : uses m r' = uses m r) by (unfold uses, r'; cbn; rewrite E; reflexivity).
  assert (EO : owns r' = b :: owns r) by (unfold owns, of_src, r'; cbn; rewrite E; reflexivity).
  assert (EC : c_owned r' = b :: c_owned r) by (unfold c_owned, of_src, r'; cbn; rewrite E; reflexivity).
  pose proof (ok_src _ _ O) as X. rewrite E in X. destruct X as (X1 & X2 & X3 & X4).
  constructor; auto.
  - split; [|split; auto].
    + constructor; rewrite ?EU, ?EO.
      * apply (ok_live _ _ O).
      * constructor; [|apply (ok_nodup _ _ O)]. unfold owns, of_src. rewrite E. cbn. intros J. apply N.
        destruct pixels; cbn in *; [apply rel_sub_blk; auto|auto].
      * cbn. split; [split; [eapply X2; eauto|exact X1]|]. split; [discriminate|]. split; auto.
    + rewrite Forall_forall in *. intros r0 R. destruct (A r0 R) as [A1 A2]. split; rewrite ?EU, ?EO; auto.
      intros x [<-|J]; auto.
  - cbn [flat_map]. rewrite EC. cbn [app]. rewrite P. cbn [flat_map]. apply Permutation_middle.
Qed.
Lemma own_pixels_inv T m r l b rows :
  inv T m (r :: l) -> r_src r = MPixels rows None ->
  is_lib m b = false -> unused m l b -> ~ In b (cow_blk rows) -> In (b, 0) (cow_ptrs m rows) ->
  inv (b :: T) m (with_src r (MPixels rows (Some (Owned (Some (b, 0))))) :: l).
Proof.
  intros [S P D] E K U N B. destruct S as (O & A & S). set (r' := with_src r _).
  assert (UB : In b (uses m r)).
  { unfold uses. rewrite E, !in_app_iff. right; left. apply (in_map fst) in B. exact B. }
  assert (EU : forall x, In x (uses m r') <-> In x (uses m r)).
  { intros x. unfold uses, r' in *. cbn. rewrite E in *. cbn in *. rewrite !in_app_iff in *. cbn in *. split; [|tauto].
    intros [J|[J|[<-|[]]]]; auto. }
  assert (EO : owns r' = owns r ++ [b]) by (unfold owns, of_src, r'; cbn; rewrite E; cbn; rewrite app_nil_r; reflexivity).
  assert (EC : c_owned r' = c_owned r ++ [b]) by (unfold c_owned, of_src, r'; cbn; rewrite E; cbn; rewrite app_nil_r; reflexivity).
  pose proof (ok_src _ _ O) as X. rewrite E in X. destruct X as (X1 & X2 & X3 & X4).
  constructor; auto.
  - split; [|split; auto].
    + constructor; rewrite ?EO.
      * intros x J. apply (ok_live _ _ O), EU, J.
      * apply NoDup_app_split. split; [apply (ok_nodup _ _ O)|]. split; [constructor; [intros []|constructor]|].
        intros x J [<-|[]]. apply N. unfold owns, of_src in J. rewrite E in J. cbn in J. rewrite app_nil_r in J. apply rel_sub_blk; auto.
      * cbn [r_src with_src r']. split; [exact X1|]. split; [exact X2|]. split; [|discriminate].
        intros c Ec. injection Ec as <-. cbn. auto.
    + rewrite Forall_forall in *. intros r0 R. destruct (A r0 R) as [A1 A2]. split; rewrite ?EO.
      * intros x. rewrite in_app_iff. intros [J|[<-|[]]]; auto.
      * intros x J J'. apply EU in J'. exact (A2 x J J').
  - cbn [flat_map]. rewrite EC, P. cbn [flat_map]. rewrite <- !app_assoc. cbn [app].
    rewrite app_assoc. rewrite (app_assoc _ _ (b :: _)). apply Permutation_middle.
Qed.
Lemma min_ptr_first b ps : In (b, 0) ps -> (forall q, In q ps -> fst q = b) -> min_ptr ps = Some (b, 0).
Proof.
  intros I H. destruct ps as [|p t]; [destruct I|]. cbn [min_ptr]. f_equal.
  assert (G : forall t a, fst a = b -> (forall q, In q t -> fst q = b) ->
    let r := fold_left (fun a b => if ptr_le a b then a else b) t a in
    fst r = b /\ snd r <= snd a /\ forall q, In q t -> snd r <= snd q).
  { clear. intros t. induction t as [|c t IH]; intros a Fa Ft; cbn [fold_left].
    - split; auto. split; auto. intros q [].
    - assert (Fc : fst c = b) by (apply Ft; cbn; auto).
      destruct (IH (if ptr_le a c then a else c)) as (A & B & C).
      { destruct (ptr_le a c); auto. } { intros; apply Ft; cbn; auto. }
      assert (M : snd (if ptr_le a c then a else c) <= snd a /\ snd (if ptr_le a c then a else c) <= snd c).
      { unfold ptr_le. rewrite Fa, Fc, Nat.ltb_irrefl, Nat.eqb_refl. cbn. destruct (Nat.leb_spec (snd a) (snd c)); lia. }
      destruct M as [M1 M2]. split; [exact A|]. split; [exact (Nat.le_trans _ _ _ B M1)|]. intros q [<-|J]; [exact (Nat.le_trans _ _ _ B M2)|auto]. }
  destruct (G t p) as (A & B & C); [apply H; cbn; auto|intros; apply H; cbn; auto|].
  set (r := fold_left (fun a b : ptr => if ptr_le a b then a else b) t p) in *.
  assert (Z : snd r = 0). { destruct I as [->|I]; [cbn in B; lia|]. specialize (C _ I). cbn in C. lia. }
  destruct r; cbn in *; subst; reflexivity.
Qed.
Lemma drop_image_ok T m x l : inv T m (rows_of (Some x) ++ l) -> exists m', drop_image m x = Fine m' /\ inv T m' l.
Proof.
  intros I. cbn in I. destruct (inv_drop _ _ _ _ I) as (m1 & E & J). unfold drop_image. rewrite E. cbn.
  destruct (g_bg x); cbn in J; [apply inv_drop; auto|eauto].
Qed.

Theorem step_safe T s c : sinv T s -> allowed s c ->
  exists s', mstep s c = Fine s' /\ sinv (handed s c ++ T) s'.
Proof.
  intros I W. destruct c; cbn [mstep handed app] in *.
  - destruct (alloc (s_mem s) false ps) as [m b] eqn:E. destruct (alloc_grows _ _ _ _ _ E) as (G & _).
    eexists. split; [reflexivity|]. unfold sinv; cbn. eapply inv_grow; eauto.
  - destruct W as (L & K & U). rewrite L, K. cbn. eexists. split; [reflexivity|]. unfold sinv; cbn.
    destruct (kill_frees _ _ L) as [F G]. destruct I as [S P [N D]]. constructor.
    + eapply frees_sep; eauto. intros r R x [<-|[]]; auto.
    + rewrite G. exact P.
    + split; rewrite G; auto. intros x J. destruct (D x J) as (D1 & D2 & D3).
      rewrite (fr_lib _ _ _ F), (fr_len _ _ _ F). repeat split; auto.
      destruct (live (kill (s_mem s) b) x) eqn:Q; auto. apply (fr_live _ _ _ F) in Q as [Q _]. congruence.
  - destruct (alloc (s_mem s) true []) as [m1 b] eqn:E1. destruct (alloc m1 true _) as [m2 rb] eqn:E2.
    eexists. split; [reflexivity|]. unfold sinv, add_image_m; cbn. unfold allr. rewrite flat_map_app. cbn.
    eapply inv_perm; [apply Permutation_cons_append|]. eapply (new_vec_ok T (s_mem s)); eauto.
  - destruct (alloc (s_mem s) true _) as [m1 rb] eqn:E1.
    eexists. split; [reflexivity|]. unfold sinv, add_image_m; cbn. unfold allr. rewrite flat_map_app. cbn.
    eapply inv_perm; [apply Permutation_cons_append|]. eapply new_borrowed_ok; eauto.
  - eexists. split; [reflexivity|]. unfold sinv, add_image_m; cbn. unfold allr. rewrite flat_map_app. cbn.
    eapply inv_perm; [apply Permutation_cons_append|].
    eapply inv_new; [apply grows_refl|exact I| | | |].
    + constructor; cbn; [intros b []|constructor|exact Logic.I].
    + reflexivity.
    + intros b [].
    + intros b r' [].
  - destruct W as [(L & K & U) V].
    eexists. split; [reflexivity|]. unfold sinv, add_image_m; cbn. unfold allr. rewrite flat_map_app. cbn.
    eapply inv_perm; [apply Permutation_cons_append|].
    assert (Q : forall x, In x (uses (s_mem s) (MRows w h false (MPixels (Borrowed (Some (b, 0))) None))) -> caller_block s x).
    { intros x. unfold uses, cow_ptrs. cbn. rewrite !app_nil_r, in_map_iff. intros [<-|(q & <- & J)]; auto. split; auto. }
    eapply inv_new; [apply grows_refl|exact I| | | |].
    + constructor; cbn [r_src].
      * intros x J. apply (Q x J).
      * constructor.
      * cbn. split; auto. split; [congruence|]. split; discriminate.
    + reflexivity.
    + intros x [].
    + intros x r' J R. right. apply (Q x J); auto.
  - destruct (alloc (s_mem s) true _) as [m1 rb] eqn:E1.
    eexists. split; [reflexivity|]. unfold sinv, add_image_m; cbn. unfold allr. rewrite flat_map_app. cbn.
    eapply inv_perm; [apply Permutation_cons_append|]. eapply new_borrowed_ok; eauto.
  - destruct (get_img s i) as [x|] eqn:E; [|eauto]. destruct (W x E) as [C1 C2].
    pose proof (proj1 (allr_split _ _ _ (get_nth _ _ _ E))) as PP.
    destruct (clone_rows_ok T (s_mem s) (g_px x) (allr (s_imgs s))) as (m1 & r1 & E1 & I1); auto.
    { apply (Permutation_in _ (Permutation_sym PP)). cbn. auto. }
    unfold clone_image. rewrite E1. cbn [obind fst snd]. destruct (g_bg x) as [b|] eqn:B.
    + destruct (clone_rows_ok T m1 b (r1 :: allr (s_imgs s))) as (m2 & r2 & E2 & I2); auto.
      { right. apply (Permutation_in _ (Permutation_sym PP)). cbn. rewrite B. cbn. auto. }
      rewrite E2. cbn. eexists. split; [reflexivity|]. unfold sinv; cbn. unfold allr. rewrite flat_map_app. cbn.
      eapply inv_perm; [|exact I2]. change (r2 :: r1 :: allr (s_imgs s)) with ([r2; r1] ++ allr (s_imgs s)).
      rewrite Permutation_app_comm. apply Permutation_app_head, perm_swap.
    + cbn. eexists. split; [reflexivity|]. unfold sinv; cbn. unfold allr. rewrite flat_map_app. cbn.
      eapply inv_perm; [apply Permutation_cons_append|]. exact I1.
  - destruct (get_img s i) as [x|] eqn:E; [|eauto]. pose proof (sinv_get _ _ _ _ I E) as J.
    destruct (drop_image_ok _ _ _ _ J) as (m' & D & K). rewrite D. cbn. eexists. split; [reflexivity|].
    eapply sinv_put; eauto.
  - destruct (get_img s i) as [x|] eqn:E; [|eauto]. pose proof (sinv_get _ _ _ _ I E) as J. cbn [rows_of app] in J.
    cbn [allowed] in W.
    assert (J' : inv T (s_mem s) (g_px x :: others s i x)) by exact J. clear J.
    assert (FIN : forall T' r', inv T' (s_mem s) (r' :: others s i x) -> sinv T' (put s (s_mem s) i (Some (MImage r' (g_bg x))))).
    { intros T' r' K. eapply sinv_put; eauto. }
    unfold set_ownership. destruct (r_src (g_px x)) as [rows pixels|] eqn:R.
    2:{ cbn. eexists. split; [reflexivity|]. apply FIN, J'. }
    destruct (W x rows pixels E R) as [W1 W2]. rename own_rows into OR, own_pixels into OP.
    set (rows1 := if OR then make_owned rows else rows).
    set (h1 := if OR then match rows with Borrowed (Some (b, _)) => [b] | _ => [] end else []).
    set (r1 := with_src (g_px x) (MPixels rows1 pixels)).
    assert (I1 : inv (h1 ++ T) (s_mem s) (r1 :: others s i x)).
    { assert (SAME : h1 = [] -> rows1 = rows -> inv (h1 ++ T) (s_mem s) (r1 :: others s i x)).
      { intros -> Q. eapply inv_same; [|exact J']. unfold r1. rewrite Q. cbn. auto. }
      unfold h1, rows1 in *. destruct OR; [|apply SAME; reflexivity]. destruct (W1 eq_refl) as [W3 W4].
      destruct rows as [p|[[b o]|]|b]; try (apply SAME; reflexivity).
      - destruct (W4 b o eq_refl) as [W5 W6]. apply own_rows_inv; auto.
      - destruct (W3 eq_refl). }
    assert (CB : cow_blk rows1 = cow_blk rows /\ cow_ptrs (s_mem s) rows1 = cow_ptrs (s_mem s) rows).
    { unfold rows1, cow_ptrs. destruct OR; auto. destruct rows as [p|[[b o]|]|b]; auto. }
    destruct CB as [CB CP].
    destruct OP.
    + destruct (W2 eq_refl) as [W3 W4]. destruct pixels as [c|].
      * eexists. split; [reflexivity|]. cbn [fst]. apply FIN. rewrite app_nil_r.
        assert (Q : make_owned c = c) by (destruct c; auto; destruct (W3 _ eq_refl p); auto).
        rewrite Q. exact I1.
      * destruct (W4 eq_refl) as (b & K & U & N & B & F).
        rewrite as_slice_ok; [|rewrite CB; intros z Z; eapply rows_live; [exact R| |exact Z]; eapply inv_ok; [exact J'|left; auto]].
        rewrite CP. cbn [obind]. rewrite (min_ptr_first b) by auto. eexists. split; [reflexivity|]. cbn [fst]. apply FIN.
        assert (HD : match cow_ptrs (s_mem s) rows with [] => [] | q :: _ => [fst q] end = [b]).
        { destruct (cow_ptrs (s_mem s) rows) as [|q t]; [destruct B|]. rewrite (F q) by (cbn; auto). reflexivity. }
        rewrite HD. eapply inv_T; [|eapply (own_pixels_inv (h1 ++ T) (s_mem s) r1 _ b rows1)]; auto.
        -- rewrite <- app_assoc. apply Permutation_middle.
        -- rewrite CB. exact N.
        -- rewrite CP. exact B.
    + eexists. split; [reflexivity|]. cbn [fst]. apply FIN. rewrite app_nil_r. exact I1.
  - destruct (get_img s i) as [x|] eqn:E; [|eauto]. destruct (get_img s j) as [y|] eqn:F; [|eauto].
    destruct (Nat.eqb_spec i j) as [|NE]; [eauto|].
    pose proof (sinv_get _ _ _ _ I F) as J.
    destruct (drop_image_ok _ _ _ _ J) as (md & D & K).
    assert (REJ : exists s', (m' <~~ drop_image (s_mem s) y ;; Fine (put s m' j None)) = Fine s' /\ sinv T s').
    { rewrite D. cbn. eexists. split; [reflexivity|]. eapply sinv_put; eauto. }
    destruct (g_bg y) eqn:B; auto. destruct (_ && _)%bool; auto. clear REJ D K md.
    assert (E' : get_img (MState (s_mem s) (upd (s_imgs s) j None)) i = Some x).
    { unfold get_img in *. cbn. rewrite nth_error_upd_neq by auto. exact E. }
    pose proof (allr_split _ _ _ (get_nth _ _ _ E')) as [P1 P2]. cbn [s_imgs] in P1, P2.
    assert (J2 : inv T (s_mem s) (rows_of (Some x) ++ g_px y :: allr (upd (upd (s_imgs s) j None) i None))).
    { eapply inv_perm; [|exact J]. cbn [rows_of]. rewrite B. cbn [app]. rewrite P1. cbn [rows_of app]. apply Permutation_middle with (l1 := _ :: _). }
    assert (NEW : exists m', match g_bg x with Some old => drop_src (s_mem s) (r_src old) | None => Fine (s_mem s) end = Fine m' /\
                  inv T m' (g_px x :: g_px y :: allr (upd (upd (s_imgs s) j None) i None))).
    { cbn [rows_of app] in J2. destruct (g_bg x) as [old|] eqn:BX; cbn [app] in J2; [|eauto].
      apply inv_drop. eapply inv_perm; [apply perm_swap|exact J2]. }
    destruct NEW as (m' & D & K). rewrite D. cbn [obind]. eexists. split; [reflexivity|].
    unfold sinv, put. cbn [s_mem s_imgs]. eapply inv_perm; [|exact K]. symmetry. exact (P2 (Some (MImage (g_px x) (Some (g_px y))))).
  - unfold on_img. destruct (get_img s i) as [x|] eqn:E; [|eauto]. pose proof (sinv_get _ _ _ _ I E) as J.
    destruct (run_steps_ok _ (Forall_firstn' _ _ n (quantize_steps_ok maps)) _ _ _ _ J) as (m' & x' & D & K).
    rewrite D. cbn. eexists. split; [reflexivity|]. eapply sinv_put; eauto.
  - unfold on_img. destruct (get_img s i) as [x|] eqn:E; [|eauto]. pose proof (sinv_get _ _ _ _ I E) as J.
    destruct (run_steps_ok _ (Forall_firstn' _ _ n (remap_steps_ok maps)) _ _ _ _ J) as (m' & x' & D & K).
    rewrite D. cbn. eexists. split; [reflexivity|]. eapply sinv_put; eauto.
Qed.

(** * Whole programs *)
Inductive abides : mstate -> list mcall -> Prop :=
| ab_nil s : abides s []
| ab_cons s c cs : allowed s c -> (forall s', mstep s c = Fine s' -> abides s' cs) -> abides s (c :: cs).
Fixpoint handed_run (s : mstate) (cs : list mcall) : list nat :=
  match cs with
  | [] => []
  | c :: t => handed s c ++ match mstep s c with Fine s' => handed_run s' t | Fault _ => [] end
  end.
Lemma run_safe cs : forall T s, sinv T s -> abides s cs ->
  exists s', mrun s cs = Fine s' /\ sinv (handed_run s cs ++ T) s'.
Proof.
  induction cs as [|c cs IH]; intros T s I A; cbn [mrun handed_run].
  - exists s. auto.
  - inversion A as [|? ? ? W N]; subst. destruct (step_safe _ _ _ I W) as (s1 & E & J). rewrite E. cbn [obind].
    destruct (IH _ _ J (N _ E)) as (s2 & E2 & K). exists s2. split; auto. unfold sinv in *. eapply inv_T; [|exact K].
    rewrite !app_assoc. apply Permutation_app_tail, Permutation_app_comm.
Qed.
Lemma start_inv : sinv [] m_start.
Proof. constructor; cbn; auto. split; [constructor|intros b []]. Qed.
Lemma program_safe cs : abides m_start cs ->
  exists s, mrun m_start cs = Fine s /\ sinv (handed_run m_start cs) s.
Proof.
  intros A. destruct (run_safe cs [] m_start start_inv A) as (s & E & I). rewrite app_nil_r in I. eauto.
Qed.
Lemma sep_nodup m l : sep m l -> NoDup (flat_map owns l).
Proof.
  induction l as [|r t IH]; cbn; [constructor|]. intros (O & A & S). apply NoDup_app_split. split; [apply (ok_nodup _ _ O)|].
  split; auto. intros b I J. rewrite in_flat_map in J. destruct J as (r' & R & J). rewrite Forall_forall in A.
  exact (proj1 (A r' R) b I (owns_uses m _ _ J)).
Qed.
(** The accounting of a program that keeps to the rules. *)
Lemma freed_once cs : abides m_start cs ->
  exists s, mrun m_start cs = Fine s /\
    NoDup (m_log (s_mem s)) /\
    (forall b, In b (m_log (s_mem s)) -> In b (handed_run m_start cs) /\ unused (s_mem s) (allr (s_imgs s)) b) /\
    Permutation (handed_run m_start cs) (m_log (s_mem s) ++ flat_map c_owned (allr (s_imgs s))) /\
    NoDup (handed_run m_start cs).
Proof.
  intros A. destruct (program_safe cs A) as (s & E & I). exists s. split; auto.
  destruct I as [S P [N D]]. split; auto. split; [|split; auto].
  - intros b J. split.
    + apply (Permutation_in _ (Permutation_sym P)), in_or_app. auto.
    + intros r R U. pose proof (ok_live _ _ (sep_ok _ _ _ S R) _ U) as L. destruct (D b J). congruence.
  - eapply Permutation_NoDup; [symmetry; exact P|]. apply NoDup_app_split. split; auto.
    assert (OW : forall b, In b (flat_map c_owned (allr (s_imgs s))) -> live (s_mem s) b = true).
    { intros b J. rewrite in_flat_map in J. destruct J as (r & R & J).
      apply (ok_live _ _ (sep_ok _ _ _ S R)), owns_uses, c_owned_owns, J. }
    split.
    + pose proof (sep_nodup _ _ S) as Q. clear - Q S. induction (allr (s_imgs s)) as [|r t IH]; cbn in *; [constructor|].
      destruct S as (O & F & S). apply NoDup_app_split in Q as (Q1 & Q2 & Q3). apply NoDup_app_split. split; [|split; auto].
      * pose proof (ok_nodup _ _ O) as K. unfold owns, c_owned, of_src in *. destruct (r_src r) as [rows pixels|]; [|constructor].
        assert (Q : forall c, owned_blk c = rel_blk c \/ owned_blk c = []) by (intros [[[? ?]|]|[[? ?]|]|]; cbn; auto).
        apply NoDup_app_split in K as (K1 & K2 & K3). apply NoDup_app_split. repeat split.
        -- destruct (Q rows) as [->| ->]; auto; constructor.
        -- destruct pixels as [c|]; cbn in *; [|constructor]. destruct (Q c) as [->| ->]; auto; constructor.
        -- intros x X Y. apply (K3 x). apply owned_sub_rel; auto. destruct pixels as [c|]; cbn in *; [apply owned_sub_rel; auto|destruct Y].
      * intros x X Y. apply (Q3 x). apply c_owned_owns; auto. rewrite in_flat_map in *. destruct Y as (r' & R & Y).
        exists r'. split; auto. apply c_owned_owns; auto.
    + intros b J K. destruct (D b J). rewrite (OW b K) in H. discriminate.
Qed.
Lemma all_destroyed (s : mstate) : (forall i, get_img s i = None) -> allr (s_imgs s) = [].
Proof.
  intros H. unfold get_img in H. unfold allr. induction (s_imgs s) as [|[x|] t IH]; cbn; auto.
  - specialize (H 0). cbn in H. discriminate.
  - apply IH. intros i. exact (H (S i)).
Qed.
Lemma destroyed_all_freed cs s : abides m_start cs -> mrun m_start cs = Fine s -> (forall i, get_img s i = None) ->
  Permutation (handed_run m_start cs) (m_log (s_mem s)).
Proof.
  intros A E H. destruct (program_safe cs A) as (s' & E' & I). rewrite E in E'. injection E' as <-.
  destruct I as [_ P _]. rewrite P, (all_destroyed s H). cbn. rewrite app_nil_r. reflexivity.
Qed.
