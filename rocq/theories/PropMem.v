(** C18, C30: memory behind images. *)
From Verif Require Import Base Mem MemFacts.
From Coq Require Import Permutation.
Open Scope nat_scope.

(** * C18 *)

(** Calls of the safe Rust interface: the caller's buffers are lent for as long
    as an image uses them (the borrow checker sees to that, so no [UserFree]). *)
Definition rust_call (c : mcall) : Prop :=
  match c with
  | UserAlloc _ | NewVec _ _ _ | NewBorrowed _ _ _ _ | NewFn _ _ | CloneImg _ | DropImg _ | BgImg _ _
  | QuantizeImg _ _ _ | RemapImg _ _ _ => True
  | UserFree _ | NewCRows _ _ _ | NewCBitmap _ _ _ | OwnImg _ _ _ => False
  end.

(** Programs that clone only images whose pixels are borrowed, come from a
    callback or were already released never read or release memory that is
    gone.  Missing for the full claim: clones of images that own their pixels;
    for those it is false, see below. *)
Theorem C18_no_released_memory_partial : forall cs, abides m_start cs -> exists s, mrun m_start cs = Fine s.
Proof. intros cs A. destruct (program_safe cs A) as (s & E & _). exists s. exact E. Qed.
Print Assumptions C18_no_released_memory_partial.

(** An image that owns its pixels is cloned with pointers into the original's
    buffer: quantizing the clone after the original is gone reads released
    memory, and so does quantizing it after the original was remapped twice. *)
Theorem C18_clone_refuted :
  exists cs cs', Forall rust_call cs /\ mrun m_start cs = Fault ReadReleased /\
    Forall rust_call cs' /\ (forall i, ~ In (DropImg i) cs') /\ mrun m_start cs' = Fault ReadReleased.
Proof.
  exists [NewVec 2 2 2; CloneImg 0; DropImg 0; QuantizeImg 1 false 1],
         [NewVec 2 2 2; CloneImg 0; RemapImg 0 false 7; RemapImg 0 false 7; QuantizeImg 1 false 1].
  split; [repeat constructor|]. split; [vm_compute; reflexivity|]. split; [repeat constructor|].
  split; [|vm_compute; reflexivity]. intros i [E|[E|[E|[E|[E|[]]]]]]; discriminate.
Qed.
Print Assumptions C18_clone_refuted.

(** Tactic for checking that a concrete program keeps to the rules. *)
Ltac abide_step := apply ab_cons; [|let s := fresh in let E := fresh in intros s E; vm_compute in E; injection E as <-].
Ltac caller := repeat split; cbn; auto; try (intros r H; cbn in H; tauto).

(** Borrowed pixels: the clone outlives the original, which was remapped twice
    over a background that is a clone as well. *)
Definition borrowed_clones : list mcall :=
  [UserAlloc []; NewBorrowed 2 2 2 (0, 0); CloneImg 0; CloneImg 0; BgImg 0 2; RemapImg 0 true 8; RemapImg 0 true 8;
   DropImg 0; QuantizeImg 1 true 2; RemapImg 1 false 7; DropImg 1].
Example C18_example :
  abides m_start borrowed_clones /\
  mrun m_start borrowed_clones =
    Fine (MState (Mem [Cell true false []; Cell false true [(0, 0); (0, 2)]; Cell false true [(0, 0); (0, 2)]; Cell false true [(0, 0); (0, 2)]] [])
                 [None; None; None]).
Proof.
  split; [|vm_compute; reflexivity]. unfold borrowed_clones.
  abide_step; [exact I|]. abide_step; [caller|].
  abide_step. { cbn. intros x E. injection E as <-. split; [right; right; do 2 eexists; reflexivity|discriminate]. }
  abide_step. { cbn. intros x E. injection E as <-. split; [right; right; do 2 eexists; reflexivity|discriminate]. }
  abide_step; [exact I|]. abide_step; [exact I|]. abide_step; [exact I|]. abide_step; [exact I|].
  abide_step; [exact I|]. abide_step; [exact I|]. abide_step; [exact I|]. constructor.
Qed.

(** * C30 *)

(** In programs that keep to the rules: every buffer passed to the free
    function had been handed over, is passed only once, and is no longer used
    by any image; the buffers handed over are exactly those freed plus those
    still held by some image; and when all images are destroyed they have all
    been freed.  Missing for the full claim: taking ownership of the row
    pointers after the library has dropped them, see below. *)
Theorem C30_freed_once_partial : forall cs, abides m_start cs ->
  exists s, mrun m_start cs = Fine s /\
    NoDup (m_log (s_mem s)) /\
    (forall b, In b (m_log (s_mem s)) -> In b (handed_run m_start cs) /\ unused (s_mem s) (allr (s_imgs s)) b) /\
    Permutation (handed_run m_start cs) (m_log (s_mem s) ++ flat_map c_owned (allr (s_imgs s))) /\
    NoDup (handed_run m_start cs) /\
    ((forall i, get_img s i = None) -> Permutation (handed_run m_start cs) (m_log (s_mem s))).
Proof.
  intros cs A. destruct (freed_once cs A) as (s & E & H1 & H2 & H3 & H4). exists s.
  split; [exact E|]. split; [exact H1|]. split; [exact H2|]. split; [exact H3|]. split; [exact H4|].
  exact (destroyed_all_freed cs s A E).
Qed.
Print Assumptions C30_freed_once_partial.

(** After two remaps the library has replaced the row pointers by an empty
    slice.  Taking ownership of rows then succeeds, and destroying the image
    passes a pointer to the free function that never came from the caller. *)
Theorem C30_own_rows_refuted :
  exists cs s, mrun m_start cs = Fine s /\ (exists x, get_img s 0 = Some x /\ exists y, set_ownership (s_mem s) (g_px x) true false = Fine (y, true)) /\
    (forall b, In b [0; 1] -> live (s_mem s) b = true) /\ m_log (s_mem s) = [] /\
    mrun s [OwnImg 0 true false; DropImg 0] = Fault BadRelease.
Proof.
  exists [UserAlloc []; UserAlloc [(0, 0); (0, 2)]; NewCRows 2 2 1; RemapImg 0 false 7; RemapImg 0 false 7].
  eexists. split; [vm_compute; reflexivity|]. split.
  { eexists. split; [reflexivity|]. eexists. vm_compute. reflexivity. }
  split; [intros b [<-|[<-|[]]]; reflexivity|]. split; reflexivity.
Qed.
Print Assumptions C30_own_rows_refuted.

(** Rows and pixels are handed over together, the rows from last to first; the
    second remap frees both, destruction frees nothing more. *)
Definition handing : list mcall :=
  [UserAlloc []; UserAlloc [(0, 2); (0, 0)]; NewCRows 2 2 1; OwnImg 0 true true; OwnImg 0 true true;
   QuantizeImg 0 false 1; RemapImg 0 false 7].
Example C30_example :
  abides m_start handing /\ handed_run m_start handing = [1; 0] /\
  (exists s, mrun m_start handing = Fine s /\ m_log (s_mem s) = []) /\
  (exists s, mrun m_start (handing ++ [DropImg 0]) = Fine s /\ m_log (s_mem s) = [0; 1]) /\
  (exists s, mrun m_start (handing ++ [RemapImg 0 false 7]) = Fine s /\ m_log (s_mem s) = [0; 1]) /\
  (exists s, mrun m_start (handing ++ [RemapImg 0 false 7; DropImg 0]) = Fine s /\ m_log (s_mem s) = [0; 1]).
Proof.
  split.
  { unfold handing. abide_step; [exact I|]. abide_step; [exact I|].
    abide_step. { split; [caller|]. cbn. intros p [<-|[<-|[]]]; caller. }
    abide_step. { cbn. intros x rows pixels E. injection E as <-. cbn. intros E. injection E as <- <-. split; intros _.
      - split; [discriminate|]. intros b o E. injection E as <- _. split; [intros r []|intros []].
      - split; [discriminate|]. intros _. exists 0. split; [reflexivity|]. split; [intros r []|]. split; [intros [E|[]]; discriminate|].
        cbn. split; [auto|]. intros q [<-|[<-|[]]]; reflexivity. }
    abide_step. { cbn. intros x rows pixels E. injection E as <-. cbn. intros E. injection E as <- <-. split; intros _.
      - split; [discriminate|]. discriminate.
      - split; [|discriminate]. intros c E. injection E as <-. discriminate. }
    abide_step; [exact I|]. abide_step; [exact I|]. constructor. }
  split; [vm_compute; reflexivity|].
  repeat split; eexists; (split; [vm_compute; reflexivity|reflexivity]).
Qed.
