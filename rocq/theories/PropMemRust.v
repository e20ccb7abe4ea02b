(** C18: what safe Rust programs release, whatever they clone. *)
From Verif Require Import Base BaseFacts Mem MemFacts MemRust PropMem.
From Coq Require Import Permutation.
Open Scope nat_scope.

(** C18.  Clones of images that own their pixels may read memory that is gone
    (see [C18_clone_refuted]), but no program of the safe interface releases
    memory twice or memory that is not the library's: it runs, or it stops at
    such a read.  And nothing leaks: the library's live blocks are those that the
    images will release, each held once; when all images are gone, so are they. *)
Theorem C18_released_once : forall cs, Forall rust_call cs ->
  mrun m_start cs = Fault ReadReleased \/
  exists s, mrun m_start cs = Fine s /\ NoDup (flat_map owns (allr (s_imgs s))) /\
    (forall b, live (s_mem s) b = true /\ is_lib (s_mem s) b = true <-> exists r, In r (allr (s_imgs s)) /\ In b (owns r)) /\
    ((forall i, get_img s i = None) -> forall b, live (s_mem s) b = true -> is_lib (s_mem s) b = false).
Proof.
  exact (fun cs F => match run_rust cs m_start start_rust (Forall_impl rust_only (fun c => match c with UserFree _ | NewCRows _ _ _ | NewCBitmap _ _ _ | OwnImg _ _ _ => fun H => H | _ => fun H => H end) F) with
    | or_introl E => or_introl E | or_intror (ex_intro _ s (conj E K)) => or_intror (ex_intro _ s (conj E (rust_ok_says s K))) end).
Qed.
Print Assumptions C18_released_once.

(** An image that owns its pixels, its clone and a background; the image and the
    clone are dropped in turn and both remapped or quantized before. *)
Example C18_released_example :
  let cs := [NewVec 2 2 2; CloneImg 0; NewFn 2 2; CloneImg 2; BgImg 1 3; QuantizeImg 1 true 2; RemapImg 0 false 7; RemapImg 1 false 7; DropImg 0; DropImg 1; DropImg 2] in
  Forall rust_call cs /\ exists s, mrun m_start cs = Fine s /\ length (m_heap (s_mem s)) = 6 /\ forall b, live (s_mem s) b = false.
Proof.
  cbv zeta. split; [repeat constructor|]. eexists. split; [vm_compute; reflexivity|]. split; [reflexivity|].
  intros b. do 6 (destruct b as [|b]; [reflexivity|]). unfold live. destruct b; reflexivity.
Qed.
