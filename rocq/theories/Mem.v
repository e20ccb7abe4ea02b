(** Model of the memory behind images: src/seacow.rs and the ownership parts of
    src/rows.rs, src/image.rs and imagequant-sys/src/ffi.rs.

    Memory is a list of blocks (allocations).  A block is either the caller's
    or the library's, is live until it is released, and may hold row pointers.
    Reading a released block and releasing anything but the start of a live
    block are faults.  What is computed from the pixels is in [ImageM.v] and
    [Remap.v]; here only the accesses matter, so a step that reads pixels reads
    all rows. *)
From Verif Require Import Base.
Open Scope nat_scope.

(** An address: block and offset.  Addresses are ordered by block, then offset. *)
Definition ptr := (nat * nat)%type.
Definition ptr_le (p q : ptr) : bool :=
  (Nat.ltb (fst p) (fst q) || (Nat.eqb (fst p) (fst q) && Nat.leb (snd p) (snd q)))%bool.

Record cell := Cell { c_live : bool; c_lib : bool; c_ptrs : list ptr }.
(** [m_log]: the blocks passed to the caller's free function, latest first. *)
Record mem := Mem { m_heap : list cell; m_log : list nat }.
Inductive fault := ReadReleased | BadRelease.
Inductive out (T : Type) := Fine (x : T) | Fault (f : fault).
Arguments Fine {T} x. Arguments Fault {T} f.
Definition obind {T U} (o : out T) (f : T -> out U) : out U := match o with Fine x => f x | Fault e => Fault e end.
Notation "x <~~ m ;; k" := (obind m (fun x => k)) (at level 61, m at next level, right associativity).

Definition live (m : mem) (b : nat) : bool := match nth_error (m_heap m) b with Some c => c_live c | None => false end.
Definition ptrs_in (m : mem) (b : nat) : list ptr := match nth_error (m_heap m) b with Some c => c_ptrs c | None => [] end.
Definition is_lib (m : mem) (b : nat) : bool := match nth_error (m_heap m) b with Some c => c_lib c | None => false end.
Definition alloc (m : mem) (lib : bool) (ps : list ptr) : mem * nat :=
  (Mem (m_heap m ++ [Cell true lib ps]) (m_log m), length (m_heap m)).
Definition kill (m : mem) (b : nat) : mem :=
  match nth_error (m_heap m) b with
  | Some c => Mem (upd (m_heap m) b (Cell false (c_lib c) (c_ptrs c))) (m_log m)
  | None => m
  end.
Definition read (m : mem) (b : nat) : out unit := if live m b then Fine tt else Fault ReadReleased.

(** src/seacow.rs:81-86 [SeaCowInner].  [None] is the dangling pointer of the
    empty slice [&[]]. *)
Inductive cow := Owned (p : option ptr) | Borrowed (p : option ptr) | Boxed (b : nat).

(** src/seacow.rs:99-109 [as_slice], for an array of row pointers *)
Definition as_slice (m : mem) (c : cow) : out (list ptr) :=
  match c with
  | Owned None | Borrowed None => Fine []
  | Owned (Some (b, _)) | Borrowed (Some (b, _)) | Boxed b => _ <~~ read m b ;; Fine (ptrs_in m b)
  end.

(** src/seacow.rs:88-97 [drop]: [Owned] calls the C free function; a box is
    returned to the allocator. *)
Definition drop_cow (m : mem) (c : cow) : out mem :=
  match c with
  | Owned (Some (b, 0)) =>
      if (live m b && negb (is_lib m b))%bool
      then Fine (let m' := kill m b in Mem (m_heap m') (b :: m_log m')) else Fault BadRelease
  | Owned _ => Fault BadRelease
  | Boxed b => if (live m b && is_lib m b)%bool then Fine (kill m b) else Fault BadRelease
  | Borrowed _ => Fine m
  end.

(** src/seacow.rs:65-79 [clone] *)
Definition clone_cow (m : mem) (c : cow) : out (mem * cow) :=
  match c with
  | Borrowed p => Fine (m, Borrowed p)
  | Owned None => let '(m', b) := alloc m true [] in Fine (m', Boxed b)
  | Owned (Some (b, _)) | Boxed b =>
      _ <~~ read m b ;; let '(m', b') := alloc m true (ptrs_in m b) in Fine (m', Boxed b')
  end.

(** src/seacow.rs:56-62 [make_owned] *)
Definition make_owned (c : cow) : cow := match c with Borrowed p => Owned p | _ => c end.

(** src/rows.rs:9-17, 39-45 *)
Inductive msource := MPixels (rows : cow) (pixels : option cow) | MCallback.
Record mrows := MRows { r_w : nat; r_h : nat; r_cached : bool; r_src : msource }.
Definition with_src (r : mrows) (s : msource) : mrows := MRows (r_w r) (r_h r) (r_cached r) s.

(** src/rows.rs:19-36 [for_pixels]: row pointers into a buffer that starts at [p] *)
Definition row_ptrs (p : ptr) (height stride : nat) : list ptr :=
  map (fun i => (fst p, snd p + i * stride)) (seq 0 height).

(** src/rows.rs:125-136, 160-177: reading all rows of the source *)
Definition read_all (m : mem) (ps : list ptr) : out unit :=
  fold_left (fun o p => _ <~~ o ;; read m (fst p)) ps (Fine tt).
Definition read_rows (m : mem) (r : mrows) : out unit :=
  match r_src r with
  | MPixels rows _ => ps <~~ as_slice m rows ;; read_all m ps
  | MCallback => Fine tt
  end.
Definition low_mem (r : mrows) : bool :=
  Z.ltb (LIQ_HIGH_MEMORY_LIMIT / 16) (Z.of_nat (r_w r) * Z.of_nat (r_h r)).
Definition prepare (m : mem) (r : mrows) (allow_streamed : bool) : out mrows :=
  if (r_cached r || (allow_streamed && low_mem r))%bool then Fine r
  else _ <~~ read_rows m r ;; Fine (MRows (r_w r) (r_h r) true (r_src r)).
(** src/rows.rs:82-110 [row_f] for all rows *)
Definition read_f (m : mem) (r : mrows) : out unit := if r_cached r then Fine tt else read_rows m r.
(** src/rows.rs:197-206 [rgba_rows_iter] (fails on recycled images) and the
    loop over all rows *)
Definition read_rgba (m : mem) (r : mrows) : out unit := read_rows m r.

(** Dropping a pixel source: fields in order. *)
Definition drop_src (m : mem) (s : msource) : out mem :=
  match s with
  | MCallback => Fine m
  | MPixels rows pixels =>
      m1 <~~ drop_cow m rows ;;
      match pixels with Some c => drop_cow m1 c | None => Fine m1 end
  end.
(** src/rows.rs:242-249 [free_histogram_inputs] *)
Definition free_inputs (m : mem) (r : mrows) : out (mem * mrows) :=
  if r_cached r then
    m' <~~ drop_src m (r_src r) ;; Fine (m', with_src r (MPixels (Borrowed None) None))
  else Fine (m, r).

(** src/rows.rs:47-75 [clone] *)
Definition clone_rows (m : mem) (r : mrows) : out (mem * mrows) :=
  match r_src r with
  | MPixels rows pixels =>
      x <~~ clone_cow m rows ;;
      match pixels with
      | None => Fine (fst x, with_src r (MPixels (snd x) None))
      | Some c => y <~~ clone_cow (fst x) c ;; Fine (fst y, with_src r (MPixels (snd x) (Some (snd y))))
      end
  | MCallback =>
      let '(m1, b) := alloc m true [] in
      let '(m2, rb) := alloc m1 true (row_ptrs (b, 0) (r_h r) (r_w r)) in
      Fine (m2, with_src r (MPixels (Boxed rb) (Some (Boxed b))))
  end.

(** src/rows.rs:219-240 [set_memory_ownership]; [false] is an error result *)
Definition min_ptr (ps : list ptr) : option ptr :=
  match ps with
  | [] => None
  | p :: t => Some (fold_left (fun a b => if ptr_le a b then a else b) t p)
  end.
Definition set_ownership (m : mem) (r : mrows) (own_rows own_pixels : bool) : out (mrows * bool) :=
  match r_src r with
  | MCallback => Fine (r, negb (own_rows || own_pixels))
  | MPixels rows pixels =>
      let rows := if own_rows then make_owned rows else rows in
      if own_pixels then
        match pixels with
        | Some c => Fine (with_src r (MPixels rows (Some (make_owned c))), true)
        | None =>
            ps <~~ as_slice m rows ;;
            match min_ptr ps with
            | None => Fine (with_src r (MPixels rows None), false)
            | Some p => Fine (with_src r (MPixels rows (Some (Owned (Some p)))), true)
            end
        end
      else Fine (with_src r (MPixels rows pixels), true)
  end.

(** src/image.rs:19-26 [Image]; a background has no background
    (src/image.rs:192-201). *)
Record mimage := MImage { g_px : mrows; g_bg : option mrows }.
Definition drop_image (m : mem) (i : mimage) : out mem :=
  m1 <~~ drop_src m (r_src (g_px i)) ;;
  match g_bg i with Some b => drop_src m1 (r_src b) | None => Fine m1 end.
Definition clone_image (m : mem) (i : mimage) : out (mem * mimage) :=
  x <~~ clone_rows m (g_px i) ;;
  match g_bg i with
  | None => Fine (fst x, MImage (snd x) None)
  | Some b => y <~~ clone_rows (fst x) b ;; Fine (fst y, MImage (snd x) (Some (snd y)))
  end.

(** * A program: the caller's buffers and the images it holds *)
Record mstate := MState { s_mem : mem; s_imgs : list (option mimage) }.
Definition add_image_m (m : mem) (s : mstate) (r : mrows) : mstate := MState m (s_imgs s ++ [Some (MImage r None)]).
Definition get_img (s : mstate) (i : nat) : option mimage :=
  match nth_error (s_imgs s) i with Some (Some x) => Some x | _ => None end.
Definition put (s : mstate) (m : mem) (i : nat) (x : option mimage) : mstate := MState m (upd (s_imgs s) i x).

Inductive mcall :=
| UserAlloc (ps : list ptr)                          (* the caller allocates a buffer, perhaps of row pointers *)
| UserFree (b : nat)                                 (* the caller releases its own buffer *)
| NewVec (w h stride : nat)                          (* Image::new, new_stride: pixels moved into the library *)
| NewBorrowed (w h stride : nat) (p : ptr)           (* Image::new_borrowed, new_stride_borrowed *)
| NewFn (w h : nat)                                  (* Image::new_fn, liq_image_create_custom *)
| NewCRows (w h : nat) (b : nat)                     (* liq_image_create_rgba_rows: [b] is the array of row pointers *)
| NewCBitmap (w h : nat) (p : ptr)                   (* liq_image_create_rgba *)
| CloneImg (i : nat)
| DropImg (i : nat)                                  (* drop, liq_image_destroy *)
| OwnImg (i : nat) (own_rows own_pixels : bool)      (* liq_image_set_memory_ownership *)
| BgImg (i j : nat)                                  (* set_background; [j] is moved, so [i <> j] in Rust; [j = i] does nothing *)
| QuantizeImg (i : nat) (maps : bool) (n : nat)      (* quantize, add_image; [maps]: contrast maps are made; stops after [n] steps *)
| RemapImg (i : nat) (maps : bool) (n : nat).        (* remap; stops after [n] steps *)

(** A remap or quantization as a list of steps on the memory and the image; an
    aborted or failed call stops after some of them. *)
Definition istep := mem -> mimage -> out (mem * mimage).
Definition on_px (f : mem -> mrows -> out (mem * mrows)) : istep :=
  fun m i => x <~~ f m (g_px i) ;; Fine (fst x, MImage (snd x) (g_bg i)).
Definition on_bg (f : mem -> mrows -> out (mem * mrows)) : istep :=
  fun m i => match g_bg i with
             | None => Fine (m, i)
             | Some b => x <~~ f m b ;; Fine (fst x, MImage (g_px i) (Some (snd x)))
             end.
Definition s_prepare (allow : bool) : mem -> mrows -> out (mem * mrows) :=
  fun m r => r' <~~ prepare m r allow ;; Fine (m, r').
Definition s_read_f : mem -> mrows -> out (mem * mrows) := fun m r => _ <~~ read_f m r ;; Fine (m, r).
Definition s_read_rgba : mem -> mrows -> out (mem * mrows) := fun m r => _ <~~ read_rgba m r ;; Fine (m, r).
(** src/attr.rs:79-84, src/hist.rs:105-132, 252-269; contrast maps convert all
    rows (src/image.rs:250) *)
Definition quantize_steps (maps : bool) : list istep :=
  (if maps then [on_px (s_prepare false)] else []) ++ [on_px s_read_rgba].
(** src/quant.rs:83-132, src/remap.rs:29-232; [free_histogram_inputs] comes
    first (quant.rs:90), then the rows of the image and the background are
    prepared and read; the dither map may need contrast maps (image.rs:127-131) *)
Definition remap_steps (maps : bool) : list istep :=
  [on_px free_inputs; on_px (s_prepare true); on_px s_read_f] ++
  (if maps then [on_px (s_prepare false)] else []) ++
  [on_bg (s_prepare true); on_px (s_prepare true); on_px s_read_f; on_bg s_read_f].
Definition run_steps (l : list istep) (m : mem) (i : mimage) : out (mem * mimage) :=
  fold_left (fun o f => x <~~ o ;; f (fst x) (snd x)) l (Fine (m, i)).

Definition on_img (s : mstate) (i : nat) (l : list istep) : out mstate :=
  match get_img s i with
  | None => Fine s
  | Some x => y <~~ run_steps l (s_mem s) x ;; Fine (put s (fst y) i (Some (snd y)))
  end.

Definition mstep (s : mstate) (c : mcall) : out mstate :=
  let m := s_mem s in
  match c with
  | UserAlloc ps => Fine (MState (fst (alloc m false ps)) (s_imgs s))
  | UserFree b => if (live m b && negb (is_lib m b))%bool then Fine (MState (kill m b) (s_imgs s)) else Fault BadRelease
  | NewVec w h stride =>
      let '(m1, b) := alloc m true [] in
      let '(m2, rb) := alloc m1 true (row_ptrs (b, 0) h stride) in
      Fine (add_image_m m2 s (MRows w h false (MPixels (Boxed rb) (Some (Boxed b)))))
  | NewBorrowed w h stride p =>
      let '(m1, rb) := alloc m true (row_ptrs p h stride) in
      Fine (add_image_m m1 s (MRows w h false (MPixels (Boxed rb) (Some (Borrowed (Some p))))))
  | NewFn w h => Fine (add_image_m m s (MRows w h false MCallback))
  | NewCRows w h b => Fine (add_image_m m s (MRows w h false (MPixels (Borrowed (Some (b, 0))) None)))
  | NewCBitmap w h p =>
      let '(m1, rb) := alloc m true (row_ptrs p h w) in
      Fine (add_image_m m1 s (MRows w h false (MPixels (Boxed rb) None)))
  | CloneImg i =>
      match get_img s i with
      | None => Fine s
      | Some x => y <~~ clone_image m x ;; Fine (MState (fst y) (s_imgs s ++ [Some (snd y)]))
      end
  | DropImg i =>
      match get_img s i with
      | None => Fine s
      | Some x => m' <~~ drop_image m x ;; Fine (put s m' i None)
      end
  | OwnImg i r p =>
      match get_img s i with
      | None => Fine s
      | Some x => y <~~ set_ownership m (g_px x) r p ;; Fine (put s m i (Some (MImage (fst y) (g_bg x))))
      end
  | BgImg i j =>
      match get_img s i, get_img s j with
      | Some x, Some y =>
          if Nat.eqb i j then Fine s
          else match g_bg y with
               | None =>
                   if (Nat.eqb (r_w (g_px x)) (r_w (g_px y)) && Nat.eqb (r_h (g_px x)) (r_h (g_px y)))%bool then
                     m' <~~ match g_bg x with Some old => drop_src m (r_src old) | None => Fine m end ;;
                     let s1 := put s m' j None in
                     Fine (put s1 m' i (Some (MImage (g_px x) (Some (g_px y)))))
                   else m' <~~ drop_image m y ;; Fine (put s m' j None)     (* rejected: the argument is dropped *)
               | Some _ => m' <~~ drop_image m y ;; Fine (put s m' j None)
               end
      | _, _ => Fine s
      end
  | QuantizeImg i maps n => on_img s i (firstn n (quantize_steps maps))
  | RemapImg i maps n => on_img s i (firstn n (remap_steps maps))
  end.
Fixpoint mrun (s : mstate) (cs : list mcall) : out mstate :=
  match cs with
  | [] => Fine s
  | c :: t => s' <~~ mstep s c ;; mrun s' t
  end.
Definition m_start : mstate := MState (Mem [] []) [].
