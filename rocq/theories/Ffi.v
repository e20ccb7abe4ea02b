(** Model of the C interface, imagequant-sys/src/ffi.rs and src/capi.rs.

    A C program holds pointers to objects.  Every object starts with a type
    tag.  Using the inner Rust value of an object that is not of the expected
    type, was released, or was moved elsewhere, and releasing such an object,
    is [Undefined].  A Rust panic cannot leave an [extern "C"] function; it
    stops the program ([Abort]).

    Simplifications: callbacks are part of the environment (the setters only
    check their object); the caller's buffers are lists, [None] being NULL;
    who frees them is in [Mem.v].  Reading the tag of a released object is
    taken to yield what the destructor left there, as the code hopes. *)
From Verif Require Import Base Arith Pal World Attr Hist Nearest Kmeans Blur ImageM Quant Remap.
Section Ffi.
Context {A : Arith}.
Variable u : unspec.
Variable cb : callback.
Open Scope Z_scope.

(** ffi.rs:74-78 magic tags *)
Inductive tag := TAttr | TImage | TResult | THist | TFreed.
Definition tag_eqb (x y : tag) : bool :=
  match x, y with
  | TAttr, TAttr | TImage, TImage | TResult, TResult | THist, THist | TFreed, TFreed => true
  | _, _ => false
  end.
(** ffi.rs:21-46: what the memory of an object holds; [Gone]: released, or
    moved out by [liq_image_set_background]. *)
Inductive body := BAttr (a : attrs) | BImage (i : image) | BResult (q : qresult) | BHist (h : hist) | Gone.
Record cobj := CObj { o_tag : tag; o_body : body }.
Record cstate := CState { c_objs : list cobj; c_world : world }.
(** A pointer: NULL, or an object. *)
Definition handle := option nat.

Inductive cret :=
| RErr (e : option error)          (* liq_error; [None] is LIQ_OK *)
| RInt (z : Z)
| RF64 (x : f64)
| RPal (p : option (list rgba))    (* const liq_palette *; [None] is NULL *)
| RPtr (p : handle)
| RBuf (e : option error) (out : list nat)  (* liq_error and the caller's output buffer *)
| RVoid.
Inductive cout := Ret (r : cret) (s : cstate) | Abort | Undefined.

Definition obj (s : cstate) (p : handle) : option cobj :=
  match p with Some n => nth_error (c_objs s) n | None => None end.
(** ffi.rs:90-98 [bad_object!] *)
Definition good (s : cstate) (t : tag) (p : handle) : bool :=
  match obj s p with Some o => tag_eqb (o_tag o) t | None => false end.
Definition set_obj (s : cstate) (p : handle) (o : cobj) : cstate :=
  match p with Some n => CState (upd (c_objs s) n o) (c_world s) | None => s end.
Definition set_body (s : cstate) (p : handle) (b : body) : cstate :=
  match obj s p with Some o => set_obj s p (CObj (o_tag o) b) | None => s end.
Definition set_world (s : cstate) (w : world) : cstate := CState (c_objs s) w.
Definition new_obj (s : cstate) (t : tag) (b : body) : cout :=
  Ret (RPtr (Some (length (c_objs s)))) (CState (c_objs s ++ [CObj t b]) (c_world s)).

(** Using the inner value *)
Definition inner_attr (s : cstate) (p : handle) (k : attrs -> cout) : cout :=
  match obj s p with Some (CObj _ (BAttr a)) => k a | _ => Undefined end.
Definition inner_image (s : cstate) (p : handle) (k : image -> cout) : cout :=
  match obj s p with Some (CObj _ (BImage i)) => k i | _ => Undefined end.
Definition inner_result (s : cstate) (p : handle) (k : qresult -> cout) : cout :=
  match obj s p with Some (CObj _ (BResult q)) => k q | _ => Undefined end.
Definition inner_hist (s : cstate) (p : handle) (k : hist -> cout) : cout :=
  match obj s p with Some (CObj _ (BHist h)) => k h | _ => Undefined end.
Definition guard (b : bool) (fail : cret) (s : cstate) (k : cout) : cout := if b then k else Ret fail s.

Definition invalid : cret := RErr (Some InvalidPointer).
(** [.err().unwrap_or(LIQ_OK)] after an update of one object *)
Definition done {T} (s : cstate) (p : handle) (f : T -> body) (r : res T) : cout :=
  match r with
  | Ok x => Ret (RErr None) (set_body s p (f x))
  | Err e => Ret (RErr (Some e)) s
  | Panic => Abort
  end.
(** [as u8] of a C integer *)
Definition as_u8 (z : Z) : Z := wrap8 z.
(** [!0] as c_uint *)
Definition all_ones : Z := U32_MAX.

(** ffi.rs:526-540 [check_image_size] (64-bit) *)
Definition c_image_size_ok (w h : Z) : bool :=
  if ((w =? 0) || (h =? 0))%bool then false
  else negb ((I32_MAX / 4 / h <? w) || (I32_MAX / 16 / 4 <? w) || (I32_MAX / 8 <? h))%bool.
(** capi.rs:24-41: [None] entries are NULL row pointers *)
Fixpoint all_some {T} (l : list (option T)) : option (list T) :=
  match l with
  | [] => Some []
  | Some x :: t => match all_some t with Some r => Some (x :: r) | None => None end
  | None :: _ => None
  end.
Definition rows_source (width : Z) (rows : list (list rgba)) : source :=
  SrcPixels (concat rows) (map (fun i => i * Z.to_nat width)%nat (seq 0 (length rows))).
Definition created (s : cstate) (r : res image) : cout :=
  match r with
  | Ok i => new_obj s TImage (BImage i)
  | Err _ => Ret (RPtr None) s
  | Panic => Abort
  end.

(** ffi.rs:56-66 [liq_ownership] flags *)
Definition OWN_ROWS : Z := 4.
Definition OWN_PIXELS : Z := 8.
Definition COPY_PIXELS : Z := 16.

Inductive ccall :=
| liq_version
| liq_attr_create
| liq_attr_copy (a : handle)
| liq_attr_destroy (a : handle)
| liq_set_min_opacity (a : handle) (v : Z)
| liq_get_min_opacity (a : handle)
| liq_set_last_index_transparent (a : handle) (v : Z)
| liq_attr_set_progress_callback (a : handle)
| liq_set_log_callback (a : handle)
| liq_set_log_flush_callback (a : handle)
| liq_set_max_colors (a : handle) (v : Z)
| liq_get_max_colors (a : handle)
| liq_set_min_posterization (a : handle) (v : Z)
| liq_get_min_posterization (a : handle)
| liq_set_speed (a : handle) (v : Z)
| liq_get_speed (a : handle)
| liq_set_quality (a : handle) (mn tg : Z)
| liq_get_min_quality (a : handle)
| liq_get_max_quality (a : handle)
| liq_quantize_image (a i : handle)
| liq_image_quantize (i a : handle)
| liq_write_remapped_image (q i : handle) (buf : option (list nat))
| liq_write_remapped_image_rows (q i : handle) (rows : option (list (list nat)))
| liq_image_add_fixed_color (i : handle) (c : rgba)
| liq_image_get_width (i : handle)
| liq_image_get_height (i : handle)
| liq_image_destroy (i : handle)
| liq_image_set_background (i b : handle)
| liq_image_set_importance_map (i : handle) (imp : option (list Z)) (flags : Z)
| liq_image_set_memory_ownership (i : handle) (flags : Z)
| liq_image_create_custom (a : handle) (row : nat -> list rgba) (w h : Z) (g : f64)
| liq_image_create_rgba_rows (a : handle) (rows : option (list (option (list rgba)))) (w h : Z) (g : f64)
| liq_image_create_rgba (a : handle) (pixels : option (list rgba)) (w h : Z) (g : f64)
| liq_histogram_create (a : handle)
| liq_histogram_destroy (h : handle)
| liq_histogram_add_fixed_color (h : handle) (c : rgba) (g : f64)
| liq_histogram_add_colors (h a : handle) (entries : option (list (rgba * Z))) (n : Z) (g : f64)
| liq_histogram_add_image (h a i : handle)
| liq_histogram_quantize (h a : handle)
| liq_get_palette (q : handle)
| liq_result_set_progress_callback (q : handle)
| liq_set_output_gamma (q : handle) (g : f64)
| liq_set_dithering_level (q : handle) (v : f32)
| liq_get_output_gamma (q : handle)
| liq_get_quantization_error (q : handle)
| liq_get_remapping_error (q : handle)
| liq_get_quantization_quality (q : handle)
| liq_get_remapping_quality (q : handle)
| liq_result_destroy (q : handle).

(** Destroying a [Box]: [Drop] (ffi.rs:100-125) returns early on a foreign tag,
    but the memory is returned to the allocator in any case, and except for
    images the fields are dropped too: fine only for a live object of the right
    type.  NULL is [None] and nothing happens. *)
Definition destroy (t : tag) (s : cstate) (p : handle) : cout :=
  match p with
  | None => Ret RVoid s
  | Some _ =>
      match obj s p with
      | Some (CObj t' b) =>
          match t', b with
          | TAttr, BAttr _ | TImage, BImage _ | TResult, BResult _ | THist, BHist _ =>
              if tag_eqb t' t then Ret RVoid (set_obj s p (CObj TFreed Gone)) else Undefined
          | _, _ => Undefined
          end
      | None => Undefined
      end
  end.

(** Results of a quantization: [store_boxed_result] or NULL (ffi.rs:516-521) *)
Definition quantized (s : cstate) (r : res qresult) : cout :=
  match r with
  | Ok q => new_obj s TResult (BResult q)
  | Err e => Ret (RErr (Some e)) s
  | Panic => Abort
  end.
Definition or_null (o : cout) : cout :=
  match o with Ret (RErr _) s => Ret (RPtr None) s | x => x end.

Definition quantize_image (s : cstate) (a i : handle) : cout :=
  inner_attr s a (fun at_ => inner_image s i (fun im =>
    let '(r, (im', w')) := quantize u cb at_ (im, c_world s) in
    quantized (set_world (set_body s i (BImage im')) w') r)).
Definition minus_one : f64 := dsub d0 d1.
Definition opt_f64 (o : option f64) : cret := RF64 (match o with Some x => x | None => minus_one end).
Definition opt_int (o : option Z) : cret := RInt (match o with Some x => x | None => -1 end).

(** ffi.rs, function by function *)
Definition ccall_run (s : cstate) (c : ccall) : cout :=
  match c with
  | liq_version => Ret (RInt 40202) s
  | liq_attr_create => new_obj s TAttr (BAttr attrs_new)
  | liq_attr_copy a => guard (good s TAttr a) (RPtr None) s (inner_attr s a (fun x => new_obj s TAttr (BAttr x)))
  | liq_attr_destroy a => destroy TAttr s a
  | liq_set_min_opacity _ _ => Ret (RErr None) s
  | liq_get_min_opacity _ => Ret (RInt 0) s
  | liq_set_last_index_transparent a v =>
      guard (good s TAttr a) RVoid s (inner_attr s a (fun x =>
        Ret RVoid (set_body s a (BAttr (set_last_index_transparent x (negb (v =? 0)))))))
  | liq_attr_set_progress_callback a | liq_set_log_callback a | liq_set_log_flush_callback a =>
      guard (good s TAttr a) RVoid s (inner_attr s a (fun _ => Ret RVoid s))
  | liq_set_max_colors a v => guard (good s TAttr a) invalid s (inner_attr s a (fun x => done s a BAttr (set_max_colors x v)))
  | liq_get_max_colors a => guard (good s TAttr a) (RInt all_ones) s (inner_attr s a (fun x => Ret (RInt (get_max_colors x)) s))
  | liq_set_min_posterization a v =>
      guard (good s TAttr a) invalid s (inner_attr s a (fun x => done s a BAttr (set_min_posterization x (as_u8 v))))
  | liq_get_min_posterization a =>
      guard (good s TAttr a) (RInt all_ones) s (inner_attr s a (fun x => Ret (RInt (get_min_posterization x)) s))
  | liq_set_speed a v => inner_attr s a (fun x => done s a BAttr (set_speed x v))
  | liq_get_speed a => guard (good s TAttr a) (RInt all_ones) s (inner_attr s a (fun x => Ret (RInt (get_speed x)) s))
  | liq_set_quality a mn tg =>
      guard (good s TAttr a) invalid s (inner_attr s a (fun x => done s a BAttr (set_quality x (as_u8 mn) (as_u8 tg))))
  | liq_get_min_quality a =>
      guard (good s TAttr a) (RInt all_ones) s (inner_attr s a (fun x => Ret (RInt (fst (get_quality x))) s))
  | liq_get_max_quality a =>
      guard (good s TAttr a) (RInt all_ones) s (inner_attr s a (fun x => Ret (RInt (snd (get_quality x))) s))
  | liq_quantize_image a i =>
      guard (good s TAttr a && good s TImage i) (RPtr None) s (or_null (quantize_image s a i))
  | liq_image_quantize i a => guard (good s TAttr a && good s TImage i) invalid s (quantize_image s a i)
  | liq_write_remapped_image q i buf =>
      guard (good s TResult q && good s TImage i) invalid s
        (inner_result s q (fun qr => inner_image s i (fun im =>
           match buf with
           | None => Ret invalid s
           | Some buf =>
               let need := (i_w im * i_h im)%nat in
               if Nat.ltb (length buf) need then Ret (RBuf (Some BufferTooSmall) buf) s
               else
                 let '(r, (qr', im', out, w')) := remap_into u cb qr im (firstn need buf) (c_world s) in
                 let s' := set_world (set_body (set_body s q (BResult qr')) i (BImage im')) w' in
                 match r with
                 | Ok _ => Ret (RBuf None (out ++ skipn need buf)) s'
                 | Err e => Ret (RBuf (Some e) (out ++ skipn need buf)) s'
                 | Panic => Abort
                 end
           end)))
  | liq_write_remapped_image_rows q i rows =>
      guard (good s TResult q && good s TImage i) invalid s
        (inner_result s q (fun qr => inner_image s i (fun im =>
           match rows with
           | None => Ret invalid s
           | Some rows =>
               (* [rows]: what [height] row pointers point to, [width] bytes each *)
               if negb (Nat.eqb (length rows) (i_h im) && forallb (fun r => Nat.eqb (length r) (i_w im)) rows) then Undefined
               else
                 let '(r, (qr', im', out, w')) := remap_into u cb qr im (concat rows) (c_world s) in
                 let s' := set_world (set_body (set_body s q (BResult qr')) i (BImage im')) w' in
                 match r with
                 | Ok _ => Ret (RBuf None out) s'
                 | Err e => Ret (RBuf (Some e) out) s'
                 | Panic => Abort
                 end
           end)))
  | liq_image_add_fixed_color i c =>
      guard (good s TImage i) invalid s (inner_image s i (fun im => done s i BImage (image_add_fixed_color im c)))
  | liq_image_get_width i =>
      guard (good s TImage i) (RInt all_ones) s (inner_image s i (fun im => Ret (RInt (Z.of_nat (i_w im))) s))
  | liq_image_get_height i =>
      guard (good s TImage i) (RInt all_ones) s (inner_image s i (fun im => Ret (RInt (Z.of_nat (i_h im))) s))
  | liq_image_destroy i => destroy TImage s i
  | liq_image_set_background i b =>
      (* [b] is a [Box]: it is dropped on every early return *)
      if negb (good s TImage i && good s TImage b) then
        match destroy TImage s b with
        | Ret _ s' => match b with Some _ => Ret invalid s' | None => Undefined end
        | x => x
        end
      else if match i, b with Some x, Some y => Nat.eqb x y | _, _ => false end then Undefined
      else
        inner_image s i (fun im => inner_image s b (fun bg =>
          (* the object of [b] keeps its tag, its contents are moved *)
          let s1 := set_body s b Gone in
          done s1 i BImage (set_background im bg)))
  | liq_image_set_importance_map i imp flags =>
      guard (good s TImage i) invalid s (inner_image s i (fun im =>
        match imp with
        | None => Ret invalid s
        | Some [] => Ret invalid s
        | Some m =>
            let need := (i_w im * i_h im)%nat in
            if Nat.ltb (length m) need then Ret (RErr (Some BufferTooSmall)) s
            else if ((flags =? COPY_PIXELS) || (flags =? OWN_PIXELS))%bool
            then done s i BImage (set_importance_map im (firstn need m))
            else Ret (RErr (Some Unsupported)) s
        end))
  | liq_image_set_memory_ownership i flags =>
      guard (good s TImage i) invalid s (inner_image s i (fun im =>
        if ((flags =? 0) || negb (Z.lor flags (Z.lor OWN_ROWS OWN_PIXELS) =? Z.lor OWN_ROWS OWN_PIXELS))%bool
        then Ret (RErr (Some ValueOutOfRange)) s
        else match d_src (i_px im) with
             | SrcCallback _ => Ret (RErr (Some ValueOutOfRange)) s
             | SrcPixels _ [] =>
                 Ret (RErr (if Z.land flags OWN_PIXELS =? 0 then None else Some Unsupported)) s
             | SrcPixels _ _ => Ret (RErr None) s
             end))
  | liq_image_create_custom a row w h g =>
      inner_attr s a (fun _ => created s (image_new_internal (SrcCallback row) w h g))
  | liq_image_create_rgba_rows a rows w h g =>
      guard (good s TAttr a && c_image_size_ok w h) (RPtr None) s
        (inner_attr s a (fun _ =>
           match rows with
           | None => Ret (RPtr None) s
           | Some rows =>
               match all_some rows with
               | None => Ret (RPtr None) s
               | Some rows => created s (image_new_internal (rows_source w rows) w h g)
               end
           end))
  | liq_image_create_rgba a pixels w h g =>
      match pixels with
      | None => Ret (RPtr None) s
      | Some buf =>
          guard (good s TAttr a && c_image_size_ok w h) (RPtr None) s
            (inner_attr s a (fun _ =>
               created s (image_new_internal (SrcPixels buf (map (fun i => i * Z.to_nat w)%nat (seq 0 (Z.to_nat h)))) w h g)))
      end
  | liq_histogram_create a => guard (good s TAttr a) (RPtr None) s (inner_attr s a (fun x => new_obj s THist (BHist (hist_new x))))
  | liq_histogram_destroy h => destroy THist s h
  | liq_histogram_add_fixed_color h c g =>
      guard (good s THist h) invalid s (inner_hist s h (fun x => done s h BHist (hist_add_fixed_color x c g)))
  | liq_histogram_add_colors h a entries n g =>
      guard (good s TAttr a && good s THist h) invalid s (inner_hist s h (fun x =>
        if n <? 0 then Ret (RErr (Some ValueOutOfRange)) s
        else if n =? 0 then Ret (RErr None) s
        else match entries with
             | None => Ret invalid s
             | Some es => done s h BHist (add_colors x (firstn (Z.to_nat n) es) g)
             end))
  | liq_histogram_add_image h a i =>
      guard (good s TAttr a && good s THist h && good s TImage i) invalid s
        (inner_attr s a (fun at_ => inner_hist s h (fun hi => inner_image s i (fun im =>
           let '(r, (hi', im', w')) := add_image u cb at_ (hi, im, c_world s) in
           let s' := set_world (set_body (set_body s h (BHist hi')) i (BImage im')) w' in
           match r with Ok _ => Ret (RErr None) s' | Err e => Ret (RErr (Some e)) s' | Panic => Abort end))))
  | liq_histogram_quantize h a =>
      guard (good s TAttr a && good s THist h) invalid s
        (inner_attr s a (fun at_ => inner_hist s h (fun hi =>
           let '(r, (hi', w')) := hist_quantize u cb at_ (hi, c_world s) in
           quantized (set_world (set_body s h (BHist hi')) w') r)))
  | liq_get_palette q =>
      guard (good s TResult q) (RPal None) s (inner_result s q (fun x =>
        let '(p, x') := palette x in Ret (RPal (Some p)) (set_body s q (BResult x'))))
  | liq_result_set_progress_callback q =>
      guard (good s TResult q) RVoid s (inner_result s q (fun _ => Ret RVoid s))
  | liq_set_output_gamma q g =>
      guard (good s TResult q) invalid s (inner_result s q (fun x => done s q BResult (set_output_gamma x g)))
  | liq_set_dithering_level q v =>
      guard (good s TResult q) invalid s (inner_result s q (fun x => done s q BResult (set_dithering_level x v)))
  | liq_get_output_gamma q =>
      guard (good s TResult q) (RF64 minus_one) s (inner_result s q (fun x => Ret (RF64 (output_gamma x)) s))
  | liq_get_quantization_error q =>
      guard (good s TResult q) (RF64 minus_one) s (inner_result s q (fun x => Ret (opt_f64 (quantization_error x)) s))
  | liq_get_remapping_error q =>
      guard (good s TResult q) (RF64 minus_one) s (inner_result s q (fun x => Ret (opt_f64 (remapping_error x)) s))
  | liq_get_quantization_quality q =>
      guard (good s TResult q) (RInt (-1)) s (inner_result s q (fun x => Ret (opt_int (quantization_quality x)) s))
  | liq_get_remapping_quality q =>
      guard (good s TResult q) (RInt (-1)) s (inner_result s q (fun x => Ret (opt_int (remapping_quality x)) s))
  | liq_result_destroy q => destroy TResult s q
  end.
Fixpoint cprog (s : cstate) (cs : list ccall) : cout :=
  match cs with
  | [] => Ret RVoid s
  | [c] => ccall_run s c
  | c :: t => match ccall_run s c with Ret _ s' => cprog s' t | x => x end
  end.
End Ffi.
