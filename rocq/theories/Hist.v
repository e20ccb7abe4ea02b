(** Model of src/hist.rs: collecting colours and building the weighted
    histogram. *)
From Verif Require Import Base Arith Pal World Attr.
Section Hist.
Context {A : Arith}.
Open Scope Z_scope.

(** src/hist.rs:26-36 [Histogram].  The [HashMap<u32, (u32, RGBA)>] is an
    association list with distinct keys; a key (a colour reinterpreted as an
    integer, masked) is kept as the masked colour itself, the integer 0 being
    [Rgba 0 0 0 0].  The [HashSet<HashColor>] is a list without repetition of
    (colour, index), equality being the derived one (colour and index,
    src/hist.rs:416-433). *)
Definition hmap := list (rgba * (Z * rgba)).
Record hist := Hist {
  hg_gamma : option f64;
  hg_fixed : list (rgba * Z);
  hg_map : hmap;
  hg_bits : Z;               (* u8 *)
  hg_max : Z                 (* u32 *)
}.
Definition with_map (h : hist) (m : hmap) : hist :=
  Hist (hg_gamma h) (hg_fixed h) m (hg_bits h) (hg_max h).
Definition with_gamma (h : hist) (g : option f64) : hist :=
  Hist g (hg_fixed h) (hg_map h) (hg_bits h) (hg_max h).
Definition with_fixed (h : hist) (f : list (rgba * Z)) : hist :=
  Hist (hg_gamma h) f (hg_map h) (hg_bits h) (hg_max h).
Definition with_bits (h : hist) (b : Z) : hist :=
  Hist (hg_gamma h) (hg_fixed h) (hg_map h) b (hg_max h).

Fixpoint hm_get (m : hmap) (k : rgba) : option (Z * rgba) :=
  match m with
  | [] => None
  | (k', v) :: t => if rgba_eqb k k' then Some v else hm_get t k
  end.
(** [HashMap::insert]: replaces the value of an existing key. *)
Fixpoint hm_insert (m : hmap) (k : rgba) (v : Z * rgba) : hmap :=
  match m with
  | [] => [(k, v)]
  | (k', v') :: t => if rgba_eqb k k' then (k', v) :: t else (k', v') :: hm_insert t k v
  end.
(** [entry(k).and_modify(e.0 = e.0.saturating_add(boost)).or_insert((boost, rgba))] *)
Fixpoint hm_bump (m : hmap) (k : rgba) (boost : Z) (c : rgba) : hmap :=
  match m with
  | [] => [(k, (boost, c))]
  | (k', (n, c')) :: t =>
      if rgba_eqb k k' then (k', (sat_add32 n boost, c')) :: t
      else (k', (n, c')) :: hm_bump t k boost c
  end.

(** src/hist.rs:90-98 [Histogram::new] *)
Definition hist_new (a : attrs) : hist := Hist None [] [] (posterize_bits a) (a_max_hist a).

(** src/hist.rs:229-233 [posterize_mask], one channel: [255u8 << bits] *)
Definition channel_mask (bits : Z) : Z := wrap8 (Z.shiftl 255 bits).
Definition mask_rgba (bits : Z) (c : rgba) : rgba := rgba_map (fun v => Z.land v (channel_mask bits)) c.

(** src/hist.rs:214-216 *)
Definition color_key (bits : Z) (c : rgba) : rgba :=
  if negb (ca c =? 0) then mask_rgba bits c else Rgba 0 0 0 0.

(** src/hist.rs:208-222 [add_color] *)
Definition add_color (h : hist) (c : rgba) (boost : Z) : hist :=
  if boost =? 0 then h
  else with_map h (hm_bump (hg_map h) (color_key (hg_bits h) c) boost c).

(** [(0. ..1.).contains(&gamma)] *)
Definition gamma_in_0_1 (g : f64) : bool := (d0 <=d g) && (g <d d1).

(** src/hist.rs:140-160 [add_colors]; [1 << 24] entries at most. *)
Definition add_colors (h : hist) (entries : list (rgba * Z)) (gamma : f64) : res hist :=
  if (Nat.eqb (length entries) 0 || (2 ^ 24 <? Z.of_nat (length entries)))%bool then Err ValueOutOfRange
  else if negb (gamma_in_0_1 gamma) then Err ValueOutOfRange
  else
    let h := match hg_gamma h with
             | None => if d0 <d gamma then with_gamma h (Some gamma) else h
             | Some _ => h
             end in
    Ok (fold_left (fun h e => add_color h (fst e) (snd e)) entries h).

(** [HashSet::insert] *)
Definition hc_eqb (x y : rgba * Z) : bool := (rgba_eqb (fst x) (fst y) && (snd x =? snd y))%bool.
Definition hs_insert (s : list (rgba * Z)) (x : rgba * Z) : list (rgba * Z) :=
  if existsb (hc_eqb x) s then s else s ++ [x].

(** src/hist.rs:165-178 [Histogram::add_fixed_color]; the index is cast to u8. *)
Definition hist_add_fixed_color (h : hist) (c : rgba) (gamma : f64) : res hist :=
  if Nat.leb MAX_COLORS (length (hg_fixed h)) then Err Unsupported
  else
    let h := match hg_gamma h with
             | None => if d0 <d gamma then with_gamma h (Some gamma) else h
             | Some _ => h
             end in
    Ok (with_fixed h (hs_insert (hg_fixed h) (c, wrap8 (Z.of_nat (length (hg_fixed h)))))).

(** src/hist.rs:114-118: fixed colours of an image, numbered from 0. *)
Definition add_image_fixed (h : hist) (fixed : list rgba) : hist :=
  with_fixed h (fold_left (fun s ic => hs_insert s (snd ic, wrap8 (Z.of_nat (fst ic))))
                          (enumerate fixed) (hg_fixed h)).

(** src/hist.rs:235-248 [init_posterize_bits]: the old table is drained in
    iteration order into a new one, [extend] inserting (replacing) entries. *)
Definition init_posterize_bits (u : unspec) (h : hist) (bits : Z) : hist :=
  if bits <=? hg_bits h then h
  else
    let h' := with_bits h bits in
    with_map h' (fold_left (fun m e => hm_insert m (mask_rgba bits (fst e)) (snd e))
                           (u_map u (hg_map h)) []).

(** src/hist.rs:260-267: one row of pixels with its importance row. *)
Definition add_row (h : hist) (row : list rgba) (imp : list Z) : hist :=
  fold_left (fun h ic => add_color h (snd ic) (nth (fst ic) imp 255)) (enumerate row) h.

(** src/hist.rs:250-274 [add_pixel_rows]; [rows] are the rows read from the
    image (in order), [imp] the importance map (row-major). *)
Definition add_pixel_rows (u : unspec) (h : hist) (width : nat) (rows : list (list rgba))
           (imp : option (list Z)) (bits : Z) : hist :=
  let imps := match imp with None => [] | Some m => chunks_exact width m end in
  let h := fold_left (fun h ir => add_row h (snd ir) (nth (fst ir) imps [])) (enumerate rows) h in
  let h := init_posterize_bits u h bits in
  if ((hg_max h <? Z.of_nat (length (hg_map h))) && (hg_bits h <? 3))%bool
  then init_posterize_bits u h (hg_bits h + 1) else h.

(** src/hist.rs:369-381 [HistogramInternal], [Cluster] *)
Record hint := HInt {
  hi_items : list hitem;
  hi_total : f64;
  hi_clusters : list (nat * nat);
  hi_fixed : list px
}.

(** src/hist.rs:281-287: fixed colours go into the table with count 0. *)
Definition insert_fixed (u : unspec) (h : hist) : hist :=
  with_map h (fold_left
     (fun m fc => let c := fst fc in
                  hm_insert m (if negb (ca c =? 0) then c else Rgba 0 0 0 0) (0, c))
     (u_set u (hg_fixed h)) (hg_map h)).

(** src/hist.rs:294 *)
Definition cluster_index (c : rgba) : nat :=
  Z.to_nat (Z.lor (Z.lor (Z.lor (Z.shiftl (Z.shiftr (cr c) 7) 3) (Z.shiftl (Z.shiftr (cg c) 7) 2))
                         (Z.shiftl (Z.shiftr (cb c) 7) 1)) (Z.shiftr (ca c) 7)).

(** src/hist.rs:333-337 *)
Definition item_weight (maxw : f32) (n : Z) : f32 :=
  let w := fofZ n in
  if f0 <f w then fmin (w *f (f1 /f fofZ 256)) maxw else maxw *f fofZ 10.

Definition mk_item (lut : Z -> f32) (maxw : f32) (v : Z * rgba) : hitem :=
  HItem (from_rgba lut (snd v)) (item_weight maxw (fst v)) (item_weight maxw (fst v)) f0 0.

Fixpoint cluster_bounds (begin : nat) (counts : list nat) : list (nat * nat) :=
  match counts with
  | [] => []
  | n :: t => (begin, begin + n)%nat :: cluster_bounds (begin + n) t
  end.

(** src/hist.rs:276-350 [finalize_builder].  The bucket placement of 302-343
    (each item goes to the next free position of its cluster) is written as
    the concatenation, over the 16 clusters, of that cluster's items in
    iteration order. *)
Definition finalize_builder (u : unspec) (h0 : hist) (gamma : f64) : hint * hist :=
  let h := insert_fixed u h0 in
  let vals := map snd (u_map u (hg_map h)) in
  let maxw := flit 1 10 *f d2f (dsum (map (fun v => f2d (fofZ (fst v))) vals) /d dofZ 256) in
  let lut := gamma_lut gamma in
  let parts := map (fun k => filter (fun v => Nat.eqb (cluster_index (snd v)) k) vals) (seq 0 16) in
  let total := fold_left (fun s v => s +d f2d (item_weight maxw (fst v))) vals d0 in
  let fixed := sort_by (fun x y => Z.compare (snd x) (snd y)) (u_set u (hg_fixed h)) in
  (HInt (map (mk_item lut maxw) (concat parts)) total
        (cluster_bounds 0 (map (@length _) parts))
        (map (fun fc => from_rgba lut (fst fc)) fixed), h).
End Hist.
