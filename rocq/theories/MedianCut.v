(** Model of src/mediancut.rs.

    A box ([MBox]) holds a mutable sub-slice of the histogram; here it holds
    the offset of that sub-slice and its current contents, and
    [reassemble] puts the pieces back at the end. *)
From Verif Require Import Base Arith Pal World Attr Hist.
Section MedianCut.
Context {A : Arith}.
Variable u : unspec.

(** src/mediancut.rs:15-26 [MBox] *)
Record mbox := MBox {
  b_off : nat;
  b_items : list hitem;
  b_avg : px;
  b_var : px;
  b_wsum : f64;
  b_err : option f64;
  b_max : f32
}.

(** src/mediancut.rs:316-328 [weighed_average_color] *)
Definition weighed_average_color (l : list hitem) : px :=
  let '(t, sum) := fold_left (fun '(t, s) c =>
       (px_add t (px_scale (h_color c) (h_adj c)), s +f h_adj c)) l (px0, f0) in
  if negb (sum =f f0) then px_divs t sum else t.

(** src/mediancut.rs:72-83 [box_stats] *)
Definition box_stats (l : list hitem) (avg : px) : px * f32 :=
  fold_left (fun '(v, m) c =>
      let v' := px_add v (px_scale (px_map (fun x => x *f x) (px_sub avg (h_color c))) (h_adj c)) in
      let d := diff avg (h_color c) in
      (v', if m <f d then d else m)) l (px0, f0).

(** src/mediancut.rs:49-59 [new_c] *)
Definition box_new_c (off : nat) (l : list hitem) (wsum : f64) (avg : px) : mbox :=
  let '(v, m) := box_stats l avg in MBox off l avg v wsum None m.

(** src/mediancut.rs:29-36 [new] *)
Definition box_new (off : nat) (l : list hitem) : mbox :=
  box_new_c off l (dsum (map (fun c => f2d (h_adj c)) l)) (weighed_average_color l).

(** src/mediancut.rs:61-70 [is_useless_color] *)
Definition is_useless_color (avg : px) (l : list hitem) (others : list mbox) : bool :=
  forallb (fun c => existsb (fun o => diff (b_avg o) (h_color c) <f diff avg (h_color c)) others) l.

(** src/mediancut.rs:38-47 [new_s] *)
Definition box_new_s (off : nat) (l : list hitem) (wsum : f64) (others : list mbox) : mbox :=
  let avg := weighed_average_color l in
  let n := length l in
  let avg :=
    if (((Z.of_nat n <? 500)%Z && Nat.ltb 2 n) || is_useless_color avg l others)%bool
    then match min_by (fun x y => fcmp (diff avg (h_color x)) (diff avg (h_color y))) l with
         | Some c => h_color c
         | None => px0
         end
    else avg in
  box_new_c off l wsum avg.

(** src/mediancut.rs:85-90 [compute_total_error] *)
Definition compute_total_error (b : mbox) : f64 :=
  dsum (map (fun c => f2d (diff (b_avg b) (h_color c)) *d f2d (h_perc c)) (b_items b)).
Definition set_err (b : mbox) (e : f64) : mbox :=
  MBox (b_off b) (b_items b) (b_avg b) (b_var b) (b_wsum b) (Some e) (b_max b).

(** [bytemuck::cast] of an ARGB pixel to [f32; 4]: channel 0 is alpha. *)
Definition chan (p : px) (i : nat) : f32 :=
  match i with 0 => pa p | 1 => pr p | 2 => pg p | _ => pb p end.

(** src/mediancut.rs:99-106: channels by decreasing variance. *)
Definition channel_order (v : px) : list nat :=
  sort_by (fun i j => cmp_rev (fcmp (chan v i) (chan v j))) [0; 1; 2; 3].

(** src/mediancut.rs:112-113; [<<] on u32 drops the high bits. *)
Definition sort_value (v : px) (c : px) : Z :=
  let o := channel_order v in
  let ch i := chan c (nth i o 0) in
  Z.lor (wrap32 (Z.shiftl (fto_u32 (ch 0 *f fofZ 65535)) 16))
        (fto_u32 ((ch 2 +f ch 1 /f fofZ 2 +f ch 3 /f fofZ 4) *f fofZ 65535)).

(** src/mediancut.rs:92-115 [prepare_sort] *)
Definition prepare_sort (v : px) (l : list hitem) : list hitem :=
  map (fun c => set_sort c (sort_value v (h_color c))) l.

(** src/mediancut.rs:117-132 [median_color], [prepare_color_weight_total] *)
Definition color_weight (median : px) (c : hitem) : f32 :=
  fsqrt (diff median (h_color c)) *f fsqrt (f1 +f h_adj c).
Definition prepare_color_weight_total (l : list hitem) : res (list hitem * f64) :=
  if Nat.ltb (length l / 2) (length l) then
    let l1 := u_select u l (length l / 2) in
    mid <- idx l1 (length l / 2) ;;
    let l2 := map (fun c => set_mcw c (color_weight (h_color mid) c)) l1 in
    Ok (l2, dsum (map (fun c => f2d (h_mcw c)) l2))
  else Panic.

(** src/mediancut.rs:150-163 [qsort_pivot] *)
Definition qsort_pivot (base : list hitem) : res nat :=
  let len := length base in
  if Nat.ltb len 32 then Ok (len / 2)
  else
    a <- idx base 8 ;; b <- idx base (len / 2) ;; c <- idx base (len - 1) ;;
    Ok (nth (u_med3 u (h_tmp a) (h_tmp b) (h_tmp c)) [8; len / 2; len - 1] 0).

(** src/mediancut.rs:170-178: the partition loop.  [fuel] bounds the number of
    iterations (each one shrinks [r - l]); running out is [Panic]. *)
Fixpoint qs_inner (fuel : nat) (pivot : Z) (base : list hitem) (l r : nat) : res nat :=
  if Nat.ltb l r then
    x <- idx base r ;;
    if (h_tmp x <=? pivot)%Z
    then match fuel with O => Panic | S f => qs_inner f pivot base l (r - 1) end
    else Ok r
  else Ok r.
Fixpoint qs_outer (fuel : nat) (pivot : Z) (base : list hitem) (l r : nat) : res (list hitem * nat) :=
  if Nat.ltb l r then
    match fuel with
    | O => Panic
    | S f =>
        x <- idx base l ;;
        if (pivot <=? h_tmp x)%Z then qs_outer f pivot base (l + 1) r
        else
          r' <- qs_inner (length base) pivot base l (r - 1) ;;
          base' <- swap base l r' ;;
          qs_outer f pivot base' l r'
    end
  else Ok (base, l).

(** src/mediancut.rs:165-182 [qsort_partition] *)
Definition qsort_partition (base : list hitem) : res (list hitem * nat) :=
  p <- qsort_pivot base ;;
  base1 <- swap base p 0 ;;
  p0 <- idx base1 0 ;;
  ' (base2, l) <- qs_outer (length base) (h_tmp p0) base1 1 (length base) ;;
  base3 <- swap base2 (l - 1) 0 ;;
  Ok (base3, (l - 1)%nat).

(** src/mediancut.rs:184-208 [hist_item_sort_half]: returns the rearranged
    slice and the edge.  Each round works on a strictly shorter slice. *)
Fixpoint sort_half_loop (fuel : nat) (base : list hitem) (half : f64) (bi : nat)
  : res (list hitem * nat) :=
  match fuel with
  | O => Panic
  | S f =>
      ' (base1, part) <- qsort_partition base ;;
      if Nat.ltb (length base1) (part + 1) then Panic       (* split_at_mut *)
      else
        let left := firstn (part + 1) base1 in
        let right := skipn (part + 1) base1 in
        let left_sum := dsum (map (fun c => f2d (h_mcw c)) left) in
        if half <=d left_sum then
          match firstn part left with
          | [] => Ok (base1, bi)
          | l' =>
              ' (l'', i) <- sort_half_loop f l' half bi ;;
              Ok (l'' ++ skipn part left ++ right, i)
          end
        else
          let half' := half -d left_sum in
          let bi' := bi + length left in
          match right with
          | [] => Ok (base1, bi')
          | _ => ' (r'', i) <- sort_half_loop f right half' bi' ;; Ok (left ++ r'', i)
          end
  end.
Definition sort_half (base : list hitem) (half : f64) : res (list hitem * nat) :=
  match base with
  | [] => Ok ([], 0)
  | _ => sort_half_loop (length base) base half 0
  end.

(** src/mediancut.rs:134-147 [split] *)
Definition box_split (b : mbox) (others : list mbox) : res (list mbox) :=
  ' (l1, total) <- prepare_color_weight_total (prepare_sort (b_var b) (b_items b)) ;;
  ' (l2, edge) <- sort_half l1 (total /d dofZ 2) ;;
  let break_at := Nat.max edge 1 in
  if Nat.ltb (length l2) break_at then Panic                (* split_at_mut *)
  else
    let left := firstn break_at l2 in
    let right := skipn break_at l2 in
    let left_sum := dsum (map (fun c => f2d (h_adj c)) left) in
    let right_sum := b_wsum b -d left_sum in
    Ok [box_new_s (b_off b) left left_sum others;
        box_new_s (b_off b + break_at) right right_sum others].

(** src/mediancut.rs:211-224 [total_box_error_below_target] *)
Fixpoint fill_errors (bs : list mbox) (total target : f64) : list mbox * bool :=
  match bs with
  | [] => ([], true)
  | b :: t =>
      match b_err b with
      | Some _ => let '(t', ok) := fill_errors t total target in (b :: t', ok)
      | None =>
          let e := compute_total_error b in
          let total' := total +d e in
          if target <d total' then (set_err b e :: t, false)
          else let '(t', ok) := fill_errors t total' target in (set_err b e :: t', ok)
      end
  end.
Definition known_errors (bs : list mbox) : list f64 :=
  flat_map (fun b => match b_err b with Some e => [e] | None => [] end) bs.
Definition below_target (bs : list mbox) (target total_weight : f64) : list mbox * bool :=
  let target := target *d total_weight in
  let total := dsum (known_errors bs) in
  if target <d total then (bs, false) else fill_errors bs total target.

(** src/mediancut.rs:226-258 [MedianCutter::new] *)
Definition nonempty_cluster (c : nat * nat) : bool := negb (Nat.eqb (fst c) (snd c)).
Fixpoint cluster_boxes (cl : list (nat * nat)) (off : nat) (items : list hitem) : res (list mbox) :=
  match cl with
  | [] => Ok []
  | (b, e) :: t =>
      if Nat.ltb (length items) (e - b) then Panic           (* split_at_mut *)
      else
        rest <- cluster_boxes t (off + (e - b)) (skipn (e - b) items) ;;
        Ok (box_new off (firstn (e - b) items) :: rest)
  end.
Definition cutter_new (h : hint) (target : nat) : res (list mbox) :=
  let used := filter nonempty_cluster (hi_clusters h) in
  if Nat.leb (length used) (target / 3) then cluster_boxes used 0 (hi_items h)
  else Ok [box_new 0 (hi_items h)].

(** src/mediancut.rs:295-308 [take_best_splittable_box] *)
Definition box_score (max_mse : f64) (b : mbox) : f64 :=
  let cv := fmax (fmax (pr (b_var b)) (pg (b_var b))) (pb (b_var b)) in
  let s := b_wsum b *d f2d (fmax cv (pa (b_var b))) in
  if max_mse <d f2d (b_max b) then s *d f2d (b_max b) /d max_mse else s.
Definition swap_remove {T} (l : list T) (i : nat) : res (T * list T) :=
  x <- idx l i ;;
  last <- idx l (length l - 1) ;;
  Ok (x, firstn (length l - 1) (upd l i last)).
Definition take_best (bs : list mbox) (max_mse : f64) : option nat :=
  option_map fst
    (max_by (fun x y => dcmp (snd x) (snd y))
       (map (fun ib => (fst ib, box_score max_mse (snd ib)))
          (filter (fun ib => Nat.ltb 1 (length (b_items (snd ib)))) (enumerate bs)))).

(** src/mediancut.rs:273-293 [cut], the loop.  Every iteration adds one box,
    so [fuel] = the target number of colours is enough. *)
Fixpoint cut_loop (fuel : nat) (target : nat) (total_weight target_mse max_mse : f64) (bs : list mbox)
  : res (list mbox) :=
  if Nat.ltb (length bs) target then
    match fuel with
    | O => Panic
    | S f =>
        let frac := dofZ (Z.of_nat (length bs)) /d dofZ (Z.of_nat target) in
        let cur := dfma (frac *d dofZ 16) max_mse max_mse in
        match take_best bs cur with
        | None => Ok bs
        | Some i =>
            ' (b, rest) <- swap_remove bs i ;;
            two <- box_split b rest ;;
            let '(bs', below) := below_target (rest ++ two) target_mse total_weight in
            if below then Ok bs' else cut_loop f target total_weight target_mse max_mse bs'
        end
    end
  else Ok bs.

(** src/mediancut.rs:260-271 [into_palette] *)
Definition box_entry (b : mbox) : px * f32 :=
  (b_avg b, d2f (dsum (map (fun c => f2d (h_perc c)) (b_items b)))).
Definition into_palette (bs : list mbox) : res (palf * list mbox) :=
  p <- foldM (fun p b => pal_push p (fst (box_entry b)) (snd (box_entry b))) bs [] ;;
  Ok (p, map (fun ib => let b := snd ib in
                MBox (b_off b) (map (fun c => set_likely c (fst ib)) (b_items b))
                     (b_avg b) (b_var b) (b_wsum b) (b_err b) (b_max b)) (enumerate bs)).

(** The histogram after the boxes (sub-slices of it) are released: boxes in
    the order of their offsets. *)
Definition reassemble (bs : list mbox) : list hitem :=
  concat (map b_items (sort_by (fun x y => Nat.compare (b_off x) (b_off y)) bs)).

(** src/mediancut.rs:311-314 [mediancut] *)
Definition mediancut (h : hint) (target : nat) (target_mse max_mse_per_color : f64)
  : res (palf * hint) :=
  bs <- cutter_new h target ;;
  let max_mse := dmax max_mse_per_color (quality_to_mse 20) in
  bs' <- cut_loop target target (hi_total h) target_mse max_mse bs ;;
  ' (p, bs'') <- into_palette bs' ;;
  Ok (p, HInt (reassemble bs'') (hi_total h) (hi_clusters h) (hi_fixed h)).
End MedianCut.
