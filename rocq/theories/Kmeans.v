(** Model of src/kmeans.rs. *)
From Verif Require Import Base Arith Pal World Hist Nearest.
Section Kmeans.
Context {A : Arith}.
Variable u : unspec.

(** src/kmeans.rs:13-22 [Kmeans], [ColorAvg]; [Argb<f64>] is four f64. *)
Record dpx := DPx { da : f64; dr : f64; dg : f64; db : f64 }.
Definition dpx0 : dpx := DPx d0 d0 d0 d0.
Definition dpx_add (x y : dpx) : dpx := DPx (da x +d da y) (dr x +d dr y) (dg x +d dg y) (db x +d db y).
Definition dpx_of (p : px) : dpx := DPx (f2d (pa p)) (f2d (pr p)) (f2d (pg p)) (f2d (pb p)).
Record coloravg := CAvg { c_sum : dpx; c_total : f64 }.
Record kmeans := KM { k_avg : list coloravg; k_diff : f64 }.

(** src/kmeans.rs:24-34 [Kmeans::new] *)
Definition km_new (n : nat) : kmeans := KM (repeat (CAvg dpx0 d0) n) d0.

(** src/kmeans.rs:36-41 [update_color] *)
Definition avg_add (c : coloravg) (p : px) (value : f32) : coloravg :=
  CAvg (dpx_add (c_sum c) (dpx_of (px_scale p value))) (c_total c +d f2d value).
Definition update_color (k : kmeans) (p : px) (value : f32) (matched : nat) : res kmeans :=
  c <- idx (k_avg k) matched ;;
  Ok (KM (upd (k_avg k) matched (avg_add c p value)) (k_diff k)).

(** src/kmeans.rs:43-52 [finalize]: the new palette and the error sum. *)
Definition finalize_entry (ae : coloravg * (px * f32)) : px * f32 :=
  let '(avg, (c, pop)) := ae in
  if pop_is_fixed pop then (c, pop)
  else
    let t := c_total avg in
    let c' := if ((d0 <d t) && negb (pa c =f f0))%bool
              then Px (d2f (da (c_sum avg) /d t)) (d2f (dr (c_sum avg) /d t))
                      (d2f (dg (c_sum avg) /d t)) (d2f (db (c_sum avg) /d t))
              else c in
    (c', d2f t).
Definition km_finalize (k : kmeans) (p : palf) : palf * f64 :=
  (map finalize_entry (combine (k_avg k) p) ++ skipn (length (k_avg k)) p, k_diff k).

(** src/kmeans.rs:88-103 [iterate_batch], one item *)
Definition iterate_item (n : nearest) (adjust : bool) (it : hitem)
  : res (hitem * (px * f32 * nat) * f64) :=
  let p := h_color it in
  let '(matched, df) := search n p (h_likely it) in
  let it1 := set_likely it matched in
  ' (it2, df2) <-
     (if adjust then
        remapped <- idx (n_pal n) matched ;;
        let nd := snd (search n (px_sub (px_add p p) remapped) matched) in
        Ok (set_adj it1 (ffma (fofZ 2) (h_adj it1) (h_perc it1) *f (flit 5 10 +f nd)), nd)
      else Ok (it1, df)) ;;
  Ok (it2, (p, h_adj it2, matched), f2d (df2 *f h_perc it2)).

Definition iterate_batch (n : nearest) (adjust : bool) (k : kmeans) (batch : list hitem)
  : res (kmeans * list hitem) :=
  ' (k1, items, sum) <-
    foldM (fun '(k, items, sum) it =>
             ' (it', (p, w, m), e) <- iterate_item n adjust it ;;
             k' <- update_color k p w m ;;
             Ok (k', items ++ [it'], sum +d e)) batch (k, [], d0) ;;
  Ok (KM (k_avg k1) (k_diff k1 +d sum), items).

(** src/kmeans.rs:105-113 [merge] *)
Definition km_merge (a b : kmeans) : kmeans :=
  KM (map (fun xy => CAvg (dpx_add (c_sum (fst xy)) (c_sum (snd xy))) (c_total (fst xy) +d c_total (snd xy)))
          (combine (k_avg a) (k_avg b)) ++ skipn (length (k_avg b)) (k_avg a))
     (k_diff a +d k_diff b).

(** [Iterator::reduce(Kmeans::merge)] *)
Definition km_reduce (l : list kmeans) : option kmeans :=
  match l with [] => None | k :: t => Some (fold_left km_merge t k) end.

(** One worker: the batches it happens to process, in order.  [bs] is the
    slice divided in batches; workers touch disjoint batches, so running them
    one after the other is any interleaving. *)
Definition run_worker (n : nearest) (adjust : bool) (len : nat)
           (st : list (list hitem) * list kmeans) (work : list nat)
  : res (list (list hitem) * list kmeans) :=
  ' (bs, k) <- foldM (fun '(bs, k) i =>
                   b <- idx bs i ;;
                   ' (k', b') <- iterate_batch n adjust k b ;;
                   Ok (upd bs i b', k')) work (fst st, km_new len) ;;
  Ok (bs, snd st ++ [k]).

(** src/kmeans.rs:136-147: the worst-fitting histogram item. *)
Definition worst_step (n : nearest) (colors : list px) (st : f32 * option hitem) (it : hitem)
  : f32 * option hitem :=
  let '(wd, w) := st in
  let may := match nth_error colors (h_likely it) with
             | None => true
             | Some pc => wd <f diff pc (h_color it)
             end in
  if may then
    let d := snd (search n (h_color it) (h_likely it)) in
    if wd <f d then (d, Some it) else st
  else st.

(** src/kmeans.rs:126-154 [replace_unused_colors] *)
Definition replace_unused (items : list hitem) (p : palf) : res palf :=
  foldM (fun p i =>
     e <- idx p i ;;
     if ((popularity (snd e) =f f0) && negb (pop_is_fixed (snd e)))%bool then
       n <- nearest_new p ;;
       match snd (fold_left (worst_step n (colors_of p)) items (f0, None)) with
       | Some w => pal_set p i (h_color w) (h_adj w)
       | None => Ok p
       end
     else Ok p) (seq 0 (length p)) p.

(** src/kmeans.rs:54-86 [iteration]; [threads] is the schedule: the batches of
    every worker, workers in merge order. *)
Definition iteration_with (threads : nat -> list (list nat)) (h : hint) (p : palf) (adjust : bool)
  : res (f64 * hint * palf) :=
  match hi_items h with
  | [] => Ok (d0, h, p)
  | items =>
      n <- nearest_new p ;;
      let bs := chunks 256 items in
      ' (bs', ks) <- foldM (run_worker n adjust (length p)) (threads (length bs)) (bs, []) ;;
      let h' := HInt (concat bs') (hi_total h) (hi_clusters h) (hi_fixed h) in
      let '(p1, df) := match km_reduce ks with
                       | None => (p, d0)
                       | Some k => let '(p1, s) := km_finalize k p in (p1, s /d hi_total h)
                       end in
      p2 <- replace_unused (hi_items h') p1 ;;
      Ok (df, h', p2)
  end.
Definition iteration (h : hint) (p : palf) (adjust : bool) : ST world (f64 * hint * palf) :=
  t <~ tick ;; slift (iteration_with (u_batches u t) h p adjust).
End Kmeans.
