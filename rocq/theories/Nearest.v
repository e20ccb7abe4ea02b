(** Model of src/nearest.rs: the vantage-point tree. *)
From Verif Require Import Base Arith Pal.
Section Nearest.
Context {A : Arith}.

(** src/nearest.rs:85-105 [Node], [NodeInner]; a leaf's two 6-element arrays
    and their length are one list (of at most 6 entries). *)
Inductive node :=
| Leaf (vp : px) (i : nat) (entries : list (nat * px))
| Inner (vp : px) (i : nat) (radius radius_sq : f32) (near far : node).

(** src/nearest.rs:67-72 [Visitor] *)
Record visitor := Visitor { v_dist : f32; v_dsq : f32; v_idx : nat; v_excl : option nat }.

(** src/nearest.rs:74-83 [visit] *)
Definition excluded (e : option nat) (i : nat) : bool :=
  match e with Some j => Nat.eqb j i | None => false end.
Definition visit (v : visitor) (d dsq : f32) (i : nat) : visitor :=
  if ((dsq <f v_dsq v) && negb (excluded (v_excl v) i))%bool
  then Visitor d dsq i (v_excl v) else v.

Definition LEAF_MAX_SIZE : nat := 6.

(** [palette.get(idx).copied().unwrap_or_default()] *)
Definition pal_color (p : palf) (i : nat) : px :=
  match nth_error p i with Some e => fst e | None => px0 end.
Definition pal_popularity (p : palf) (i : nat) : f32 :=
  match nth_error p i with Some e => popularity (snd e) | None => f0 end.
(** [palette.get(idx).map(|px| vantage_point.diff(px)).unwrap_or_default()] *)
Definition pal_diff (p : palf) (vp : px) (i : nat) : f32 :=
  match nth_error p i with Some e => diff vp (fst e) | None => f0 end.

(** src/nearest.rs:121-126: move the most popular index to the front. *)
Definition most_popular (p : palf) (is : list nat) : nat :=
  match max_by (fun x y => fcmp (pal_popularity p (snd x)) (pal_popularity p (snd y))) (enumerate is) with
  | Some (n, _) => n
  | None => 0
  end.
Definition swap_front (is : list nat) (n : nat) : list nat :=
  match nth_error is n, is with
  | Some x, y :: _ => upd (upd is n y) 0 x
  | _, _ => is
  end.

(** src/nearest.rs:107-171 [vp_create_node].  [fuel] = number of indexes. *)
Fixpoint create_node (fuel : nat) (p : palf) (is : list nat) : node :=
  match is with
  | [] => Leaf (pal_color p 0) 0 []
  | [i] => Leaf (pal_color p i) i []
  | _ =>
      match swap_front is (most_popular p is) with
      | [] => Leaf (pal_color p 0) 0 []                       (* not reached *)
      | ref :: rest =>
          let vp := pal_color p ref in
          let sorted := sort_by (fun x y => fcmp (pal_diff p vp x) (pal_diff p vp y)) rest in
          let n := length sorted in
          match fuel with
          | O => Leaf vp ref (map (fun i => (i, pal_color p i)) sorted)  (* not reached *)
          | S f =>
              if Nat.leb n LEAF_MAX_SIZE
              then Leaf vp ref (map (fun i => (i, pal_color p i)) sorted)
              else
                let near := firstn (n / 2) sorted in
                let far := skipn (n / 2) sorted in
                let rsq := match far with i :: _ => pal_diff p vp i | [] => f0 end in
                Inner vp ref (fsqrt rsq) rsq (create_node f p near) (create_node f p far)
          end
      end
  end.

(** src/nearest.rs:173-211 [vp_search_node]; the tail [continue] is the
    second recursive call. *)
Fixpoint search_node (n : node) (needle : px) (v : visitor) : visitor :=
  match n with
  | Leaf vp i es =>
      let dsq := diff vp needle in
      let v := visit v (fsqrt dsq) dsq i in
      fold_left (fun v e => let d := diff (snd e) needle in visit v (fsqrt d) d (fst e)) es v
  | Inner vp i radius rsq near far =>
      let dsq := diff vp needle in
      let d := fsqrt dsq in
      let v := visit v d dsq i in
      if dsq <f rsq then
        let v := search_node near needle v in
        if (radius -f v_dist v) <=f d then search_node far needle v else v
      else
        let v := search_node far needle v in
        if d <=f (radius +f v_dist v) then search_node near needle v else v
  end.

(** src/nearest.rs:57-61 [Nearest]; the 256-entry distance table is a list
    of the entries that are written (one per palette colour). *)
Record nearest := NearestM { n_root : node; n_pal : list px; n_other : list f32 }.

(** src/nearest.rs:6-30 [Nearest::new] *)
Definition nearest_new (p : palf) : res nearest :=
  if Nat.ltb 256 (length p) then Err Unsupported
  else match p with
       | [] => Err Unsupported
       | _ =>
         let root := create_node (length p) p (seq 0 (length p)) in
         Ok (NearestM root (colors_of p)
              (map (fun ic => v_dsq (search_node root (snd ic) (Visitor fmaxv fmaxv 0 (Some (fst ic)))) /f fofZ 4)
                   (enumerate (colors_of p))))
       end.

(** src/nearest.rs:33-55 [search] *)
Definition search (n : nearest) (c : px) (likely : nat) : nat * f32 :=
  match nth_error (n_pal n) likely with
  | Some pc =>
      let g := diff c pc in
      if g <f nth likely (n_other n) f0 then (likely, g)
      else let v := search_node (n_root n) c (Visitor (fsqrt g) g likely None) in (v_idx v, v_dsq v)
  | None =>
      let v := search_node (n_root n) c (Visitor finf finf 0 None) in (v_idx v, v_dsq v)
  end.
End Nearest.
