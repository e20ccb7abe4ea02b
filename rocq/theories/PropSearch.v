(** C26: the palette search, in exact arithmetic. *)
From Verif Require Import Base BaseFacts Arith Order Pal World Attr Hist Nearest Kmeans Blur ImageM Quant Remap SpecHist SpecImage
  SearchFacts Api RealArith NearReal SearchReal.
From Coq Require Import Reals Lra.
Open Scope nat_scope.

(** C26.  The square root of the library's colour difference is a metric:
    this is what the pruned search relies on. *)
Theorem C26_distance_is_metric : forall big, let A := real big in forall s t o : px,
  (0 <= sqrt (diff s o))%R /\ diff s o = diff o s /\ (diff s o = 0%R <-> s = o) /\
  (sqrt (diff s o) <= sqrt (diff s t) + sqrt (diff t o))%R.
Proof.
  exact (fun big s t o => conj (sqrt_pos _) (conj (diff_sym big s o)
    (conj (conj (diff_zero big s o) (fun E => eq_ind s (fun x => diff s x = 0%R) (diff_self big s) o E)) (dist_triangle big s t o)))).
Qed.
Print Assumptions C26_distance_is_metric.
(** C26.  The search returns a palette colour at the least distance, whatever
    the hint, also one outside the palette. *)
Theorem C26_search_nearest : forall big, (1 <= big)%R -> let A := real big in
  forall (p : palf) n (c : px) hint, nearest_new p = Ok n ->
  hint < length p \/ (exists e, In e p /\ (diff c (fst e) < big)%R) ->
  exists pc w, nth_error p (fst (search n c hint)) = Some (pc, w) /\ snd (search n c hint) = diff c pc /\
    forall e, In e p -> (diff c pc <= diff c (fst e))%R.
Proof. exact (fun big Hb p n c hint N H => search_exact_in big p n c hint Hb N H). Qed.
Print Assumptions C26_search_nearest.
(** C26.  An undithered remap without a background gives each pixel a nearest
    colour of the palette (rounded to what [palette()] returns). *)
Theorem C26_remap_nearest : forall big, (1 <= big)%R -> let A := real big in
  forall u rcb m q i pxs buf w q' i' out w', unspec_ok u -> result_r m q -> image_r i pxs ->
  q_dither q = 0%R -> i_bg i = None -> remap_into u rcb q i buf w = (Ok tt, (q', i', out, w')) ->
  forall y x r c, nth_error pxs y = Some r -> nth_error r x = Some c ->
  exists k, nth_error out (y * i_w i + x) = Some k /\
    nearest_to big (colors_of (fst (init_int_palette (q_pal q) (q_gamma q) (q_post q)))) (from_rgba (gamma_lut (d_gamma (i_px i))) c) k.
Proof.
  exact (fun big Hb u rcb m q i pxs buf w q' i' out w' U R I D B E => remap_nearest big u rcb m q i pxs buf w q' i' out w' Hb U R I D B E).
Qed.
Print Assumptions C26_remap_nearest.
(** Three colours, the needle nearest to the middle one; every hint finds it. *)
Section Example3.
Let A : Arith := real 2.
Local Existing Instance A.
Definition grey (v : R) : px := @Px (real 2) 1%R v v v.
Definition pal3 : palf := [(grey 0, 1%R); (grey (1 / 2), 1%R); (grey 1, 1%R)].
Lemma diff_grey x y : diff (grey x) (grey y) = (3 * ((x - y) * (x - y)))%R.
Proof.
  unfold diff, grey. cbn [pa pr pg pb A real fsub fadd fmul fmax]. replace (1 - 1)%R with 0%R by lra. rewrite Rplus_0_r, Rmax_left by lra. lra.
Qed.
End Example3.
Example C26_example : exists n, @nearest_new (real 2) pal3 = Ok n /\ forall hint, fst (@search (real 2) n (grey (2 / 3)) hint) = 1.
Proof.
  destruct (@nearest_new_ok (real 2) pal3) as (n & N & _); [cbn; lia|]. exists n. split; auto. intros hint.
  destruct (C26_search_nearest 2 ltac:(lra) pal3 n (grey (2 / 3)) hint N) as (pc & w & E & _ & M).
  { right. exists (grey (1 / 2), 1%R). split; [right; left; auto|]. cbn [fst]. rewrite diff_grey. lra. }
  specialize (M (grey (1 / 2), 1%R) (or_intror (or_introl eq_refl))). cbn [fst] in M. rewrite diff_grey in M.
  destruct (fst (@search (real 2) n (grey (2 / 3)) hint)) as [|[|[|k]]]; auto; cbn [nth_error pal3] in E.
  - inversion E; subst pc. rewrite diff_grey in M. lra.
  - inversion E; subst pc. rewrite diff_grey in M. lra.
  - destruct k; discriminate.
Qed.
