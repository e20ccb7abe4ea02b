(** Model of src/attr.rs and of the quality scale in src/quant.rs. *)
From Verif Require Import Base Arith Pal World.
Section Attr.
Context {A : Arith}.
Open Scope Z_scope.

(** src/quant.rs:447-454 [quality_to_mse].  Argument: u8. *)
Definition quality_to_mse (q : Z) : f64 :=
  if q =? 0 then dofZ (10 ^ 20)
  else if 100 <=? q then d0
  else
    let fudge := dmax (dlit 16 1000 /d (dlit 1 1000 +d dofZ q) -d dlit 1 1000) d0 in
    LIQ_WEIGHT_MSE *d
      (fudge +d dlit 25 10 /d dpow (dofZ 210 +d dofZ q) (dlit 12 10)
                *d (dlit 1001 10 -d dofZ q) /d dofZ 100).

(** src/quant.rs:456-461 [mse_to_quality]: [i] counts down from 100. *)
Fixpoint mse_to_quality_from (i : nat) (mse : f64) : Z :=
  match i with
  | O => 0
  | S j => if mse <=d quality_to_mse (Z.of_nat i) +d dlit 1 1000000
           then Z.of_nat i else mse_to_quality_from j mse
  end.
Definition mse_to_quality (mse : f64) : Z := mse_to_quality_from 100 mse.

(** src/remap.rs:14-20 [DitherMapMode] *)
Inductive dmode := DmNone | DmEnabled | DmAlways.
Definition dmode_is_none (d : dmode) : bool := match d with DmNone => true | _ => false end.
Definition dmode_is_always (d : dmode) : bool := match d with DmAlways => true | _ => false end.

(** src/attr.rs:11-33 [Attributes]; the callbacks are not stored in the record
    but passed to the functions that call them, and logging has no effect on
    results, so it is omitted. *)
Record attrs := Attrs {
  a_max_colors : nat;             (* u16 *)
  a_target_mse : f64;
  a_max_mse : option f64;
  a_km_limit : f64;
  a_km_iter : Z;                  (* u16 *)
  a_trials : Z;                   (* u16 *)
  a_max_hist : Z;                 (* u32 *)
  a_post_out : Z;                 (* u8 *)
  a_post_in : Z;                  (* u8 *)
  a_last_transp : bool;
  a_contrast : bool;
  a_single : bool;
  a_dither : dmode;
  a_speed : Z;                    (* u8 *)
  a_st1 : Z; a_st2 : Z; a_st3 : Z (* u8 *)
}.

(** src/attr.rs:122-148 [set_speed].  i32 argument; [as u8]/[as u16]/[as u32]
    casts and u8 subtraction are written with their wrap-around. *)
Definition set_speed (a : attrs) (v : Z) : res attrs :=
  if negb ((1 <=? v) && (v <=? 10)) then Err ValueOutOfRange
  else
    let it := Z.max (8 - v) 0 in
    let it := wrap16 (it + it * it / 2) in
    let limit := d1 /d dofZ (Z.shiftl 1 (23 - v)) in
    let trials := wrap16 (Z.max (56 - 9 * v) 0) in
    let max_hist := wrap32 (Z.shiftl 1 17 + Z.shiftl 1 18 * (10 - v)) in
    let post_in := if 8 <=? v then 1 else 0 in
    let dm := if v <=? 6 then DmEnabled else DmNone in
    let dm := if negb (dmode_is_none dm) && (v <? 3) then DmAlways else dm in
    let contrast := (v <=? 7) || negb (dmode_is_none dm) in
    let st1 := if contrast then 20 else 8 in
    let st1 := if trials <? 2 then wrap8 (st1 + 30) else st1 in
    let st3 := wrap8 (50 / (1 + v)) in
    let st2 := wrap8 (100 - st1 - st3) in
    Ok {| a_max_colors := a_max_colors a; a_target_mse := a_target_mse a;
          a_max_mse := a_max_mse a; a_km_limit := limit; a_km_iter := it;
          a_trials := trials; a_max_hist := max_hist;
          a_post_out := a_post_out a; a_post_in := post_in;
          a_last_transp := a_last_transp a; a_contrast := contrast;
          a_single := v =? 1; a_dither := dm; a_speed := wrap8 v;
          a_st1 := st1; a_st2 := st2; a_st3 := st3 |}.

(** src/attr.rs:41-66 [Attributes::new] *)
Definition attrs_blank : attrs :=
  {| a_max_colors := MAX_COLORS; a_target_mse := d0; a_max_mse := None;
     a_km_limit := d0; a_km_iter := 0; a_trials := 0; a_max_hist := 0;
     a_post_out := 0; a_post_in := 0; a_last_transp := false;
     a_contrast := false; a_single := false; a_dither := DmNone; a_speed := 0;
     a_st1 := 0; a_st2 := 0; a_st3 := 0 |}.
Definition attrs_new : attrs :=
  match set_speed attrs_blank 4 with Ok a => a | _ => attrs_blank end.

(** src/attr.rs:86-94 [set_max_colors]: u32 argument *)
Definition set_max_colors (a : attrs) (n : Z) : res attrs :=
  if negb ((2 <=? n) && (n <=? 256)) then Err ValueOutOfRange
  else Ok {| a_max_colors := Z.to_nat (wrap16 n); a_target_mse := a_target_mse a;
          a_max_mse := a_max_mse a; a_km_limit := a_km_limit a; a_km_iter := a_km_iter a;
          a_trials := a_trials a; a_max_hist := a_max_hist a;
          a_post_out := a_post_out a; a_post_in := a_post_in a;
          a_last_transp := a_last_transp a; a_contrast := a_contrast a;
          a_single := a_single a; a_dither := a_dither a; a_speed := a_speed a;
          a_st1 := a_st1 a; a_st2 := a_st2 a; a_st3 := a_st3 a |}.

(** src/attr.rs:104-114 [set_quality]: u8 arguments *)
Definition set_quality (a : attrs) (mn tg : Z) : res attrs :=
  if negb ((0 <=? tg) && (tg <=? 100)) || (tg <? mn) then Err ValueOutOfRange
  else Ok {| a_max_colors := a_max_colors a; a_target_mse := quality_to_mse tg;
          a_max_mse := Some (quality_to_mse mn); a_km_limit := a_km_limit a; a_km_iter := a_km_iter a;
          a_trials := a_trials a; a_max_hist := a_max_hist a;
          a_post_out := a_post_out a; a_post_in := a_post_in a;
          a_last_transp := a_last_transp a; a_contrast := a_contrast a;
          a_single := a_single a; a_dither := a_dither a; a_speed := a_speed a;
          a_st1 := a_st1 a; a_st2 := a_st2 a; a_st3 := a_st3 a |}.

(** src/attr.rs:153-160 [set_min_posterization]: u8 argument *)
Definition set_min_posterization (a : attrs) (v : Z) : res attrs :=
  if negb ((0 <=? v) && (v <=? 4)) then Err ValueOutOfRange
  else Ok {| a_max_colors := a_max_colors a; a_target_mse := a_target_mse a;
          a_max_mse := a_max_mse a; a_km_limit := a_km_limit a; a_km_iter := a_km_iter a;
          a_trials := a_trials a; a_max_hist := a_max_hist a;
          a_post_out := v; a_post_in := a_post_in a;
          a_last_transp := a_last_transp a; a_contrast := a_contrast a;
          a_single := a_single a; a_dither := a_dither a; a_speed := a_speed a;
          a_st1 := a_st1 a; a_st2 := a_st2 a; a_st3 := a_st3 a |}.

(** src/attr.rs:243-246 [set_last_index_transparent] *)
Definition set_last_index_transparent (a : attrs) (b : bool) : attrs :=
  {| a_max_colors := a_max_colors a; a_target_mse := a_target_mse a;
     a_max_mse := a_max_mse a; a_km_limit := a_km_limit a; a_km_iter := a_km_iter a;
     a_trials := a_trials a; a_max_hist := a_max_hist a;
     a_post_out := a_post_out a; a_post_in := a_post_in a;
     a_last_transp := b; a_contrast := a_contrast a;
     a_single := a_single a; a_dither := a_dither a; a_speed := a_speed a;
     a_st1 := a_st1 a; a_st2 := a_st2 a; a_st3 := a_st3 a |}.

(** Getters, src/attr.rs:162-190 *)
Definition get_min_posterization (a : attrs) : Z := a_post_out a.
Definition get_speed (a : attrs) : Z := a_speed a.
Definition get_max_colors (a : attrs) : Z := Z.of_nat (a_max_colors a).
Definition get_quality (a : attrs) : Z * Z :=
  (match a_max_mse a with None => 0 | Some m => mse_to_quality m end,
   mse_to_quality (a_target_mse a)).

(** The repeated [(x * 3 + 3) / 4] of src/attr.rs:276-292 and 307-327 on u16. *)
Definition three_quarters (x : Z) : Z := wrap16 (wrap16 (wrap16 (x * 3) + 3) / 4).
Definition shrink_by_len (x : Z) (len : nat) : Z :=
  let n := Z.of_nat len in
  let x := if 5000 <? n then three_quarters x else x in
  let x := if 25000 <? n then three_quarters x else x in
  let x := if 50000 <? n then three_quarters x else x in
  if 100000 <? n then three_quarters x else x.

(** src/attr.rs:276-292 [feedback_loop_trials] *)
Definition feedback_loop_trials (a : attrs) (len : nat) : Z := shrink_by_len (a_trials a) len.

(** src/attr.rs:294-303 [target_mse]; [powi(2)] is [x * x]. *)
Definition target_mse (a : attrs) (len : nat) : option f64 * f64 * bool :=
  let mm := match a_max_mse a with
            | None => None
            | Some m => Some (m *d (if Nat.leb len MAX_COLORS then dlit 33 100 else d1))
            end in
  let perfect := a_target_mse a =d d0 in
  let p := dofZ (Z.shiftl 1 (a_post_out a)) /d dofZ 1024 in
  let t := dmax (a_target_mse a) (p *d p) in
  let t := match mm with None => t | Some m => dmin t m end in
  (mm, t, perfect).

(** src/attr.rs:305-327 [kmeans_iterations] *)
Definition kmeans_iterations (a : attrs) (len : nat) (known : bool) : Z * f64 :=
  let it := shrink_by_len (a_km_iter a) len in
  let lim := if 100000 <? Z.of_nat len then a_km_limit a *d dofZ 2 else a_km_limit a in
  let it := if (it =? 0) && negb known && (match a_max_mse a with Some _ => true | None => false end)
            then 1 else it in
  (it, lim).

(** src/attr.rs:329-333 [posterize_bits] *)
Definition posterize_bits (a : attrs) : Z := Z.max (a_post_out a) (a_post_in a).

(** src/remap.rs:321-323 [mse_to_standard_mse] *)
Definition mse_to_standard_mse (m : f64) : f64 := (m *d dofZ 65536 /d dofZ 6) /d LIQ_WEIGHT_MSE.
End Attr.
