(** C01-C04: settings, the quality scale and the work plan. *)
From Verif Require Import Base Arith Pal World Attr SpecAttr Ieee SpecPow Order AttrFacts QualityFacts PowRef.
From Flocq Require Import IEEE754.BinarySingleNaN.
Open Scope Z_scope.

(** C01.  Any history of setter calls: the getters read what the last accepted
    calls set; each further call is accepted exactly when it is in the
    documented range, changes exactly its own getter, and is otherwise
    rejected with ValueOutOfRange. *)
Theorem C01_settings_follow_the_documentation :
  forall pow32 pow64, pow64_accurate pow64 ->
  forall cs c, Forall call_typed cs -> call_typed c ->
  let A := ieee pow32 pow64 in
  observe (run_calls cs) = spec_run cs /\
  (if call_valid c
   then exists a', apply_call (run_calls cs) c = Ok a' /\ observe a' = spec_set (spec_run cs) c
   else apply_call (run_calls cs) c = Err ValueOutOfRange).
Proof. exact settings_spec. Qed.
Print Assumptions C01_settings_follow_the_documentation.

Example C01_example :
  (exists pow64, pow64_accurate pow64) /\
  let cs := [CallQuality 30 80; CallSpeed 11; CallMaxColors 16; CallQuality 90 20] in
  Forall call_typed cs /\ spec_run cs = Settings 16 4 0 (30, 80).
Proof.
  split; [exists pow64_ref; exact pow64_ref_accurate|]. split; [|reflexivity].
  repeat constructor; discriminate.
Qed.

(** C01, for every arithmetic whose quality scale reads back (so also for a
    libm outside the accuracy bound whose scale still does). *)
Theorem C01_settings_any_arithmetic :
  forall (A : Arith), quality_round_trip ->
  forall cs, Forall call_typed cs -> observe (run_calls cs) = spec_run cs.
Proof. exact (fun A H cs => run_calls_spec cs H). Qed.
Print Assumptions C01_settings_any_arithmetic.

(** C02.  Reading back the quality. *)
Theorem C02_quality_reads_back :
  forall pow32 pow64, pow64_accurate pow64 ->
  let A := ieee pow32 pow64 in
  (forall a mn tg, 0 <= mn <= tg -> tg <= 100 ->
     exists a', set_quality a mn tg = Ok a' /\ get_quality a' = (mn, tg)) /\
  get_quality attrs_new = (0, 100).
Proof. exact quality_reads_back. Qed.
Print Assumptions C02_quality_reads_back.

Example C02_example : (exists pow64, pow64_accurate pow64) /\ 0 <= 37 <= 99 /\ 99 <= 100.
Proof. split; [exists pow64_ref; exact pow64_ref_accurate|]. repeat constructor; discriminate. Qed.

(** C03.  The scale is monotone; range; NaN; the number reported is the best
    one whose threshold (+1e-6) is met; the thresholds strictly decrease. *)
Theorem C03_quality_scale_monotone :
  forall pow32 pow64, let A := ieee pow32 pow64 in
  (forall e e' : f64, dle e e' = true -> mse_to_quality e' <= mse_to_quality e) /\
  (forall e : f64, 0 <= mse_to_quality e <= 100) /\
  (forall e : f64, is_nan e = true -> mse_to_quality e = 0) /\
  (forall e : f64, mse_to_quality e = 100 -> dle e (d0 +d dlit 1 1000000) = true) /\
  (forall e : f64,
     (0 < mse_to_quality e -> dle e (quality_to_mse (mse_to_quality e) +d dlit 1 1000000) = true) /\
     (forall j, mse_to_quality e < j <= 100 -> dle e (quality_to_mse j +d dlit 1 1000000) = false)).
Proof. exact quality_scale. Qed.
Print Assumptions C03_quality_scale_monotone.

Theorem C03_thresholds_strictly_decrease :
  forall pow32 pow64, pow64_accurate pow64 ->
  let A := ieee pow32 pow64 in
  forall q j, 0 <= q < j -> j <= 100 -> dlt (quality_to_mse j) (quality_to_mse q) = true.
Proof. exact thresholds_decrease. Qed.
Print Assumptions C03_thresholds_strictly_decrease.

Example C03_example : forall pow32 pow64, let A := ieee pow32 pow64 in
  dle d0 (dofZ 5) = true /\ is_nan (ddiv d0 d0) = true.
Proof. split; reflexivity. Qed.

(** C04.  Work plan after any history of calls: progress stages, bounds on the
    number of passes, and larger histograms never get more passes. *)
Theorem C04_work_plan :
  forall (A : Arith) cs n m known, (n <= m)%nat ->
  let a := run_calls cs in
  (0 <= a_st1 a /\ 0 <= a_st2 a /\ 0 <= a_st3 a /\ a_st1 a + a_st2 a + a_st3 a = 100) /\
  0 <= feedback_loop_trials a m <= feedback_loop_trials a n /\ feedback_loop_trials a n <= 47 /\
  0 <= fst (kmeans_iterations a m known) <= fst (kmeans_iterations a n known) /\
  fst (kmeans_iterations a n known) <= 31.
Proof. exact work_plan. Qed.
Print Assumptions C04_work_plan.

(** C04.  A higher speed never plans more work. *)
Theorem C04_faster_is_less_work :
  forall (A : Arith) a b v w a' b' n known,
  set_speed a v = Ok a' -> set_speed b w = Ok b' -> v <= w -> a_max_mse a = a_max_mse b ->
  feedback_loop_trials b' n <= feedback_loop_trials a' n /\
  fst (kmeans_iterations b' n known) <= fst (kmeans_iterations a' n known) /\
  a_max_hist b' <= a_max_hist a'.
Proof. exact (@speed_monotone). Qed.
Print Assumptions C04_faster_is_less_work.

Example C04_example : forall A : Arith,
  feedback_loop_trials (run_calls [CallSpeed 1]) (Z.to_nat 30000) = 27 /\
  feedback_loop_trials (run_calls [CallSpeed 1]) 10 = 47 /\
  feedback_loop_trials (run_calls [CallSpeed 10]) 10 = 0.
Proof. intros A. vm_compute. auto. Qed.
