(** Claims about double arithmetic, C83, C84, C97, C98 and C102, and the unit tests, C85.  The
    operations +, -, *, / and comparisons are those of IEEE-754 binary64 with
    rounding to nearest; cos, sin, atan2 and hypot are arbitrary functions unless said otherwise. *)
From Coq Require Import List ZArith Reals SpecFloat Lia.
Import ListNotations.
From Verif Require Import Outcome Num NumR NumF64 Util Expr Builder Generator Trajectory Spec SpecTrajectory SpecGenerator SpecDouble
  DoubleProofs AngleProofs WidthProofs DoubleGuess UnitTests UnitTestProofs DoubleCases.
Local Open Scope R_scope.

(** C83. Timestamps computed in doubles start at 0, never decrease and are at
    least each single step, provided no step is negative or NaN; *)
Theorem C83_timestamps_in_order : forall fcos fsin fatan2 fhypot N m (s : solution f64) l,
  well_shaped N m s -> @HolonomicTrajectory f64 (Arith_f64 fcos fsin fatan2 fhypot) s = Ok l ->
  Forall is_double (s_dt s) -> Forall (fle fzero) (s_dt s) ->
  (forall p, nth_error l 0 = Some p -> h_timestamp p = fzero) /\
  (forall j k p q, (j <= k)%nat -> nth_error l j = Some p -> nth_error l k = Some q ->
     fle (h_timestamp p) (h_timestamp q)) /\
  (forall k p d, nth_error l (S k) = Some p -> nth_error (s_dt s) k = Some d -> fle d (h_timestamp p)).
Proof. exact C83_order. Qed.
Print Assumptions C83_timestamps_in_order.
(** and unless it overflows, sample k is within the relative error of k-1
    rounded additions of the exact sum of the steps before it. *)
Theorem C83_timestamps_error : forall fcos fsin fatan2 fhypot N m (s : solution f64) l,
  well_shaped N m s -> @HolonomicTrajectory f64 (Arith_f64 fcos fsin fatan2 fhypot) s = Ok l ->
  Forall is_double (s_dt s) -> Forall (fle fzero) (s_dt s) ->
  forall k p, nth_error l k = Some p -> finite (h_timestamp p) ->
  Rabs (real (h_timestamp p) - sum (map real (firstn k (s_dt s)))) <=
    ((1 + roundoff) ^ (k - 1) - 1) * sum (map real (firstn k (s_dt s))).
Proof. exact C83_error. Qed.
Print Assumptions C83_timestamps_error.
(** A positive step may leave the timestamp unchanged: 1 s followed by 2^-60 s. *)
Theorem C83_positive_step_can_vanish : forall fcos fsin fatan2 fhypot, exists (s : solution f64) l p q,
  well_shaped [2%nat] 1 s /\ Forall is_double (s_dt s) /\ Forall (flt fzero) (s_dt s) /\
  @HolonomicTrajectory f64 (Arith_f64 fcos fsin fatan2 fhypot) s = Ok l /\
  nth_error l 1 = Some p /\ nth_error l 2 = Some q /\ h_timestamp p = h_timestamp q.
Proof. exact vanish_case. Qed.
Print Assumptions C83_positive_step_can_vanish.
(** Eight steps of 0.1 meet the hypotheses and do not add up to 0.8. *)
Example C83_case : forall fcos fsin fatan2 fhypot, exists (s : solution f64) l p, well_shaped [8%nat] 1 s /\
  @HolonomicTrajectory f64 (Arith_f64 fcos fsin fatan2 fhypot) s = Ok l /\
  Forall is_double (s_dt s) /\ Forall (fle fzero) (s_dt s) /\ nth_error l 8 = Some p /\
  finite (h_timestamp p) /\ SFeqb (h_timestamp p) (f64_lit (8 # 10)) = false.
Proof. exact tenths_case. Qed.

(** C84. Linear interpolation in doubles goes from a towards b without turning
    back, provided b - a does not overflow; *)
Theorem C84_linspace_monotone : forall fcos fsin fatan2 fhypot a b n,
  is_double a -> is_double b -> finite a -> finite b -> finite (f64_sub b a) -> (Z.of_nat n <= 2 ^ 53)%Z ->
  forall j k v w, (j <= k)%nat ->
  nth_error (@Linspace f64 (Arith_f64 fcos fsin fatan2 fhypot) Dbl_f64 a b n) j = Some v ->
  nth_error (@Linspace f64 (Arith_f64 fcos fsin fatan2 fhypot) Dbl_f64 a b n) k = Some w ->
  is_double v /\ is_double w /\ (fle a b -> fle a v /\ fle v w) /\ (fle b a -> fle v a /\ fle w v).
Proof. exact C84_order. Qed.
Print Assumptions C84_linspace_monotone.
(** and each value is within a few rounding errors of the exact one. *)
Theorem C84_linspace_error : forall fcos fsin fatan2 fhypot a b n,
  is_double a -> is_double b -> finite a -> finite b -> (Z.of_nat n <= 2 ^ 53)%Z ->
  forall k v, nth_error (@Linspace f64 (Arith_f64 fcos fsin fatan2 fhypot) Dbl_f64 a b n) k = Some v -> finite v ->
  Rabs (real v - (real a + INR (S k) * (real b - real a) / INR n)) <=
    roundoff * (Rabs (real a) + 5 * Rabs (real b - real a)) + (INR n + 2) * tiny.
Proof. exact C84_error. Qed.
Print Assumptions C84_linspace_error.
(** The last value is not b in general: 49 steps from 0 to 1 end below 1, *)
Theorem C84_last_value_can_fall_short : forall fcos fsin fatan2 fhypot, exists v,
  nth_error (@Linspace f64 (Arith_f64 fcos fsin fatan2 fhypot) Dbl_f64 (f64_lit 0) (f64_lit 1) 49) 48 = Some v /\ flt v (f64_lit 1).
Proof. exact miss_proof. Qed.
Print Assumptions C84_last_value_can_fall_short.
(** and one step from 0.3 to 0.9 ends above 0.9. *)
Theorem C84_last_value_can_overshoot : forall fcos fsin fatan2 fhypot, exists v,
  nth_error (@Linspace f64 (Arith_f64 fcos fsin fatan2 fhypot) Dbl_f64 (f64_lit (3 # 10)) (f64_lit (9 # 10)) 1) 0 = Some v /\
  flt (f64_lit (9 # 10)) v.
Proof. exact over_proof. Qed.
Print Assumptions C84_last_value_can_overshoot.
Example C84_case : is_double (f64_lit (3 # 10)) /\ is_double (f64_lit (9 # 10)) /\ finite (f64_lit (3 # 10)) /\
  finite (f64_lit (9 # 10)) /\ finite (f64_sub (f64_lit (9 # 10)) (f64_lit (3 # 10))) /\ fle (f64_lit (3 # 10)) (f64_lit (9 # 10)).
Proof. exact lit_case. Qed.

(** C97. Interpolation between angles in doubles: for angles up to 2^40 in
    size some difference d, congruent to b - a modulo a turn and at most half a
    turn up to rounding, is covered in equal steps up to rounding; *)
Theorem C97_angle_linspace : forall fcos fsin fatan2 fhypot a b n,
  is_double a -> is_double b -> finite a -> finite b -> (Z.of_nat n <= 2 ^ 53)%Z ->
  Rabs (real a) + Rabs (real b) + 4 <= 2 ^ 40 ->
  exists j : Z, let d := real b - real a - 2 * PI * IZR j in
    Rabs d <= PI + 320 * (roundoff * (Rabs (real a) + Rabs (real b) + 4)) /\
    forall k v, nth_error (@AngleLinspace f64 (Arith_f64 fcos fsin fatan2 fhypot) Dbl_f64 a b n) k = Some v ->
    is_double v /\ finite v /\
    Rabs (real v - (real a + INR (S k) * d / INR n)) <= 80 * (roundoff * (Rabs (real a) + Rabs (real b) + 4)).
Proof. exact C97_proof. Qed.
Print Assumptions C97_angle_linspace.
(** the bound on the angles is needed: going from 0 to 10^18 in one step ends
    beyond 8, more than a full turn away. *)
Theorem C97_huge_angles_can_miss : forall fcos fsin fatan2 fhypot, exists b v, is_double b /\ finite b /\
  nth_error (@AngleLinspace f64 (Arith_f64 fcos fsin fatan2 fhypot) Dbl_f64 fzero b 1) 0 = Some v /\ flt (f64_lit 8) v.
Proof. exact huge_case. Qed.
Print Assumptions C97_huge_angles_can_miss.
(** From 3 to -3 in two steps: the first ends at pi, not at 0. *)
Example C97_case : forall fcos fsin fatan2 fhypot, exists v,
  is_double (f64_lit 3) /\ is_double (f64_lit (-3)) /\ finite (f64_lit 3) /\ finite (f64_lit (-3)) /\
  nth_error (@AngleLinspace f64 (Arith_f64 fcos fsin fatan2 fhypot) Dbl_f64 (f64_lit 3) (f64_lit (-3)) 2) 0 = Some v /\
  fle (f64_lit (3141592653 # 1000000000)) v /\ fle v (f64_lit (3141592654 # 1000000000)).
Proof. exact short_case. Qed.
Example C97_case_size : Rabs (real (f64_lit 3)) + Rabs (real (f64_lit (-3))) + 4 <= 2 ^ 40.
Proof. exact bound_case. Qed.

(** C98. The time step limit in doubles: whatever doubles the modules'
    coordinates are, NaN and infinities included, each time step times each
    wheel's top speed is limited by the least positive finite distance in x or
    y between consecutive modules, by infinity if there is none, never by NaN or 0. *)
Theorem C98_step_limit : forall fcos fsin fatan2 fhypot asserts h handle d (g : gen f64),
  @generator f64 (Arith_f64 fcos fsin fatan2 fhypot) Dbl_f64 asserts h handle d g -> Forall placed (d_modules d) ->
  exists w, narrowest (gap (d_modules d)) w /\
  length (v_dt (g_vars g)) = length (@counts f64 (Arith_f64 fcos fsin fatan2 fhypot) Dbl_f64 asserts h) /\
  forall dt md, In dt (v_dt (g_vars g)) -> In md (d_modules d) ->
  let advance := EMul (EMul dt (EConst (m_wheelRadius md))) (EConst (m_wheelMaxAngularVelocity md)) in
  In (match w with Some k => CLe advance (EConst k) | None => CLeInf advance end) (pr_cons (g_problem g)).
Proof. exact C98_proof. Qed.
Print Assumptions C98_step_limit.
(** A rounding error in a coordinate becomes the limit: with one x given as
    0.1 + 0.2 and the next as 0.3 it is below 1e-16. *)
Theorem C98_rounding_error_becomes_limit : forall fcos fsin fatan2 fhypot asserts,
  exists h d g, @generator f64 (Arith_f64 fcos fsin fatan2 fhypot) Dbl_f64 asserts h 0 d g /\ Forall placed (d_modules d) /\
  length (v_dt (g_vars g)) = 1%nat /\
  forall w, narrowest (gap (d_modules d)) w -> exists k, w = Some k /\ flt k (f64_lit (1 # 10000000000000000)).
Proof. exact post_case. Qed.
Print Assumptions C98_rounding_error_becomes_limit.

(** C102. The solver starts from finite numbers: if every coordinate given to the
    builder is a finite double of size at most 2^400, every angle finite, the
    library functions accurate to 1/2 and no segment empty, then every value
    the constructor gives the solver is finite, whatever the path. *)
Theorem C102_finite_start : forall fcos fsin fatan2 fhypot, sound_libm fcos fsin fatan2 ->
  forall asserts h handle d (g : gen f64) s0,
  let A := Arith_f64 fcos fsin fatan2 fhypot in
  @generator f64 A Dbl_f64 asserts h handle d g ->
  @ConstructSwerveSolution f64 A g (pr_vals (g_problem g)) = Ok s0 ->
  Forall moderate_call h -> (forall n, In n (@counts f64 A Dbl_f64 asserts h) -> (1 <= n)%nat) ->
  (Z.of_nat (S (last_sample (@counts f64 A Dbl_f64 asserts h))) <= 2 ^ 53)%Z -> finite_solution s0.
Proof. exact C102_proof. Qed.
Print Assumptions C102_finite_start.
(** Some bound on the coordinates is needed: from a finite -x to x the first
    sample starts at infinity. *)
Theorem C102_bound_needed : forall fcos fsin fatan2 fhypot asserts,
  let A := Arith_f64 fcos fsin fatan2 fhypot in
  exists x h d (g : gen f64) s0, is_double x /\ finite x /\
    h = [OSetDrivetrain d; OPoseWpt 0 (SFopp x) fzero fzero; OPoseWpt 1 x fzero fzero; OControlIntervalCounts [3%nat]] /\
    @generator f64 A Dbl_f64 asserts h 0 d g /\
    @ConstructSwerveSolution f64 A g (pr_vals (g_problem g)) = Ok s0 /\ nth_error (s_x s0) 1 = Some (S754_infinity false).
Proof. exact far_case. Qed.
Print Assumptions C102_bound_needed.
(** A library that rounds the exact values to the nearest double is accurate enough. *)
Theorem C102_rounded_library : sound_libm (fun x => nearest (cos (real x))) (fun x => nearest (sin (real x)))
  (fun y x => nearest (Ratan2 (real y) (real x))).
Proof. exact nearest_sound. Qed.
Print Assumptions C102_rounded_library.
Example C102_case : forall fcos fsin fatan2 fhypot asserts,
  let A := Arith_f64 fcos fsin fatan2 fhypot in
  Forall moderate_call post_history /\ @counts f64 A Dbl_f64 asserts post_history = [3%nat] /\
  exists (g : gen f64) s0, @generator f64 A Dbl_f64 asserts post_history 0 two_posts g /\
    @ConstructSwerveSolution f64 A g (pr_vals (g_problem g)) = Ok s0.
Proof. exact finite_case. Qed.

(** C85. The checks of the repository's unit tests hold: those without library
    functions in double arithmetic, for any libm, with and without assertions; *)
Theorem C85_unit_tests : forall fcos fsin fatan2 fhypot asserts,
  forallb (fun b => b) (@plain_checks f64 (Arith_f64 fcos fsin fatan2 fhypot) Dbl_f64 asserts) = true.
Proof. exact C85_plain_proof. Qed.
Print Assumptions C85_unit_tests.
(** those with library functions over the reals. *)
Theorem C85_unit_tests_trigonometry : exact_checks.
Proof. exact C85_exact_proof. Qed.
Print Assumptions C85_unit_tests_trigonometry.
Example C85_case : forall fcos fsin fatan2 fhypot,
  length (@plain_checks f64 (Arith_f64 fcos fsin fatan2 fhypot) Dbl_f64 true) = 24%nat.
Proof. reflexivity. Qed.
