(** Specification of what a problem built in double arithmetic means: its
    constants are doubles, its variables real numbers. *)
From Coq Require Import List ZArith Reals SpecFloat.
Import ListNotations.
From Verif Require Import Outcome Num NumR NumF64 Geometry Expr Constraints Builder Generator
  Spec SpecBuilder SpecPhysics SpecTrajectory SpecGenerator SpecDouble.
Local Open Scope R_scope.

(** ** The problem over the reals *)
(** A constant stands for its real value; an expression with an infinity or NaN
    in it has no value, like 1 / 0. *)
Definition constant (k : f64) : expr R :=
  match k with
  | S754_zero _ | S754_finite _ _ _ => EConst (real k)
  | _ => EDiv (EConst 1) (EConst 0)
  end.
Fixpoint exactly (e : expr f64) : expr R :=
  match e with
  | EConst k => constant k
  | EVar v => EVar v
  | EAdd a b => EAdd (exactly a) (exactly b)
  | ESub a b => ESub (exactly a) (exactly b)
  | EMul a b => EMul (exactly a) (exactly b)
  | EDiv a b => EDiv (exactly a) (exactly b)
  | ENeg a => ENeg (exactly a)
  | ECos a => ECos (exactly a)
  | ESin a => ESin (exactly a)
  | EAtan2 a b => EAtan2 (exactly a) (exactly b)
  | EHypot a b => EHypot (exactly a) (exactly b)
  | ESign a => ESign (exactly a)
  end.
(** At most infinity, or at least minus infinity, is no restriction. *)
Definition exact_constraint (c : ccons f64) : ccons R :=
  match c with
  | CEq a b => CEq (exactly a) (exactly b)
  | CLe a (EConst (S754_infinity false)) => CLeInf (exactly a)
  | CLe a b => CLe (exactly a) (exactly b)
  | CGe a (EConst (S754_infinity true)) => CLeInf (exactly a)
  | CGe a b => CGe (exactly a) (exactly b)
  | CLeInf a => CLeInf (exactly a)
  end.
Definition over_reals (g : gen f64) : gen R :=
  let v := g_vars g in
  let p := g_problem g in
  let m := map exactly in
  mkGen (mkVars (m (v_x v)) (m (v_y v)) (m (v_cos v)) (m (v_sin v)) (m (v_vx v)) (m (v_vy v)) (m (v_omega v))
           (m (v_ax v)) (m (v_ay v)) (m (v_alpha v)) (map m (v_Fx v)) (map m (v_Fy v)) (m (v_dt v)))
    (g_N g)
    (mkProblem (pr_nvars p) (map exact_constraint (pr_cons p)) (option_map exactly (pr_obj p)) (fun i => real (pr_vals p i)))
    [] (g_handle g).

(** ** The same numbers as reals *)
Definition real_point (p : Translation2 f64) : Translation2 R := mkTr (real (tX p)) (real (tY p)).
Definition real_module (md : swerve_module f64) : swerve_module R :=
  mkModule (real_point (m_translation md)) (real (m_wheelRadius md)) (real (m_wheelMaxAngularVelocity md)) (real (m_wheelMaxTorque md)).
Definition real_drivetrain (d : drivetrain f64) : drivetrain R :=
  mkDrivetrain (real (d_mass d)) (real (d_moi d)) (map real_module (d_modules d)).

(** ** Limits *)
(** What limits a trajectory: each module's wheel speed and force, the distance
    between the coordinates of two modules, and the maximum or minimum a
    constraint names. *)
Record limits : Type := mkLimits {
  l_speed : swerve_module f64 -> R;
  l_force : swerve_module f64 -> R;
  l_gap : f64 -> f64 -> R;
  l_max : f64 -> R;
  l_min : f64 -> R
}.
(** The documented ones, computed exactly. *)
Definition documented : limits := mkLimits
  (fun md => real (m_wheelRadius md) * real (m_wheelMaxAngularVelocity md))
  (fun md => real (m_wheelMaxTorque md) / real (m_wheelRadius md))
  (fun a b => Rabs (real a - real b)) (fun m => Rabs (real m)) (fun m => Rabs (real m)).
(** Those the problem contains: products, quotients, differences and squares are
    rounded. *)
Definition computed : limits :=
  let root (v : f64) := sqrt (real (f64_mul v v)) in
  mkLimits
    (fun md => root (f64_mul (m_wheelRadius md) (m_wheelMaxAngularVelocity md)))
    (fun md => root (f64_div (m_wheelMaxTorque md) (m_wheelRadius md)))
    (fun a b => Rabs (real (f64_sub a b))) root root.
(** A little more, and a little less: a few rounding errors, and what is lost
    where numbers are close to zero. *)
Definition more (x : R) : R := if Req_EM_T x 0 then 0 else x * (1 + 4 * roundoff) + / 2 ^ 530.
Definition less (x : R) : R := if Req_EM_T x 0 then 0 else x * (1 - 4 * roundoff) - / 2 ^ 530.
(** Looser limits: larger maxima, smaller minima; and stricter ones. *)
Definition looser (l : limits) : limits := mkLimits
  (fun md => more (l_speed l md)) (fun md => more (l_force l md)) (fun a b => more (l_gap l a b))
  (fun m => more (l_max l m)) (fun m => less (l_min l m)).
Definition stricter (l : limits) : limits := mkLimits
  (fun md => less (l_speed l md)) (fun md => less (l_force l md)) (fun a b => less (l_gap l a b))
  (fun m => less (l_max l m)) (fun m => more (l_min l m)).

Section Limited.
  (** [fcos] is the library's cosine. *)
  Variables (fcos : f64 -> f64) (l : limits).

  (** What a constraint demands of the robot state. *)
  Definition demands_up_to (s : state) (c : constraint f64) : Prop :=
    match c with
    | AngularVelocityMaxMagnitude m => Rabs (q_w s) <= real m
    | LinearAccelerationMaxMagnitude m => norm2 (q_ax s, q_ay s) <= l_max l m
    | LinearVelocityMaxMagnitude m => norm2 (q_vx s, q_vy s) <= l_max l m
    | LinearVelocityDirection u =>
        (q_vx s * real (rCos u) + q_vy s * real (rSin u)) ^ 2 = q_vx s ^ 2 + q_vy s ^ 2
    | PointAt f tol =>
        real (fcos tol) * dist2 (q_x s, q_y s) (pt (real_point f))
          <= q_c s * (real (tX f) - q_x s) + q_s s * (real (tY f) - q_y s)
    | LinePoint a b p m =>
        let a' := SpecPhysics.placed s (real_point a) in
        let b' := SpecPhysics.placed s (real_point b) in
        a' <> b' /\ clear_of_segment a' b' (pt (real_point p)) (sqrt (l_min l m))
    | PointLine p a b m =>
        pt (real_point a) <> pt (real_point b) /\
        clear_of_segment (pt (real_point a)) (pt (real_point b)) (SpecPhysics.placed s (real_point p)) (sqrt (l_min l m))
    | PointPoint r f m => l_min l m <= dist2 (SpecPhysics.placed s (real_point r)) (pt (real_point f))
    | PoseEquality p =>
        q_x s = real (tX (pTr p)) /\ q_y s = real (tY (pTr p)) /\
        unit_heading s /\ q_c s * real (rSin (pRot p)) = q_s s * real (rCos (pRot p))
    | TranslationEquality t => q_x s = real (tX t) /\ q_y s = real (tY t)
    end.

  (** The physics of drivetrain [d]: C60's, with these limits. *)
  Definition obeys_up_to (d : drivetrain f64) (counts : list nat) (sol : solution R) : Prop :=
    (forall i, (1 <= i <= last_sample counts)%nat ->
       let a := at_sample sol (i - 1) in
       let b := at_sample sol i in
       let dt := step_to sol i in
       0 <= dt /\
       (forall md m1 m2, In md (d_modules d) -> In (m1, m2) (consecutive (d_modules d)) ->
          let advance := dt * real (m_wheelRadius md) * real (m_wheelMaxAngularVelocity md) in
          (real (tX (m_translation m1)) <> real (tX (m_translation m2)) ->
             advance <= l_gap l (tX (m_translation m1)) (tX (m_translation m2))) /\
          (real (tY (m_translation m1)) <> real (tY (m_translation m2)) ->
             advance <= l_gap l (tY (m_translation m1)) (tY (m_translation m2)))) /\
       moves a b dt /\ turns_up_to_half a b dt /\ accelerates a b dt) /\
    (forall i, (i <= last_sample counts)%nat ->
       newton (real_drivetrain d) (at_sample sol i) (forces sol i) /\
       (forall md, In md (d_modules d) ->
          norm2 (wheel_velocity (at_sample sol i) (real_point (m_translation md))) <= l_speed l md) /\
       (forall md f, In (md, f) (combine (d_modules d) (forces sol i)) -> norm2 f <= l_force l md)).
  Definition meets_up_to (counts : list nat) (sol : solution R) (at_wpt to_wpt : nat -> list (constraint f64)) : Prop :=
    (forall w c, (w <= length counts)%nat -> In c (at_wpt w) ->
       demands_up_to (at_sample sol (waypoint_sample counts w)) c) /\
    (forall w c i, (1 <= w <= length counts)%nat -> In c (to_wpt w) ->
       (waypoint_sample counts (w - 1) < i <= waypoint_sample counts w)%nat ->
       demands_up_to (at_sample sol i) c).
End Limited.

(** ** Ordinary inputs *)
Definition number (x : f64) : Prop := is_double x /\ finite x.
Definition numbers (p : Translation2 f64) : Prop := number (tX p) /\ number (tY p).
(** A module of size at most 2^1000, with wheels whose speed and force limits are
    at most 2^500. *)
Definition ordinary_module (md : swerve_module f64) : Prop :=
  within 1000 (tX (m_translation md)) /\ within 1000 (tY (m_translation md)) /\
  number (m_wheelRadius md) /\ number (m_wheelMaxAngularVelocity md) /\ number (m_wheelMaxTorque md) /\
  0 < real (m_wheelRadius md) /\ 0 <= real (m_wheelMaxAngularVelocity md) /\ 0 <= real (m_wheelMaxTorque md) /\
  l_speed documented md <= powerRZ 2 500 /\ l_force documented md <= powerRZ 2 500.
Definition ordinary_drivetrain (d : drivetrain f64) : Prop :=
  number (d_mass d) /\ number (d_moi d) /\ Forall ordinary_module (d_modules d).
(** The difference of two doubles is a double. *)
Definition exact_difference (a b : f64) : Prop := finite (f64_sub a b) /\ real (f64_sub a b) = real a - real b.
(** A constraint of finite numbers, with limits of at most 2^500; a field line's
    ends differ by doubles. *)
Definition ordinary_constraint (fcos : f64 -> f64) (c : constraint f64) : Prop :=
  match c with
  | AngularVelocityMaxMagnitude m => number m
  | LinearAccelerationMaxMagnitude m | LinearVelocityMaxMagnitude m => within 500 m
  | LinearVelocityDirection u => number (rCos u) /\ number (rSin u)
  | PointAt f tol => numbers f /\ number (fcos tol)
  | LinePoint a b p m => numbers a /\ numbers b /\ numbers p /\ within 500 m
  | PointLine p a b m => numbers p /\ numbers a /\ numbers b /\ within 500 m /\
      exact_difference (tX b) (tX a) /\ exact_difference (tY b) (tY a)
  | PointPoint r f m => numbers r /\ numbers f /\ within 500 m
  | PoseEquality p => numbers (pTr p) /\ number (rCos (pRot p)) /\ number (rSin (pRot p))
  | TranslationEquality t => numbers t
  end.
(** A path of ordinary numbers, every call of which returned, and the generator
    constructed from it. *)
Section Path.
  Variables (fcos fsin : f64 -> f64) (fatan2 fhypot : f64 -> f64 -> f64) (asserts : bool) (h : list (op f64)).
  Let A := Arith_f64 fcos fsin fatan2 fhypot.
  Definition ordinary_path (handle : Z) (d : drivetrain f64) (g : gen f64) : Prop :=
    @generator f64 A Dbl_f64 asserts h handle d g /\
    Forall proper_call h /\ @all_returned f64 A Dbl_f64 asserts h new_builder /\
    (forall n, In n (@counts f64 A Dbl_f64 asserts h) -> (1 <= n)%nat) /\ ordinary_drivetrain d /\
    (forall w c, In c (@wpt_requests f64 A [] h w) \/ In c (@sgmt_requests f64 A [] h w) -> ordinary_constraint fcos c).
  (** A trajectory with the physics and the constraints asked for, up to limits [l]. *)
  Definition fits (l : limits) (d : drivetrain f64) (sol : solution R) : Prop :=
    let N := @counts f64 A Dbl_f64 asserts h in
    well_shaped N (length (d_modules d)) sol /\ uniform_steps N sol /\ obeys_up_to l d N sol /\
    meets_up_to fcos l N sol (@wpt_requests f64 A [] h) (@sgmt_requests f64 A [] h).
End Path.

(** ** Comparison with the constraints over the reals *)
Definition real_rotation (r : Rotation2 f64) : Rotation2 R := mkRot (real (rCos r)) (real (rSin r)).
Definition real_constraint (c : constraint f64) : constraint R :=
  match c with
  | AngularVelocityMaxMagnitude m => AngularVelocityMaxMagnitude (real m)
  | LinearAccelerationMaxMagnitude m => LinearAccelerationMaxMagnitude (real m)
  | LinearVelocityMaxMagnitude m => LinearVelocityMaxMagnitude (real m)
  | LinearVelocityDirection u => LinearVelocityDirection (real_rotation u)
  | PointAt f tol => PointAt (real_point f) (real tol)
  | LinePoint a b p m => LinePoint (real_point a) (real_point b) (real_point p) (real m)
  | PointLine p a b m => PointLine (real_point p) (real_point a) (real_point b) (real m)
  | PointPoint r f m => PointPoint (real_point r) (real_point f) (real m)
  | PoseEquality p => PoseEquality (mkPose (real_point (pTr p)) (real_rotation (pRot p)))
  | TranslationEquality t => TranslationEquality (real_point t)
  end.
(** A cosine and sine without rounding error. *)
Definition exact_rotation (r : Rotation2 f64) : Prop := real (rCos r) ^ 2 + real (rSin r) ^ 2 = 1.
Definition exact_angles (fcos : f64 -> f64) (c : constraint f64) : Prop :=
  match c with
  | LinearVelocityDirection u => exact_rotation u
  | PointAt _ tol => real (fcos tol) = cos (real tol)
  | PoseEquality p => exact_rotation (pRot p)
  | _ => True
  end.
(** The square of the length of a direction given by a cosine and a sine. *)
Definition size2 (u : Rotation2 f64) : R := real (rCos u) ^ 2 + real (rSin u) ^ 2.
