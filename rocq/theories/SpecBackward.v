(** Vocabulary for paths driven the other way. *)
From Coq Require Import Reals List Arith.
Import ListNotations.
From Verif Require Import Num NumR Geometry Constraints Builder Spec SpecBuilder SpecPhysics SpecTrajectory SpecStep SpecLegs SpecDrive SpecReach.
Open Scope R_scope.

(** [h'] asks of its waypoints and segments, in the other order, what [h] asks of
    its [last + 1] waypoints and [last] segments. *)
Definition other_way (last : nat) (h h' : list (op R)) : Prop :=
  (forall w c, (w <= last)%nat -> (In c (wpt_requests [] h' w) <-> In c (wpt_requests [] h (last - w)))) /\
  (forall w c, (1 <= w <= last)%nat -> (In c (sgmt_requests [] h' w) <-> In c (sgmt_requests [] h (S last - w)))).

(** A limit on acceleration asked of a waypoint is also asked of the segment after it. *)
Definition limits_last (last : nat) (h : list (op R)) : Prop :=
  forall w m, (w < last)%nat -> In (LinearAccelerationMaxMagnitude m) (wpt_requests [] h w) ->
    In (LinearAccelerationMaxMagnitude m) (sgmt_requests [] h (S w)).
(** Constraints on the position, on speeds and on acceleration, and poses facing [a]. *)
Definition facing_one_way (a : R) (c : constraint R) : Prop :=
  match c with
  | PoseEquality p => rCos (pRot p) = cos a /\ rSin (pRot p) = sin a
  | TranslationEquality _ | LinearVelocityMaxMagnitude _ | LinearVelocityDirection _ | AngularVelocityMaxMagnitude _
  | LinearAccelerationMaxMagnitude _ => True
  | _ => False
  end.
(** All requests for waypoints and segments of a path. *)
Definition requests_are (P : constraint R -> Prop) (last : nat) (h : list (op R)) : Prop :=
  (forall w c, (w <= last)%nat -> In c (wpt_requests [] h w) -> P c) /\
  (forall w c, (1 <= w <= last)%nat -> In c (sgmt_requests [] h w) -> P c).

(** The robot faces the same way throughout and does not turn. *)
Definition never_turns (c s : R) (n : nat) (sol : solution R) : Prop :=
  forall i, (i <= n)%nat -> q_c (at_sample sol i) = c /\ q_s (at_sample sol i) = s /\ q_w (at_sample sol i) = 0.
(** The robot stands at every waypoint. *)
Definition stands_at_waypoints (counts : list nat) (sol : solution R) : Prop :=
  forall w, (w <= length counts)%nat -> at_rest (at_sample sol (waypoint_sample counts w)).
(** All modules are as fast and as strong. *)
Definition alike (d : drivetrain R) : Prop :=
  forall a b, In a (d_modules d) -> In b (d_modules d) -> wheel_limit a = wheel_limit b /\ force_limit a = force_limit b.

(** The dash of C116 the other way: a straight stop over the distance [D]. *)
Definition brake (d : drivetrain R) (n : nat) (D : R) : list (op R) :=
  [OSetDrivetrain d; OPoseWpt 0 D 0 0; OPoseWpt 1 0 0 0;
   OWptConstraint 1 (LinearVelocityMaxMagnitude 0); OControlIntervalCounts [n]].
(** How long the problem thinks the stop takes, and when it can be done as hard as the motors allow. *)
Definition brake_time (d : drivetrain R) (n : nat) (D : R) : R :=
  sqrt (2 * INR n * d_mass d * D / (INR (n - 1) * thrust d)).
Definition can_brake (d : drivetrain R) (n : nat) (D : R) : Prop :=
  real_wheels d /\ centred d /\ 0 < sum (map (fun md => arm md * arm md) (d_modules d)) /\ 0 < d_mass d /\ 0 < thrust d /\
  (2 <= n)%nat /\ 0 < D /\
  (forall md, In md (d_modules d) -> INR (length (d_modules d)) * force_limit md = thrust d) /\
  step_within d (brake_time d n D / INR n) /\
  (forall md, In md (d_modules d) -> thrust d / d_mass d * brake_time d n D <= wheel_limit md).

(** Three poses around a corner, the robot facing along the x axis. *)
Definition around : list stop := [mkStop 0 0 0; mkStop 1 0 0; mkStop 1 3 0].
(** ... with a limit on acceleration throughout. *)
Definition gently (m : R) (h : list (op R)) : list (op R) := h ++ [OSgmtConstraint 0 2 (LinearAccelerationMaxMagnitude m)].
