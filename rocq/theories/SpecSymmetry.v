(** Changes of field coordinates and of units: what they do to calls, constraints
    and trajectories. *)
From Coq Require Import Reals List.
Import ListNotations.
From Verif Require Import Geometry Constraints Builder Spec SpecPhysics SpecTrajectory.
Open Scope R_scope.

(** A change of coordinates and units.  The plane is mirrored in the x axis if
    [mirror], then turned by [angle], then shifted by [(dx, dy)].  [length],
    [time] and [mass] are the factors by which numbers that measure lengths,
    times and masses change. *)
Record change : Type := mkChange {
  ch_mirror : bool; ch_angle : R; ch_dx : R; ch_dy : R; ch_length : R; ch_time : R; ch_mass : R
}.
Definition proper_change (ch : change) : Prop := 0 < ch_length ch /\ 0 < ch_time ch /\ 0 < ch_mass ch.
(** Only the coordinates change. *)
Definition rigid (ch : change) : Prop := ch_length ch = 1 /\ ch_time ch = 1 /\ ch_mass ch = 1.
(** The constraints that measure the distance to a segment. *)
Definition to_segment (c : constraint R) : Prop :=
  match c with LinePoint _ _ _ _ | PointLine _ _ _ _ => True | _ => False end.

Section Change.
  Variable ch : change.
  Let sign : R := if ch_mirror ch then -1 else 1.
  Let l := ch_length ch.
  Let t := ch_time ch.
  Let c := cos (ch_angle ch).
  Let s := sin (ch_angle ch).

  (** A field vector: mirrored and turned. *)
  Definition turned_vec (p : R * R) : R * R :=
    (fst p * c - sign * snd p * s, fst p * s + sign * snd p * c).
  (** ... measured in units that make numbers [k] times as large. *)
  Definition new_vec (k : R) (p : R * R) : R * R := (k * fst (turned_vec p), k * snd (turned_vec p)).
  (** A point of the field. *)
  Definition new_point (p : R * R) : R * R := (ch_dx ch + fst (new_vec l p), ch_dy ch + snd (new_vec l p)).
  (** An angle that a heading or direction has; an angle swept. *)
  Definition new_angle (a : R) : R := ch_angle ch + sign * a.

  Definition new_field (p : Translation2 R) : Translation2 R := mkTr (fst (new_point (pt p))) (snd (new_point (pt p))).
  (** A point of the robot. *)
  Definition new_robot (p : Translation2 R) : Translation2 R := mkTr (l * tX p) (l * (sign * tY p)).
  Definition new_rot (r : Rotation2 R) : Rotation2 R :=
    mkRot (fst (turned_vec (rCos r, rSin r))) (snd (turned_vec (rCos r, rSin r))).
  Definition new_pose (p : Pose2 R) : Pose2 R := mkPose (new_field (pTr p)) (new_rot (pRot p)).

  Definition new_constraint (k : constraint R) : constraint R :=
    match k with
    | AngularVelocityMaxMagnitude m => AngularVelocityMaxMagnitude (m / t)
    | LinearAccelerationMaxMagnitude m => LinearAccelerationMaxMagnitude (l / (t * t) * m)
    | LinearVelocityMaxMagnitude m => LinearVelocityMaxMagnitude (l / t * m)
    | LinearVelocityDirection u => LinearVelocityDirection (new_rot u)
    | PointAt f tol => PointAt (new_field f) tol
    | LinePoint a b p d => LinePoint (new_robot a) (new_robot b) (new_field p) (l * d)
    | PointLine p a b d => PointLine (new_robot p) (new_field a) (new_field b) (l * d)
    | PointPoint r f d => PointPoint (new_robot r) (new_field f) (l * d)
    | PoseEquality p => PoseEquality (new_pose p)
    | TranslationEquality p => TranslationEquality (new_field p)
    end.

  Definition new_module (md : swerve_module R) : swerve_module R :=
    mkModule (new_robot (m_translation md)) (l * m_wheelRadius md) (m_wheelMaxAngularVelocity md / t)
      (ch_mass ch * (l * l) / (t * t) * m_wheelMaxTorque md).
  Definition new_drivetrain (d : drivetrain R) : drivetrain R :=
    mkDrivetrain (ch_mass ch * d_mass d) (ch_mass ch * (l * l) * d_moi d) (map new_module (d_modules d)).

  Definition new_bumpers (o : obstacle R) : obstacle R :=
    mkObstacle (l * o_safetyDistance o) (map new_robot (o_points o)).
  Definition new_obstacle (o : obstacle R) : obstacle R :=
    mkObstacle (l * o_safetyDistance o) (map new_field (o_points o)).

  (** The call in the new coordinates and units; what a callback does is left
      alone. *)
  Definition new_call (o : op R) : op R :=
    match o with
    | OSetDrivetrain d => OSetDrivetrain (new_drivetrain d)
    | OPoseWpt i x y a => OPoseWpt i (fst (new_point (x, y))) (snd (new_point (x, y))) (new_angle a)
    | OTranslationWpt i x y a => OTranslationWpt i (fst (new_point (x, y))) (snd (new_point (x, y))) (new_angle a)
    | OWptInitialGuessPoint i p => OWptInitialGuessPoint i (new_pose p)
    | OSgmtInitialGuessPoints i ps => OSgmtInitialGuessPoints i (map new_pose ps)
    | OAddBumpers b => OAddBumpers (new_bumpers b)
    | OWptObstacle i ob => OWptObstacle i (new_obstacle ob)
    | OSgmtObstacle f u ob => OSgmtObstacle f u (new_obstacle ob)
    | OWptConstraint i k => OWptConstraint i (new_constraint k)
    | OSgmtConstraint f u k => OSgmtConstraint f u (new_constraint k)
    | OControlIntervalCounts n => OControlIntervalCounts n
    | OAddIntermediateCallback cb => OAddIntermediateCallback cb
    end.

  (** Two arrays, the x and the y components of vectors. *)
  Definition both (f : R * R -> R * R) (xs ys : list R) : list R * list R :=
    (map (fun p => fst (f p)) (combine xs ys), map (fun p => snd (f p)) (combine xs ys)).
  (** The trajectory in the new coordinates and units. *)
  Definition new_solution (a : solution R) : solution R :=
    let v := l / t in
    let w := l / (t * t) in
    let f := ch_mass ch * l / (t * t) in
    let pos := both new_point (s_x a) (s_y a) in
    let head := both turned_vec (s_thetacos a) (s_thetasin a) in
    let vel := both (new_vec v) (s_vx a) (s_vy a) in
    let acc := both (new_vec w) (s_ax a) (s_ay a) in
    let force := map (fun r => both (new_vec f) (fst r) (snd r)) (combine (s_moduleFX a) (s_moduleFY a)) in
    mkSolution (map (fun x => t * x) (s_dt a)) (fst pos) (snd pos) (fst head) (snd head)
      (fst vel) (snd vel) (map (fun x => sign / t * x) (s_omega a)) (fst acc) (snd acc)
      (map (fun x => sign / (t * t) * x) (s_alpha a)) (map fst force) (map snd force).
End Change.
