(** Calling another side of the robot its front: what that does to calls,
    constraints and trajectories. *)
From Coq Require Import Reals List.
Import ListNotations.
From Verif Require Import Num NumR Geometry Constraints Builder Spec SpecBuilder SpecPhysics SpecTrajectory SpecSymmetry.
Open Scope R_scope.

(** A constraint about where the front points. *)
Definition about_front (c : constraint R) : Prop := match c with PointAt _ _ => True | _ => False end.

Section Front.
  (** The angle from the old to the new front. *)
  Variable b : R.

  (** A point of the robot, in the frame of the new front. *)
  Definition front_point (p : Translation2 R) : Translation2 R :=
    mkTr (tX p * cos b + tY p * sin b) (tY p * cos b - tX p * sin b).
  (** The direction of the new front. *)
  Definition front_heading (h : R * R) : R * R :=
    (fst h * cos b - snd h * sin b, fst h * sin b + snd h * cos b).
  Definition front_rot (r : Rotation2 R) : Rotation2 R :=
    mkRot (fst (front_heading (rCos r, rSin r))) (snd (front_heading (rCos r, rSin r))).
  Definition front_pose (p : Pose2 R) : Pose2 R := mkPose (pTr p) (front_rot (pRot p)).

  Definition front_constraint (k : constraint R) : constraint R :=
    match k with
    | LinePoint p q f d => LinePoint (front_point p) (front_point q) f d
    | PointLine p f g d => PointLine (front_point p) f g d
    | PointPoint p f d => PointPoint (front_point p) f d
    | PoseEquality p => PoseEquality (front_pose p)
    | _ => k
    end.
  Definition front_module (md : swerve_module R) : swerve_module R :=
    mkModule (front_point (m_translation md)) (m_wheelRadius md) (m_wheelMaxAngularVelocity md) (m_wheelMaxTorque md).
  Definition front_drivetrain (d : drivetrain R) : drivetrain R :=
    mkDrivetrain (d_mass d) (d_moi d) (map front_module (d_modules d)).
  Definition front_bumpers (o : obstacle R) : obstacle R :=
    mkObstacle (o_safetyDistance o) (map front_point (o_points o)).

  Definition front_call (o : op R) : op R :=
    match o with
    | OSetDrivetrain d => OSetDrivetrain (front_drivetrain d)
    | OPoseWpt i x y a => OPoseWpt i x y (a + b)
    | OTranslationWpt i x y a => OTranslationWpt i x y (a + b)
    | OWptInitialGuessPoint i p => OWptInitialGuessPoint i (front_pose p)
    | OSgmtInitialGuessPoints i ps => OSgmtInitialGuessPoints i (map front_pose ps)
    | OAddBumpers u => OAddBumpers (front_bumpers u)
    | OWptConstraint i k => OWptConstraint i (front_constraint k)
    | OSgmtConstraint f u k => OSgmtConstraint f u (front_constraint k)
    | _ => o
    end.

  (** The same motion, with the headings of the new front. *)
  Definition front_solution (a : solution R) : solution R :=
    let head := both front_heading (s_thetacos a) (s_thetasin a) in
    mkSolution (s_dt a) (s_x a) (s_y a) (fst head) (snd head) (s_vx a) (s_vy a) (s_omega a) (s_ax a) (s_ay a)
      (s_alpha a) (s_moduleFX a) (s_moduleFY a).
End Front.

(** The constraints about where the front points. *)
Definition pointing_requests (cs : list (constraint R)) : list (constraint R) :=
  filter (fun c => match c with PointAt _ _ => true | _ => false end) cs.
(** The front points where the program asks it to. *)
Definition faces (counts : list nat) (h : list (op R)) (a : solution R) : Prop :=
  meets_requests counts a (fun w => pointing_requests (wpt_requests [] h w)) (fun w => pointing_requests (sgmt_requests [] h w)).
