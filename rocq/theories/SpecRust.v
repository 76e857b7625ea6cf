(** Specification vocabulary for the Rust API: the C++ call each Rust method
    stands for. *)
From Coq Require Import List ZArith QArith Reals.
Import ListNotations.
From Verif Require Import Outcome Num Geometry Constraints Builder Generator Trajectory RustFFI.
Local Open Scope nat_scope.

Section Spec.
  Context {K : Type} {HA : Arith K} {HD : Dbl K}.

  (** A pose given by coordinates and heading. *)
  Definition pose_of (x y heading : K) : Pose2 K := mkPose (mkTr x y) (rot_angle heading).

  (** The swerve module with the fields of the Rust one. *)
  Definition module_of (m : rs_module K) : swerve_module K :=
    {| m_translation := mkTr (rm_x m) (rm_y m);
       m_wheelRadius := rm_wheel_radius m;
       m_wheelMaxAngularVelocity := rm_wheel_max_angular_velocity m;
       m_wheelMaxTorque := rm_wheel_max_torque m |}.

  (** The rectangle [length] by [width] centred on the robot, corners in order
      around it, kept [1/100] away from obstacles. *)
  Definition centred_rectangle (length width : K) : obstacle K :=
    let l := ndiv length (nlit 2) in let w := ndiv width (nlit 2) in
    let l' := ndiv (nneg length) (nlit 2) in let w' := ndiv (nneg width) (nlit 2) in
    mkObstacle (nlit (1 # 100)) [mkTr l w; mkTr l' w; mkTr l' w'; mkTr l w'].

  (** The C++ call a Rust call stands for; none for a polygon whose coordinate
      lists differ in length. *)
  Definition cpp_call (o : rs_op K) : option (op K) :=
    match o with
    | RSetDrivetrain d =>
        Some (OSetDrivetrain (mkDrivetrain (rd_mass d) (rd_moi d) (map module_of (rd_modules d))))
    | RSetBumpers l w => Some (OAddBumpers (centred_rectangle l w))
    | RSetControlIntervalCounts c => Some (OControlIntervalCounts c)
    | RPoseWpt i x y h => Some (OPoseWpt i x y h)
    | RTranslationWpt i x y h => Some (OTranslationWpt i x y h)
    | REmptyWpt i x y h => Some (OWptInitialGuessPoint i (pose_of x y h))
    | RSgmtInitialGuessPoints i ps =>
        Some (OSgmtInitialGuessPoints i (map (fun p => pose_of (rp_x p) (rp_y p) (rp_heading p)) ps))
    | RWptLinearVelocityDirection i a => Some (OWptConstraint i (LinearVelocityDirection (rot_angle a)))
    | RWptLinearVelocityMaxMagnitude i m => Some (OWptConstraint i (LinearVelocityMaxMagnitude m))
    | RWptAngularVelocityMaxMagnitude i m => Some (OWptConstraint i (AngularVelocityMaxMagnitude m))
    | RWptLinearAccelerationMaxMagnitude i m => Some (OWptConstraint i (LinearAccelerationMaxMagnitude m))
    | RWptPointAt i x y tol => Some (OWptConstraint i (PointAt (mkTr x y) tol))
    | RSgmtLinearVelocityDirection f t a =>
        Some (OSgmtConstraint f t (LinearVelocityDirection (rot_angle a)))
    | RSgmtLinearVelocityMaxMagnitude f t m => Some (OSgmtConstraint f t (LinearVelocityMaxMagnitude m))
    | RSgmtAngularVelocityMaxMagnitude f t m => Some (OSgmtConstraint f t (AngularVelocityMaxMagnitude m))
    | RSgmtLinearAccelerationMaxMagnitude f t m =>
        Some (OSgmtConstraint f t (LinearAccelerationMaxMagnitude m))
    | RSgmtPointAt f t x y tol => Some (OSgmtConstraint f t (PointAt (mkTr x y) tol))
    | RSgmtCircleObstacle f t x y r => Some (OSgmtObstacle f t (mkObstacle r [mkTr x y]))
    | RSgmtPolygonObstacle f t x y r =>
        if length x =? length y
        then Some (OSgmtObstacle f t (mkObstacle r (map (fun p => mkTr (fst p) (snd p)) (combine x y))))
        else None
    | RAddProgressCallback => Some (OAddIntermediateCallback (fun s _ => s))
    end.

  (** The magnitude or tolerance the C++ constraint constructor insists is not
      negative. *)
  Definition bounded_argument (o : rs_op K) : option K :=
    match o with
    | RWptLinearVelocityMaxMagnitude _ m | RWptAngularVelocityMaxMagnitude _ m
    | RWptLinearAccelerationMaxMagnitude _ m | RSgmtLinearVelocityMaxMagnitude _ _ m
    | RSgmtAngularVelocityMaxMagnitude _ _ m | RSgmtLinearAccelerationMaxMagnitude _ _ m => Some m
    | RWptPointAt _ _ _ tol => Some tol
    | RSgmtPointAt _ _ _ _ tol => Some tol
    | _ => None
    end.

  (** In a build with assertions, the argument is refused. *)
  Definition refused (o : rs_op K) : Prop :=
    exists m, bounded_argument o = Some m /\ nleb (nlit 0) m = false.

  (** What becomes of the Rust process when the C++ call ends so. *)
  Definition as_seen (r : outcome unit) : rs_outcome :=
    match r with
    | Ok _ => RsOk
    | Throw _ | AssertFail => RsAbort
    | Undef u => RsUndef u
    | OutOfFuel => RsOutOfFuel
    end.

  (** The C++ calls a Rust history stands for. *)
  Fixpoint cpp_calls (os : list (rs_op K)) : list (op K) :=
    match os with
    | [] => []
    | o :: os' => match cpp_call o with Some c => [c] | None => [] end ++ cpp_calls os'
    end.

  (** How often a history registers a progress callback. *)
  Definition progress_callbacks (os : list (rs_op K)) : nat :=
    length (filter (fun o => match o with RAddProgressCallback => true | _ => false end) os).

  (** The rectangles a history has passed to set_bumpers, in order. *)
  Definition rectangles (os : list (rs_op K)) : list (obstacle K) :=
    flat_map (fun o => match o with RSetBumpers l w => [centred_rectangle l w] | _ => [] end) os.

  (** The Rust builder starts with a zero drivetrain. *)
  Definition zero_drivetrain : op K := OSetDrivetrain (mkDrivetrain (nlit 0) (nlit 0) []).
End Spec.

(** [p] is a weighted mean of the points [ps]. *)
Definition within_corners (ps : list (Translation2 R)) (p : Translation2 R) : Prop :=
  exists ws : list R, length ws = length ps /\ Forall (fun w => (0 <= w)%R) ws /\
    fold_right Rplus 0%R ws = 1%R /\
    tX p = fold_right Rplus 0%R (map (fun e => (fst e * tX (snd e))%R) (combine ws ps)) /\
    tY p = fold_right Rplus 0%R (map (fun e => (fst e * tY (snd e))%R) (combine ws ps)).
