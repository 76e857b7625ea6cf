(** /repo/src/RustFFI.cpp, RustFFI.hpp and /repo/src/lib.rs.  The methods of
    lib.rs:182-437 forward to the C++ method of the same name without change. *)
From Coq Require Import List.
Import ListNotations.
From Verif Require Export Outcome Num Geometry Constraints Builder Generator Trajectory Runtime.
Open Scope num_scope.

(** Plain data types of the bridge, lib.rs:4-10, 13-17, 20-24. *)
Record rs_module (K : Type) : Type := mkRsModule {
  rm_x : K; rm_y : K; rm_wheel_radius : K; rm_wheel_max_angular_velocity : K;
  rm_wheel_max_torque : K
}.
Arguments mkRsModule {K} _ _ _ _ _.
Arguments rm_x {K} _.
Arguments rm_y {K} _.
Arguments rm_wheel_radius {K} _.
Arguments rm_wheel_max_angular_velocity {K} _.
Arguments rm_wheel_max_torque {K} _.
(** lib.rs:13-17 *)
Record rs_drivetrain (K : Type) : Type := mkRsDrivetrain {
  rd_mass : K; rd_moi : K; rd_modules : list (rs_module K)
}.
Arguments mkRsDrivetrain {K} _ _ _.
Arguments rd_mass {K} _.
Arguments rd_moi {K} _.
Arguments rd_modules {K} _.
(** lib.rs:20-24 *)
Record rs_pose (K : Type) : Type := mkRsPose { rp_x : K; rp_y : K; rp_heading : K }.
Arguments mkRsPose {K} _ _ _.
Arguments rp_x {K} _.
Arguments rp_y {K} _.
Arguments rp_heading {K} _.

(** What a Rust caller observes of a bridged call that is not declared to
    return Result (lib.rs:49-152): an exception leaving such a function
    terminates the process (cxx contract). *)
Inductive rs_outcome : Type :=
| RsOk
| RsAbort                (* C++ exception or failed assert *)
| RsUndef (u : ub)
| RsOutOfFuel.

(** What Rust's generate returns (lib.rs:154-158): Result, or the process is lost. *)
Inductive rs_result (K : Type) : Type :=
| RsSamples (l : list (sample K))
| RsErrRange                     (* Err: an out_of_range raised while building the problem *)
| RsErrMessage (code : Z)        (* Err: the message of a solver exit condition *)
| RsDied (u : ub)
| RsAborted.
Arguments RsSamples {K} _.
Arguments RsErrRange {K}.
Arguments RsErrMessage {K} _.
Arguments RsDied {K} _.
Arguments RsAborted {K}.

Section FFI.
  Context {K : Type} `{Arith K} `{Dbl K}.

  (** cxx's handling of a bridged call without Result. lib.rs:49-152, 160-163. *)
  Definition rs_call (m : bld K unit) (b : builder K) : builder K * rs_outcome :=
    match m b with
    | (b', Ok _) => (b', RsOk)
    | (b', Undef u) => (b', RsUndef u)
    | (b', OutOfFuel) => (b', RsOutOfFuel)
    | (b', _) => (b', RsAbort)
    end.

  (** swerve_path_builder_new, RustFFI.cpp:244-246: make_unique
      value-initialises the builder, so mass and moi are zero. *)
  Definition rs_new : builder K :=
    mkBuilder [] (Some (mkDrivetrain (nlit 0) (nlit 0) [])) [] [] [] [].

  (** RustFFI.cpp:28-32 *)
  Definition cpp_module (m : rs_module K) : swerve_module K :=
    mkModule (mkTr (rm_x m) (rm_y m)) (rm_wheel_radius m)
      (rm_wheel_max_angular_velocity m) (rm_wheel_max_torque m).
  (** RustFFI.cpp:25-37 *)
  Definition rs_set_drivetrain (d : rs_drivetrain K) : bld K unit :=
    SetDrivetrain (mkDrivetrain (rd_mass d) (rd_moi d) (map cpp_module (rd_modules d))).
  (** RustFFI.cpp:39-47 *)
  Definition rs_set_control_interval_counts (counts : list nat) : bld K unit :=
    ControlIntervalCounts counts.
  (** RustFFI.cpp:49-56 *)
  Definition rs_set_bumpers (length width : K) : bld K unit :=
    AddBumpers (mkObstacle (nlit (1 # 100))
      [ mkTr (length / nlit 2) (width / nlit 2);
        mkTr (- length / nlit 2) (width / nlit 2);
        mkTr (- length / nlit 2) (- width / nlit 2);
        mkTr (length / nlit 2) (- width / nlit 2) ]).
  (** RustFFI.cpp:58-61 *)
  Definition rs_pose_wpt (index : nat) (x y heading : K) : bld K unit :=
    PoseWpt index x y heading.
  (** RustFFI.cpp:63-66 *)
  Definition rs_translation_wpt (index : nat) (x y heading_guess : K) : bld K unit :=
    TranslationWpt index x y heading_guess.
  (** RustFFI.cpp:68-71 *)
  Definition rs_empty_wpt (index : nat) (x y heading : K) : bld K unit :=
    WptInitialGuessPoint index (pose_xyh x y heading).
  (** RustFFI.cpp:73-82 *)
  Definition rs_sgmt_initial_guess_points (from_index : nat) (ps : list (rs_pose K)) : bld K unit :=
    SgmtInitialGuessPoints from_index
      (map (fun p => pose_xyh (rp_x p) (rp_y p) (rp_heading p)) ps).

  (** [path_builder.WptConstraint(index, C{...})]: the constraint constructor
      (which may assert) runs first. RustFFI.cpp:90-115. *)
  Definition wpt_checked (index : nat) (c : outcome (constraint K)) : bld K unit :=
    c <~ blift c ;; WptConstraint index c.
  (** [path_builder.SgmtConstraint(from, to, C{...})] likewise.
      RustFFI.cpp:124-154. *)
  Definition sgmt_checked asserts (f t : nat) (c : outcome (constraint K)) : bld K unit :=
    c <~ blift c ;; SgmtConstraint asserts f t c.

  (** RustFFI.cpp:84-88 *)
  Definition rs_wpt_linear_velocity_direction (index : nat) (angle : K) : bld K unit :=
    WptConstraint index (mkLinearVelocityDirection angle).
  (** RustFFI.cpp:90-94 *)
  Definition rs_wpt_linear_velocity_max_magnitude asserts (index : nat) (m : K) : bld K unit :=
    wpt_checked index (mkLinearVelocityMaxMagnitude asserts m).
  (** RustFFI.cpp:96-100 *)
  Definition rs_wpt_angular_velocity_max_magnitude asserts (index : nat) (w : K) : bld K unit :=
    wpt_checked index (mkAngularVelocityMaxMagnitude asserts w).
  (** RustFFI.cpp:102-106 *)
  Definition rs_wpt_linear_acceleration_max_magnitude asserts (index : nat) (m : K) : bld K unit :=
    wpt_checked index (mkLinearAccelerationMaxMagnitude asserts m).
  (** RustFFI.cpp:108-115 *)
  Definition rs_wpt_point_at asserts (index : nat) (x y tol : K) : bld K unit :=
    wpt_checked index (mkPointAt asserts (mkTr x y) tol).
  (** RustFFI.cpp:117-122 *)
  Definition rs_sgmt_linear_velocity_direction asserts (f t : nat) (angle : K) : bld K unit :=
    SgmtConstraint asserts f t (mkLinearVelocityDirection angle).
  (** RustFFI.cpp:124-130 *)
  Definition rs_sgmt_linear_velocity_max_magnitude asserts (f t : nat) (m : K) : bld K unit :=
    sgmt_checked asserts f t (mkLinearVelocityMaxMagnitude asserts m).
  (** RustFFI.cpp:132-137 *)
  Definition rs_sgmt_angular_velocity_max_magnitude asserts (f t : nat) (w : K) : bld K unit :=
    sgmt_checked asserts f t (mkAngularVelocityMaxMagnitude asserts w).
  (** RustFFI.cpp:139-144 *)
  Definition rs_sgmt_linear_acceleration_max_magnitude asserts (f t : nat) (m : K) : bld K unit :=
    sgmt_checked asserts f t (mkLinearAccelerationMaxMagnitude asserts m).
  (** RustFFI.cpp:146-154 *)
  Definition rs_sgmt_point_at asserts (f t : nat) (x y tol : K) : bld K unit :=
    sgmt_checked asserts f t (mkPointAt asserts (mkTr x y) tol).
  (** RustFFI.cpp:156-160 *)
  Definition rs_sgmt_circle_obstacle asserts (f t : nat) (x y radius : K) : bld K unit :=
    SgmtObstacle asserts f t (mkObstacle radius [mkTr x y]).
  (** RustFFI.cpp:162-179; [rust::Vec::at] throws when out of range. *)
  Definition rs_sgmt_polygon_obstacle asserts (f t : nat) (x y : list K) (radius : K) : bld K unit :=
    if negb (length x =? length y)%nat then bret tt
    else
      ps <~ blift (foldM (fun i ps => a <- at_ x i ;; b <- at_ y i ;; Ok (ps ++ [mkTr a b]))
                     (seq 0 (length x)) []) ;;
      SgmtObstacle asserts f t (mkObstacle radius ps).

  (** RustFFI.cpp:188-203 and 225-238: the Rust sample has the same fields in
      the same order as the C++ one. *)
  Definition rust_samples (l : list (sample K)) : list (sample K) :=
    map (fun c => mkSample (h_timestamp c) (h_x c) (h_y c) (h_heading c) (h_velocityX c)
                    (h_velocityY c) (h_angularVelocity c)
                    (fold_left (fun v f => v ++ [f]) (h_moduleForcesX c) [])
                    (fold_left (fun v f => v ++ [f]) (h_moduleForcesY c) [])) l.

  (** add_progress_callback, RustFFI.cpp:218-242.  The Rust function receives a
      fresh trajectory; the shared solution is not modified.  [sink] records
      what the Rust function is called with. *)
  Definition rs_progress_payload (s : solution K) : outcome (list (sample K)) :=
    tr <- HolonomicTrajectory s ;; Ok (rust_samples tr).
  (** RustFFI.cpp:218-242 *)
  Definition rs_add_progress_callback : bld K unit :=
    AddIntermediateCallback (fun s _ => s).

  (** generate, RustFFI.cpp:181-207, for a solver run that ended with [code]
      and variable values [env]; C++ exceptions become Err. *)
  Definition rs_generate (stop_code : Z) (b : builder K) (handle : Z) (code : Z)
      (env : nat -> K) : rs_result K :=
    match construct b handle with
    | Throw _ => RsErrRange
    | Undef u => RsDied u
    | AssertFail | OutOfFuel => RsAborted
    | Ok g =>
        match generate_result stop_code g code env with
        | Ok (inr c) => RsErrMessage c
        | Ok (inl s) =>
            match HolonomicTrajectory s with
            | Ok tr => RsSamples (rust_samples tr)
            | Undef u => RsDied u
            | Throw _ => RsErrRange
            | AssertFail | OutOfFuel => RsAborted
            end
        | Throw _ => RsErrRange
        | Undef u => RsDied u
        | AssertFail | OutOfFuel => RsAborted
        end
    end.

  (** cancel_all, RustFFI.cpp:248-250: the event ECancel of Runtime.v, by thread [t]. *)
  Definition rs_cancel_all (t : nat) : event K := ECancel t.
End FFI.

(** The methods of the Rust SwervePathBuilder that change it (lib.rs:182-389, 424-426). *)
Inductive rs_op (K : Type) : Type :=
| RSetDrivetrain (d : rs_drivetrain K)  (* lib.rs:182-184 *)
| RSetBumpers (length width : K)  (* lib.rs:186-188 *)
| RSetControlIntervalCounts (counts : list nat)  (* lib.rs:190-195 *)
| RPoseWpt (index : nat) (x y heading : K)  (* lib.rs:197-199 *)
| RTranslationWpt (index : nat) (x y heading_guess : K)  (* lib.rs:201-209 *)
| REmptyWpt (index : nat) (x_guess y_guess heading_guess : K)  (* lib.rs:211-219 *)
| RSgmtInitialGuessPoints (from_index : nat) (ps : list (rs_pose K))  (* lib.rs:221-231 *)
| RWptLinearVelocityDirection (index : nat) (angle : K)  (* lib.rs:233-239 *)
| RWptLinearVelocityMaxMagnitude (index : nat) (magnitude : K)  (* lib.rs:241-247 *)
| RWptAngularVelocityMaxMagnitude (index : nat) (angular_velocity : K)  (* lib.rs:249-255 *)
| RWptLinearAccelerationMaxMagnitude (index : nat) (magnitude : K)  (* lib.rs:257-263 *)
| RWptPointAt (index : nat) (x y tolerance : K)  (* lib.rs:265-279 *)
| RSgmtLinearVelocityDirection (from_index to_index : nat) (angle : K)  (* lib.rs:281-293 *)
| RSgmtLinearVelocityMaxMagnitude (from_index to_index : nat) (magnitude : K)  (* lib.rs:295-307 *)
| RSgmtAngularVelocityMaxMagnitude (from_index to_index : nat) (angular_velocity : K)  (* lib.rs:309-321 *)
| RSgmtLinearAccelerationMaxMagnitude (from_index to_index : nat) (magnitude : K)  (* lib.rs:323-335 *)
| RSgmtPointAt (from_index to_index : nat) (x y tolerance : K)  (* lib.rs:337-353 *)
| RSgmtCircleObstacle (from_index to_index : nat) (x y radius : K)  (* lib.rs:355-371 *)
| RSgmtPolygonObstacle (from_index to_index : nat) (x y : list K) (radius : K)  (* lib.rs:373-389 *)
| RAddProgressCallback.  (* lib.rs:424-426 *)
Arguments RSetDrivetrain {K} _.
Arguments RSetBumpers {K} _ _.
Arguments RSetControlIntervalCounts {K} _.
Arguments RPoseWpt {K} _ _ _ _.
Arguments RTranslationWpt {K} _ _ _ _.
Arguments REmptyWpt {K} _ _ _ _.
Arguments RSgmtInitialGuessPoints {K} _ _.
Arguments RWptLinearVelocityDirection {K} _ _.
Arguments RWptLinearVelocityMaxMagnitude {K} _ _.
Arguments RWptAngularVelocityMaxMagnitude {K} _ _.
Arguments RWptLinearAccelerationMaxMagnitude {K} _ _.
Arguments RWptPointAt {K} _ _ _ _.
Arguments RSgmtLinearVelocityDirection {K} _ _ _.
Arguments RSgmtLinearVelocityMaxMagnitude {K} _ _ _.
Arguments RSgmtAngularVelocityMaxMagnitude {K} _ _ _.
Arguments RSgmtLinearAccelerationMaxMagnitude {K} _ _ _.
Arguments RSgmtPointAt {K} _ _ _ _ _.
Arguments RSgmtCircleObstacle {K} _ _ _ _ _.
Arguments RSgmtPolygonObstacle {K} _ _ _ _ _.
Arguments RAddProgressCallback {K}.

Section RustRun.
  Context {K : Type} `{Arith K} `{Dbl K}.

  (** The C++ method each Rust method forwards to (lib.rs:182-389, 424-426). *)
  Definition rs_method (asserts : bool) (o : rs_op K) : bld K unit :=
    match o with
    | RSetDrivetrain d => rs_set_drivetrain d
    | RSetBumpers l w => rs_set_bumpers l w
    | RSetControlIntervalCounts c => rs_set_control_interval_counts c
    | RPoseWpt i x y h => rs_pose_wpt i x y h
    | RTranslationWpt i x y h => rs_translation_wpt i x y h
    | REmptyWpt i x y h => rs_empty_wpt i x y h
    | RSgmtInitialGuessPoints i ps => rs_sgmt_initial_guess_points i ps
    | RWptLinearVelocityDirection i a => rs_wpt_linear_velocity_direction i a
    | RWptLinearVelocityMaxMagnitude i m => rs_wpt_linear_velocity_max_magnitude asserts i m
    | RWptAngularVelocityMaxMagnitude i m => rs_wpt_angular_velocity_max_magnitude asserts i m
    | RWptLinearAccelerationMaxMagnitude i m => rs_wpt_linear_acceleration_max_magnitude asserts i m
    | RWptPointAt i x y tol => rs_wpt_point_at asserts i x y tol
    | RSgmtLinearVelocityDirection f t a => rs_sgmt_linear_velocity_direction asserts f t a
    | RSgmtLinearVelocityMaxMagnitude f t m => rs_sgmt_linear_velocity_max_magnitude asserts f t m
    | RSgmtAngularVelocityMaxMagnitude f t m => rs_sgmt_angular_velocity_max_magnitude asserts f t m
    | RSgmtLinearAccelerationMaxMagnitude f t m => rs_sgmt_linear_acceleration_max_magnitude asserts f t m
    | RSgmtPointAt f t x y tol => rs_sgmt_point_at asserts f t x y tol
    | RSgmtCircleObstacle f t x y r => rs_sgmt_circle_obstacle asserts f t x y r
    | RSgmtPolygonObstacle f t x y r => rs_sgmt_polygon_obstacle asserts f t x y r
    | RAddProgressCallback => rs_add_progress_callback
    end.

  (** A Rust program's builder after a history of calls, starting from
      SwervePathBuilder::new (lib.rs:176-180); [inr] once a call has not
      returned, since nothing follows it in this process. *)
  Fixpoint rs_run (asserts : bool) (os : list (rs_op K)) (b : builder K)
      : builder K + rs_outcome :=
    match os with
    | [] => inl b
    | o :: os' =>
        match rs_call (rs_method asserts o) b with
        | (b', RsOk) => rs_run asserts os' b'
        | (_, r) => inr r
        end
    end.
End RustRun.
