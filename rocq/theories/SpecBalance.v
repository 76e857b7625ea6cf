(** Vocabulary for drivetrains that push evenly. *)
From Coq Require Import Reals List.
Import ListNotations.
From Verif Require Import Num NumR Geometry Constraints Builder Spec SpecBuilder SpecPhysics SpecTrajectory SpecGenerator.
Open Scope R_scope.

(** What a module at the centre can push with; others count nothing. *)
Definition hub_limit (md : swerve_module R) : R := if Req_EM_T (arm md) 0 then force_limit md else 0.
(** Pushing all the same way as hard as they can, the modules do not turn the robot. *)
Definition pushes_straight (d : drivetrain R) : Prop :=
  sum (map (fun md => force_limit md * tX (m_translation md)) (d_modules d)) = 0 /\
  sum (map (fun md => force_limit md * tY (m_translation md)) (d_modules d)) = 0.
(** Turning it as hard as they can, they do not push it, or modules at the centre can make up for that. *)
Definition turns_in_place (d : drivetrain R) : Prop :=
  norm2 (sum (map (fun md => force_limit md * (tX (m_translation md) / arm md)) (d_modules d)),
         sum (map (fun md => force_limit md * (tY (m_translation md) / arm md)) (d_modules d)))
    <= sum (map hub_limit (d_modules d)).
Definition balanced (d : drivetrain R) : Prop := pushes_straight d /\ turns_in_place d.

(** What the forces [fs] do to the robot. *)
Definition torque (d : drivetrain R) (s : state) (fs : list (R * R)) : R :=
  sum (map (fun mf => cross2 (turned s (m_translation (fst mf))) (snd mf)) (combine (d_modules d) fs)).
(** The modules can push with the force [(fx, fy)] and turn with the torque [t] at once. *)
Definition can_do (d : drivetrain R) (s : state) (fx fy t : R) : Prop :=
  exists gs, length gs = length (d_modules d) /\ forces_within d gs /\
    sum (map fst gs) = fx /\ sum (map snd gs) = fy /\ torque d s gs = t.
(** Whatever the modules can do, they can do with any part of the force and any part of the torque. *)
Definition separates (d : drivetrain R) (s : state) : Prop :=
  forall fx fy t k j, can_do d s fx fy t -> 0 <= k <= 1 -> 0 <= j <= 1 -> can_do d s (k * fx) (k * fy) (j * t).

(** Wheels that can turn. *)
Definition turning_wheels (ms : list (swerve_module R)) : Prop :=
  forall md, In md ms -> 0 < m_wheelRadius md /\ 0 < m_wheelMaxAngularVelocity md /\ 0 <= m_wheelMaxTorque md.
(** From rest to [(x, y)] in one interval, turning by [th]. *)
Definition jump (d : drivetrain R) (x y th : R) : list (op R) :=
  [OSetDrivetrain d; OPoseWpt 0 0 0 (- th); OPoseWpt 1 x y 0;
   OWptConstraint 0 (LinearVelocityMaxMagnitude 0); OWptConstraint 0 (AngularVelocityMaxMagnitude 0);
   OControlIntervalCounts [1%nat]].
(** Robots with these modules keep all their paths when they get lighter: whatever their mass
    and inertia, a path that has a solution has one with any part of the mass and of the inertia. *)
Definition keeps_paths (ms : list (swerve_module R)) : Prop :=
  forall asserts h handle m i k j g g', good_history asserts h -> 0 < m -> 0 < i -> 0 < k <= 1 -> 0 < j <= 1 ->
    (forall n, In n (counts asserts h) -> (1 <= n)%nat) ->
    generator asserts h handle (mkDrivetrain m i ms) g ->
    generator asserts (h ++ [OSetDrivetrain (mkDrivetrain (k * m) (j * i) ms)]) handle (mkDrivetrain (k * m) (j * i) ms) g' ->
    (exists sol, solved g sol) -> exists sol, solved g' sol.

(** Modules on the corners of a triangle with equal sides, all alike. *)
Definition triangle : list (swerve_module R) :=
  map (fun p => mkModule p 1 4 4) [mkTr 2 0; mkTr (-1) (sqrt 3); mkTr (-1) (- sqrt 3)].
(** Two modules of which one is stronger. *)
Definition lopsided : list (swerve_module R) := [mkModule (mkTr 0 1) 1 4 4; mkModule (mkTr 0 (-1)) 1 4 2].
