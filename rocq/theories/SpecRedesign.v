(** Vocabulary for robots rebuilt on another scale. *)
From Coq Require Import Reals List.
Import ListNotations.
From Verif Require Import Num NumR Geometry Constraints Builder Spec SpecBuilder SpecPhysics SpecTrajectory SpecGenerator.
Open Scope R_scope.

(** Wheels of [r] times the radius that turn [f] times as fast and have [t] times the torque,
    all [s] times as far from the centre. *)
Definition rebuilt (r f t s : R) (ms : list (swerve_module R)) : list (swerve_module R) :=
  map (fun md => mkModule (mkTr (s * tX (m_translation md)) (s * tY (m_translation md)))
    (r * m_wheelRadius md) (f * m_wheelMaxAngularVelocity md) (t * m_wheelMaxTorque md)) ms.
(** Whatever the mass and the inertia, a path that has a solution with the modules [ms] has one
    with [ms'] on a robot of [k] times the mass and [j] times the inertia. *)
Definition good_loaded (k j : R) (ms ms' : list (swerve_module R)) : Prop :=
  forall asserts h handle m i g g', good_history asserts h -> 0 < m -> 0 < i ->
    (forall n, In n (counts asserts h) -> (1 <= n)%nat) ->
    generator asserts h handle (mkDrivetrain m i ms) g ->
    generator asserts (h ++ [OSetDrivetrain (mkDrivetrain (k * m) (j * i) ms')]) handle (mkDrivetrain (k * m) (j * i) ms') g' ->
    (exists sol, solved g sol) -> exists sol, solved g' sol.
(** Some module with torque is off the centre. *)
Definition some_lever (ms : list (swerve_module R)) : Prop :=
  exists md, In md ms /\ 0 < m_wheelMaxTorque md /\ 0 < arm md.
