(** Vocabulary for changes of the modules that keep every path. *)
From Coq Require Import Reals List Permutation.
Import ListNotations.
From Verif Require Import Num NumR Geometry Constraints Builder Spec SpecBuilder SpecPhysics SpecTrajectory SpecGenerator SpecChange SpecLoad.
Open Scope R_scope.

(** Whatever the mass and the inertia, a path that has a solution with the modules [ms]
    has one with [ms']. *)
Definition good_as (ms ms' : list (swerve_module R)) : Prop :=
  forall asserts h handle m i g g', good_history asserts h -> 0 < m -> 0 < i ->
    (forall n, In n (counts asserts h) -> (1 <= n)%nat) ->
    generator asserts h handle (mkDrivetrain m i ms) g ->
    generator asserts (h ++ [OSetDrivetrain (mkDrivetrain m i ms')]) handle (mkDrivetrain m i ms') g' ->
    (exists sol, solved g sol) -> exists sol, solved g' sol.
(** Every time step [ms] allows is one [ms'] allows. *)
Definition steps_kept (ms ms' : list (swerve_module R)) : Prop :=
  forall dt, step_within (mkDrivetrain 1 1 ms) dt -> step_within (mkDrivetrain 1 1 ms') dt.
(** Some module has torque. *)
Definition some_torque (ms : list (swerve_module R)) : Prop := exists md, In md ms /\ 0 < m_wheelMaxTorque md.
(** Some modules listed one after the other are apart. *)
Definition some_apart (ms : list (swerve_module R)) : Prop :=
  exists a b, In (a, b) (consecutive ms) /\ m_translation a <> m_translation b.
(** As fast or faster, as strong or stronger, at the same place. *)
Definition better_module (a b : swerve_module R) : Prop :=
  same_module a b /\ m_wheelMaxAngularVelocity a <= m_wheelMaxAngularVelocity b /\ m_wheelMaxTorque a <= m_wheelMaxTorque b.
(** All wheels [f] times as fast and [t] times as strong. *)
Definition tuned (f t : R) (ms : list (swerve_module R)) : list (swerve_module R) :=
  map (fun md => mkModule (m_translation md) (m_wheelRadius md) (f * m_wheelMaxAngularVelocity md) (t * m_wheelMaxTorque md)) ms.
(** Three modules in a row, and the same with the middle one last. *)
Definition in_row : list (swerve_module R) := map (fun x => mkModule (mkTr x 0) 1 4 4) [0; 3; 1].
Definition in_order : list (swerve_module R) := map (fun x => mkModule (mkTr x 0) 1 4 4) [0; 1; 3].
(** All modules [s] times as far from the centre. *)
Definition spread (s : R) (ms : list (swerve_module R)) : list (swerve_module R) :=
  map (fun md => mkModule (mkTr (s * tX (m_translation md)) (s * tY (m_translation md)))
    (m_wheelRadius md) (m_wheelMaxAngularVelocity md) (m_wheelMaxTorque md)) ms.
(** Each module has its like across the centre. *)
Definition in_pairs (ms : list (swerve_module R)) : Prop := Permutation (map across ms) ms.
(** Wheels of [r] times the radius on the same motors. *)
Definition rewheeled (r : R) (ms : list (swerve_module R)) : list (swerve_module R) :=
  map (fun md => mkModule (m_translation md) (r * m_wheelRadius md) (m_wheelMaxAngularVelocity md) (m_wheelMaxTorque md)) ms.
(** The same motors behind gears that make the wheels [f] times as fast. *)
Definition geared (f : R) (ms : list (swerve_module R)) : list (swerve_module R) := tuned f (/ f) ms.
