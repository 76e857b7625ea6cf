(** Vocabulary for robots that get a further module. *)
From Coq Require Import Reals List.
Import ListNotations.
From Verif Require Import Num NumR Geometry Constraints Builder Generator Trajectory Spec SpecBuilder SpecPhysics SpecTrajectory.
Open Scope R_scope.

(** As long as no wheel of [ms] is too fast, the wheel of [md] is not. *)
Definition follows (ms : list (swerve_module R)) (md : swerve_module R) : Prop :=
  forall s, wheels_within (mkDrivetrain 1 1 ms) s -> norm2 (wheel_velocity s (m_translation md)) <= wheel_limit md.
(** [md] is on the line between two modules of [ms], or where one of them is. *)
Definition amid (ms : list (swerve_module R)) (md : swerve_module R) : Prop :=
  exists a b t, In a ms /\ In b ms /\ 0 <= t <= 1 /\
    tX (m_translation md) = (1 - t) * tX (m_translation a) + t * tX (m_translation b) /\
    tY (m_translation md) = (1 - t) * tY (m_translation a) + t * tY (m_translation b).
(** All wheels have the top speed [v]. *)
Definition as_fast (ms : list (swerve_module R)) (v : R) : Prop := forall md, In md ms -> wheel_limit md = v.
(** The same trajectory, with a further module that does not push. *)
Definition coasting (sol : solution R) : solution R :=
  mkSolution (s_dt sol) (s_x sol) (s_y sol) (s_thetacos sol) (s_thetasin sol) (s_vx sol) (s_vy sol) (s_omega sol)
    (s_ax sol) (s_ay sol) (s_alpha sol) (map (fun r => r ++ [0]) (s_moduleFX sol)) (map (fun r => r ++ [0]) (s_moduleFY sol)).
(** The same trajectory without the pushing of all modules from the [k]-th on. *)
Definition without (k : nat) (sol : solution R) : solution R :=
  mkSolution (s_dt sol) (s_x sol) (s_y sol) (s_thetacos sol) (s_thetasin sol) (s_vx sol) (s_vy sol) (s_omega sol)
    (s_ax sol) (s_ay sol) (s_alpha sol) (map (firstn k) (s_moduleFX sol)) (map (firstn k) (s_moduleFY sol)).
