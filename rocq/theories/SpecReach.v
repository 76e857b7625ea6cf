(** Specification vocabulary for paths that can be driven if only there are
    enough control intervals. *)
From Coq Require Import Reals List Arith.
Import ListNotations.
From Verif Require Import Num NumR Geometry Constraints Builder Spec SpecBuilder SpecPhysics SpecTrajectory SpecStep SpecLegs.
Open Scope R_scope.

(** Wheels that turn and push. *)
Definition driven_wheels (d : drivetrain R) : Prop :=
  forall md, In md (d_modules d) ->
    0 < m_wheelRadius md /\ 0 < m_wheelMaxAngularVelocity md /\ 0 < m_wheelMaxTorque md.
(** The modules are not all at one place. *)
Definition apart (d : drivetrain R) : Prop :=
  exists a b, In a (d_modules d) /\ In b (d_modules d) /\ pt (m_translation a) <> pt (m_translation b).

(** The path of [h], with the control interval counts [ns]. *)
Definition with_counts (h : list (op R)) (ns : list nat) : list (op R) := h ++ [OControlIntervalCounts ns].

(** The robot stands still at [p] and hardly pushes. *)
Definition pauses (p : stop) (eps : R) (q : state) : Prop :=
  stands p q /\ Rabs (q_ax q) <= eps /\ Rabs (q_ay q) <= eps /\ Rabs (q_al q) <= eps.
(** The robot is on the straight way from [p] to [p'], hardly moving. *)
Definition creeps (p p' : stop) (eps : R) (q : state) : Prop :=
  under_way p p' eps q /\ Rabs (q_ax q) <= eps /\ Rabs (q_ay q) <= eps /\ Rabs (q_al q) <= eps.

(** A way through the path that is free if taken slowly: waypoint [w] is stop
    [f w], and between two waypoints there is at least one straight leg. *)
Definition free_way (h : list (op R)) (last : nat) (stops : nat -> stop) (f : nat -> nat) (eps : R) : Prop :=
  f 0%nat = 0%nat /\ (forall w, (w < last)%nat -> (f w < f (S w))%nat) /\ 0 < eps /\
  (forall w c q, (w <= last)%nat -> In c (wpt_requests [] h w) -> pauses (stops (f w)) eps q -> demands q c) /\
  (forall w c k q, (1 <= w <= last)%nat -> In c (sgmt_requests [] h w) -> (f (w - 1)%nat <= k < f w)%nat ->
     creeps (stops k) (stops (S k)) eps q -> demands q c).

(** A tour of poses: the robot stops at each, and keeps to a speed and an
    angular velocity all the way. *)
Fixpoint visit (i : nat) (ps : list stop) : list (op R) :=
  match ps with
  | [] => []
  | p :: ps' => OPoseWpt i (o_x p) (o_y p) (o_a p) :: OWptConstraint i (LinearVelocityMaxMagnitude 0) ::
                OWptConstraint i (AngularVelocityMaxMagnitude 0) :: visit (S i) ps'
  end.
Definition tour (d : drivetrain R) (v w : R) (ps : list stop) : list (op R) :=
  OSetDrivetrain d :: visit 0 ps ++
  [OSgmtConstraint 0 (length ps - 1) (LinearVelocityMaxMagnitude v);
   OSgmtConstraint 0 (length ps - 1) (AngularVelocityMaxMagnitude w)].

(** A robot whose modules do not balance around its centre, and a path past a
    point it has to keep away from. *)
Definition lopsided : drivetrain R :=
  let md x y := mkModule (mkTr x y) (1 / 25) 70 2 in mkDrivetrain 45 6 [md 1 0; md 0 1; md 0 0].
Definition detour : list (op R) :=
  [OSetDrivetrain lopsided; OPoseWpt 0 (-2) 0 0; OPoseWpt 1 2 0 0;
   OSgmtConstraint 0 1 (PointPoint (mkTr 0 0) (mkTr 0 0) 1)].
Definition detour_stops (k : nat) : stop :=
  match k with O => mkStop (-2) 0 0 | S O => mkStop 0 2 0 | _ => mkStop 2 0 0 end.
(** A robot with its one module at the centre. *)
Definition hub_robot : drivetrain R := mkDrivetrain 45 6 [mkModule (mkTr 0 0) (1 / 25) 70 2].
