(** Specification of the physical meaning of constraints and trajectories:
    plain plane geometry and mechanics over the reals. *)
From Coq Require Import Reals List.
Import ListNotations.
From Verif Require Import Geometry Constraints Builder Spec.
Open Scope R_scope.

(** State of the robot at one sample. *)
Record state : Type := mkState {
  q_x : R; q_y : R;              (* position *)
  q_c : R; q_s : R;              (* heading vector *)
  q_vx : R; q_vy : R; q_w : R;   (* velocity, angular velocity *)
  q_ax : R; q_ay : R; q_al : R   (* acceleration, angular acceleration *)
}.

(** The heading vector is a direction. *)
Definition unit_heading (s : state) : Prop := q_c s * q_c s + q_s s * q_s s = 1.
(** The heading is the angle [a]. *)
Definition heading_is (s : state) (a : R) : Prop := q_c s = cos a /\ q_s s = sin a.

Definition norm2 (v : R * R) : R := sqrt (fst v * fst v + snd v * snd v).

(** Field position of the robot-frame point [p]. *)
Definition placed (s : state) (p : Translation2 R) : R * R :=
  (q_x s + (tX p * q_c s - tY p * q_s s), q_y s + (tX p * q_s s + tY p * q_c s)).

(** Points of the segment from [a] to [b]. *)
Definition along (a b : R * R) (t : R) : R * R :=
  (fst a + t * (fst b - fst a), snd a + t * (snd b - snd a)).
Definition on_segment (a b p : R * R) : Prop := exists t, 0 <= t <= 1 /\ p = along a b t.

(** Every point of the segment is at distance at least [d] from [q]. *)
Definition clear_of_segment (a b q : R * R) (d : R) : Prop :=
  forall p, on_segment a b p -> d <= dist2 p q.

(** What each constraint demands of the robot state.  Pose equality fixes the
    heading only up to half a turn, the velocity direction constraint accepts
    both senses, and the two segment constraints compare the distance with the
    square root of the requested one: these are the demands the code really
    makes, see C28, C33 and C37 for how they relate to the documented ones. *)
Definition demands (s : state) (c : constraint R) : Prop :=
  match c with
  | AngularVelocityMaxMagnitude m => Rabs (q_w s) <= m
  | LinearAccelerationMaxMagnitude m => norm2 (q_ax s, q_ay s) <= Rabs m
  | LinearVelocityMaxMagnitude m => norm2 (q_vx s, q_vy s) <= Rabs m
  | LinearVelocityDirection u => exists k, q_vx s = k * rCos u /\ q_vy s = k * rSin u
  | PointAt f tol =>
      cos tol * dist2 (q_x s, q_y s) (pt f)
        <= q_c s * (tX f - q_x s) + q_s s * (tY f - q_y s)
  | LinePoint a b p d =>
      placed s a <> placed s b /\ clear_of_segment (placed s a) (placed s b) (pt p) (sqrt (Rabs d))
  | PointLine p a b d =>
      pt a <> pt b /\ clear_of_segment (pt a) (pt b) (placed s p) (sqrt (Rabs d))
  | PointPoint r f d => Rabs d <= dist2 (placed s r) (pt f)
  | PoseEquality p =>
      q_x s = tX (pTr p) /\ q_y s = tY (pTr p) /\
      ((q_c s = rCos (pRot p) /\ q_s s = rSin (pRot p)) \/
       (q_c s = - rCos (pRot p) /\ q_s s = - rSin (pRot p)))
  | TranslationEquality t => q_x s = tX t /\ q_y s = tY t
  end.

(** The target [f] lies in a direction that deviates from the heading [a] by an
    angle of at most [tol]. *)
Definition points_at (s : state) (a : R) (f : Translation2 R) (tol : R) : Prop :=
  exists dev, Rabs dev <= tol /\
    tX f - q_x s = dist2 (q_x s, q_y s) (pt f) * cos (a + dev) /\
    tY f - q_y s = dist2 (q_x s, q_y s) (pt f) * sin (a + dev).

(** Constraints as a caller can construct them: angles become unit rotations. *)
Definition proper_constraint (c : constraint R) : Prop :=
  match c with
  | LinearVelocityDirection u => unit_rot u
  | PoseEquality p => unit_rot (pRot p)
  | _ => True
  end.
