(** The ten constraint classes and the [Constraint] variant.
    Constructors carry [assert]s, active unless NDEBUG is defined; the flag
    [asserts] says whether they are. *)
From Coq Require Import List.
Import ListNotations.
From Verif Require Export Outcome Num Geometry Expr.
Open Scope num_scope.

(** /repo/include/trajopt/constraint/detail/LinePointDistance.hpp:12-35.
    [T] is the number type of the line, [U] that of the point, [R] the result
    type; [cT] and [cU] are the implicit conversions to [R]. *)
Section LinePointDistance.
  Context {T U R : Type} `{Arith T} `{Arith U} `{Arith R}.
  (** The conversions double to Variable in LinePointDistance.hpp:26-34. *)
  Variables (cT : T -> R) (cU : U -> R).
  (** lines 18-20 *)
  Definition lpd_max (a b : R) : R :=
    nlit (1 # 2) * (nlit 1 + nsign (b - a)) * (b - a) + a.
  (** lines 21-23 *)
  Definition lpd_min (a b : R) : R :=
    nlit (-1 # 2) * (nlit 1 + nsign (b - a)) * (b - a) + b.
  (** line 24 *)
  Definition lpd_lerp (a b t : R) : R := a + t * (b - a).
  (** lines 26-34; [i - point] is [i + (-point)] (Translation2.hpp:93-96), the
      negation taken in the point's own type. *)
  Definition LinePointDistance (lineStart lineEnd : Translation2 T)
      (point : Translation2 U) : R :=
    let l := mkTr (cT (tX lineEnd - tX lineStart)) (cT (tY lineEnd - tY lineStart)) in
    let v := mkTr (cU (tX point) - cT (tX lineStart)) (cU (tY point) - cT (tY lineStart)) in
    let t := tr_dot v l / tr_sqnorm l in
    let tBounded := lpd_max (lpd_min t (nlit 1)) (nlit 0) in
    let i := mkTr (lpd_lerp (cT (tX lineStart)) (cT (tX lineEnd)) tBounded)
                  (lpd_lerp (cT (tY lineStart)) (cT (tY lineEnd)) tBounded) in
    tr_sqnorm (tr_add i (tr_map cU (tr_neg point))).
End LinePointDistance.

(** /repo/include/trajopt/constraint/Constraint.hpp:61-67 *)
Inductive constraint (K : Type) : Type :=
| AngularVelocityMaxMagnitude (maxMagnitude : K)
| LinePoint (robotLineStart robotLineEnd fieldPoint : Translation2 K) (minDistance : K)
| LinearAccelerationMaxMagnitude (maxMagnitude : K)
| LinearVelocityDirection (angle : Rotation2 K)
| LinearVelocityMaxMagnitude (maxMagnitude : K)
| PointAt (fieldPoint : Translation2 K) (headingTolerance : K)
| PointLine (robotPoint fieldLineStart fieldLineEnd : Translation2 K) (minDistance : K)
| PointPoint (robotPoint fieldPoint : Translation2 K) (minDistance : K)
| PoseEquality (pose : Pose2 K)
| TranslationEquality (translation : Translation2 K).
Arguments AngularVelocityMaxMagnitude {K} _.
Arguments LinePoint {K} _ _ _ _.
Arguments LinearAccelerationMaxMagnitude {K} _.
Arguments LinearVelocityDirection {K} _.
Arguments LinearVelocityMaxMagnitude {K} _.
Arguments PointAt {K} _ _.
Arguments PointLine {K} _ _ _ _.
Arguments PointPoint {K} _ _ _.
Arguments PoseEquality {K} _.
Arguments TranslationEquality {K} _.

Section Constraints.
  Context {K : Type} `{Arith K} `{Dbl K}.

  (** [assert(x >= 0.0)]. AngularVelocityMaxMagnitudeConstraint.hpp:29,
      LinePointConstraint.hpp:42, LinearAccelerationMaxMagnitudeConstraint.hpp:29,
      LinearVelocityMaxMagnitudeConstraint.hpp:29, PointAtConstraint.hpp:34,
      PointLineConstraint.hpp:42, PointPointConstraint.hpp:38. *)
  Definition assert_nonneg {A} (asserts : bool) (x : K) (a : A) : outcome A :=
    if asserts && negb (nleb (nlit 0) x) then AssertFail else Ok a.

  (** Constructors.
      AngularVelocityMaxMagnitudeConstraint.hpp:27-30 *)
  Definition mkAngularVelocityMaxMagnitude asserts (m : K) : outcome (constraint K) :=
    assert_nonneg asserts m (AngularVelocityMaxMagnitude m).
  (** LinePointConstraint.hpp:35-43 *)
  Definition mkLinePoint asserts (a b p : Translation2 K) (d : K) : outcome (constraint K) :=
    assert_nonneg asserts d (LinePoint a b p d).
  (** LinearAccelerationMaxMagnitudeConstraint.hpp:27-30 *)
  Definition mkLinearAccelerationMaxMagnitude asserts (m : K) : outcome (constraint K) :=
    assert_nonneg asserts m (LinearAccelerationMaxMagnitude m).
  (** LinearVelocityDirectionConstraint.hpp:24 *)
  Definition mkLinearVelocityDirection (angle : K) : constraint K :=
    LinearVelocityDirection (rot_angle angle).
  (** LinearVelocityMaxMagnitudeConstraint.hpp:27-30 *)
  Definition mkLinearVelocityMaxMagnitude asserts (m : K) : outcome (constraint K) :=
    assert_nonneg asserts m (LinearVelocityMaxMagnitude m).
  (** PointAtConstraint.hpp:31-35 *)
  Definition mkPointAt asserts (p : Translation2 K) (tol : K) : outcome (constraint K) :=
    assert_nonneg asserts tol (PointAt p tol).
  (** PointLineConstraint.hpp:35-43 *)
  Definition mkPointLine asserts (p a b : Translation2 K) (d : K) : outcome (constraint K) :=
    assert_nonneg asserts d (PointLine p a b d).
  (** PointPointConstraint.hpp:33-39 *)
  Definition mkPointPoint asserts (r f : Translation2 K) (d : K) : outcome (constraint K) :=
    assert_nonneg asserts d (PointPoint r f d).
  (** PoseEqualityConstraint.hpp:26-27 *)
  Definition mkPoseEquality (x y heading : K) : constraint K :=
    PoseEquality (pose_xyh x y heading).
  (** TranslationEqualityConstraint.hpp:25 *)
  Definition mkTranslationEquality (x y : K) : constraint K :=
    TranslationEquality (mkTr x y).

  (** Apply methods: the constraints handed to problem.SubjectTo, in order. *)
  Section Apply.
    (** The parameters of every Apply, e.g. PointPointConstraint.hpp:51-55. *)
    Variables (pose : Pose2 (expr K)) (linearVelocity : Translation2 (expr K))
              (angularVelocity : expr K) (linearAcceleration : Translation2 (expr K))
              (angularAcceleration : expr K).

    (** A robot-frame point placed on the field: [pose.Translation() +
        p.RotateBy(pose.Rotation())]. LinePointConstraint.hpp:60-63,
        PointLineConstraint.hpp:60-61, PointPointConstraint.hpp:56-57. *)
    Definition place (p : Translation2 K) : Translation2 (expr K) :=
      tr_add (pTr pose) (tr_rotateBy (tr_map EConst p) (pRot pose)).

    (** The variant is visited at /repo/src/SwerveTrajectoryGenerator.cpp:229-244
        and 253-267; each case cites its class. *)
    Definition Apply (c : constraint K) : list (ccons K) :=
      match c with
      | AngularVelocityMaxMagnitude m =>
          (* AngularVelocityMaxMagnitudeConstraint.hpp:48-53 *)
          if neqb m (nlit 0) then [CEq angularVelocity (nlit 0)]
          else [CGe angularVelocity (EConst (- m)); CLe angularVelocity (EConst m)]
      | LinePoint a b p d =>
          (* LinePointConstraint.hpp:60-65 *)
          let dist := LinePointDistance (R := expr K) (fun e => e) EConst (place a) (place b) p in
          [CGe (dist * dist) (EConst (d * d))]
      | LinearAccelerationMaxMagnitude m =>
          (* LinearAccelerationMaxMagnitudeConstraint.hpp:48-54 *)
          if neqb m (nlit 0) then
            [CEq (tX linearAcceleration) (nlit 0); CEq (tY linearAcceleration) (nlit 0)]
          else [CLe (tr_sqnorm linearAcceleration) (EConst (m * m))]
      | LinearVelocityDirection u =>
          (* LinearVelocityDirectionConstraint.hpp:47-48 *)
          let dot := tr_dot linearVelocity (tr_map EConst (mkTr (rCos u) (rSin u))) in
          [CEq (dot * dot) (tr_sqnorm linearVelocity)]
      | LinearVelocityMaxMagnitude m =>
          (* LinearVelocityMaxMagnitudeConstraint.hpp:48-54 *)
          if neqb m (nlit 0) then
            [CEq (tX linearVelocity) (nlit 0); CEq (tY linearVelocity) (nlit 0)]
          else [CLe (tr_sqnorm linearVelocity) (EConst (m * m))]
      | PointAt f tol =>
          (* PointAtConstraint.hpp:59-63 *)
          let dx := EConst (tX f) - pX pose in
          let dy := EConst (tY f) - pY pose in
          let dot := rCos (pRot pose) * dx + rSin (pRot pose) * dy in
          [CGe dot (EConst (ncos tol) * nhypot dx dy)]
      | PointLine p a b d =>
          (* PointLineConstraint.hpp:60-63 *)
          let dist := LinePointDistance (R := expr K) EConst (fun e => e) a b (place p) in
          [CGe (dist * dist) (EConst (d * d))]
      | PointPoint r f d =>
          (* PointPointConstraint.hpp:56-60 *)
          let corner := place r in
          let dx := EConst (tX f) - tX corner in
          let dy := EConst (tY f) - tY corner in
          [CGe (dx * dx + dy * dy) (EConst (d * d))]
      | PoseEquality p =>
          (* PoseEqualityConstraint.hpp:44 *)
          pose_eq true false pose (pose_map EConst p)
      | TranslationEquality t =>
          (* TranslationEqualityConstraint.hpp:42 *)
          tr_eq (pTr pose) (tr_map EConst t)
      end.
  End Apply.
End Constraints.
