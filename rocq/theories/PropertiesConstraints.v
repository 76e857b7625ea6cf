(** Property theorems C28-C37, C82: what one constraint object demands of one robot
    state.  [satisfied s c] reads the constraints [c] hands to the solver over
    the reals (Semantics.v); the right-hand sides are plain geometry
    (Spec.v, SpecPhysics.v).  Where a constructor asserts a nonnegative
    argument, the hypothesis [mk... true ... = Ok c] says it was accepted. *)
From Coq Require Import List Lra.
Import ListNotations.
From Verif Require Import Outcome Num NumR Geometry Expr Constraints Spec SpecPhysics Semantics
  ConstraintProofs ConstraintCases.
Open Scope R_scope.

(** C30. *)
Theorem C30_linear_velocity_max_magnitude : forall (m : R) c s,
  mkLinearVelocityMaxMagnitude true m = Ok c ->
  (satisfied s c <-> norm2 (q_vx s, q_vy s) <= m).
Proof. exact C30_proof. Qed.
Print Assumptions C30_linear_velocity_max_magnitude.
Example C30_case :
  satisfied robot (LinearVelocityMaxMagnitude 5) /\ ~ satisfied robot (LinearVelocityMaxMagnitude 4) /\
  mkLinearVelocityMaxMagnitude true 5 = Ok (LinearVelocityMaxMagnitude 5).
Proof. exact C30_case_proof. Qed.
(** The special case of a zero bound. *)
Example C30_case_zero :
  satisfied (mkState 1 2 0 1 0 0 0 0 0 0) (LinearVelocityMaxMagnitude 0) /\
  ~ satisfied robot (LinearVelocityMaxMagnitude 0).
Proof. exact C30_zero_proof. Qed.

(** C31. *)
Theorem C31_angular_velocity_max_magnitude : forall (m : R) c s,
  mkAngularVelocityMaxMagnitude true m = Ok c ->
  (satisfied s c <-> Rabs (q_w s) <= m).
Proof. exact C31_proof. Qed.
Print Assumptions C31_angular_velocity_max_magnitude.
Example C31_case :
  satisfied robot (AngularVelocityMaxMagnitude 2) /\ ~ satisfied robot (AngularVelocityMaxMagnitude 1) /\
  mkAngularVelocityMaxMagnitude true 2 = Ok (AngularVelocityMaxMagnitude 2).
Proof. exact C31_case_proof. Qed.

(** C32. *)
Theorem C32_linear_acceleration_max_magnitude : forall (m : R) c s,
  mkLinearAccelerationMaxMagnitude true m = Ok c ->
  (satisfied s c <-> norm2 (q_ax s, q_ay s) <= m).
Proof. exact C32_proof. Qed.
Print Assumptions C32_linear_acceleration_max_magnitude.
Example C32_case :
  satisfied robot (LinearAccelerationMaxMagnitude 13) /\
  ~ satisfied robot (LinearAccelerationMaxMagnitude 12) /\
  mkLinearAccelerationMaxMagnitude true 13 = Ok (LinearAccelerationMaxMagnitude 13).
Proof. exact C32_case_proof. Qed.

(** C33 as stated is false: the opposite direction is accepted too. *)
Theorem C33_velocity_direction_refuted : ~ forall (a : R) s,
  satisfied s (mkLinearVelocityDirection a) <->
  exists k, 0 <= k /\ q_vx s = k * cos a /\ q_vy s = k * sin a.
Proof. exact C33_refuted_proof. Qed.
Print Assumptions C33_velocity_direction_refuted.
(** What holds: the velocity is along the line in direction [a].  Missing from
    C33: the sign of [k]. *)
Theorem C33_velocity_direction_partial : forall (a : R) s,
  satisfied s (mkLinearVelocityDirection a) <->
  exists k, q_vx s = k * cos a /\ q_vy s = k * sin a.
Proof. exact C33_partial_proof. Qed.
Print Assumptions C33_velocity_direction_partial.
Example C33_case :
  satisfied (mkState 0 0 1 0 0 (-3) 0 0 0 0) (mkLinearVelocityDirection (PI / 2)) /\
  ~ satisfied robot (mkLinearVelocityDirection (PI / 2)).
Proof. exact C33_case_proof. Qed.

(** C34 as stated is false for tolerances above half a turn. *)
Theorem C34_point_at_refuted : ~ forall f tol c s (a : R),
  mkPointAt true f tol = Ok c -> heading_is s a ->
  (satisfied s c <-> points_at s a f tol).
Proof. exact C34_refuted_proof. Qed.
Print Assumptions C34_point_at_refuted.
(** What holds: exactness for every accepted tolerance up to half a turn, beyond
    which every heading is within the tolerance anyway. *)
Theorem C34_point_at_partial : forall f tol c s (a : R),
  mkPointAt true f tol = Ok c -> tol <= PI -> heading_is s a ->
  (satisfied s c <-> points_at s a f tol).
Proof. exact C34_partial_proof. Qed.
Print Assumptions C34_point_at_partial.
Example C34_case :
  mkPointAt true (mkTr 1 9) (PI / 6) = Ok (PointAt (mkTr 1 9) (PI / 6)) /\
  heading_is robot (PI / 2) /\ PI / 6 <= PI /\ points_at robot (PI / 2) (mkTr 1 9) (PI / 6) /\
  satisfied robot (PointAt (mkTr 1 9) (PI / 6)) /\ ~ satisfied robot (PointAt (mkTr 9 2) (PI / 6)).
Proof. exact C34_case_proof. Qed.

(** C35. *)
Theorem C35_point_point_distance : forall r f (d : R) c s,
  mkPointPoint true r f d = Ok c ->
  (satisfied s c <-> d <= dist2 (placed s r) (pt f)).
Proof. exact C35_proof. Qed.
Print Assumptions C35_point_point_distance.
Example C35_case :
  satisfied robot (PointPoint (mkTr 2 0) (mkTr 1 9) 5) /\
  ~ satisfied robot (PointPoint (mkTr 2 0) (mkTr 1 9) 6) /\
  mkPointPoint true (mkTr 2 0) (mkTr 1 9) 5 = Ok (PointPoint (mkTr 2 0) (mkTr 1 9) 5).
Proof. exact C35_case_proof. Qed.

(** C36, for a line moving with the robot and a fixed point. *)
Theorem C36_line_measure_exact : forall env (a b : Translation2 (expr R)) (p : Translation2 R),
  tr_defined env a -> tr_defined env b ->
  let m := LinePointDistance (R := expr R) (fun e => e) EConst a b p in
  (tr_eval env a <> tr_eval env b ->
     defined env m /\
     exists q, on_segment (tr_eval env a) (tr_eval env b) q /\
       eval env m = dist2 q (pt p) * dist2 q (pt p) /\
       forall q', on_segment (tr_eval env a) (tr_eval env b) q' -> dist2 q (pt p) <= dist2 q' (pt p)) /\
  (tr_eval env a = tr_eval env b -> ~ defined env m).
Proof. exact C36_line_proof. Qed.
Print Assumptions C36_line_measure_exact.
(** C36, for a fixed line and a point moving with the robot. *)
Theorem C36_point_measure_exact : forall env (a b : Translation2 R) (p : Translation2 (expr R)),
  tr_defined env p ->
  let m := LinePointDistance (R := expr R) EConst (fun e => e) a b p in
  (pt a <> pt b ->
     defined env m /\
     exists q, on_segment (pt a) (pt b) q /\
       eval env m = dist2 q (tr_eval env p) * dist2 q (tr_eval env p) /\
       forall q', on_segment (pt a) (pt b) q' -> dist2 q (tr_eval env p) <= dist2 q' (tr_eval env p)) /\
  (pt a = pt b -> ~ defined env m).
Proof. exact C36_point_proof. Qed.
Print Assumptions C36_point_measure_exact.
Example C36_case :
  tr_eval (state_env robot) (mkTr (EVar 0) (EVar 1)) <> tr_eval (state_env robot) (mkTr (EVar 4) (EVar 5)) /\
  tr_defined (state_env robot) (mkTr (EVar 0) (EVar 1)) /\
  tr_defined (state_env robot) (mkTr (EVar 4) (EVar 5)) /\
  eval (state_env robot)
    (LinePointDistance (R := expr R) EConst (fun e => e) (mkTr 0 0) (mkTr 5 0) (mkTr (EVar 0) (EVar 1))) = 4.
Proof. exact C36_case_proof. Qed.

(** C37 as stated is false in both directions: the measure is already a squared
    distance and is squared again, so the distance enforced is [sqrt d].  For
    [d > 1] the robot may come closer than asked: *)
Theorem C37_line_point_refuted : ~ forall a b p (d : R) c s,
  mkLinePoint true a b p d = Ok c -> placed s a <> placed s b ->
  satisfied s c -> clear_of_segment (placed s a) (placed s b) (pt p) d.
Proof. exact C37_line_refuted_proof. Qed.
Print Assumptions C37_line_point_refuted.
(** and for [d < 1] positions that keep the distance are rejected: *)
Theorem C37_point_line_refuted : ~ forall p a b (d : R) c s,
  mkPointLine true p a b d = Ok c -> pt a <> pt b ->
  clear_of_segment (pt a) (pt b) (placed s p) d -> satisfied s c.
Proof. exact C37_point_refuted_proof. Qed.
Print Assumptions C37_point_line_refuted.
(** What is enforced, exactly. *)
Theorem C37_line_point_partial : forall a b p (d : R) c s,
  mkLinePoint true a b p d = Ok c ->
  (satisfied s c <->
     placed s a <> placed s b /\ clear_of_segment (placed s a) (placed s b) (pt p) (sqrt d)).
Proof. exact C37_line_partial_proof. Qed.
Print Assumptions C37_line_point_partial.
Theorem C37_point_line_partial : forall p a b (d : R) c s,
  mkPointLine true p a b d = Ok c ->
  (satisfied s c <-> pt a <> pt b /\ clear_of_segment (pt a) (pt b) (placed s p) (sqrt d)).
Proof. exact C37_point_partial_proof. Qed.
Print Assumptions C37_point_line_partial.
(** Up to a distance of 1 the constraint is on the safe side. *)
Theorem C37_safe_up_to_one_partial : forall s (d : R), 0 <= d <= 1 ->
  (forall a b p c, mkLinePoint true a b p d = Ok c -> satisfied s c ->
     clear_of_segment (placed s a) (placed s b) (pt p) d) /\
  (forall p a b c, mkPointLine true p a b d = Ok c -> satisfied s c ->
     clear_of_segment (pt a) (pt b) (placed s p) d).
Proof. exact C37_safe_proof. Qed.
Print Assumptions C37_safe_up_to_one_partial.
Example C37_case :
  mkPointLine true (mkTr 0 0) (mkTr 0 0) (mkTr 5 0) (1 / 2) = Ok (PointLine (mkTr 0 0) (mkTr 0 0) (mkTr 5 0) (1 / 2)) /\
  mkLinePoint true (mkTr 0 0) (mkTr 1 0) (mkTr 3 2) (1 / 2) = Ok (LinePoint (mkTr 0 0) (mkTr 1 0) (mkTr 3 2) (1 / 2)) /\
  satisfied robot (PointLine (mkTr 0 0) (mkTr 0 0) (mkTr 5 0) (1 / 2)) /\
  satisfied robot (LinePoint (mkTr 0 0) (mkTr 1 0) (mkTr 3 2) (1 / 2)) /\
  ~ satisfied robot (LinePoint (mkTr 0 0) (mkTr 1 0) (mkTr 1 2) (1 / 2)).
Proof. exact C37_case_proof. Qed.

(** C28, one state: the position is pinned, the heading up to half a turn.
    Missing from C28: which of the two (see also PropertiesTrajectory.v, C65). *)
Theorem C28_pose_constraint_partial : forall (x y h : R) s,
  satisfied s (mkPoseEquality x y h) <->
  q_x s = x /\ q_y s = y /\ (heading_is s h \/ heading_is s (h + PI)).
Proof. exact C28_partial_proof. Qed.
Print Assumptions C28_pose_constraint_partial.
Example C28_case :
  satisfied robot (mkPoseEquality 1 2 (PI / 2)) /\
  satisfied robot (mkPoseEquality 1 2 (PI / 2 + PI)) /\
  ~ satisfied robot (mkPoseEquality 1 2 0).
Proof. exact C28_case_proof. Qed.

(** C29, one state: exactly the position, nothing else. *)
Theorem C29_translation_constraint : forall (x y : R) s,
  satisfied s (mkTranslationEquality x y) <-> q_x s = x /\ q_y s = y.
Proof. exact C29_constraint_proof. Qed.
Print Assumptions C29_translation_constraint.
Example C29_case :
  satisfied robot (mkTranslationEquality 1 2) /\ ~ satisfied robot (mkTranslationEquality 1 0).
Proof. exact C29_case_proof. Qed.

(** C82. [==] on rotations says that they are parallel and that each operand
    made of decision variables ([l], [r]) has length one: *)
Theorem C82_rotation_equality : forall env l r a b, rot_defined env a -> rot_defined env b ->
  (sat_all env (rot_eq l r a b) <->
   rCos (rot_eval env a) * rSin (rot_eval env b) = rSin (rot_eval env a) * rCos (rot_eval env b) /\
   (l = true -> unit_rot (rot_eval env a)) /\ (r = true -> unit_rot (rot_eval env b))).
Proof. exact C82_rotation_proof. Qed.
Print Assumptions C82_rotation_equality.
(** equal, or opposite; *)
Theorem C82_equal_or_opposite : forall env a b, rot_defined env a -> rot_defined env b ->
  (sat_all env (rot_eq true true a b) <->
   unit_rot (rot_eval env a) /\
   (rot_eval env b = rot_eval env a \/
    rot_eval env b = mkRot (- rCos (rot_eval env a)) (- rSin (rot_eval env a)))).
Proof. exact C82_both_proof. Qed.
Print Assumptions C82_equal_or_opposite.
(** on poses also that the positions are equal; *)
Theorem C82_pose_equality : forall env l r a b, tr_defined env (pTr a) -> tr_defined env (pTr b) ->
  (sat_all env (pose_eq l r a b) <->
   tr_eval env (pTr a) = tr_eval env (pTr b) /\ sat_all env (rot_eq l r (pRot a) (pRot b))).
Proof. exact C82_pose_proof. Qed.
Print Assumptions C82_pose_equality.
(** and nothing redundant is handed to the solver. *)
Theorem C82_no_redundant_constraint : forall (K : Type) (HA : Arith K) l r (a b : Rotation2 (expr K)),
  length (rot_eq l r a b) = (1 + Nat.b2n l + Nat.b2n r)%nat.
Proof. exact @C82_count_proof. Qed.
Print Assumptions C82_no_redundant_constraint.
Example C82_case : let a := mkRot (EVar 0) (EVar 1) in let env v := match v with O => 3 / 5 | _ => 4 / 5 end in
  rot_defined env a /\ sat_all env (rot_eq true false a (mkRot (EConst (- 6)) (EConst (- 8)))) /\
  ~ sat_all env (rot_eq true true a (mkRot (EConst (- 6)) (EConst (- 8)))) /\
  ~ sat_all env (rot_eq true false a (mkRot (EConst 6) (EConst (- 8)))).
Proof.
  cbv zeta. split; [split; exact I|]. split; [|split]; rewrite C82_rotation_proof by (split; exact I);
    unfold unit_rot, rot_eval; cbn [rCos rSin eval].
  - split; [lra|]. split; [intros _; lra|discriminate].
  - intros (_ & _ & H). specialize (H eq_refl). lra.
  - intros (H & _). lra.
Qed.
