(** The CHECKs of /repo/test/src as boolean expressions of the model.
    ObstacleTest.cpp is in Programs.v. *)
From Coq Require Import List ZArith.
Import ListNotations.
From Verif Require Export Outcome Num NumR Geometry Util Builder Guess.
Local Open Scope num_scope.

Section Tests.
  Context {K : Type} `{Arith K} `{Dbl K}.

  (** [CHECK(a == b)] on vectors of double,
      /repo/test/src/util/TrajoptUtilTest.cpp:22. *)
  Fixpoint same_list (a b : list K) : bool :=
    match a, b with
    | [], [] => true
    | x :: a', y :: b' => neqb x y && same_list a' b'
    | _, _ => false
    end.
  (** [CHECK(a.X() == x); CHECK(a.Y() == y)],
      /repo/test/src/geometry/Translation2dTest.cpp:27-28. *)
  Definition is_at (a : Translation2 K) (x y : K) : bool := neqb (tX a) x && neqb (tY a) y.
  (** A result that came back and passes a check, e.g. TrajoptUtilTest.cpp:9-16. *)
  Definition returned {A} (o : outcome A) (f : A -> bool) : bool :=
    match o with Ok a => f a | _ => false end.

  (** TrajoptUtilTest.cpp:8-17 *)
  Definition test_GetIndex : list bool :=
    [ returned (GetIndex [2; 3] 0 0) (Nat.eqb 0); returned (GetIndex [2; 3] 1 1) (Nat.eqb 2);
      returned (GetIndex [2; 3] 2 2) (Nat.eqb 5); returned (GetIndex [2; 3] 3 0) (Nat.eqb 6) ]%nat.
  (** TrajoptUtilTest.cpp:19-23 *)
  Definition test_Linspace : bool := same_list (Linspace (nlit 0) (nlit 2) 2) [nlit 1; nlit 2].
  (** The pose {x, 0, 0} of GenerateLinearInitialGuessTest.cpp:11-12 and
      SwervePathBuilderTest.cpp:12-18. *)
  Definition on_axis (x : Q) : Pose2 K := pose_xyh (nlit x) (nlit 0) (nlit 0).
  (** GenerateLinearInitialGuessTest.cpp:9-18 *)
  Definition test_guess : bool :=
    returned (GenerateLinearInitialGuess [[on_axis 1]; [on_axis 2; on_axis 3]; [on_axis 6]] [2; 3]%nat)
      (fun s => same_list [nlit 1; nlit 2; nlit 3; nlit 4; nlit 5; nlit 6] (s_x s)).
  (** The calls of SwervePathBuilderTest.cpp:12-20 *)
  Definition builder_test : list (op K) :=
    [ OWptInitialGuessPoint 0 (on_axis 0);
      OSgmtInitialGuessPoints 0 [on_axis 1; on_axis 2];
      OWptInitialGuessPoint 1 (on_axis 1);
      OWptInitialGuessPoint 2 (on_axis 5);
      OControlIntervalCounts [3; 2] ]%nat.
  (** SwervePathBuilderTest.cpp:8-26 *)
  Definition test_builder (asserts : bool) : bool :=
    returned (CalculateInitialGuess (run_ops asserts builder_test new_builder))
      (fun s => same_list (s_x s) [nlit 0; nlit 1; nlit 2; nlit 1; nlit 3; nlit 5]).

  (** The translations used by most of Translation2dTest.cpp, e.g. lines 22-23. *)
  Definition one : Translation2 K := mkTr (nlit 1) (nlit 3).
  (** Translation2dTest.cpp:23 *)
  Definition two : Translation2 K := mkTr (nlit 2) (nlit 5).
  (** Translation2dTest.cpp:21-63, 82-104, 112-124: the checks without library functions. *)
  Definition test_translation : list bool :=
    [ is_at (tr_add one two) (nlit 3) (nlit 8);                          (* 21-29 *)
      is_at (tr_sub one two) (nlit (-1)) (nlit (-2));                    (* 31-39 *)
      is_at (tr_neg (mkTr (nlit (-9 # 2)) (nlit 7))) (nlit (9 # 2)) (nlit (-7));  (* 41-47 *)
      is_at (tr_scale (mkTr (nlit 3) (nlit 5)) (nlit 3)) (nlit 9) (nlit 15);      (* 49-55 *)
      is_at (tr_divide (mkTr (nlit 3) (nlit 5)) (nlit 2)) (nlit (3 # 2)) (nlit (5 # 2)); (* 57-63 *)
      neqb (tr_dot one two) (nlit 17);                                   (* 82-87 *)
      neqb (tr_cross one two) (nlit (-1));                               (* 89-94 *)
      neqb (tr_sqnorm (mkTr (nlit 3) (nlit 5))) (nlit 34);               (* 101-104 *)
      neqb (tX (tr_default : Translation2 K)) (nlit 0);                  (* 119 *)
      neqb (tY (mkTr (nlit 1) (nlit 2) : Translation2 K)) (nlit 2);      (* 120 *)
      neqb (tX (tr_add tr_default (mkTr (nlit 1) (nlit 2)))) (nlit 1);   (* 121 *)
      neqb (tY (tr_sub tr_default (mkTr (nlit 1) (nlit 2)))) (nlit (-2)); (* 122 *)
      neqb (tX (tr_neg (mkTr (nlit 1) (nlit 2)))) (nlit (-1)) ].         (* 123 *)
  (** Rotation2dTest.cpp:51-56, Pose2dTest.cpp:31-38 *)
  Definition test_constants : list bool :=
    [ neqb (rCos (rot_default : Rotation2 K)) (nlit 1); neqb (rSin (rot_default : Rotation2 K)) (nlit 0);
      neqb (pX (pose_default : Pose2 K)) (nlit 0);
      neqb (pY (mkPose (mkTr (nlit 0) (nlit 1)) rot_default : Pose2 K)) (nlit 1) ].
  (** All checks above, /repo/test/src. *)
  Definition plain_checks (asserts : bool) : list bool :=
    test_GetIndex ++ [test_Linspace; test_guess; test_builder asserts] ++ test_translation ++ test_constants.
End Tests.

Local Open Scope R_scope.
(** The checks that call cos, sin, atan2 or hypot, over the reals: these
    functions and pi are exact, and so is every comparison (the code allows 1e-9
    in some).  Translation2dTest.cpp, Rotation2dTest.cpp, Pose2dTest.cpp. *)
Definition exact_checks : Prop :=
  (* Translation2dTest.cpp:10-19 *)
  tr_polar (sqrt 2 * 1) (rot_angle (PI / 4)) = mkTr 1 1 /\
  tr_polar 2 (rot_angle (PI / 3)) = mkTr 1 (sqrt 3) /\
  (* 65-72 *) tr_rotateBy (mkTr 3 0) (rot_angle (PI / 2)) = mkTr 0 3 /\
  (* 74-80 *) rot_radians (tr_angle (mkTr 1 3)) = Ratan2 3 1 /\ rot_radians (tr_angle (mkTr 2 5)) = Ratan2 5 2 /\
  (* 96-99 *) tr_norm (mkTr 3 5) = sqrt (3 * 3 + 5 * 5) /\
  (* 106-110 *) tr_distance (mkTr 1 1) (mkTr 6 6) = 5 * sqrt 2 /\
  (* Rotation2dTest.cpp:13-19 *)
  rot_degrees PI (rot_angle (PI / 3)) = 60 /\ rot_degrees PI (rot_angle (PI / 4)) = 45 /\
  (* 21-27 *) rot_radians (rot_angle (PI / 4)) = PI / 4 /\ rot_radians (rot_angle (PI / 6)) = PI / 6 /\
  (* 29-35 *) rot_radians (rot_add rot_default (rot_angle (PI / 2))) = PI / 2 /\
  rot_degrees PI (rot_add rot_default (rot_angle (PI / 2))) = 90 /\
  (* 37-42 *) rot_degrees PI (rot_add (rot_angle (PI / 2)) (rot_angle (PI / 6))) = 120 /\
  (* 44-49 *) rot_degrees PI (rot_sub (rot_angle (70 * PI / 180)) (rot_angle (PI / 6))) = 40 /\
  (* Pose2dTest.cpp:13-29 *)
  (forall x y, let rotated := pose_rotateBy (pose_xyh x y (PI / 4)) (rot_angle (5 * PI / 180)) in
    pX rotated = cos (5 * PI / 180) * x - sin (5 * PI / 180) * y /\
    pY rotated = sin (5 * PI / 180) * x + cos (5 * PI / 180) * y /\
    rot_degrees PI (pRot rotated) = rot_degrees PI (rot_angle (PI / 4)) + rot_degrees PI (rot_angle (5 * PI / 180))).
