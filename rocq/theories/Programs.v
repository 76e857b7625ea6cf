(** The client programs that come with the library, as call sequences of the
    modelled interfaces: /repo/examples/Swerve/src/Main.cpp, /repo/examples/swerve.rs,
    /repo/test/src/ObstacleTest.cpp.  Printing and the calls of Generate are left out. *)
From Coq Require Import List ZArith.
Import ListNotations.
From Verif Require Export Outcome Num Geometry Constraints Builder Generator RustFFI.

Section Programs.
  Context {K : Type} `{Arith K} `{Dbl K}.

  (** The module at (x, y): Main.cpp:20-23, ObstacleTest.cpp:16-19. *)
  Definition ex_module (x y : Q) : swerve_module K :=
    mkModule (mkTr (nlit x) (nlit y)) (nlit (4 # 100)) (nlit 70) (nlit 2).
  (** Main.cpp:17-23, ObstacleTest.cpp:14-19. *)
  Definition ex_drivetrain : drivetrain K :=
    mkDrivetrain (nlit 45) (nlit 6)
      [ex_module (6 # 10) (6 # 10); ex_module (6 # 10) (- 6 # 10);
       ex_module (- 6 # 10) (6 # 10); ex_module (- 6 # 10) (- 6 # 10)].
  (** Main.cpp:25. *)
  Definition zeroLinearVelocity : constraint K := LinearVelocityMaxMagnitude (nlit 0).
  (** Main.cpp:26. *)
  Definition zeroAngularVelocity : constraint K := AngularVelocityMaxMagnitude (nlit 0).
  (** std::numbers::pi / 2: Main.cpp:47, 62 and others. *)
  Definition quarter : K := ndiv npi (nlit 2).

  (** Main.cpp:29-41: one metre forward. *)
  Definition example1 : list (op K) :=
    [OSetDrivetrain ex_drivetrain;
     OPoseWpt 0 (nlit 0) (nlit 0) (nlit 0); OPoseWpt 1 (nlit 1) (nlit 0) (nlit 0);
     OWptConstraint 0 zeroLinearVelocity; OWptConstraint 1 zeroLinearVelocity;
     OControlIntervalCounts [40]]%nat.
  (** Main.cpp:44-56: basic curve. *)
  Definition example2 : list (op K) :=
    [OSetDrivetrain ex_drivetrain;
     OPoseWpt 0 (nlit 1) (nlit 1) (ndiv (nneg npi) (nlit 2)); OPoseWpt 1 (nlit 2) (nlit 0) (nlit 0);
     OWptConstraint 0 zeroLinearVelocity; OWptConstraint 1 zeroLinearVelocity;
     OControlIntervalCounts [40]]%nat.
  (** Main.cpp:59-72: three waypoints. *)
  Definition example3 : list (op K) :=
    [OSetDrivetrain ex_drivetrain;
     OPoseWpt 0 (nlit 0) (nlit 0) quarter; OPoseWpt 1 (nlit 1) (nlit 1) (nlit 0);
     OPoseWpt 2 (nlit 2) (nlit 0) quarter;
     OWptConstraint 0 zeroLinearVelocity; OWptConstraint 1 zeroLinearVelocity;
     OControlIntervalCounts [40; 40]]%nat.
  (** Main.cpp:75-86: ending velocity. *)
  Definition example4 : list (op K) :=
    [OSetDrivetrain ex_drivetrain;
     OPoseWpt 0 (nlit 0) (nlit 0) (nlit 0); OPoseWpt 1 (nlit 0) (nlit 1) (nlit 0);
     OWptConstraint 0 zeroLinearVelocity;
     OControlIntervalCounts [40]]%nat.
  (** Main.cpp:89-105: circle obstacle. *)
  Definition example5 : list (op K) :=
    [OSetDrivetrain ex_drivetrain;
     OPoseWpt 0 (nlit 0) (nlit 0) (nlit 0);
     OSgmtObstacle 0 1 (mkObstacle (nlit (1 # 10)) [mkTr (nlit (1 # 2)) (nlit (1 # 2))]);
     OPoseWpt 1 (nlit 1) (nlit 0) (nlit 0);
     OWptConstraint 0 zeroLinearVelocity; OWptConstraint 1 zeroLinearVelocity;
     OControlIntervalCounts [40]]%nat.
  (** Main.cpp:108-141: approach a pick up station.  The heading guess of
      TranslationWpt defaults to 0 (SwervePathBuilder.hpp:67-68). *)
  Definition example6 : list (op K) :=
    [OSetDrivetrain ex_drivetrain;
     OPoseWpt 0 (nlit 0) (nlit 0) (nlit 0);
     OPoseWpt 1 (nlit 1) (nlit 1) quarter;
     OWptConstraint 1 zeroAngularVelocity;
     OWptConstraint 1 (mkLinearVelocityDirection quarter);
     OTranslationWpt 2 (nlit 1) (nlit 2) (nlit 0);
     OPoseWpt 3 (nlit 1) (nlit 1) quarter;
     OWptConstraint 3 zeroAngularVelocity;
     OWptConstraint 3 (mkLinearVelocityDirection quarter);
     OPoseWpt 4 (nlit 2) (nlit 0) npi;
     OWptConstraint 0 zeroLinearVelocity; OWptConstraint 4 zeroLinearVelocity;
     OControlIntervalCounts [40; 30; 30; 40]]%nat.
  (** Main.cpp:144-172: circular path with a point-point constraint. *)
  Definition example7 : list (op K) :=
    [OSetDrivetrain ex_drivetrain;
     OPoseWpt 0 (nlit 0) (nlit 0) (nlit 0);
     OSgmtConstraint 0 1
       (PointPoint (mkTr (nlit 0) (nlit 0)) (mkTr (nlit 1) (nlit 0)) (nlit 1));
     OWptInitialGuessPoint 0 (pose_xyh (nlit 0) (nlit 0) (nlit 0));
     OPoseWpt 1 (nlit 2) (nlit 0) (nlit 0);
     OWptConstraint 0 zeroLinearVelocity; OWptConstraint 1 zeroLinearVelocity;
     OControlIntervalCounts [30]]%nat.
  (** Main.cpp:28-172. *)
  Definition examples : list (list (op K)) :=
    [example1; example2; example3; example4; example5; example6; example7].

  (** One module of swerve.rs:7-36. *)
  Definition rs_ex_module (x y : Q) : rs_module K :=
    mkRsModule (nlit x) (nlit y) (nlit (4 # 100)) (nlit 70) (nlit 2).
  (** swerve.rs:4-48. *)
  Definition rs_example : list (rs_op K) :=
    [RAddProgressCallback;
     RSetDrivetrain (mkRsDrivetrain (nlit 45) (nlit 6)
       [rs_ex_module (6 # 10) (6 # 10); rs_ex_module (6 # 10) (- 6 # 10);
        rs_ex_module (- 6 # 10) (6 # 10); rs_ex_module (- 6 # 10) (- 6 # 10)]);
     RSetBumpers (nlit (13 # 10)) (nlit (13 # 10));
     RPoseWpt 0 (nlit 0) (nlit 0) (nlit 0); RPoseWpt 1 (nlit 1) (nlit 0) (nlit 0);
     RWptAngularVelocityMaxMagnitude 0 (nlit 0); RWptAngularVelocityMaxMagnitude 1 (nlit 0);
     RSgmtCircleObstacle 0 1 (nlit (1 # 2)) (nlit (1 # 10)) (nlit (2 # 10));
     RSetControlIntervalCounts [40]]%nat.

  (** length / 2 and width / 2 of ObstacleTest.cpp:25-26. *)
  Definition test_half : K := ndiv (nlit (7 # 10)) (nlit 2).
  (** - length / 2 and - width / 2 of ObstacleTest.cpp:29-31. *)
  Definition test_minus_half : K := ndiv (nneg (nlit (7 # 10))) (nlit 2).
  (** ObstacleTest.cpp:21-36.  The drivetrain of lines 14-19 is never used. *)
  Definition obstacle_test : list (op K) :=
    [OPoseWpt 0 (nlit 0) (nlit 0) (nlit 0); OPoseWpt 1 (nlit 2) (nlit 2) (nlit 0);
     OAddBumpers (mkObstacle (nlit (1 # 10))
       [mkTr test_half test_half; mkTr test_minus_half test_half;
        mkTr test_minus_half test_minus_half; mkTr test_half test_minus_half]);
     OSgmtObstacle 0 1 (mkObstacle (nlit 1) [mkTr (nlit 1) (nlit 1)]);
     OControlIntervalCounts [10]]%nat.
End Programs.
