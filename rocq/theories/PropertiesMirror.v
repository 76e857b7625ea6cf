(** * Mirrored paths for the same robot: C124 *)
From Coq Require Import List Lia Lra Reals ZArith.
Import ListNotations.
From Verif Require Import Outcome Num NumR Geometry Constraints Builder Generator Trajectory
  Spec SpecBuilder SpecPhysics SpecTrajectory SpecGenerator SpecReach SpecMore SpecSymmetry SpecMirror
  MoreProofs MirrorProofs.
Open Scope R_scope.

(** *** C124: the other side of the field *)

(** Mirror, turn and shift everything but the drivetrain.  If the robot looks the same
    in a mirror, the solutions are the mirrored, turned and shifted solutions, with the
    forces of each pair of modules exchanged. *)
Theorem C124_same_robot : forall ch asserts h handle d g, rigid ch -> (ch_mirror ch = true -> left_right d) ->
  good_history asserts h -> generator asserts (h ++ [OSetDrivetrain d]) handle d g -> real_wheels d ->
  (forall n, In n (counts asserts h) -> (1 <= n)%nat) ->
  let h' := map (new_call ch) h in
  let match_up sol sol' := s_dt sol' = s_dt sol /\ same_motion (new_solution ch sol) sol' /\
    forall i, (i <= last_sample (counts asserts h))%nat -> same_forces (new_drivetrain ch d) d (new_solution ch sol) sol' i in
  good_history asserts h' /\
  exists g', generator asserts (h' ++ [OSetDrivetrain d]) handle d g' /\
    (forall sol, solved g sol -> exists sol', solved g' sol' /\ match_up sol sol') /\
    (forall sol', solved g' sol' -> exists sol, solved g sol /\ match_up sol sol').
Proof. exact C124_proof. Qed.
Print Assumptions C124_same_robot.

(** A drivetrain with a module at each corner, and a tour from the origin to (1, 3)
    that turns the robot by 1: mirrored, it ends at (1, 5) and turns the other way. *)
Example C124_case : rigid other_alliance /\ ch_mirror other_alliance = true /\ left_right heavy /\ real_wheels heavy /\
  In (OPoseWpt 1 1 3 1) (tour heavy 1 1 slant) /\ new_call other_alliance (OPoseWpt 1 1 3 1) = OPoseWpt 1 1 5 (-1) /\
  exists ns g sol, let h := with_counts (tour heavy 1 1 slant) ns in
  good_history true h /\ generator true (h ++ [OSetDrivetrain heavy]) 7 heavy g /\
  (forall n, In n (counts true h) -> (1 <= n)%nat) /\ solved g sol.
Proof.
  split; [repeat split; reflexivity|]. split; [reflexivity|]. split; [exact heavy_left_right|]. split; [exact heavy_wheels|].
  split; [apply slant_calls|]. split; [apply slant_calls|]. exact (slant_case true).
Qed.
