(** /repo/include/trajopt/trajectory/HolonomicTrajectory.hpp and
    HolonomicTrajectorySample.hpp *)
From Coq Require Import List.
Import ListNotations.
From Verif Require Export Outcome Num Builder.
Open Scope num_scope.

(** HolonomicTrajectorySample.hpp:15-95 *)
Record sample (K : Type) : Type := mkSample {
  h_timestamp : K; h_x : K; h_y : K; h_heading : K;
  h_velocityX : K; h_velocityY : K; h_angularVelocity : K;
  h_moduleForcesX : list K; h_moduleForcesY : list K
}.
Arguments mkSample {K} _ _ _ _ _ _ _ _ _.
Arguments h_timestamp {K} _.
Arguments h_x {K} _.
Arguments h_y {K} _.
Arguments h_heading {K} _.
Arguments h_velocityX {K} _.
Arguments h_velocityY {K} _.
Arguments h_angularVelocity {K} _.
Arguments h_moduleForcesX {K} _.
Arguments h_moduleForcesY {K} _.

Section Trajectory.
  Context {K : Type} `{Arith K} `{Dbl K}.

  (** The loop body, HolonomicTrajectory.hpp:41-48 *)
  Definition traj_step (s : solution K) (samp : nat) (acc : K * list (sample K))
      : outcome (K * list (sample K)) :=
    let '(ts, samples) := acc in
    ts <- (if (samp =? 0)%nat then Ok ts
           else d <- idx (s_dt s) (samp - 1) ;; Ok (ts + d)) ;;
    x <- idx (s_x s) samp ;;
    y <- idx (s_y s) samp ;;
    sn <- idx (s_thetasin s) samp ;;
    cs <- idx (s_thetacos s) samp ;;
    vx <- idx (s_vx s) samp ;;
    vy <- idx (s_vy s) samp ;;
    om <- idx (s_omega s) samp ;;
    fx <- idx (s_moduleFX s) samp ;;
    fy <- idx (s_moduleFY s) samp ;;
    Ok (ts, samples ++ [mkSample ts x y (natan2 sn cs) vx vy om fx fy]).

  (** HolonomicTrajectory(const SwerveSolution&), HolonomicTrajectory.hpp:38-50 *)
  Definition HolonomicTrajectory (s : solution K) : outcome (list (sample K)) :=
    r <- foldM (traj_step s) (seq 0 (length (s_x s))) (nlit 0, []) ;;
    Ok (snd r).
End Trajectory.
