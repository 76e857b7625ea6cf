(** Vocabulary for a builder that ran out of memory. *)
From Coq Require Import List.
From Verif Require Import Outcome Num Builder Memory SpecBuilder.
Local Open Scope nat_scope.

Section Spec.
  Context {K : Type} {HA : Arith K} {HD : Dbl K}.

  (** Waypoints that have no initial guess points. *)
  Definition lost (b : builder K) : nat := waypoint_count b - length (b_guess b).

  (** Calls that grow at most one container of [b]: the waypoint they name
      exists already. *)
  Definition small_call (b : builder K) (o : op K) : Prop :=
    match o with
    | OPoseWpt i _ _ _ | OTranslationWpt i _ _ _ | OWptInitialGuessPoint i _ | OWptConstraint i _ => i < waypoint_count b
    | OSgmtInitialGuessPoints i _ => S i < waypoint_count b
    | OSetDrivetrain _ | OAddBumpers _ | OControlIntervalCounts _ | OAddIntermediateCallback _ => True
    | OWptObstacle _ _ | OSgmtObstacle _ _ _ | OSgmtConstraint _ _ _ => False
    end.
End Spec.
