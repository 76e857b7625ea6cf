(** Specification vocabulary for whole runs of the generator: a history of
    builder calls, the generator constructed from it, and the solutions its
    optimisation problem admits. *)
From Coq Require Import Reals List ZArith.
Import ListNotations.
From Verif Require Import Outcome Num NumR Geometry Expr Constraints Builder Guess Generator
  Spec SpecBuilder SpecPhysics SpecTrajectory Semantics.
Local Open Scope nat_scope.

Section Any.
  Context {K : Type} {HA : Arith K} {HD : Dbl K}.

  (** The builder after a history of calls. *)
  Definition path (asserts : bool) (h : list (op K)) : builder K := run_ops asserts h new_builder.

  (** [g] is the generator constructed after history [h], whose drivetrain is [d]. *)
  Definition generator (asserts : bool) (h : list (op K)) (handle : Z) (d : drivetrain K) (g : gen K) : Prop :=
    construct (path asserts h) handle = Ok g /\ b_drivetrain (path asserts h) = Some d.

  (** The control interval counts the trajectory of a history has. *)
  Definition counts (asserts : bool) (h : list (op K)) : list nat := b_counts (path asserts h).

  (** The last drivetrain a history sets. *)
  Fixpoint last_drivetrain (d : option (drivetrain K)) (h : list (op K)) : option (drivetrain K) :=
    match h with
    | [] => d
    | OSetDrivetrain d' :: h' => last_drivetrain (Some d') h'
    | _ :: h' => last_drivetrain d h'
    end.

  (** The callbacks one call registers. *)
  Definition callback_request (o : op K) : list (callback K) :=
    match o with OAddIntermediateCallback cb => [cb] | _ => [] end.

  (** All decision variables of a generator: ten quantities per sample, two
      force components per module and sample, one time step per segment. *)
  Definition all_variables (v : vars K) : list (expr K) :=
    v_x v ++ v_y v ++ v_cos v ++ v_sin v ++ v_vx v ++ v_vy v ++ v_omega v ++ v_ax v ++ v_ay v ++ v_alpha v ++
    concat (v_Fx v) ++ concat (v_Fy v) ++ v_dt v.
End Any.

(** [sol] is what the generator reads from an assignment that satisfies its
    problem: the solutions an exact solver may return. *)
Definition solved (g : gen R) (sol : solution R) : Prop :=
  exists env, feasible env (g_problem g) /\ ConstructSwerveSolution g env = Ok sol.

(** Constraint objects in a history built from angles. *)
Definition proper_request (o : op R) : Prop :=
  match o with OWptConstraint _ c | OSgmtConstraint _ _ c => proper_constraint c | _ => True end.

(** A history of calls that all returned, with arguments a caller can pass. *)
Definition good_history (asserts : bool) (h : list (op R)) : Prop :=
  Forall proper_call h /\ Forall proper_request h /\ all_returned asserts h new_builder.

Open Scope R_scope.

(** The robot keeps its heading a direction throughout. *)
Definition headings_unit (counts : list nat) (sol : solution R) : Prop :=
  forall i, (i <= last_sample counts)%nat -> unit_heading (at_sample sol i).

(** Ground velocity of a module in the field frame: velocity of the robot plus
    angular velocity times the module's rotated offset, a quarter turn ahead. *)
Definition ground_velocity (s : state) (p : Translation2 R) : R * R :=
  (q_vx s - q_w s * snd (turned s p), q_vy s + q_w s * fst (turned s p)).

(** Sum of [f 1 .. f n]. *)
Definition sum_to (f : nat -> R) (n : nat) : R := sum (map f (seq 1 n)).
