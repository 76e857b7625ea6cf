(** /repo/include/trajopt/util/GenerateLinearInitialGuess.hpp *)
From Coq Require Import List.
Import ListNotations.
From Verif Require Export Outcome Num Geometry Util Builder.
Open Scope num_scope.

Section Guess.
  Context {K : Type} `{Arith K} `{Dbl K}.

  (** GenerateLinearInitialGuess.hpp:25, SwerveSolution.hpp:14-53 *)
  Definition empty_solution : solution K :=
    mkSolution [] [] [] [] [] [] [] [] [] [] [] [] [].

  (** Appending one interpolated stretch of [n] samples from [p] to [q]:
      lines 48-63, 66-88 and 92-112 are three copies of this code. *)
  Definition append_leg (p q : Pose2 K) (n : nat) (s : solution K) : solution K :=
    let thetas := AngleLinspace (rot_radians (pRot p)) (rot_radians (pRot q)) n in
    mkSolution (s_dt s)
      (s_x s ++ Linspace (pX p) (pX q) n)
      (s_y s ++ Linspace (pY p) (pY q) n)
      (s_thetacos s ++ map ncos thetas)
      (s_thetasin s ++ map nsin thetas)
      (s_vx s) (s_vy s) (s_omega s) (s_ax s) (s_ay s) (s_alpha s)
      (s_moduleFX s) (s_moduleFY s).

  (** The body of the loop over waypoints, lines 45-113. *)
  Definition guess_segment (guess : list (list (Pose2 K))) (counts : list nat)
      (wptIndex : nat) (s : solution K) : outcome (solution K) :=
    N_sgmt <- at_ counts (wptIndex - 1) ;;
    here <- at_ guess wptIndex ;;
    let guessPointCount := length here in
    N_guessSgmt <- udiv N_sgmt guessPointCount ;;
    prev <- at_ guess (wptIndex - 1) ;;
    p <- back prev ;;
    q <- front here ;;
    let s := append_leg p q N_guessSgmt s in
    s <- foldM (fun guessPointIndex s =>
           p <- at_ here (guessPointIndex - 1) ;;
           q <- at_ here guessPointIndex ;;
           Ok (append_leg p q N_guessSgmt s))
         (seq 1 (guessPointCount - 2)) s ;;
    if (1 <? guessPointCount)%nat then
      let N_lastGuessSgmt := (N_sgmt - (guessPointCount - 1) * N_guessSgmt)%nat in
      p <- at_ here (guessPointCount - 2) ;;
      q <- back here ;;
      Ok (append_leg p q N_lastGuessSgmt s)
    else Ok s.

  (** GenerateLinearInitialGuess, lines 18-117. *)
  Definition GenerateLinearInitialGuess (guess : list (list (Pose2 K)))
      (counts : list nat) : outcome (solution K) :=
    let wptCnt := (length counts + 1)%nat in
    sampTot <- GetIndex counts wptCnt 0 ;;
    first <- front guess ;;
    p <- front first ;;
    let dt := repeat (nofnat wptCnt * nlit 5 / nofnat sampTot) sampTot in
    let s := mkSolution dt [pX p] [pY p] [rCos (pRot p)] [rSin (pRot p)]
               [] [] [] [] [] [] [] [] in
    foldM (guess_segment guess counts) (seq 1 (wptCnt - 1)) s.

  (** CalculateInitialGuess, /repo/src/path/SwervePathBuilder.cpp:191-194 *)
  Definition CalculateInitialGuess (b : builder K) : outcome (solution K) :=
    GenerateLinearInitialGuess (b_guess b) (b_counts b).
End Guess.
