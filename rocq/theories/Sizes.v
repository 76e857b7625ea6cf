(** GetIndex, the initial guess and the constructor with 64-bit [size_t] sums
    and vectors that can fail to grow. *)
From Coq Require Import List.
Import ListNotations.
From Verif Require Export Outcome Num Geometry Expr Constraints Util Builder Guess Generator.
Open Scope num_scope.

(** [a + b] of two [size_t], /repo/include/trajopt/util/TrajoptUtil.hpp:28, 30. *)
Definition add64 (a b : nat) : nat := Z.to_nat (to_u64 (Z.of_nat a + Z.of_nat b)).
(** [a - b] of two [size_t],
    /repo/include/trajopt/util/GenerateLinearInitialGuess.hpp:65, 91. *)
Definition sub64 (a b : nat) : nat := Z.to_nat (to_u64 (Z.of_nat a - Z.of_nat b)).
(** [a * b] of two [size_t],
    /repo/include/trajopt/util/GenerateLinearInitialGuess.hpp:91. *)
Definition mul64 (a b : nat) : nat := Z.to_nat (to_u64 (Z.of_nat a * Z.of_nat b)).

(** GetIndex, TrajoptUtil.hpp:21-32. *)
Definition GetIndex64 (N : list nat) (wptIndex sampIndex : nat) : outcome nat :=
  let index := (if 0 <? wptIndex then 1 else 0)%nat in
  index <- foldM (fun w index => n <- at_ N (w - 1) ;; Ok (add64 index n))
             (seq 1 (wptIndex - 1)) index ;;
  Ok (add64 index sampIndex).

(** A statement together with how many times the allocator was asked before it.
    Throughout /repo/include/trajopt/util/GenerateLinearInitialGuess.hpp:18-117. *)
Definition alloc (A : Type) : Type := nat -> outcome (A * nat).
(** Sequencing of statements,
    /repo/include/trajopt/util/GenerateLinearInitialGuess.hpp:27-38. *)
Definition abind {A B} (m : alloc A) (f : A -> alloc B) : alloc B :=
  fun k => r <- m k ;; f (fst r) (snd r).
(** A statement that allocates nothing, e.g. the [at] of
    /repo/include/trajopt/util/GenerateLinearInitialGuess.hpp:45. *)
Definition alift {A} (o : outcome A) : alloc A := fun k => a <- o ;; Ok (a, k).
Notation "x <% m ;; k" := (abind m (fun x => k)) (at level 61, m at next level, right associativity).
(** A loop, e.g. /repo/include/trajopt/util/GenerateLinearInitialGuess.hpp:44-113. *)
Fixpoint afold {A S} (f : A -> S -> alloc S) (l : list A) (s : S) : alloc S :=
  match l with
  | [] => alift (Ok s)
  | a :: l' => s' <% f a s ;; afold f l' s'
  end.

Section Sizes.
  Context {K : Type} `{Arith K} `{Dbl K}.
  (** The allocator: whether the [k]th request, for room for [n] doubles in one
      vector, is met.  Every [reserve], [push_back] and [insert] of
      TrajoptUtil.hpp:34-60 and GenerateLinearInitialGuess.hpp:18-117 is a request;
      one that needs no new room is a request that is met. *)
  Variable ok : nat -> nat -> bool.

  (** E.g. /repo/include/trajopt/util/GenerateLinearInitialGuess.hpp:27-31. *)
  Definition room (n : nat) : alloc unit :=
    fun k => if ok k n then Ok (tt, S k) else Throw BadAlloc.
  (** [push_back], /repo/include/trajopt/util/TrajoptUtil.hpp:39 *)
  Definition push {A} (l : list A) (a : A) : alloc (list A) :=
    _ <% room (length l + 1) ;; alift (Ok (l ++ [a])).
  (** append_vector, GenerateLinearInitialGuess.hpp:12-16 *)
  Definition append {A} (l m : list A) : alloc (list A) :=
    _ <% room (length l + length m) ;; alift (Ok (l ++ m)).

  (** Linspace, TrajoptUtil.hpp:34-42.  For [numSamples = 2^64 - 1] the C++ loop
      never ends by itself; here it would end after that many rounds. *)
  Definition Linspace64 (startValue endValue : K) (numSamples : nat) : alloc (list K) :=
    let delta := (endValue - startValue) / nofnat numSamples in
    afold (fun index result => push result (startValue + nofnat index * delta)) (seq 1 numSamples) [].

  (** AngleLinspace, TrajoptUtil.hpp:44-60. *)
  Definition AngleLinspace64 (startValue endValue : K) (numSamples : nat) : alloc (list K) :=
    Linspace64 startValue (startValue + angle_diff startValue endValue) numSamples.

  (** One interpolated stretch, GenerateLinearInitialGuess.hpp:48-63, 66-88, 92-112. *)
  Definition append_leg64 (p q : Pose2 K) (n : nat) (s : solution K) : alloc (solution K) :=
    xs <% Linspace64 (pX p) (pX q) n ;;
    x <% append (s_x s) xs ;;
    ys <% Linspace64 (pY p) (pY q) n ;;
    y <% append (s_y s) ys ;;
    thetas <% AngleLinspace64 (rot_radians (pRot p)) (rot_radians (pRot q)) n ;;
    cs <% afold (fun theta cs =>
            c <% push (fst cs) (ncos theta) ;;
            sn <% push (snd cs) (nsin theta) ;;
            alift (Ok (c, sn))) thetas (s_thetacos s, s_thetasin s) ;;
    alift (Ok (mkSolution (s_dt s) x y (fst cs) (snd cs)
      (s_vx s) (s_vy s) (s_omega s) (s_ax s) (s_ay s) (s_alpha s)
      (s_moduleFX s) (s_moduleFY s))).

  (** The body of the loop over waypoints, GenerateLinearInitialGuess.hpp:45-113.
      Line 65's bound on [guessPointIndex] is [guessPointCount - 1], not reached
      with [guessPointCount = 0]. *)
  Definition guess_segment64 (guess : list (list (Pose2 K))) (counts : list nat)
      (wptIndex : nat) (s : solution K) : alloc (solution K) :=
    N_sgmt <% alift (at_ counts (wptIndex - 1)) ;;
    here <% alift (at_ guess wptIndex) ;;
    let guessPointCount := length here in
    N_guessSgmt <% alift (udiv N_sgmt guessPointCount) ;;
    prev <% alift (at_ guess (wptIndex - 1)) ;;
    p <% alift (back prev) ;;
    q <% alift (front here) ;;
    s <% append_leg64 p q N_guessSgmt s ;;
    s <% afold (fun guessPointIndex s =>
           p <% alift (at_ here (guessPointIndex - 1)) ;;
           q <% alift (at_ here guessPointIndex) ;;
           append_leg64 p q N_guessSgmt s)
         (seq 1 (sub64 guessPointCount 1 - 1)) s ;;
    if (1 <? guessPointCount)%nat then
      let N_lastGuessSgmt := sub64 N_sgmt (mul64 (sub64 guessPointCount 1) N_guessSgmt) in
      p <% alift (at_ here (guessPointCount - 2)) ;;
      q <% alift (back here) ;;
      append_leg64 p q N_lastGuessSgmt s
    else alift (Ok s).

  (** GenerateLinearInitialGuess, GenerateLinearInitialGuess.hpp:18-117. *)
  Definition GenerateLinearInitialGuess64 (guess : list (list (Pose2 K)))
      (counts : list nat) : alloc (solution K) :=
    let wptCnt := (length counts + 1)%nat in
    sampTot <% alift (GetIndex64 counts wptCnt 0) ;;
    _ <% room sampTot ;;
    _ <% room sampTot ;;
    _ <% room sampTot ;;
    _ <% room sampTot ;;
    _ <% room sampTot ;;
    first <% alift (front guess) ;;
    p <% alift (front first) ;;
    x <% push [] (pX p) ;;
    y <% push [] (pY p) ;;
    c <% push [] (rCos (pRot p)) ;;
    sn <% push [] (rSin (pRot p)) ;;
    dt <% afold (fun _ l => push l (nofnat wptCnt * nlit 5 / nofnat sampTot)) (seq 0 sampTot) [] ;;
    let s := mkSolution dt x y c sn [] [] [] [] [] [] [] [] in
    afold (guess_segment64 guess counts) (seq 1 (wptCnt - 1)) s.

  (** /repo/src/SwerveTrajectoryGenerator.cpp:152-172, one sample of the kinematics:
      the index is computed anew; what follows is [kin_sample] at that index. *)
  Definition kin_sample64 (v : vars K) (N : list nat) (wptIndex : nat) (dt_sgmt : expr K)
      (sampIndex : nat) (p : problem K) : outcome (problem K) :=
    index <- GetIndex64 N wptIndex sampIndex ;;
    x1 <- at_ (v_x v) index ;;
    y1 <- at_ (v_y v) index ;;
    x0 <- at_ (v_x v) (index - 1) ;;
    y0 <- at_ (v_y v) (index - 1) ;;
    c1 <- at_ (v_cos v) index ;;
    s1 <- at_ (v_sin v) index ;;
    c0 <- at_ (v_cos v) (index - 1) ;;
    s0 <- at_ (v_sin v) (index - 1) ;;
    vx1 <- at_ (v_vx v) index ;;
    vy1 <- at_ (v_vy v) index ;;
    vx0 <- at_ (v_vx v) (index - 1) ;;
    vy0 <- at_ (v_vy v) (index - 1) ;;
    om1 <- at_ (v_omega v) index ;;
    om0 <- at_ (v_omega v) (index - 1) ;;
    ax1 <- at_ (v_ax v) index ;;
    ay1 <- at_ (v_ay v) index ;;
    al1 <- at_ (v_alpha v) index ;;
    let p := pr_subject p
      (tr_eq (tr_add (mkTr x0 y0) (tr_scale (mkTr vx1 vy1) dt_sgmt)) (mkTr x1 y1)) in
    let p := pr_subject p
      (rot_eq true true (rot_sub (mkRot c1 s1) (mkRot c0 s0)) (rot_angle (om1 * dt_sgmt))) in
    let p := pr_subject p
      (tr_eq (tr_add (mkTr vx0 vy0) (tr_scale (mkTr ax1 ay1) dt_sgmt)) (mkTr vx1 vy1)) in
    Ok (pr_subject p [CEq (om0 + al1 * dt_sgmt) om1]).

  (** SwerveTrajectoryGenerator.cpp:148-173 *)
  Definition kin_segment64 (v : vars K) (N : list nat) (wptIndex : nat)
      (p : problem K) : outcome (problem K) :=
    N_sgmt <- at_ N (wptIndex - 1) ;;
    dt_sgmt <- at_ (v_dt v) (wptIndex - 1) ;;
    foldM (kin_sample64 v N wptIndex dt_sgmt) (seq 0 N_sgmt) p.

  (** SwerveTrajectoryGenerator.cpp:227-244 *)
  Definition wpt_constraints64 (v : vars K) (N : list nat) (wpts : list (waypoint K))
      (wptIndex : nat) (p : problem K) : outcome (problem K) :=
    w <- at_ wpts wptIndex ;;
    foldM (fun c p =>
      i <- GetIndex64 N (add64 wptIndex 1) 0 ;;
      apply_at v c (sub64 i 1) p) (waypointConstraints w) p.

  (** SwerveTrajectoryGenerator.cpp:248-268 *)
  Definition sgmt_constraints64 (v : vars K) (N : list nat) (wpts : list (waypoint K))
      (sgmtIndex : nat) (p : problem K) : outcome (problem K) :=
    w <- at_ wpts (add64 sgmtIndex 1) ;;
    foldM (fun c p =>
      startIndex <- GetIndex64 N (add64 sgmtIndex 1) 0 ;;
      endIndex <- GetIndex64 N (add64 sgmtIndex 2) 0 ;;
      foldM (apply_at v c) (seq startIndex (endIndex - startIndex)) p)
      (segmentConstraints w) p.

  (** The constructor, SwerveTrajectoryGenerator.cpp:40-272; after line 43, where
      the guess is computed, memory suffices.  [add64 1 (length N)] is line 65. *)
  Definition construct64 (b : builder K) (handle : Z) : outcome (gen K) :=
    let N := GetControlIntervalCounts b in
    r <- GenerateLinearInitialGuess64 (b_guess b) N 0%nat ;;
    let initialGuess := fst r in
    let wptCnt := add64 1 (length N) in
    let sgmtCnt := length N in
    sampTot <- GetIndex64 N wptCnt 0 ;;
    let modules := match b_drivetrain b with Some d => d_modules d | None => [] end in
    s <- alloc_samples sampTot (length modules) pr_empty ;;
    w <- minWidth modules ;;
    s <- foldM (alloc_dt w modules) (seq 0 sgmtCnt) s ;;
    let '(v, p) := s in
    s <- foldM (obj_step v N) (seq 0 (length N)) (nlit 0, p) ;;
    let '(T_tot, p) := s in
    let p := pr_minimize p T_tot in
    p <- foldM (kin_segment64 v N) (seq 1 (wptCnt - 1)) p ;;
    p <- foldM (dyn_sample v (b_drivetrain b)) (seq 0 sampTot) p ;;
    p <- foldM (wpt_constraints64 v N (b_waypoints b)) (seq 0 wptCnt) p ;;
    p <- foldM (sgmt_constraints64 v N (b_waypoints b)) (seq 0 sgmtCnt) p ;;
    p <- ApplyInitialGuess v initialGuess p ;;
    Ok (mkGen v N p (b_callbacks b) handle).
End Sizes.
