(** /repo/src/SwerveTrajectoryGenerator.cpp and its header. *)
From Coq Require Import List.
Import ListNotations.
From Verif Require Export Outcome Num Geometry Expr Constraints Util Builder Guess.
Open Scope num_scope.

(** The variable members, SwerveTrajectoryGenerator.hpp:50-67. *)
Record vars (K : Type) : Type := mkVars {
  v_x : list (expr K); v_y : list (expr K);
  v_cos : list (expr K); v_sin : list (expr K);
  v_vx : list (expr K); v_vy : list (expr K); v_omega : list (expr K);
  v_ax : list (expr K); v_ay : list (expr K); v_alpha : list (expr K);
  v_Fx : list (list (expr K)); v_Fy : list (list (expr K));
  v_dt : list (expr K)
}.
Arguments mkVars {K} _ _ _ _ _ _ _ _ _ _ _ _ _.
Arguments v_x {K} _.
Arguments v_y {K} _.
Arguments v_cos {K} _.
Arguments v_sin {K} _.
Arguments v_vx {K} _.
Arguments v_vy {K} _.
Arguments v_omega {K} _.
Arguments v_ax {K} _.
Arguments v_ay {K} _.
Arguments v_alpha {K} _.
Arguments v_Fx {K} _.
Arguments v_Fy {K} _.
Arguments v_dt {K} _.

(** A constructed SwerveTrajectoryGenerator: of the copied path only the
    callbacks are used after construction; [g_handle] is captured by the
    callback lambda (cpp:45). *)
Record gen (K : Type) : Type := mkGen {
  g_vars : vars K;
  g_N : list nat;
  g_problem : problem K;
  g_callbacks : list (callback K);
  g_handle : Z
}.
Arguments mkGen {K} _ _ _ _ _.
Arguments g_vars {K} _.
Arguments g_N {K} _.
Arguments g_problem {K} _.
Arguments g_callbacks {K} _.
Arguments g_handle {K} _.

Section Generator.
  Context {K : Type} `{Arith K} `{Dbl K}.

  (** The members allocated at cpp:81-131 and the problem. *)
  Definition st : Type := (vars K * problem K)%type.

  (** cpp:103-104, one module of the sample being allocated. *)
  Definition alloc_module (index : nat) (_ : nat) (s : st) : outcome st :=
    let '(v, p) := s in
    let '(fx, p) := pr_decvar p in
    Fx <- upd_at (v_Fx v) index (fun l => l ++ [fx]) ;;
    let '(fy, p) := pr_decvar p in
    Fy <- upd_at (v_Fy v) index (fun l => l ++ [fy]) ;;
    Ok (mkVars (v_x v) (v_y v) (v_cos v) (v_sin v) (v_vx v) (v_vy v) (v_omega v)
          (v_ax v) (v_ay v) (v_alpha v) Fx Fy (v_dt v), p).

  (** cpp:91-105, one sample. *)
  Definition alloc_sample (moduleCnt : nat) (index : nat) (s : st) : outcome st :=
    let '(v, p) := s in
    let '(x, p) := pr_decvar p in
    let '(y, p) := pr_decvar p in
    let '(c, p) := pr_decvar p in
    let '(sn, p) := pr_decvar p in
    let '(vx, p) := pr_decvar p in
    let '(vy, p) := pr_decvar p in
    let '(om, p) := pr_decvar p in
    let '(ax, p) := pr_decvar p in
    let '(ay, p) := pr_decvar p in
    let '(al, p) := pr_decvar p in
    foldM (alloc_module index) (seq 0 moduleCnt)
      (mkVars (v_x v ++ [x]) (v_y v ++ [y]) (v_cos v ++ [c]) (v_sin v ++ [sn])
         (v_vx v ++ [vx]) (v_vy v ++ [vy]) (v_omega v ++ [om]) (v_ax v ++ [ax])
         (v_ay v ++ [ay]) (v_alpha v ++ [al]) (v_Fx v) (v_Fy v) (v_dt v), p).

  (** cpp:81-106; the lists of forces start as [sampTot] empty vectors. *)
  Definition alloc_samples (sampTot moduleCnt : nat) (p : problem K) : outcome st :=
    foldM (alloc_sample moduleCnt) (seq 0 sampTot)
      (mkVars [] [] [] [] [] [] [] [] [] [] (repeat [] sampTot) (repeat [] sampTot) [], p).

  (** cpp:108-122.  [None] stands for INFINITY; [std::min(a, b)] is [b < a ? b : a]. *)
  Definition width_min (w : option K) (d : K) : option K :=
    if neqb d (nlit 0) then w
    else match w with
         | None => if nltinf d then Some d else None
         | Some m => Some (if nltb d m then d else m)
         end.
  (** cpp:110-121, one iteration. *)
  Definition width_step (modules : list (swerve_module K)) (i : nat)
      (w : option K) : outcome (option K) :=
    a <- at_ modules (i - 1) ;;
    b <- at_ modules i ;;
    let w := width_min w (nabs (tX (m_translation a) - tX (m_translation b))) in
    Ok (width_min w (nabs (tY (m_translation a) - tY (m_translation b)))).
  (** cpp:108-122 *)
  Definition minWidth (modules : list (swerve_module K)) : outcome (option K) :=
    foldM (width_step modules) (seq 1 (length modules - 1)) None.

  (** cpp:127-129 *)
  Definition width_cons (w : option K) (dt : expr K) (m : swerve_module K) : ccons K :=
    let e := dt * EConst (m_wheelRadius m) * EConst (m_wheelMaxAngularVelocity m) in
    match w with Some k => CLe e (EConst k) | None => CLeInf e end.
  (** cpp:125-130 *)
  Definition alloc_dt (w : option K) (modules : list (swerve_module K)) (_ : nat)
      (s : st) : outcome st :=
    let '(v, p) := s in
    let '(dt, p) := pr_decvar p in
    let v := mkVars (v_x v) (v_y v) (v_cos v) (v_sin v) (v_vx v) (v_vy v) (v_omega v)
               (v_ax v) (v_ay v) (v_alpha v) (v_Fx v) (v_Fy v) (v_dt v ++ [dt]) in
    Ok (v, fold_left (fun p m => pr_subject p [width_cons w dt m]) modules p).

  (** cpp:136-142, one segment of the objective. *)
  Definition obj_step (v : vars K) (N : list nat) (sgmtIndex : nat)
      (s : expr K * problem K) : outcome (expr K * problem K) :=
    let '(T_tot, p) := s in
    dt_sgmt <- at_ (v_dt v) sgmtIndex ;;
    N_sgmt <- at_ N sgmtIndex ;;
    let T_tot := T_tot + dt_sgmt * EConst (nofZ (to_i32 (Z.of_nat N_sgmt))) in
    let p := pr_subject p [CGe dt_sgmt (nlit 0)] in
    Ok (T_tot, pr_setvalue p dt_sgmt (nlit 5 / nofnat N_sgmt)).

  (** cpp:152-172, one sample of the kinematics. *)
  Definition kin_sample (v : vars K) (N : list nat) (wptIndex : nat) (dt_sgmt : expr K)
      (sampIndex : nat) (p : problem K) : outcome (problem K) :=
    index <- GetIndex N wptIndex sampIndex ;;
    x1 <- at_ (v_x v) index ;;
    y1 <- at_ (v_y v) index ;;
    x0 <- at_ (v_x v) (index - 1) ;;
    y0 <- at_ (v_y v) (index - 1) ;;
    c1 <- at_ (v_cos v) index ;;
    s1 <- at_ (v_sin v) index ;;
    c0 <- at_ (v_cos v) (index - 1) ;;
    s0 <- at_ (v_sin v) (index - 1) ;;
    vx1 <- at_ (v_vx v) index ;;
    vy1 <- at_ (v_vy v) index ;;
    vx0 <- at_ (v_vx v) (index - 1) ;;
    vy0 <- at_ (v_vy v) (index - 1) ;;
    om1 <- at_ (v_omega v) index ;;
    om0 <- at_ (v_omega v) (index - 1) ;;
    ax1 <- at_ (v_ax v) index ;;
    ay1 <- at_ (v_ay v) index ;;
    al1 <- at_ (v_alpha v) index ;;
    let p := pr_subject p
      (tr_eq (tr_add (mkTr x0 y0) (tr_scale (mkTr vx1 vy1) dt_sgmt)) (mkTr x1 y1)) in
    let p := pr_subject p
      (rot_eq true true (rot_sub (mkRot c1 s1) (mkRot c0 s0)) (rot_angle (om1 * dt_sgmt))) in
    let p := pr_subject p
      (tr_eq (tr_add (mkTr vx0 vy0) (tr_scale (mkTr ax1 ay1) dt_sgmt)) (mkTr vx1 vy1)) in
    Ok (pr_subject p [CEq (om0 + al1 * dt_sgmt) om1]).

  (** cpp:148-173, one segment of the kinematics. *)
  Definition kin_segment (v : vars K) (N : list nat) (wptIndex : nat)
      (p : problem K) : outcome (problem K) :=
    N_sgmt <- at_ N (wptIndex - 1) ;;
    dt_sgmt <- at_ (v_dt v) (wptIndex - 1) ;;
    foldM (kin_sample v N wptIndex dt_sgmt) (seq 0 N_sgmt) p.

  (** cpp:190-197 *)
  Definition tau_step (modules : list (swerve_module K)) (theta : Rotation2 (expr K))
      (Fx Fy : list (expr K)) (moduleIndex : nat) (tau : expr K) : outcome (expr K) :=
    m <- at_ modules moduleIndex ;;
    let r := tr_rotateBy (tr_map EConst (m_translation m)) theta in
    fx <- at_ Fx moduleIndex ;;
    fy <- at_ Fy moduleIndex ;;
    Ok (tau + tr_cross r (mkTr fx fy)).

  (** cpp:204-217 *)
  Definition power_step (modules : list (swerve_module K)) (vWrtRobot : Translation2 (expr K))
      (omega : expr K) (Fx Fy : list (expr K)) (moduleIndex : nat)
      (p : problem K) : outcome (problem K) :=
    m <- at_ modules moduleIndex ;;
    let t := m_translation m in
    let vWheelWrtRobot :=
      mkTr (tX vWrtRobot - EConst (tY t) * omega) (tY vWrtRobot + EConst (tX t) * omega) in
    let maxWheelVelocity := m_wheelRadius m * m_wheelMaxAngularVelocity m in
    let p := pr_subject p
      [CLe (tr_sqnorm vWheelWrtRobot) (EConst (maxWheelVelocity * maxWheelVelocity))] in
    fx <- at_ Fx moduleIndex ;;
    fy <- at_ Fy moduleIndex ;;
    let maxForce := m_wheelMaxTorque m / m_wheelRadius m in
    Ok (pr_subject p
      [CLe (tr_sqnorm (mkTr fx fy)) (EConst (maxForce * maxForce))]).

  (** cpp:177-223, one sample of the dynamics.  Reading [path.drivetrain.mass]
      of a drivetrain that was never set reads an indeterminate value. *)
  Definition dyn_sample (v : vars K) (d : option (drivetrain K)) (index : nat)
      (p : problem K) : outcome (problem K) :=
    let modules := match d with Some d => d_modules d | None => [] end in
    c <- at_ (v_cos v) index ;;
    s <- at_ (v_sin v) index ;;
    vx <- at_ (v_vx v) index ;;
    vy <- at_ (v_vy v) index ;;
    Fx <- at_ (v_Fx v) index ;;
    Fy <- at_ (v_Fy v) index ;;
    let theta := mkRot c s in
    let Fx_net := fold_left nadd Fx (nlit 0) in
    let Fy_net := fold_left nadd Fy (nlit 0) in
    tau_net <- foldM (tau_step modules theta Fx Fy) (seq 0 (length modules)) (nlit 0) ;;
    let vWrtRobot := tr_rotateBy (mkTr vx vy) (rot_neg theta) in
    om <- at_ (v_omega v) index ;;
    p <- foldM (power_step modules vWrtRobot om Fx Fy) (seq 0 (length modules)) p ;;
    ax <- at_ (v_ax v) index ;;
    ay <- at_ (v_ay v) index ;;
    al <- at_ (v_alpha v) index ;;
    match d with
    | None => Undef Uninitialized
    | Some d =>
        let p := pr_subject p [CEq Fx_net (EConst (d_mass d) * ax)] in
        let p := pr_subject p [CEq Fy_net (EConst (d_mass d) * ay)] in
        Ok (pr_subject p [CEq tau_net (EConst (d_moi d) * al)])
    end.

  (** cpp:231-243 and 254-266: one constraint imposed at one sample. *)
  Definition apply_at (v : vars K) (c : constraint K) (index : nat)
      (p : problem K) : outcome (problem K) :=
    x <- at_ (v_x v) index ;;
    y <- at_ (v_y v) index ;;
    cs <- at_ (v_cos v) index ;;
    sn <- at_ (v_sin v) index ;;
    vx <- at_ (v_vx v) index ;;
    vy <- at_ (v_vy v) index ;;
    om <- at_ (v_omega v) index ;;
    ax <- at_ (v_ax v) index ;;
    ay <- at_ (v_ay v) index ;;
    al <- at_ (v_alpha v) index ;;
    Ok (pr_subject p
      (Apply (mkPose (mkTr x y) (mkRot cs sn)) (mkTr vx vy) om (mkTr ax ay) c)).

  (** cpp:227-244 *)
  Definition wpt_constraints (v : vars K) (N : list nat) (wpts : list (waypoint K))
      (wptIndex : nat) (p : problem K) : outcome (problem K) :=
    w <- at_ wpts wptIndex ;;
    foldM (fun c p =>
      i <- GetIndex N (wptIndex + 1) 0 ;;
      apply_at v c (i - 1) p) (waypointConstraints w) p.

  (** cpp:248-268 *)
  Definition sgmt_constraints (v : vars K) (N : list nat) (wpts : list (waypoint K))
      (sgmtIndex : nat) (p : problem K) : outcome (problem K) :=
    w <- at_ wpts (sgmtIndex + 1) ;;
    foldM (fun c p =>
      startIndex <- GetIndex N (sgmtIndex + 1) 0 ;;
      endIndex <- GetIndex N (sgmtIndex + 2) 0 ;;
      foldM (apply_at v c) (seq startIndex (endIndex - startIndex)) p)
      (segmentConstraints w) p.

  (** Variable::SetValue / Value through [operator[]]. cpp:300-340 *)
  Definition set_idx (l : list (expr K)) (i : nat) (k : K) (p : problem K) : outcome (problem K) :=
    e <- idx l i ;; Ok (pr_setvalue p e k).
  (** Variable::Value of a decision variable, cpp:333-339 *)
  Definition value_of (p : problem K) (e : expr K) : K :=
    match e with EVar v => pr_vals p v | _ => nlit 0 end.
  (** cpp:333-339 *)
  Definition value_idx (l : list (expr K)) (i : nat) (p : problem K) : outcome K :=
    e <- idx l i ;; Ok (value_of p e).

  (** cpp:300-303 *)
  Definition guess_pose_sample (v : vars K) (s : solution K) (i : nat)
      (p : problem K) : outcome (problem K) :=
    k <- idx (s_x s) i ;;
    p <- set_idx (v_x v) i k p ;;
    k <- idx (s_y s) i ;;
    p <- set_idx (v_y v) i k p ;;
    k <- idx (s_thetacos s) i ;;
    p <- set_idx (v_cos v) i k p ;;
    k <- idx (s_thetasin s) i ;;
    set_idx (v_sin v) i k p.

  (** cpp:314-340 *)
  Definition guess_motion_sample (v : vars K) (s : solution K) (i : nat)
      (p : problem K) : outcome (problem K) :=
    x1 <- idx (s_x s) i ;;
    x0 <- idx (s_x s) (i - 1) ;;
    dt <- idx (s_dt s) i ;;
    p <- set_idx (v_vx v) i ((x1 - x0) / dt) p ;;
    y1 <- idx (s_y s) i ;;
    y0 <- idx (s_y s) (i - 1) ;;
    p <- set_idx (v_vy v) i ((y1 - y0) / dt) p ;;
    c1 <- idx (s_thetacos s) i ;;
    s1 <- idx (s_thetasin s) i ;;
    c0 <- idx (s_thetacos s) (i - 1) ;;
    s0 <- idx (s_thetasin s) (i - 1) ;;
    p <- set_idx (v_omega v) i
           (rot_radians (rot_rotateBy (mkRot c1 s1) (rot_neg (mkRot c0 s0))) / dt) p ;;
    vx1 <- value_idx (v_vx v) i p ;;
    vx0 <- value_idx (v_vx v) (i - 1) p ;;
    p <- set_idx (v_ax v) i ((vx1 - vx0) / dt) p ;;
    vy1 <- value_idx (v_vy v) i p ;;
    vy0 <- value_idx (v_vy v) (i - 1) p ;;
    p <- set_idx (v_ay v) i ((vy1 - vy0) / dt) p ;;
    om1 <- value_idx (v_omega v) i p ;;
    om0 <- value_idx (v_omega v) (i - 1) p ;;
    set_idx (v_alpha v) i ((om1 - om0) / dt) p.

  (** ApplyInitialGuess, cpp:296-342 *)
  Definition ApplyInitialGuess (v : vars K) (s : solution K)
      (p : problem K) : outcome (problem K) :=
    let sampleTotal := length (v_x v) in
    p <- foldM (guess_pose_sample v s) (seq 0 sampleTotal) p ;;
    p <- set_idx (v_vx v) 0 (nlit 0) p ;;
    p <- set_idx (v_vy v) 0 (nlit 0) p ;;
    p <- set_idx (v_omega v) 0 (nlit 0) p ;;
    p <- set_idx (v_ax v) 0 (nlit 0) p ;;
    p <- set_idx (v_ay v) 0 (nlit 0) p ;;
    p <- set_idx (v_alpha v) 0 (nlit 0) p ;;
    foldM (guess_motion_sample v s) (seq 1 (sampleTotal - 1)) p.

  (** The constructor, cpp:40-272.  The builder is passed by value. *)
  Definition construct (b : builder K) (handle : Z) : outcome (gen K) :=
    let N := GetControlIntervalCounts b in
    initialGuess <- CalculateInitialGuess b ;;
    let wptCnt := (1 + length N)%nat in
    let sgmtCnt := length N in
    sampTot <- GetIndex N wptCnt 0 ;;
    let modules := match b_drivetrain b with Some d => d_modules d | None => [] end in
    s <- alloc_samples sampTot (length modules) pr_empty ;;
    w <- minWidth modules ;;
    s <- foldM (alloc_dt w modules) (seq 0 sgmtCnt) s ;;
    let '(v, p) := s in
    s <- foldM (obj_step v N) (seq 0 (length N)) (nlit 0, p) ;;
    let '(T_tot, p) := s in
    let p := pr_minimize p T_tot in
    p <- foldM (kin_segment v N) (seq 1 (wptCnt - 1)) p ;;
    p <- foldM (dyn_sample v (b_drivetrain b)) (seq 0 sampTot) p ;;
    p <- foldM (wpt_constraints v N (b_waypoints b)) (seq 0 wptCnt) p ;;
    p <- foldM (sgmt_constraints v N (b_waypoints b)) (seq 0 sgmtCnt) p ;;
    p <- ApplyInitialGuess v initialGuess p ;;
    Ok (mkGen v N p (b_callbacks b) handle).

  (** RowSolutionValue / MatrixSolutionValue, cpp:20-38; [env] gives the
      current value of every decision variable. *)
  Definition var_value (env : nat -> K) (e : expr K) : K :=
    match e with EVar v => env v | _ => nlit 0 end.
  (** cpp:20-28 *)
  Definition RowSolutionValue (env : nat -> K) (l : list (expr K)) : list K :=
    map (var_value env) l.
  (** cpp:30-38 *)
  Definition MatrixSolutionValue (env : nat -> K) (l : list (list (expr K))) : list (list K) :=
    map (RowSolutionValue env) l.

  (** ConstructSwerveSolution, cpp:344-368 *)
  Definition dt_per_samp (v : vars K) (N : list nat) (env : nat -> K) (sgmtIndex : nat)
      (l : list K) : outcome (list K) :=
    N_sgmt <- at_ N sgmtIndex ;;
    dt <- at_ (v_dt v) sgmtIndex ;;
    Ok (l ++ repeat (var_value env dt) N_sgmt).
  (** cpp:344-368 *)
  Definition ConstructSwerveSolution (g : gen K) (env : nat -> K) : outcome (solution K) :=
    let v := g_vars g in
    dt <- foldM (dt_per_samp v (g_N g) env) (seq 0 (length (g_N g))) [] ;;
    Ok (mkSolution dt
      (RowSolutionValue env (v_x v)) (RowSolutionValue env (v_y v))
      (RowSolutionValue env (v_cos v)) (RowSolutionValue env (v_sin v))
      (RowSolutionValue env (v_vx v)) (RowSolutionValue env (v_vy v))
      (RowSolutionValue env (v_omega v))
      (RowSolutionValue env (v_ax v)) (RowSolutionValue env (v_ay v))
      (RowSolutionValue env (v_alpha v))
      (MatrixSolutionValue env (v_Fx v)) (MatrixSolutionValue env (v_Fy v))).
End Generator.
