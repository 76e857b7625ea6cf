(** Mirrored paths for the same robot (C124). *)
From Coq Require Import List Lia Lra Psatz Reals ZArith Permutation.
Import ListNotations.
From Verif Require Import Outcome Num NumR Geometry Expr Constraints Util Builder Guess Generator Trajectory
  Spec SpecBuilder SpecPhysics SpecTrajectory SpecGenerator SpecStep SpecLegs SpecDrive SpecReach SpecMore SpecSymmetry SpecMirror
  BuilderFacts BuilderHistory GeneratorFacts HistoryFacts GeneratorProofs TrajectoryProofs
  GeneratorCases OrderProofs PartsProofs SymmetryBuild SymmetryProofs MoreProofs ReachProofs.
Open Scope R_scope.

Lemma rigid_module : forall ch md, rigid ch -> new_module ch md = if ch_mirror ch then mirrored md else md.
Proof.
  intros [mi a x y l t m] [[tx ty] r w q] (L & T & M). cbn [ch_length ch_time ch_mass] in L, T, M. subst l t m.
  unfold new_module, new_robot, mirrored. cbn [ch_mirror ch_length ch_time ch_mass m_translation m_wheelRadius m_wheelMaxAngularVelocity m_wheelMaxTorque tX tY].
  destruct mi; f_equal; try (f_equal; ring); field.
Qed.
Lemma rigid_reordered : forall ch d, rigid ch -> (ch_mirror ch = true -> left_right d) -> reordered (new_drivetrain ch d) d.
Proof.
  intros ch d Rg Lr. pose proof Rg as (L & T & M). unfold reordered, new_drivetrain. cbn [d_mass d_moi d_modules]. rewrite L, M.
  split; [ring|]. split; [ring|]. rewrite (map_ext _ _ (fun md => rigid_module ch md Rg)).
  destruct (ch_mirror ch); [apply Lr; reflexivity|rewrite map_id; apply Permutation_refl].
Qed.
Lemma reordered_sym : forall d d', reordered d d' -> reordered d' d.
Proof. intros d d' (A & B & P). split; [symmetry; exact A|]. split; [symmetry; exact B|]. apply Permutation_sym, P. Qed.
Lemma rigid_step : forall ch d dt, rigid ch -> (step_within (new_drivetrain ch d) dt <-> step_within d dt).
Proof.
  intros ch d dt Rg. pose proof (rigid_proper ch Rg) as P. pose proof Rg as (_ & T & _). split; intros S.
  - pose proof (step_new (back_change ch) (back_proper ch P) (new_drivetrain ch d) dt S) as Q.
    rewrite (drivetrain_back ch P) in Q. replace (ch_time (back_change ch) * dt) with dt in Q; [exact Q|].
    change (ch_time (back_change ch)) with (/ ch_time ch). rewrite T. field.
  - pose proof (step_new ch P d dt S) as Q. rewrite T, Rmult_1_l in Q. exact Q.
Qed.
Lemma same_motion_sym : forall a b, same_motion a b -> same_motion b a.
Proof. unfold same_motion. intros a b H. decompose [and] H. repeat split; symmetry; assumption. Qed.

Lemma C124_proof : forall ch asserts h handle d g, rigid ch -> (ch_mirror ch = true -> left_right d) ->
  good_history asserts h -> generator asserts (h ++ [OSetDrivetrain d]) handle d g -> real_wheels d ->
  (forall n, In n (counts asserts h) -> (1 <= n)%nat) ->
  let h' := map (new_call ch) h in
  let match_up sol sol' := s_dt sol' = s_dt sol /\ same_motion (new_solution ch sol) sol' /\
    forall i, (i <= last_sample (counts asserts h))%nat -> same_forces (new_drivetrain ch d) d (new_solution ch sol) sol' i in
  good_history asserts h' /\
  exists g', generator asserts (h' ++ [OSetDrivetrain d]) handle d g' /\
    (forall sol, solved g sol -> exists sol', solved g' sol' /\ match_up sol sol') /\
    (forall sol', solved g' sol' -> exists sol, solved g sol /\ match_up sol sol').
Proof.
  intros ch asserts h handle d g Rg Lr Gd G W Pos h' match_up. pose proof (rigid_proper ch Rg) as P.
  pose proof (good_new ch asserts h P Gd) as Gd'. split; [exact Gd'|].
  pose proof (last_good asserts h d Gd) as Gl.
  destruct (C89_proof ch asserts (h ++ [OSetDrivetrain d]) handle d g Rg Gl G W ltac:(rewrite last_counts; exact Pos))
    as (g1 & _ & G1 & A & B & Dt).
  rewrite map_app in G1. cbn [map new_call] in G1. fold h' in G1.
  assert (Ec : counts asserts h' = counts asserts h) by apply (counts_new ch asserts h P).
  assert (Ex : exists g', generator asserts (h' ++ [OSetDrivetrain d]) handle d g').
  { apply generator_exists; [|rewrite last_drivetrain_app; reflexivity].
    destruct G as (C & D). destruct (main_cons _ handle g d (path_inv asserts _) C D) as (_ & Le & _).
    pose proof (sim_path ch P asserts h) as S. fold h' in S.
    fold (counts asserts (h ++ [OSetDrivetrain d])) in Le. rewrite last_counts in Le |- *. unfold waypoint_count in *.
    assert (Q : forall k, b_waypoints (path asserts (k ++ [OSetDrivetrain d])) = b_waypoints (path asserts k))
      by (intros k; unfold path; rewrite run_ops_app; reflexivity).
    rewrite Q in Le |- *. rewrite Ec, (sim_w _ _ _ S), map_length. exact Le. }
  destruct Ex as (g' & G'). exists g'. split; [exact G'|].
  pose proof (rigid_reordered ch d Rg Lr) as Or. pose proof (wheels_real ch P d W) as W1.
  assert (Pos' : forall n, In n (counts asserts h') -> (1 <= n)%nat) by (rewrite Ec; exact Pos).
  split.
  - intros sol Sv. pose proof (A sol Sv) as S1.
    destruct (order_exists asserts h' handle _ d g1 g' Gd' G1 G' Or W1 (fun dt => proj1 (rigid_step ch d dt Rg)) Pos' _ S1) as (sol' & S2 & Sm & Sf).
    rewrite Ec in Sf. exists sol'. split; [exact S2|]. split; [|split; [exact Sm|exact Sf]].
    rewrite <- (Dt sol). symmetry. apply Sm.
  - intros sol' Sv.
    destruct (order_exists asserts h' handle d _ g' g1 Gd' G' G1 (reordered_sym _ _ Or) W (fun dt => proj2 (rigid_step ch d dt Rg)) Pos' _ Sv) as (sol1 & S2 & Sm & Sf).
    destruct (B sol1 S2) as (sol & S3 & ->). rewrite Ec in Sf. exists sol. split; [exact S3|].
    split; [rewrite <- (Dt sol); apply Sm|]. split; [apply same_motion_sym, Sm|]. intros i Hi. apply Permutation_sym, Sf, Hi.
Qed.

(** ** A case *)
Lemma heavy_left_right : left_right heavy.
Proof.
  unfold left_right, heavy, mirrored. cbn [d_modules map m_translation m_wheelRadius m_wheelMaxAngularVelocity m_wheelMaxTorque tX tY].
  replace (Ropp (IZR (-2))) with (IZR 2) by ring. replace (Ropp (IZR 2)) with (IZR (-2)) by ring. eapply Permutation_trans; [apply perm_swap|]. apply perm_skip, perm_skip, perm_swap.
Qed.
Lemma slant_case : forall asserts, exists ns g sol, let h := with_counts (tour heavy 1 1 slant) ns in
  good_history asserts h /\ generator asserts (h ++ [OSetDrivetrain heavy]) 7 heavy g /\
  (forall n, In n (counts asserts h) -> (1 <= n)%nat) /\ solved g sol.
Proof.
  intros asserts.
  assert (Dw : driven_wheels heavy) by (intros md [<-|[<-|[<-|[<-|[]]]]]; simpl; lra).
  assert (Ap : apart heavy).
  { eexists _, _. split; [left; reflexivity|]. split; [right; left; reflexivity|].
    unfold pt. simpl. intros E. injection E as E1. lra. }
  destruct (C119_tour_proof asserts heavy 1 1 slant Dw Ap ltac:(lra) ltac:(lra) ltac:(simpl; lia) ltac:(simpl; lia)) as (m & M).
  set (ns := [S m]).
  destruct (M ns eq_refl ltac:(intros n [<-|[]]; lia)) as [Gd Mh]. destruct (Mh 7%Z) as (g & sol & G & Sv).
  set (h := with_counts (tour heavy 1 1 slant) ns) in *.
  destruct (tour_facts asserts heavy 1 1 slant ltac:(simpl; lia) ltac:(simpl; lia)) as (Gt & Wc & Ld).
  destruct (counts_set asserts _ ns Gt) as (_ & Ec & Wc' & _). fold h in Ec, Wc'.
  destruct (generator_exists asserts (h ++ [OSetDrivetrain heavy]) 7 heavy) as (g' & G').
  { rewrite last_counts, Ec. unfold waypoint_count.
    assert (Q : b_waypoints (path asserts (h ++ [OSetDrivetrain heavy])) = b_waypoints (path asserts h))
      by (unfold path; rewrite run_ops_app; reflexivity).
    rewrite Q. fold (waypoint_count (path asserts h)). rewrite Wc', Wc. simpl. lia. }
  { rewrite last_drivetrain_app. reflexivity. }
  assert (Pos : forall n, In n (counts asserts h) -> (1 <= n)%nat) by (rewrite Ec; intros n [<-|[]]; lia).
  exists ns, g', sol. cbv zeta. fold h. split; [exact Gd|]. split; [exact G'|]. split; [exact Pos|].
  apply (solved_exact asserts h 7 heavy g Gd G heavy_wheels Pos) in Sv.
  apply (solved_exact asserts _ 7 heavy g' (last_good asserts h heavy Gd) G' heavy_wheels ltac:(rewrite last_counts; exact Pos)). rewrite last_counts.
  destruct Sv as (A & B & C & M1 & M2). split; [exact A|]. split; [exact B|]. split; [exact C|]. split.
  - intros w c Hw Hc. rewrite last_wpt in Hc. apply M1; assumption.
  - intros w c i Hw Hc Hi. rewrite last_sgmt in Hc. apply (M2 w); assumption.
Qed.
Lemma slant_calls : In (OPoseWpt 1 1 3 1) (tour heavy 1 1 slant) /\
  new_call other_alliance (OPoseWpt 1 1 3 1) = OPoseWpt 1 1 5 (-1).
Proof.
  split; [cbn; auto 20|]. unfold new_call, new_point, new_vec, turned_vec, new_angle, other_alliance.
  cbn [ch_mirror ch_angle ch_dx ch_dy ch_length fst snd]. rewrite cos_0, sin_0. f_equal; ring.
Qed.
