(** Trajectories with another front when the front has to point somewhere (C118). *)
From Coq Require Import List Lia Lra Psatz Reals ZArith.
Import ListNotations.
From Verif Require Import Outcome Num NumR Geometry Expr Constraints Util Builder Guess Generator Trajectory
  Spec SpecBuilder SpecPhysics SpecTrajectory SpecGenerator SpecSymmetry SpecFront Semantics
  UtilFacts GeometryFacts BuilderFacts BuilderHistory ConstraintFacts GuessFacts GeneratorFacts SeedFacts FeasibleFacts
  GeneratorProofs HistoryFacts SolutionProofs TrajectoryProofs GeneratorCases LimitProofs OrderProofs StepProofs SymmetryProofs FrontBuild FrontProofs.
Local Open Scope nat_scope.
Open Scope R_scope.

Lemma pointing_requests_in : forall c l, In c (pointing_requests l) <-> In c l /\ about_front c.
Proof. intros c l. unfold pointing_requests. rewrite filter_In. destruct c; cbn; intuition discriminate. Qed.
Lemma front_same : forall fr c, about_front c -> front_constraint fr c = c.
Proof. intros fr c. destruct c; cbn; tauto. Qed.
Lemma about_dec : forall c : constraint R, about_front c \/ ~ about_front c.
Proof. intros c. destruct c; cbn; tauto. Qed.
Definition facing (N : list nat) (sol : solution R) (aw tw : nat -> list (constraint R)) : Prop :=
  meets_requests N sol (fun w => pointing_requests (aw w)) (fun w => pointing_requests (tw w)).

Section Facing.
  Variables (fr : R) (N : list nat) (m : nat) (sol : solution R).
  Hypothesis Sh : well_shaped N m sol.
  Variables aw tw aw' tw' : nat -> list (constraint R).
  Hypotheses (Ea : forall w, aw' w = map (front_constraint fr) (aw w)) (Et : forall w, tw' w = map (front_constraint fr) (tw w)).
  Lemma facing_meets : meets_requests N sol aw tw -> facing N (front_solution fr sol) aw tw -> meets_requests N (front_solution fr sol) aw' tw'.
  Proof.
    intros (M1 & M2) (F1 & F2). split.
    - intros w c Hw Hc. rewrite Ea in Hc. apply in_map_iff in Hc. destruct Hc as (c0 & <- & Hc). destruct (about_dec c0) as [A|A].
      + rewrite front_same by exact A. apply F1; [exact Hw|]. apply pointing_requests_in. split; assumption.
      + rewrite (front_sample fr N m sol Sh) by apply list_sum_firstn_le. apply front_demands; [exact A|apply M1; assumption].
    - intros w c i Hw Hc Hi. rewrite Et in Hc. apply in_map_iff in Hc. destruct Hc as (c0 & <- & Hc). destruct (about_dec c0) as [A|A].
      + rewrite front_same by exact A. apply (F2 w); [exact Hw| |exact Hi]. apply pointing_requests_in. split; assumption.
      + assert (waypoint_sample N w <= last_sample N)%nat by apply list_sum_firstn_le.
        rewrite (front_sample fr N m sol Sh) by lia. apply front_demands; [exact A|apply (M2 w); assumption].
  Qed.
  Lemma meets_facing : forall any, meets_requests N any aw' tw' -> facing N any aw tw.
  Proof.
    intros any (M1 & M2). split.
    - intros w c Hw Hc. apply pointing_requests_in in Hc. destruct Hc as [Hc A]. apply M1; [exact Hw|]. rewrite Ea, <- (front_same fr c A). apply in_map, Hc.
    - intros w c i Hw Hc Hi. apply pointing_requests_in in Hc. destruct Hc as [Hc A]. apply (M2 w); [exact Hw| |exact Hi]. rewrite Et, <- (front_same fr c A). apply in_map, Hc.
  Qed.
End Facing.

Lemma facing_carried : forall fr asserts asserts' h h' handle handle' d g g',
  generator asserts h handle d g -> generator asserts' h' handle' (front_drivetrain fr d) g' ->
  real_wheels d -> (forall n, In n (counts asserts h) -> (1 <= n)%nat) -> counts asserts' h' = counts asserts h ->
  (forall w, constraints_at (path asserts' h') w = map (front_constraint fr) (constraints_at (path asserts h) w)) ->
  (forall w, segment_constraints_to (path asserts' h') w = map (front_constraint fr) (segment_constraints_to (path asserts h) w)) ->
  (forall w c, In c (constraints_at (path asserts h) w) \/ In c (segment_constraints_to (path asserts h) w) -> proper_constraint c) ->
  forall sol, solved g sol ->
  (solved g' (front_solution fr sol) <->
   (forall i, (1 <= i <= last_sample (counts asserts h))%nat -> step_within (front_drivetrain fr d) (step_to sol i)) /\
   facing (counts asserts h) (front_solution fr sol) (constraints_at (path asserts h)) (segment_constraints_to (path asserts h))).
Proof.
  intros fr asserts asserts' h h' handle handle' d g g' G G' W Pos Ec Ea Et Pr sol (env & F & E).
  assert (Sh : well_shaped (counts asserts h) (length (d_modules d)) sol).
  { destruct (C25_proof asserts h handle d g env G) as (s & E' & Sh). rewrite E in E'. injection E' as <-. exact Sh. }
  pose proof (uniform_read asserts h handle d g env sol G E) as U.
  assert (Pr' : forall w c, In c (constraints_at (path asserts' h') w) \/ In c (segment_constraints_to (path asserts' h') w) -> proper_constraint c).
  { intros w c. rewrite Ea, Et, !in_map_iff. intros [(c0 & <- & Hc)|(c0 & <- & Hc)]; apply front_proper, (Pr w); auto. }
  assert (Pos' : forall n, In n (counts asserts' h') -> (1 <= n)%nat) by (rewrite Ec; exact Pos).
  apply (C15_recorded_proof asserts h handle d g G W Pos Pr env sol E) in F. destruct F as (Ph & Rq). split.
  - intros (env' & F' & E'). apply (C15_recorded_proof asserts' h' handle' (front_drivetrain fr d) g' G' (front_real fr d W) Pos' Pr' env' _ E') in F'.
    destruct F' as (Ph' & Rq'). rewrite Ec in Ph', Rq'. split.
    + intros i Hi. destruct Ph' as (A & _). exact (proj1 (A i Hi)).
    + exact (meets_facing fr _ _ _ _ _ Ea Et _ Rq').
  - intros (St & Fa).
    destruct (C15_complete_proof asserts' h' handle' (front_drivetrain fr d) g' G' (front_solution fr sol)) as (env' & E').
    + rewrite Ec. cbn [front_drivetrain d_modules]. rewrite map_length. apply front_shape; assumption.
    + rewrite Ec. apply front_uniform; assumption.
    + exists env'. split; [|exact E'].
      apply (C15_recorded_proof asserts' h' handle' (front_drivetrain fr d) g' G' (front_real fr d W) Pos' Pr' env' _ E').
      rewrite Ec. split; [eapply front_physics; eassumption|]. eapply facing_meets; eassumption.
Qed.

Lemma C118_pointing_proof : forall fr asserts h handle d g, good_history asserts h ->
  generator asserts h handle d g -> real_wheels d -> (forall n, In n (counts asserts h) -> (1 <= n)%nat) ->
  let short d sol := forall i, (1 <= i <= last_sample (counts asserts h))%nat -> step_within d (step_to sol i) in
  exists g', good_history asserts (map (front_call fr) h) /\
    generator asserts (map (front_call fr) h) handle (front_drivetrain fr d) g' /\
    (forall sol, solved g sol ->
       (solved g' (front_solution fr sol) <-> short (front_drivetrain fr d) sol /\ faces (counts asserts h) h (front_solution fr sol))) /\
    (forall sol', solved g' sol' ->
       ((exists sol, solved g sol /\ sol' = front_solution fr sol) <-> short d sol' /\ faces (counts asserts h) h (front_solution (- fr) sol'))).
Proof.
  intros fr asserts h handle d g Gd G W Pos short.
  destruct (front_generator fr asserts h handle d g G) as (g' & G'). exists g'.
  pose proof (front_good fr asserts h Gd) as Gd'. split; [exact Gd'|]. split; [exact G'|].
  assert (At := sim_at fr _ _ (sim_path fr asserts h)). pose proof (good_proper asserts h Gd) as Pr.
  pose proof (front_counts fr asserts h) as Ec.
  assert (Fe : forall any, facing (counts asserts h) any (constraints_at (path asserts h)) (segment_constraints_to (path asserts h)) <-> faces (counts asserts h) h any).
  { intros any. pose proof (good_recorded asserts h Gd) as Rec. unfold facing, faces. split; intros (F1 & F2); split; intros w.
    - intros c Hw Hc. apply F1; [exact Hw|]. rewrite (proj1 (Rec w)). exact Hc.
    - intros c i Hw Hc Hi. apply (F2 w); [exact Hw| |exact Hi]. rewrite (proj2 (Rec w)). exact Hc.
    - intros c Hw Hc. apply F1; [exact Hw|]. rewrite <- (proj1 (Rec w)). exact Hc.
    - intros c i Hw Hc Hi. apply (F2 w); [exact Hw| |exact Hi]. rewrite <- (proj2 (Rec w)). exact Hc. }
  split.
  - intros sol Sv. rewrite <- Fe.
    apply (facing_carried fr asserts asserts h (map (front_call fr) h) handle handle d g g' G G' W Pos Ec); try assumption; intros w; apply At.
  - intros sol' Sv.
    assert (Sh : well_shaped (counts asserts h) (length (d_modules (front_drivetrain fr d))) sol').
    { destruct Sv as (env & _ & E). destruct (C25_proof asserts _ handle _ g' env G') as (s & E' & Sh). rewrite E in E'. injection E' as <-.
      rewrite Ec in Sh. exact Sh. }
    assert (Inv : front_solution fr (front_solution (- fr) sol') = sol').
    { pose proof (front_solution_back (- fr) _ _ _ Sh) as Q. rewrite Ropp_involutive in Q. exact Q. }
    assert (Lb : forall l, map (front_constraint (- fr)) (map (front_constraint fr) l) = l).
    { intros l. rewrite map_map. rewrite <- (map_id l) at 2. apply map_ext. intros c. apply front_constraint_back. }
    assert (Fr : forall l, pointing_requests (map (front_constraint fr) l) = pointing_requests l).
    { induction l as [|c l IH]; [reflexivity|]. destruct c; cbn [map front_constraint pointing_requests filter]; fold (pointing_requests l); fold (pointing_requests (map (front_constraint fr) l)); rewrite IH; reflexivity. }
    assert (X : solved g (front_solution (- fr) sol') <-> short d sol' /\ faces (counts asserts h) h (front_solution (- fr) sol')).
    { assert (Q : (forall i, (1 <= i <= last_sample (counts asserts h))%nat -> step_within (front_drivetrain (- fr) (front_drivetrain fr d)) (step_to sol' i)) /\
        facing (counts asserts h) (front_solution (- fr) sol') (constraints_at (path asserts (map (front_call fr) h))) (segment_constraints_to (path asserts (map (front_call fr) h)))
        <-> short d sol' /\ faces (counts asserts h) h (front_solution (- fr) sol')).
      { rewrite front_drivetrain_back, <- Fe.
        assert (Y : forall any, facing (counts asserts h) any (constraints_at (path asserts (map (front_call fr) h))) (segment_constraints_to (path asserts (map (front_call fr) h)))
          <-> facing (counts asserts h) any (constraints_at (path asserts h)) (segment_constraints_to (path asserts h))).
        { intros any. unfold facing. split; intros (F1 & F2); split; intros w.
          - intros c Hw Hc. apply F1; [exact Hw|]. rewrite (proj1 (At w)), Fr. exact Hc.
          - intros c i Hw Hc Hi. apply (F2 w); [exact Hw| |exact Hi]. rewrite (proj2 (At w)), Fr. exact Hc.
          - intros c Hw Hc. apply F1; [exact Hw|]. rewrite (proj1 (At w)), Fr in Hc. exact Hc.
          - intros c i Hw Hc Hi. apply (F2 w); [exact Hw| |exact Hi]. rewrite (proj2 (At w)), Fr in Hc. exact Hc. }
        rewrite Y. reflexivity. }
      rewrite <- Q. clear Q. rewrite <- Ec.
      apply (facing_carried (- fr) asserts asserts (map (front_call fr) h) h handle handle (front_drivetrain fr d) g' g G').
      - rewrite front_drivetrain_back. exact G.
      - apply front_real; assumption.
      - rewrite Ec. exact Pos.
      - symmetry. exact Ec.
      - intros w. rewrite (proj1 (At w)), Lb. reflexivity.
      - intros w. rewrite (proj2 (At w)), Lb. reflexivity.
      - intros w c. rewrite (proj1 (At w)), (proj2 (At w)), !in_map_iff. intros [(c0 & <- & Hc)|(c0 & <- & Hc)]; apply front_proper, (Pr w); auto.
      - exact Sv. }
    rewrite <- X. split.
    + intros (sol & Sv' & ->). destruct Sv' as (env & F & E). destruct (C25_proof asserts h handle d g env G) as (s & E' & Sh'). rewrite E in E'. injection E' as <-.
      rewrite (front_solution_back fr _ _ _ Sh'). exists env. split; assumption.
    + intros Sv'. exists (front_solution (- fr) sol'). split; [exact Sv'|symmetry; exact Inv].
Qed.

(** The parked robot that looks at a point: by a quarter turn it looks elsewhere. *)
Lemma C118_pointing_case_proof : forall b, b = PI / 2 \/ b = 2 * PI -> exists g, good_history true (parked look) /\ generator true (parked look) 0 wagon g /\ solved g parked_solution /\
  (faces (counts true (parked look)) (parked look) (front_solution b parked_solution) <-> b = 2 * PI).
Proof.
  intros b Hb. destruct (parked_generator look (or_intror eq_refl)) as (g & G). exists g.
  split; [exact (parked_good look (or_intror eq_refl))|]. split; [exact G|]. split; [exact (parked_solved look g (or_intror eq_refl) G)|].
  rewrite (parked_counts look (or_intror eq_refl)). pose proof PI_RGT_0 as Pi.
  assert (Z : at_sample (front_solution b parked_solution) 0 = mkState 0 0 (1 * cos b - 0 * sin b) (1 * sin b + 0 * cos b) 0 0 0 0 0 0) by reflexivity.
  assert (D : forall p, dist2 (0, 0) (1, 0) = p -> p = 1).
  { intros p <-. unfold dist2. cbn [fst snd]. match goal with |- sqrt ?x = _ => replace x with 1 by ring end. apply sqrt_1. }
  split.
  - intros (F & _). destruct Hb as [->|E]; [|exact E]. exfalso.
    specialize (F 0%nat (PointAt (mkTr 1 0) 0) ltac:(simpl; lia) ltac:(left; reflexivity)).
    change (waypoint_sample [1%nat] 0) with 0%nat in F. rewrite Z, cos_PI2, sin_PI2 in F. cbn [demands q_x q_y q_c q_s tX tY] in F. unfold pt in F. cbn [tX tY] in F.
    rewrite (D _ eq_refl), cos_0 in F. lra.
  - intros E. split.
    + intros w c Hw Hc. destruct w as [|w]; cbn in Hc; [|contradiction]. destruct Hc as [<-|[]].
      change (waypoint_sample [1%nat] 0) with 0%nat. rewrite Z, E, cos_2PI, sin_2PI. cbn [demands q_x q_y q_c q_s tX tY]. unfold pt. cbn [tX tY].
      rewrite (D _ eq_refl), cos_0. lra.
    + intros w c i _ []. 
Qed.
