(** The problem has a shortest trajectory (C88). *)
From Coq Require Import List Lia Lra Psatz Reals ZArith.
Import ListNotations.
From Verif Require Import Outcome Num NumR Geometry Expr Constraints Util Builder Guess Generator Trajectory
  Spec SpecBuilder SpecPhysics SpecTrajectory SpecGenerator SpecStep Semantics
  UtilFacts GeometryFacts BuilderFacts BuilderHistory ConstraintFacts GuessFacts GeneratorFacts SeedFacts FeasibleFacts
  GeneratorProofs HistoryFacts SolutionProofs TrajectoryProofs LimitProofs OrderProofs OrderCases StepProofs CompactFacts.
Local Open Scope nat_scope.
Open Scope R_scope.

Ltac conts := repeat first
  [ assumption | apply cont_const | apply cont_minus | apply cont_plus | apply cont_opp | apply cont_mult
  | apply cont_cos | apply cont_sin | apply cont_abs | apply cont_norm2 ].

(** ** Demands are closed *)
Section Demands.
  Variables (n : nat) (S : (nat -> R) -> state).
  Notation C f := (cont n (fun a => f (S a))).
  Hypotheses (Cx : C q_x) (Cy : C q_y) (Cc : C q_c) (Cs : C q_s) (Cvx : C q_vx) (Cvy : C q_vy) (Cw : C q_w)
    (Cax : C q_ax) (Cay : C q_ay) (Cal : C q_al).

  Lemma cont_dist2 f g h k : cont n f -> cont n g -> cont n h -> cont n k ->
    cont n (fun a => dist2 (f a, g a) (h a, k a)).
  Proof. intros. unfold dist2. cbn [fst snd]. apply cont_sqrt; [|conts].
    intros a. apply Rplus_le_le_0_compat; apply Rle_0_sqr. Qed.

  Lemma closed_clear P1 P2 Q1 Q2 W1 W2 r : cont n P1 -> cont n P2 -> cont n Q1 -> cont n Q2 -> cont n W1 -> cont n W2 ->
    closed n (fun a => clear_of_segment (P1 a, P2 a) (Q1 a, Q2 a) (W1 a, W2 a) r).
  Proof.
    intros. apply (closed_ext n _ (fun a => forall t, 0 <= t <= 1 -> r <=
      dist2 (P1 a + t * (Q1 a - P1 a), P2 a + t * (Q2 a - P2 a)) (W1 a, W2 a))).
    - intros a. unfold clear_of_segment, on_segment, along. cbn [fst snd]. split.
      + intros L t Ht. apply L. exists t. auto.
      + intros L p (t & Ht & ->). apply L. exact Ht.
    - apply closed_all. intros t. apply closed_imp. intros _. apply closed_le; [conts|]. apply cont_dist2; conts.
  Qed.

  Lemma unit_closed : closed n (fun a => unit_heading (S a)).
  Proof. unfold unit_heading. apply closed_eq; conts. Qed.

  Lemma demands_closed : forall c, proper_constraint c -> closed n (fun a => unit_heading (S a) /\ demands (S a) c).
  Proof.
    intros c Pc.
    assert (Easy : closed n (fun a => demands (S a) c) -> closed n (fun a => unit_heading (S a) /\ demands (S a) c))
      by (intros D; apply closed_and; [apply unit_closed|exact D]).
    destruct c as [w|a b p r|m|u|m|f tol|p a b r|rp fp r|p|t]; cbn [demands proper_constraint] in *.
    - apply Easy. apply closed_le; conts.
    - apply (closed_ext n _ (fun e => (a <> b /\ unit_heading (S e)) /\
        clear_of_segment (placed (S e) a) (placed (S e) b) (pt p) (sqrt (Rabs r)))).
      + intros e. assert (Q : unit_heading (S e) -> (placed (S e) a <> placed (S e) b <-> a <> b)).
        { intros U. split; intros N E; apply N; [rewrite E; reflexivity|].
          unfold placed in E. injection E as E1 E2. unfold unit_heading in U. destruct a as [ax ay], b as [bx by_]. cbn [tX tY] in *.
          assert (F1 : (ax - bx) * q_c (S e) - (ay - by_) * q_s (S e) = 0) by lra.
          assert (F2 : (ax - bx) * q_s (S e) + (ay - by_) * q_c (S e) = 0) by lra.
          set (c := q_c (S e)) in *. set (s := q_s (S e)) in *.
          assert (ax - bx = 0).
          { replace (ax - bx) with ((ax - bx) * (c * c + s * s)) by (rewrite U; ring).
            replace ((ax - bx) * (c * c + s * s)) with (c * ((ax - bx) * c - (ay - by_) * s) + s * ((ax - bx) * s + (ay - by_) * c)) by ring.
            rewrite F1, F2. ring. }
          assert (ay - by_ = 0).
          { replace (ay - by_) with ((ay - by_) * (c * c + s * s)) by (rewrite U; ring).
            replace ((ay - by_) * (c * c + s * s)) with (c * ((ax - bx) * s + (ay - by_) * c) - s * ((ax - bx) * c - (ay - by_) * s)) by ring.
            rewrite F1, F2. ring. }
          f_equal; lra. }
        split; [intros (U & D1 & D2)|intros ((D1 & U) & D2)]; specialize (Q U); firstorder.
      + apply closed_and; [apply closed_and; [apply closed_true|apply unit_closed]|].
        unfold placed, pt. apply closed_clear; conts.
    - apply Easy. apply closed_le; conts.
    - apply Easy. apply (closed_ext n _ (fun a => q_vx (S a) * rSin u - q_vy (S a) * rCos u = 0)).
      + intros a. unfold unit_rot in Pc. split.
        * intros (k & -> & ->). ring.
        * intros E. exists (q_vx (S a) * rCos u + q_vy (S a) * rSin u).
          assert (E' : q_vx (S a) * rSin u = q_vy (S a) * rCos u) by lra.
          split; [transitivity (q_vx (S a) * (rCos u * rCos u + rSin u * rSin u))|transitivity (q_vy (S a) * (rCos u * rCos u + rSin u * rSin u))];
            try (rewrite Pc; ring).
          -- transitivity (q_vx (S a) * rCos u * rCos u + (q_vx (S a) * rSin u) * rSin u); [ring|]. rewrite E'. ring.
          -- transitivity ((q_vy (S a) * rCos u) * rCos u + q_vy (S a) * rSin u * rSin u); [ring|]. rewrite <- E'. ring.
      + apply closed_eq; conts.
    - apply Easy. apply closed_le; conts.
    - apply Easy. apply closed_le; [|conts]. apply cont_mult; [conts|]. apply cont_dist2; conts.
    - apply Easy. apply closed_and; [apply closed_true|]. unfold placed, pt. apply closed_clear; conts.
    - apply Easy. unfold placed, pt. apply closed_le; [conts|]. apply cont_dist2; conts.
    - apply Easy. repeat first [apply closed_and | apply closed_or | apply closed_eq]; conts.
    - apply Easy. apply closed_and; apply closed_eq; conts.
  Qed.
End Demands.

(** ** Bounded on a set of assignments *)
Section Bounded.
  Context {X : Type} (A : X -> Prop).
  Definition bnd (f : X -> R) : Prop := exists B, forall a, A a -> Rabs (f a) <= B.
  Lemma bnd_le f B : (forall a, A a -> Rabs (f a) <= B) -> bnd f.
  Proof. intros H. exists B. exact H. Qed.
  Lemma bnd_ext f g : (forall a, A a -> f a = g a) -> bnd g -> bnd f.
  Proof. intros E (B & H). exists B. intros a Ha. rewrite E by assumption. auto. Qed.
  Lemma bnd_const k : bnd (fun _ => k).
  Proof. exists (Rabs k). intros. lra. Qed.
  Lemma bnd_plus f g : bnd f -> bnd g -> bnd (fun a => f a + g a).
  Proof.
    intros (B1 & H1) (B2 & H2). exists (B1 + B2). intros a Ha. specialize (H1 a Ha). specialize (H2 a Ha).
    pose proof (Rabs_triang (f a) (g a)). lra.
  Qed.
  Lemma bnd_opp f : bnd f -> bnd (fun a => - f a).
  Proof. intros (B & H). exists B. intros a Ha. rewrite Rabs_Ropp. auto. Qed.
  Lemma bnd_minus f g : bnd f -> bnd g -> bnd (fun a => f a - g a).
  Proof. intros F G. apply (bnd_plus f (fun a => - g a) F (bnd_opp g G)). Qed.
  Lemma bnd_mult f g : bnd f -> bnd g -> bnd (fun a => f a * g a).
  Proof.
    intros (B1 & H1) (B2 & H2). exists (B1 * B2). intros a Ha. specialize (H1 a Ha). specialize (H2 a Ha).
    rewrite Rabs_mult. pose proof (Rabs_pos (f a)). pose proof (Rabs_pos (g a)). nra.
  Qed.
  Lemma bnd_sum {Y} (l : list Y) (f : Y -> X -> R) : (forall y, In y l -> bnd (f y)) -> bnd (fun a => sum (map (fun y => f y a) l)).
  Proof.
    induction l as [|y l IH]; intros H; [exact (bnd_const 0)|]. cbn [map sum].
    apply bnd_plus; [apply H; left; reflexivity|]. apply IH. intros z Hz. apply H. right. exact Hz.
  Qed.
End Bounded.
Ltac bnds := repeat first [assumption | apply bnd_const | apply bnd_minus | apply bnd_plus | apply bnd_opp | apply bnd_mult].

Lemma combine_map_r : forall {A B C} (f : B -> C) (l : list A) (l' : list B),
  combine l (map f l') = map (fun p => (fst p, f (snd p))) (combine l l').
Proof. induction l as [|a l IH]; intros [|b l']; cbn [combine map]; try reflexivity. rewrite IH. reflexivity. Qed.

Lemma nth_le_sum : forall l, (forall x, In x l -> 0 <= x) -> forall x, In x l -> x <= sum l.
Proof.
  induction l as [|y l IH]; intros H x Hx; [destruct Hx|]. cbn [sum].
  assert (0 <= sum l).
  { clear - H. assert (G : forall x, In x l -> 0 <= x) by (intros; apply H; right; assumption). clear H.
    induction l as [|z l IH]; cbn [sum]; [lra|]. assert (0 <= z) by (apply G; left; reflexivity).
    assert (0 <= sum l) by (apply IH; intros; apply G; right; assumption). lra. }
  assert (0 <= y) by (apply H; left; reflexivity).
  destruct Hx as [<-|Hx]; [lra|]. assert (x <= sum l) by (apply IH; [intros; apply H; right; assumption|exact Hx]). lra.
Qed.

Lemma dt_length : forall (f : nat -> R) N,
  length (flat_map (fun s => repeat (f s) (nth s N 0%nat)) (seq 0 (length N))) = list_sum N.
Proof.
  intros f N. assert (G : forall n, length (flat_map (fun s => repeat (f s) (nth s N 0%nat)) (seq 0 n)) = list_sum (firstn n N)).
  { induction n as [|n IH]; [reflexivity|]. rewrite seq_S, flat_map_app, app_length, IH, list_sum_firstn_S.
    cbn [flat_map Nat.add]. rewrite app_nil_r, repeat_length. reflexivity. }
  rewrite G, firstn_all. reflexivity.
Qed.

Section Problem.
  Variables (d : drivetrain R) (N : list nat) (at_wpt to_wpt : nat -> list (constraint R)).
  Let T := (1 + list_sum N)%nat.
  Let m := length (d_modules d).
  Let n := (T * width m + length N)%nat.
  Hypothesis Pos : forall k, In k N -> (1 <= k)%nat.
  Hypothesis Pa : forall w c, In c (at_wpt w) -> proper_constraint c.
  Hypothesis Pt : forall w c, In c (to_wpt w) -> proper_constraint c.
  Let sol (env : nat -> R) := read_solution T m N env.

  Definition good (env : nat -> R) : Prop :=
    headings_unit N (sol env) /\ obeys_physics turns_up_to_half d N (sol env) /\ meets_requests N (sol env) at_wpt to_wpt.

  Lemma sv_cont : forall i q, (i <= last_sample N)%nat -> (q < width m)%nat -> cont n (fun env => env (i * width m + q)%nat).
  Proof. intros i q Hi Hq. apply cont_var. unfold n, T, last_sample in *. nia. Qed.

  Lemma samples : forall env i, (i <= last_sample N)%nat -> at_sample (sol env) i =
    mkState (env (i * width m + 0)%nat) (env (i * width m + 1)%nat)
      (env (i * width m + 2)%nat) (env (i * width m + 3)%nat) (env (i * width m + 4)%nat)
      (env (i * width m + 5)%nat) (env (i * width m + 6)%nat) (env (i * width m + 7)%nat)
      (env (i * width m + 8)%nat) (env (i * width m + 9)%nat).
  Proof. intros. apply sample_val. unfold T, last_sample in *. lia. Qed.

  Section Sample.
    Variable i : nat.
    Hypothesis Hi : (i <= last_sample N)%nat.
    Let S env := at_sample (sol env) i.
    Ltac comp q := apply (cont_ext n _ (fun env => env (i * width m + q)%nat));
      [intros env; unfold S; rewrite samples by assumption; reflexivity|apply sv_cont; [assumption|unfold width; lia]].
    Lemma c_x : cont n (fun env => q_x (at_sample (sol env) i)). Proof. comp 0%nat. Qed.
    Lemma c_y : cont n (fun env => q_y (at_sample (sol env) i)). Proof. comp 1%nat. Qed.
    Lemma c_c : cont n (fun env => q_c (at_sample (sol env) i)). Proof. comp 2%nat. Qed.
    Lemma c_s : cont n (fun env => q_s (at_sample (sol env) i)). Proof. comp 3%nat. Qed.
    Lemma c_vx : cont n (fun env => q_vx (at_sample (sol env) i)). Proof. comp 4%nat. Qed.
    Lemma c_vy : cont n (fun env => q_vy (at_sample (sol env) i)). Proof. comp 5%nat. Qed.
    Lemma c_w : cont n (fun env => q_w (at_sample (sol env) i)). Proof. comp 6%nat. Qed.
    Lemma c_ax : cont n (fun env => q_ax (at_sample (sol env) i)). Proof. comp 7%nat. Qed.
    Lemma c_ay : cont n (fun env => q_ay (at_sample (sol env) i)). Proof. comp 8%nat. Qed.
    Lemma c_al : cont n (fun env => q_al (at_sample (sol env) i)). Proof. comp 9%nat. Qed.

    Definition fx (env : nat -> R) (j : nat) : R := env (i * width m + (10 + 2 * j))%nat.
    Definition fy (env : nat -> R) (j : nat) : R := env (i * width m + (11 + 2 * j))%nat.
    Lemma forces_at : forall env, forces (sol env) i = map (fun j => (fx env j, fy env j)) (seq 0 m).
    Proof. intros env. unfold sol. rewrite forces_val; [reflexivity|]. unfold T, last_sample in *. lia. Qed.
    Lemma c_fx : forall j, (j < m)%nat -> cont n (fun env => fx env j).
    Proof. intros j Hj. apply sv_cont; [exact Hi|unfold width; lia]. Qed.
    Lemma c_fy : forall j, (j < m)%nat -> cont n (fun env => fy env j).
    Proof. intros j Hj. apply sv_cont; [exact Hi|unfold width; lia]. Qed.

    Hint Resolve c_x c_y c_c c_s c_vx c_vy c_w c_ax c_ay c_al : cs.
    Lemma sample_demands : forall c, proper_constraint c ->
      closed n (fun env => unit_heading (S env) /\ demands (S env) c).
    Proof. intros c Pc. apply demands_closed; auto with cs. Qed.
    Lemma sample_unit : closed n (fun env => unit_heading (S env)).
    Proof. apply (unit_closed n S); auto with cs. Qed.

    Lemma pairs : forall p : swerve_module R * nat, In p (combine (d_modules d) (seq 0 m)) -> (snd p < m)%nat.
    Proof. intros (md & j) H. apply in_combine_r in H. apply in_seq in H. cbn [snd]. lia. Qed.

    Lemma newton_shape : forall env, newton d (S env) (forces (sol env) i) <->
      sum (map (fx env) (seq 0 m)) = d_mass d * q_ax (S env) /\
      sum (map (fy env) (seq 0 m)) = d_mass d * q_ay (S env) /\
      sum (map (fun p : swerve_module R * nat =>
                  cross2 (turned (S env) (m_translation (fst p))) (fx env (snd p), fy env (snd p)))
             (combine (d_modules d) (seq 0 m))) = d_moi d * q_al (S env).
    Proof.
      intros env. unfold newton. rewrite forces_at, combine_map_r, !map_map. cbn [fst snd]. reflexivity.
    Qed.
    Lemma within_shape : forall env, forces_within d (forces (sol env) i) <->
      forall p : swerve_module R * nat, In p (combine (d_modules d) (seq 0 m)) ->
        norm2 (fx env (snd p), fy env (snd p)) <= m_wheelMaxTorque (fst p) / m_wheelRadius (fst p).
    Proof.
      intros env. unfold forces_within. rewrite forces_at, combine_map_r. split.
      - intros H p Hp. apply (H (fst p)). apply in_map_iff. exists p. auto.
      - intros H md f Hf. apply in_map_iff in Hf. destruct Hf as (p & E & Hp). injection E as <- <-. apply H, Hp.
    Qed.

    Lemma sample_dynamics : closed n (fun env => newton d (S env) (forces (sol env) i) /\
       wheels_within d (S env) /\ forces_within d (forces (sol env) i)).
    Proof.
      apply closed_and; [|apply closed_and].
      - apply (closed_ext n _ _ newton_shape). apply closed_and; [|apply closed_and].
        + apply closed_eq; [|conts; apply c_ax].
          apply (cont_sum n (seq 0 m) (fun j env => fx env j)). intros j Hj. apply in_seq in Hj. apply c_fx. lia.
        + apply closed_eq; [|conts; apply c_ay].
          apply (cont_sum n (seq 0 m) (fun j env => fy env j)). intros j Hj. apply in_seq in Hj. apply c_fy. lia.
        + apply closed_eq; [|conts; apply c_al].
          apply (cont_sum n _ (fun (p : swerve_module R * nat) env => cross2 (turned (S env) (m_translation (fst p))) (fx env (snd p), fy env (snd p)))).
          intros p Hp. apply pairs in Hp. pose proof (c_fx _ Hp). pose proof (c_fy _ Hp). pose proof c_c. pose proof c_s.
          unfold cross2, turned, S. cbn [fst snd]. conts.
      - unfold wheels_within. apply closed_all. intros md. apply closed_imp. intros _.
        pose proof c_c. pose proof c_s. pose proof c_vx. pose proof c_vy. pose proof c_w.
        apply closed_le; [|conts]. unfold wheel_velocity, S. conts.
      - apply (closed_ext n _ _ within_shape). apply closed_all. intros p. apply closed_imp. intros Hp. apply pairs in Hp.
        pose proof (c_fx _ Hp). pose proof (c_fy _ Hp). apply closed_le; conts.
    Qed.
  End Sample.

  Lemma steps : forall i, (1 <= i <= last_sample N)%nat -> exists s, (s < length N)%nat /\
    forall env, step_to (sol env) i = env (T * width m + s)%nat.
  Proof.
    intros i Hi. destruct (locate N i Hi) as (s & k & Hs & Hk & ->). exists s. split; [exact Hs|].
    intros env. apply (step_val env T m N eq_refl); assumption.
  Qed.
  Lemma c_dt : forall i, (1 <= i <= last_sample N)%nat -> cont n (fun env => step_to (sol env) i).
  Proof.
    intros i Hi. destruct (steps i Hi) as (s & Hs & E). apply (cont_ext n _ _ E). apply cont_var. unfold n. lia.
  Qed.
  Lemma steps_of : forall s, (s < length N)%nat -> exists i, (1 <= i <= last_sample N)%nat /\
    forall env, step_to (sol env) i = env (T * width m + s)%nat.
  Proof.
    intros s Hs. assert (K : (1 <= nth s N 0)%nat) by (apply Pos, nth_In, Hs).
    exists (1 + start N s + 0)%nat. split; [|intros env; apply (step_val env T m N eq_refl); [exact Hs|lia]].
    unfold last_sample, start. pose proof (list_sum_firstn_le N (S s)). pose proof (list_sum_firstn_S N s). lia.
  Qed.

  Lemma good_closed : closed n good.
  Proof.
    apply (closed_ext n _ (fun env =>
      (forall i, (i <= last_sample N)%nat -> unit_heading (at_sample (sol env) i)) /\
      obeys_physics turns_up_to_half d N (sol env) /\
      ((forall w c, (w <= length N)%nat -> In c (at_wpt w) ->
          unit_heading (at_sample (sol env) (waypoint_sample N w)) /\ demands (at_sample (sol env) (waypoint_sample N w)) c) /\
       (forall w c i, (1 <= w <= length N)%nat -> In c (to_wpt w) ->
          (waypoint_sample N (w - 1) < i <= waypoint_sample N w)%nat ->
          unit_heading (at_sample (sol env) i) /\ demands (at_sample (sol env) i) c)))).
    - assert (WL : forall w, (waypoint_sample N w <= last_sample N)%nat) by (intros w; apply list_sum_firstn_le).
      intros env. unfold good, headings_unit, meets_requests. split.
      + intros (U & P & M1 & M2). split; [exact U|]. split; [exact P|]. split.
        * intros w c Hw Hc. split; [apply U, WL|apply M1; assumption].
        * intros w c i Hw Hc Hi. split; [apply U; specialize (WL w); lia|apply (M2 w); assumption].
      + intros (U & P & M1 & M2). split; [exact U|]. split; [exact P|]. split.
        * intros w c Hw Hc. apply M1; assumption.
        * intros w c i Hw Hc Hi. apply (M2 w); assumption.
    - apply closed_and; [|apply closed_and; [|apply closed_and]].
      + apply closed_all. intros i. apply closed_imp. intros Hi. apply sample_unit, Hi.
      + unfold obeys_physics. cbv zeta. apply closed_and.
        * apply closed_all. intros i. apply closed_imp. intros Hi.
          assert (H1 : (i - 1 <= last_sample N)%nat) by lia. assert (H2 : (i <= last_sample N)%nat) by lia.
          pose proof (c_dt i Hi).
          pose proof (c_x _ H1). pose proof (c_y _ H1). pose proof (c_c _ H1). pose proof (c_s _ H1). pose proof (c_vx _ H1). pose proof (c_vy _ H1). pose proof (c_w _ H1).
          pose proof (c_x _ H2). pose proof (c_y _ H2). pose proof (c_c _ H2). pose proof (c_s _ H2). pose proof (c_vx _ H2). pose proof (c_vy _ H2). pose proof (c_w _ H2).
          pose proof (c_ax _ H2). pose proof (c_ay _ H2). pose proof (c_al _ H2).
          apply closed_and; [|apply closed_and; [|apply closed_and]].
          -- unfold step_within. apply closed_and; [apply closed_le; conts|].
             apply closed_all; intros md. apply closed_all; intros a. apply closed_all; intros b.
             apply closed_imp; intros _. apply closed_imp; intros _.
             apply closed_and; apply closed_imp; intros _; apply closed_le; conts.
          -- unfold moves. apply closed_and; apply closed_eq; conts.
          -- unfold turns_up_to_half. cbv zeta. apply closed_or; apply closed_and; apply closed_eq; conts.
          -- unfold accelerates. apply closed_and; [|apply closed_and]; apply closed_eq; conts.
        * apply closed_all. intros i. apply closed_imp. intros Hi. apply sample_dynamics, Hi.
      + apply closed_all; intros w. apply closed_all; intros c. apply closed_imp; intros Hw. apply closed_imp; intros Hc.
        apply sample_demands; [apply list_sum_firstn_le|exact (Pa w c Hc)].
      + apply closed_all; intros w. apply closed_all; intros c. apply closed_all; intros i.
        apply closed_imp; intros Hw. apply closed_imp; intros Hc. apply closed_imp; intros Hi.
        apply sample_demands; [|exact (Pt w c Hc)].
        assert (waypoint_sample N w <= last_sample N)%nat by apply list_sum_firstn_le. lia.
  Qed.

  (** ** Total time *)
  Definition total (env : nat -> R) : R := sum (s_dt (sol env)).
  Lemma total_cont : cont n total.
  Proof.
    unfold total, sol, read_solution. cbn [s_dt].
    assert (G : forall l, (forall s, In s l -> (s < length N)%nat) ->
      cont n (fun env : nat -> R => sum (flat_map (fun s => repeat (env (T * width m + s)%nat) (nth s N 0%nat)) l))).
    { induction l as [|s l IH]; intros H; [exact (cont_const n 0)|]. cbn [flat_map].
      apply (cont_ext n _ (fun env => sum (repeat (env (T * width m + s)%nat) (nth s N 0%nat)) +
        sum (flat_map (fun s => repeat (env (T * width m + s)%nat) (nth s N 0%nat)) l))).
      { intros env. apply sum_app. }
      apply cont_plus; [|apply IH; intros; apply H; right; assumption].
      generalize (nth s N 0%nat). intros k. induction k as [|k IHk]; [exact (cont_const n 0)|]. cbn [repeat sum].
      apply cont_plus; [|exact IHk]. apply cont_var. specialize (H s (or_introl eq_refl)). unfold n. lia. }
    apply G. intros s Hs. apply in_seq in Hs. lia.
  Qed.

  Lemma dt_in : forall env x, In x (s_dt (sol env)) -> exists i, (1 <= i <= last_sample N)%nat /\ x = step_to (sol env) i.
  Proof.
    intros env x Hx. apply (In_nth _ _ 0) in Hx. destruct Hx as (k & Hk & E). exists (S k).
    assert (L : length (s_dt (sol env)) = last_sample N).
    { unfold sol, read_solution. cbn [s_dt]. apply (dt_length (fun s => env (T * width m + s)%nat)). }
    split; [lia|]. unfold step_to. cbn. rewrite Nat.sub_0_r. symmetry. exact E.
  Qed.
  Lemma good_dt : forall env, good env -> forall x, In x (s_dt (sol env)) -> 0 <= x.
  Proof.
    intros env (_ & (P & _) & _) x Hx. destruct (dt_in env x Hx) as (i & Hi & ->). destruct (P i Hi) as ((L & _) & _). exact L.
  Qed.
  Lemma good_total : forall env, good env -> 0 <= total env.
  Proof.
    intros env G. unfold total. pose proof (good_dt env G) as H. revert H. generalize (s_dt (sol env)).
    induction l as [|x l IH]; intros H; cbn [sum]; [lra|]. assert (0 <= x) by (apply H; left; reflexivity).
    assert (0 <= sum l) by (apply IH; intros; apply H; right; assumption). lra.
  Qed.

  (** ** Every variable is bounded *)
  Section Bounds.
    Variables (M : R) (k0 : nat) (x0 y0 : R) (m1 m2 : swerve_module R).
    Hypothesis Mass : 0 < d_mass d.
    Hypothesis Moi : 0 < d_moi d.
    Hypothesis I1 : In m1 (d_modules d).
    Hypothesis I2 : In m2 (d_modules d).
    Hypothesis Apart : m_translation m1 <> m_translation m2.
    Hypothesis K0 : (k0 <= last_sample N)%nat.
    Let A env := good env /\ total env <= M.
    Hypothesis Pin : forall env, good env -> q_x (at_sample (sol env) k0) = x0 /\ q_y (at_sample (sol env) k0) = y0.
    Notation S i := (fun env => at_sample (sol env) i).

    Lemma b_dt : forall i, (1 <= i <= last_sample N)%nat -> bnd A (fun env => step_to (sol env) i).
    Proof.
      intros i Hi. apply (bnd_le A _ M). intros env (G & L). destruct G as (U & (P & Q) & R) eqn:EG. clear EG.
      destruct (P i Hi) as ((D0 & _) & _). rewrite Rabs_right by lra.
      apply Rle_trans with (total env); [|exact L]. unfold total. apply nth_le_sum.
      - apply good_dt. split; [exact U|]. split; [split; assumption|exact R].
      - unfold step_to. apply nth_In.
        assert (E : length (s_dt (sol env)) = last_sample N) by (unfold sol, read_solution; cbn [s_dt]; apply (dt_length (fun s => env (T * width m + s)%nat))). lia.
    Qed.

    Section At.
      Variable i : nat.
      Hypothesis Hi : (i <= last_sample N)%nat.
      Lemma b_c : bnd A (fun env => q_c (S i env)).
      Proof. apply (bnd_le A _ 1). intros env ((U & _) & _). specialize (U i Hi). unfold unit_heading in U. apply Rabs_le. nra. Qed.
      Lemma b_s : bnd A (fun env => q_s (S i env)).
      Proof. apply (bnd_le A _ 1). intros env ((U & _) & _). specialize (U i Hi). unfold unit_heading in U. apply Rabs_le. nra. Qed.
      Lemma b_wheel : forall md, In md (d_modules d) ->
        bnd A (fun env => fst (wheel_velocity (S i env) (m_translation md))) /\
        bnd A (fun env => snd (wheel_velocity (S i env) (m_translation md))).
      Proof.
        intros md Hm. split; apply (bnd_le A _ (m_wheelRadius md * m_wheelMaxAngularVelocity md));
          intros env ((_ & (_ & Q) & _) & _); destruct (Q i Hi) as (_ & W & _); specialize (W md Hm);
          destruct (wheel_velocity (at_sample (sol env) i) (m_translation md)) as (u & v); cbn [fst snd];
          (eapply Rle_trans; [|exact W]); [apply norm2_ge_x|apply norm2_ge_y].
      Qed.
      Lemma b_w : bnd A (fun env => q_w (S i env)).
      Proof.
        destruct (b_wheel m1 I1) as (X1 & Y1). destruct (b_wheel m2 I2) as (X2 & Y2). unfold wheel_velocity in *. cbn [fst snd] in *.
        destruct (Req_dec (tX (m_translation m1)) (tX (m_translation m2))) as [Ex|Nx].
        - assert (Ny : tY (m_translation m1) - tY (m_translation m2) <> 0).
          { intros E. apply Apart. destruct (m_translation m1) as [a1 b1], (m_translation m2) as [a2 b2]. cbn [tX tY] in *. f_equal; lra. }
          eapply bnd_ext; [|apply (bnd_mult A _ _ (bnd_const A (/ (tY (m_translation m1) - tY (m_translation m2)))) (bnd_minus A _ _ X2 X1))].
          intros env _. cbn beta. field. exact Ny.
        - assert (Nx' : tX (m_translation m1) - tX (m_translation m2) <> 0) by lra.
          eapply bnd_ext; [|apply (bnd_mult A _ _ (bnd_const A (/ (tX (m_translation m1) - tX (m_translation m2)))) (bnd_minus A _ _ Y1 Y2))].
          intros env _. cbn beta. field. exact Nx'.
      Qed.
      Lemma b_along : bnd A (fun env => q_vx (S i env) * q_c (S i env) + q_vy (S i env) * q_s (S i env)) /\
        bnd A (fun env => q_vy (S i env) * q_c (S i env) - q_vx (S i env) * q_s (S i env)).
      Proof.
        destruct (b_wheel m1 I1) as (X1 & Y1). pose proof b_w as W. unfold wheel_velocity in *. cbn [fst snd] in *. split.
        - eapply bnd_ext; [|apply (bnd_plus A _ _ X1 (bnd_mult A _ _ (bnd_const A (tY (m_translation m1))) W))]. intros env _. cbn beta. ring.
        - eapply bnd_ext; [|apply (bnd_minus A _ _ Y1 (bnd_mult A _ _ (bnd_const A (tX (m_translation m1))) W))]. intros env _. cbn beta. ring.
      Qed.
      Lemma b_vx : bnd A (fun env => q_vx (S i env)).
      Proof.
        destruct b_along as (P & Q). eapply bnd_ext; [|apply (bnd_minus A _ _ (bnd_mult A _ _ P b_c) (bnd_mult A _ _ Q b_s))].
        intros env ((U & _) & _). specialize (U i Hi). unfold unit_heading in U. cbn beta. set (s := at_sample (sol env) i) in *.
        transitivity (q_vx s * (q_c s * q_c s + q_s s * q_s s)); [rewrite U; ring|ring].
      Qed.
      Lemma b_vy : bnd A (fun env => q_vy (S i env)).
      Proof.
        destruct b_along as (P & Q). eapply bnd_ext; [|apply (bnd_plus A _ _ (bnd_mult A _ _ P b_s) (bnd_mult A _ _ Q b_c))].
        intros env ((U & _) & _). specialize (U i Hi). unfold unit_heading in U. cbn beta. set (s := at_sample (sol env) i) in *.
        transitivity (q_vy s * (q_c s * q_c s + q_s s * q_s s)); [rewrite U; ring|ring].
      Qed.
      Lemma b_f : forall j, (j < m)%nat -> bnd A (fun env => fx i env j) /\ bnd A (fun env => fy i env j).
      Proof.
        intros j Hj. set (md := nth j (d_modules d) m1).
        assert (Hp : In (md, j) (combine (d_modules d) (seq 0 m))).
        { replace (md, j) with (nth j (combine (d_modules d) (seq 0 m)) (m1, 0%nat)).
          - apply nth_In. rewrite combine_length, seq_length. fold m. lia.
          - rewrite List.combine_nth by (rewrite seq_length; reflexivity). rewrite seq_nth by exact Hj. reflexivity. }
        split; apply (bnd_le A _ (m_wheelMaxTorque md / m_wheelRadius md)); intros env ((_ & (_ & Q) & _) & _);
          destruct (Q i Hi) as (_ & _ & F); pose proof (proj1 (within_shape i Hi env) F _ Hp) as G; cbn [fst snd] in G;
          (eapply Rle_trans; [|exact G]); [apply norm2_ge_x|apply norm2_ge_y].
      Qed.
      Lemma b_ax : bnd A (fun env => q_ax (S i env)).
      Proof.
        apply (bnd_ext A _ (fun env => / d_mass d * sum (map (fun j => fx i env j) (seq 0 m)))).
        - intros env ((_ & (_ & Q) & _) & _). destruct (Q i Hi) as (F & _). apply (newton_shape i Hi) in F. destruct F as (F & _).
          change (map (fun j => fx i env j) (seq 0 m)) with (map (fx i env) (seq 0 m)). rewrite F. field. lra.
        - apply bnd_mult; [apply bnd_const|]. apply (bnd_sum A (seq 0 m) (fun j env => fx i env j)).
          intros j Hj. apply in_seq in Hj. apply b_f. lia.
      Qed.
      Lemma b_ay : bnd A (fun env => q_ay (S i env)).
      Proof.
        apply (bnd_ext A _ (fun env => / d_mass d * sum (map (fun j => fy i env j) (seq 0 m)))).
        - intros env ((_ & (_ & Q) & _) & _). destruct (Q i Hi) as (F & _). apply (newton_shape i Hi) in F. destruct F as (_ & F & _).
          change (map (fun j => fy i env j) (seq 0 m)) with (map (fy i env) (seq 0 m)). rewrite F. field. lra.
        - apply bnd_mult; [apply bnd_const|]. apply (bnd_sum A (seq 0 m) (fun j env => fy i env j)).
          intros j Hj. apply in_seq in Hj. apply b_f. lia.
      Qed.
      Lemma b_al : bnd A (fun env => q_al (S i env)).
      Proof.
        apply (bnd_ext A _ (fun env => / d_moi d * sum (map (fun p : swerve_module R * nat =>
                  cross2 (turned (S i env) (m_translation (fst p))) (fx i env (snd p), fy i env (snd p)))
             (combine (d_modules d) (seq 0 m))))).
        - intros env ((_ & (_ & Q) & _) & _). destruct (Q i Hi) as (F & _). apply (newton_shape i Hi) in F. destruct F as (_ & _ & F).
          rewrite F. field. lra.
        - apply bnd_mult; [apply bnd_const|].
          apply (bnd_sum A (combine (d_modules d) (seq 0 m)) (fun (p : swerve_module R * nat) env =>
            cross2 (turned (S i env) (m_translation (fst p))) (fx i env (snd p), fy i env (snd p)))).
          intros p Hp. apply (pairs i Hi) in Hp. destruct (b_f _ Hp). pose proof b_c. pose proof b_s.
          unfold cross2, turned. cbn [fst snd]. bnds.
      Qed.
    End At.

    Lemma b_xy : forall i, (i <= last_sample N)%nat -> bnd A (fun env => q_x (S i env)) /\ bnd A (fun env => q_y (S i env)).
    Proof.
      assert (Fwd : forall j, (k0 + j <= last_sample N)%nat -> bnd A (fun env => q_x (S (k0 + j)%nat env)) /\ bnd A (fun env => q_y (S (k0 + j)%nat env))).
      { induction j as [|j IH]; intros Hj.
        - rewrite Nat.add_0_r. split; [apply (bnd_ext A _ (fun _ => x0))|apply (bnd_ext A _ (fun _ => y0))]; try apply bnd_const;
            intros env (G & _); apply Pin, G.
        - destruct (IH ltac:(lia)) as (X & Y). set (i := (k0 + Datatypes.S j)%nat) in *.
          assert (E : (k0 + j = i - 1)%nat) by (unfold i; lia). rewrite E in X, Y.
          pose proof (b_dt i ltac:(unfold i; lia)). pose proof (b_vx i Hj). pose proof (b_vy i Hj).
          split.
          + apply (bnd_ext A _ (fun env => q_x (S (i - 1)%nat env) + q_vx (S i env) * step_to (sol env) i)); [|bnds].
            intros env ((_ & (P & _) & _) & _). destruct (P i ltac:(unfold i; lia)) as (_ & (F & _) & _). exact F.
          + apply (bnd_ext A _ (fun env => q_y (S (i - 1)%nat env) + q_vy (S i env) * step_to (sol env) i)); [|bnds].
            intros env ((_ & (P & _) & _) & _). destruct (P i ltac:(unfold i; lia)) as (_ & (_ & F) & _). exact F. }
      assert (Bwd : forall j, (j <= k0)%nat -> bnd A (fun env => q_x (S (k0 - j)%nat env)) /\ bnd A (fun env => q_y (S (k0 - j)%nat env))).
      { induction j as [|j IH]; intros Hj.
        - specialize (Fwd 0%nat ltac:(lia)). rewrite Nat.add_0_r in Fwd. rewrite Nat.sub_0_r. exact Fwd.
        - destruct (IH ltac:(lia)) as (X & Y). set (i := (k0 - j)%nat) in *.
          assert (E : (k0 - Datatypes.S j = i - 1)%nat) by (unfold i; lia). rewrite E.
          assert (Hi : (i <= last_sample N)%nat) by (unfold i; lia). assert (Hi1 : (1 <= i <= last_sample N)%nat) by (unfold i; lia).
          pose proof (b_dt i Hi1). pose proof (b_vx i Hi). pose proof (b_vy i Hi).
          split.
          + apply (bnd_ext A _ (fun env => q_x (S i env) - q_vx (S i env) * step_to (sol env) i)); [|bnds].
            intros env ((_ & (P & _) & _) & _). destruct (P i Hi1) as (_ & (F & _) & _). cbn beta. lra.
          + apply (bnd_ext A _ (fun env => q_y (S i env) - q_vy (S i env) * step_to (sol env) i)); [|bnds].
            intros env ((_ & (P & _) & _) & _). destruct (P i Hi1) as (_ & (_ & F) & _). cbn beta. lra. }
      intros i Hi. destruct (le_lt_dec k0 i).
      - replace i with (k0 + (i - k0))%nat by lia. apply Fwd. lia.
      - replace i with (k0 - (k0 - i))%nat by lia. apply Bwd. lia.
    Qed.

    Lemma variables_bounded : forall v, (v < n)%nat -> bnd A (fun env => env v).
    Proof.
      intros v Hv. destruct (le_lt_dec (T * width m) v) as [Hd|Hs].
      - destruct (steps_of (v - T * width m)) as (i & Hi & E); [unfold n in Hv; lia|].
        eapply bnd_ext; [|apply (b_dt i Hi)]. intros env _. cbn beta. rewrite E. f_equal. lia.
      - assert (W : (width m <> 0)%nat) by (unfold width; lia).
        pose proof (Nat.div_mod v (width m) W) as E. pose proof (Nat.mod_upper_bound v (width m) W) as Q.
        set (i := (v / width m)%nat) in *. set (q := (v mod width m)%nat) in *.
        assert (Hi : (i <= last_sample N)%nat).
        { assert (i < T)%nat by (apply Nat.div_lt_upper_bound; [exact W|rewrite Nat.mul_comm; exact Hs]). unfold T, last_sample in *. lia. }
        rewrite Nat.mul_comm in E. rewrite E.
        assert (Comp : forall f : state -> R, (forall env, f (at_sample (sol env) i) = env (i * width m + q)%nat) ->
          bnd A (fun env => f (S i env)) -> bnd A (fun env => env (i * width m + q)%nat)).
        { intros f Ef B. eapply bnd_ext; [|exact B]. intros env _. symmetry. apply Ef. }
        destruct (le_lt_dec 10 q) as [Hf|Hq].
        + destruct (Nat.Even_or_Odd q) as [(j & Ej)|(j & Ej)].
          * destruct (b_f i Hi (j - 5)) as (B & _); [unfold width in Q; lia|]. eapply bnd_ext; [|exact B].
            intros env _. unfold fx. f_equal. lia.
          * destruct (b_f i Hi (j - 5)) as (_ & B); [unfold width in Q; lia|]. eapply bnd_ext; [|exact B].
            intros env _. unfold fy. f_equal. lia.
        + clearbody q. destruct q as [|[|[|[|[|[|[|[|[|[|q]]]]]]]]]].
          * apply (Comp q_x); [intros env; rewrite samples by exact Hi; reflexivity|apply b_xy, Hi].
          * apply (Comp q_y); [intros env; rewrite samples by exact Hi; reflexivity|apply b_xy, Hi].
          * apply (Comp q_c); [intros env; rewrite samples by exact Hi; reflexivity|apply b_c, Hi].
          * apply (Comp q_s); [intros env; rewrite samples by exact Hi; reflexivity|apply b_s, Hi].
          * apply (Comp q_vx); [intros env; rewrite samples by exact Hi; reflexivity|apply b_vx, Hi].
          * apply (Comp q_vy); [intros env; rewrite samples by exact Hi; reflexivity|apply b_vy, Hi].
          * apply (Comp q_w); [intros env; rewrite samples by exact Hi; reflexivity|apply b_w, Hi].
          * apply (Comp q_ax); [intros env; rewrite samples by exact Hi; reflexivity|apply b_ax, Hi].
          * apply (Comp q_ay); [intros env; rewrite samples by exact Hi; reflexivity|apply b_ay, Hi].
          * apply (Comp q_al); [intros env; rewrite samples by exact Hi; reflexivity|apply b_al, Hi].
          * lia.
    Qed.
  End Bounds.
End Problem.

Lemma C88_proof : forall asserts h handle d g k x y a m1 m2, good_history asserts h -> generator asserts h handle d g ->
  real_wheels d -> 0 < d_mass d -> 0 < d_moi d ->
  In m1 (d_modules d) -> In m2 (d_modules d) -> m_translation m1 <> m_translation m2 ->
  (forall n, In n (counts asserts h) -> (1 <= n)%nat) ->
  In (OPoseWpt k x y a) h -> (k <= length (counts asserts h))%nat ->
  (exists sol, solved g sol) ->
  exists best, solved g best /\ forall sol, solved g sol -> sum (s_dt best) <= sum (s_dt sol).
Proof.
  intros asserts h handle d g k x y a m1 m2 GH Gn W Mass Moi I1 I2 Ap Pos Ho Hk (s0 & S0).
  set (N := counts asserts h) in *. set (T := (1 + list_sum N)%nat). set (m := length (d_modules d)).
  assert (Rd : forall env, ConstructSwerveSolution g env = Ok (read_solution T m N env)).
  { destruct Gn as [C D]. apply (main_cons (path asserts h) handle g d (path_inv asserts h) C D). }
  assert (Pr : forall w c, In c (wpt_requests [] h w) \/ In c (sgmt_requests [] h w) -> proper_constraint c).
  { intros w c H. apply (good_proper asserts h GH w c). destruct (good_recorded asserts h GH w) as (E1 & E2). rewrite E1, E2. exact H. }
  assert (Iff : forall env, good d N (wpt_requests [] h) (sgmt_requests [] h) env <-> feasible env (g_problem g)).
  { intros env. rewrite (C15_proof asserts h handle d g GH Gn W Pos env _ (Rd env)). split.
    - intros (_ & H). exact H.
    - intros H. split; [|exact H].
      apply (C17_partial_proof asserts h handle d g _ k x y a GH Gn); [|exact Ho|exact Hk].
      exists env. split; [|apply Rd]. apply (C15_proof asserts h handle d g GH Gn W Pos env _ (Rd env)). exact H. }
  destruct (minimum (T * width m + length N) (good d N (wpt_requests [] h) (sgmt_requests [] h)) (total d N) 0) as (best & Gb & Lb).
  - apply good_closed; [intros w c H; apply (Pr w); left; exact H|intros w c H; apply (Pr w); right; exact H].
  - apply total_cont.
  - destruct S0 as (env & F & _). exists env. apply Iff, F.
  - intros env G. apply (good_total d N (wpt_requests [] h) (sgmt_requests [] h)), G.
  - intros M v Hv.
    destruct (variables_bounded d N (wpt_requests [] h) (sgmt_requests [] h) Pos M (waypoint_sample N k) x y m1 m2 Mass Moi I1 I2 Ap)
      with (v := v) as (B & HB).
    + apply list_sum_firstn_le.
    + intros env G.
      destruct (C28_solution_proof asserts h handle d g (read_solution T m N env) k x y a GH Gn) as (E1 & E2 & _); [|exact Ho|exact Hk|split; assumption].
      exists env. split; [apply Iff, G|apply Rd].
    + exact Hv.
    + exists B. intros env G L. apply HB. split; assumption.
  - exists (read_solution T m N best). split.
    + exists best. split; [apply Iff, Gb|apply Rd].
    + intros sol (env & F & E). rewrite Rd in E. injection E as <-. apply Lb. apply Iff, F.
Qed.

Lemma C88_objective_proof : forall asserts h handle d g k x y a m1 m2, good_history asserts h -> generator asserts h handle d g ->
  real_wheels d -> 0 < d_mass d -> 0 < d_moi d ->
  In m1 (d_modules d) -> In m2 (d_modules d) -> m_translation m1 <> m_translation m2 ->
  (forall n, In n (counts asserts h) -> (1 <= n)%nat) -> (forall n, In n (counts asserts h) -> (Z.of_nat n < 2 ^ 31)%Z) ->
  In (OPoseWpt k x y a) h -> (k <= length (counts asserts h))%nat ->
  (exists env, feasible env (g_problem g)) ->
  exists best e, pr_obj (g_problem g) = Some e /\ feasible best (g_problem g) /\
    forall env, feasible env (g_problem g) -> eval best e <= eval env e.
Proof.
  intros asserts h handle d g k x y a m1 m2 GH Gn W Mass Moi I1 I2 Ap Pos Sm Ho Hk (env0 & F0).
  assert (Rd : forall env, exists sol, ConstructSwerveSolution g env = Ok sol).
  { intros env. destruct Gn as [C D]. eexists. apply (main_cons (path asserts h) handle g d (path_inv asserts h) C D). }
  destruct (C88_proof asserts h handle d g k x y a m1 m2 GH Gn W Mass Moi I1 I2 Ap Pos Ho Hk) as (best & (eb & Fb & Eb) & Lb).
  { destruct (Rd env0) as (sol & E). exists sol, env0. auto. }
  destruct (C22_proof asserts h handle d g eb best Gn Eb Sm) as (e & _ & _ & O & _ & V & _).
  exists eb, e. split; [exact O|]. split; [exact Fb|]. intros env F. destruct (Rd env) as (sol & E).
  destruct (C22_proof asserts h handle d g env sol Gn E Sm) as (e' & _ & _ & O' & _ & V' & _).
  rewrite O in O'. injection O' as <-. rewrite V, V'. apply Lb. exists env. auto.
Qed.

Lemma C88_case_proof : exists g m1 m2, let h := errand ++ [OSetDrivetrain square_drive] in
  good_history true h /\ generator true h 7 square_drive g /\ real_wheels square_drive /\
  0 < d_mass square_drive /\ 0 < d_moi square_drive /\
  In m1 (d_modules square_drive) /\ In m2 (d_modules square_drive) /\ m_translation m1 <> m_translation m2 /\
  (forall n, In n (counts true h) -> (1 <= n)%nat) /\ (forall n, In n (counts true h) -> (Z.of_nat n < 2 ^ 31)%Z) /\
  In (OPoseWpt 1 1 0 1) h /\ (1 <= length (counts true h))%nat /\ solved g errand_solution.
Proof.
  destruct errand_case as (g & _ & Gd & G & _ & _ & _ & W & _ & _ & S).
  exists g. do 2 eexists. cbv zeta.
  split; [exact (last_good _ _ _ Gd)|].
  split; [exact G|]. split; [exact W|]. split; [simpl; lra|]. split; [simpl; lra|].
  split; [left; reflexivity|]. split; [right; left; reflexivity|].
  split; [intros E; injection E; intros; lra|].
  split; [intros n [<-|[]]; lia|]. split; [intros n [<-|[]]; reflexivity|].
  split; [right; left; reflexivity|]. split; [simpl; lia|exact S].
Qed.
