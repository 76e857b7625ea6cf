(** How well a robot that drives the plan keeps clear of obstacles (C122). *)
From Coq Require Import List Lia Lra Psatz Reals ZArith.
Import ListNotations.
From Verif Require Import Outcome Num NumR Geometry Expr Constraints Util Builder Guess Generator Trajectory
  Spec SpecBuilder SpecPhysics SpecTrajectory SpecGenerator SpecStep SpecObstacle SpecDrive SpecBetween SpecFollow Semantics
  GeneratorFacts GeneratorProofs SolutionProofs TrajectoryProofs GeneratorCases LimitProofs OrderProofs StepProofs
  DurationProofs DriveFacts DriveProofs DriveClaims PartsProofs PartsCases BetweenProofs.
Open Scope R_scope.

Lemma dist2_comm : forall p q, dist2 p q = dist2 q p.
Proof. intros p q. unfold dist2. f_equal. ring. Qed.
(** Two placements of the same point. *)
Lemma placed_apart : forall q a x y b p, heading_is q a ->
  dist2 (placed q p) (placed (mkState x y (cos b) (sin b) 0 0 0 0 0 0) p) <=
  dist2 (position q) (x, y) + norm2 (pt p) * Rabs (b - a).
Proof.
  intros q a x y b [px py] [HC HS].
  assert (U : cos a * cos a + sin a * sin a = 1) by (pose proof (sin2_cos2 a) as X; unfold Rsqr in X; lra).
  pose proof (turn_chord (cos a) (sin a) px py (b - a) U) as B.
  assert (EC : cos a * cos (b - a) - sin a * sin (b - a) = cos b) by (rewrite <- cos_plus; f_equal; ring).
  assert (ES : cos a * sin (b - a) + sin a * cos (b - a) = sin b).
  { replace (sin b) with (sin (a + (b - a))) by (f_equal; ring). rewrite sin_plus. ring. }
  rewrite EC, ES in B. rewrite !dist2_norm. unfold placed, position, pt. cbn [fst snd tX tY q_x q_y q_c q_s]. rewrite HC, HS.
  match type of B with norm2 (?u, ?v) <= _ =>
    pose proof (norm2_triangle (x - q_x q) (y - q_y q) u v) as T end.
  match goal with |- norm2 (?u, ?v) <= _ => match type of T with norm2 (?u', ?v') <= _ =>
    replace u with u' by ring; replace v with v' by ring end end.
  lra.
Qed.
Lemma placed_driving : forall m t p, placed (driving m t) p = placed (mkState (at_x m t) (at_y m t) (cos (at_angle m t)) (sin (at_angle m t)) 0 0 0 0 0 0) p.
Proof. reflexivity. Qed.

Lemma mix_abs : forall l x y m, 0 <= l <= 1 -> Rabs x <= m -> Rabs y <= m -> Rabs ((1 - l) * x + l * y) <= m.
Proof.
  intros l x y m Hl X Y. apply Rabs_le_inv in X, Y. apply Rabs_le. split; nra.
Qed.

Section Follow.
  Variables (asserts : bool) (h : list (op R)) (handle : Z) (d : drivetrain R) (g : gen R) (sol : solution R).
  Hypotheses (G : generator asserts h handle d g) (Sv : solved g sol).
  Let N := counts asserts h.

  Section Motion.
    Variables (n : nat) (m : motion).
    Hypotheses (Hn : (n <= last_sample N)%nat) (Dr : drives sol n m).

    Lemma turn_between : forall i t, (1 <= i <= n)%nat -> clock sol (i - 1) <= t <= clock sol i ->
      Rabs (at_w m t) <= faster_turn (at_sample sol (i - 1)) (at_sample sol i).
    Proof.
      intros i t Hi Ht. destruct (in_step asserts h handle d g sol G Sv n m Hn Dr i t Hi Ht) as (_ & _ & (A & _)). cbv zeta in A.
      destruct (velocity_met asserts h handle d g sol G Sv n m Hn Dr (i - 1) ltac:(lia)) as (_ & _ & E3). rewrite E3 in A.
      destruct (C16_steps_proof asserts h handle d g sol G Sv i ltac:(fold N; lia)) as [_ (_ & _ & AW)].
      set (p := at_sample sol (i - 1)) in *. set (q := at_sample sol i) in *.
      assert (S0 : clock sol i - clock sol (i - 1) = step_to sol i).
      { destruct i as [|i]; [lia|]. replace (S i - 1)%nat with i by lia. rewrite clock_S. ring. }
      set (s := t - clock sol (i - 1)) in *. set (dt := step_to sol i) in *.
      assert (Hs : 0 <= s <= dt) by (unfold s; lra).
      unfold faster_turn. rewrite A. destruct (Req_dec dt 0) as [Z|Z].
      { replace s with 0 by lra. replace (q_w p + q_al q * 0) with (q_w p) by ring. apply Rmax_l. }
      assert (L : 0 <= s / dt <= 1).
      { split; [apply Rmult_le_pos; [lra|left; apply Rinv_0_lt_compat; lra]|]. apply (Rmult_le_reg_r dt); [lra|].
        replace (s / dt * dt) with s by (field; exact Z). lra. }
      set (l := s / dt) in *.
      replace (q_w p + q_al q * s) with ((1 - l) * q_w p + l * q_w q) by (rewrite AW; unfold l; field; exact Z).
      apply mix_abs; [exact L|apply Rmax_l|apply Rmax_r].
    Qed.

    (** What is driven between two moments of a step is driven at the velocity halfway. *)
    Lemma halfway : forall i t u, (1 <= i <= n)%nat -> clock sol (i - 1) <= t <= clock sol i -> clock sol (i - 1) <= u <= clock sol i ->
      at_x m u - at_x m t = (u - t) * at_vx m ((t + u) / 2) /\ at_y m u - at_y m t = (u - t) * at_vy m ((t + u) / 2) /\
      at_angle m u - at_angle m t = (u - t) * at_w m ((t + u) / 2).
    Proof.
      intros i t u Hi Ht Hu.
      destruct (in_step asserts h handle d g sol G Sv n m Hn Dr i t Hi Ht) as ((_ & A1) & (_ & A2) & (_ & A3)).
      destruct (in_step asserts h handle d g sol G Sv n m Hn Dr i u Hi Hu) as ((_ & B1) & (_ & B2) & (_ & B3)).
      destruct (in_step asserts h handle d g sol G Sv n m Hn Dr i ((t + u) / 2) Hi ltac:(lra)) as ((C1 & _) & (C2 & _) & (C3 & _)).
      cbv zeta in *. rewrite A1, A2, A3, B1, B2, B3, C1, C2, C3. repeat split; field.
    Qed.
    Lemma stretch : forall i t u, (1 <= i <= n)%nat -> clock sol (i - 1) <= t <= clock sol i -> clock sol (i - 1) <= u <= clock sol i ->
      dist2 (spot m t) (spot m u) <= faster (at_sample sol (i - 1)) (at_sample sol i) * Rabs (u - t) /\
      Rabs (at_angle m u - at_angle m t) <= faster_turn (at_sample sol (i - 1)) (at_sample sol i) * Rabs (u - t).
    Proof.
      intros i t u Hi Ht Hu. destruct (halfway i t u Hi Ht Hu) as (X & Y & A).
      pose proof (speed_between asserts h handle d g sol G Sv n m Hn Dr i ((t + u) / 2) Hi ltac:(lra)) as V.
      pose proof (turn_between i ((t + u) / 2) Hi ltac:(lra)) as W. pose proof (Rabs_pos (u - t)) as P. split.
      - rewrite dist2_norm. unfold spot. cbn [fst snd]. rewrite X, Y, norm2_scale, Rmult_comm.
        apply Rmult_le_compat_r; [exact P|exact V].
      - rewrite A, Rabs_mult, Rmult_comm. apply Rmult_le_compat_r; assumption.
    Qed.

    Lemma follow_point : heading_is (at_sample sol 0) (at_angle m 0) -> turns_throughout sol n ->
      forall i t j, (1 <= i <= n)%nat -> clock sol (i - 1) <= t <= clock sol i -> (j = i - 1 \/ j = i)%nat ->
      forall p, dist2 (placed (at_sample sol j) p) (placed (driving m t) p) <=
        norm2 (lag q_vx sol j, lag q_vy sol j) + norm2 (pt p) * Rabs (lag q_w sol j) +
        (faster (at_sample sol (i - 1)) (at_sample sol i) + norm2 (pt p) * faster_turn (at_sample sol (i - 1)) (at_sample sol i))
          * Rabs (t - clock sol j).
    Proof.
      intros H0 T i t j Hi Ht Hj p.
      assert (Cm : clock sol (i - 1) <= clock sol i) by lra.
      assert (Hc : clock sol (i - 1) <= clock sol j <= clock sol i) by (destruct Hj as [->| ->]; lra).
      assert (Ln : (j <= n)%nat) by lia.
      destruct (offsets asserts h handle d g sol G Sv n m Hn Dr j Ln) as [X Y].
      pose proof (angles asserts h handle d g sol G Sv n m Hn Dr H0 T j Ln) as A.
      destruct (stretch i (clock sol j) t Hi Hc Ht) as [S1 S2].
      rewrite placed_driving. eapply Rle_trans; [apply (placed_apart _ _ _ _ _ p A)|].
      pose proof (dist2_tri (position (at_sample sol j)) (spot m (clock sol j)) (spot m t)) as T1.
      assert (E1 : dist2 (position (at_sample sol j)) (spot m (clock sol j)) = norm2 (lag q_vx sol j, lag q_vy sol j)).
      { rewrite dist2_norm. unfold position, spot. cbn [fst snd]. rewrite X, Y.
        replace (q_x (at_sample sol j) - lag q_vx sol j - q_x (at_sample sol j)) with (-1 * lag q_vx sol j) by ring.
        replace (q_y (at_sample sol j) - lag q_vy sol j - q_y (at_sample sol j)) with (-1 * lag q_vy sol j) by ring.
        rewrite norm2_scale, Rabs_left by lra. ring. }
      assert (E2 : Rabs (at_angle m t - (at_angle m (clock sol j) + lag q_w sol j)) <=
                   Rabs (at_angle m t - at_angle m (clock sol j)) + Rabs (lag q_w sol j)).
      { replace (at_angle m t - (at_angle m (clock sol j) + lag q_w sol j))
          with ((at_angle m t - at_angle m (clock sol j)) + - lag q_w sol j) by ring.
        eapply Rle_trans; [apply Rabs_triang|]. rewrite Rabs_Ropp. lra. }
      pose proof (norm2_pos (pt p)) as P.
      pose proof (Rmult_le_compat_l _ _ _ P E2) as E3. pose proof (Rmult_le_compat_l _ _ _ P S2) as E4.
      change (at_x m t, at_y m t) with (spot m t). rewrite E1 in T1. lra.
    Qed.
  End Motion.

  (** ** Bounds from the drivetrain *)
  Lemma turn_two_at : real_wheels d -> forall s, spacing d s -> forall i k, (1 <= i <= last_sample N)%nat -> (k <= last_sample N)%nat ->
    step_to sol i * Rabs (q_w (at_sample sol k)) <= 2.
  Proof.
    intros W s Sp i k Hi Hk. pose proof Sp as (Ps & a & b & Hab & E). destruct (consecutive_in _ _ _ Hab) as [Ha Hb].
    pose proof (C21_proof asserts h handle d g sol G Sv i Hi) as St.
    pose proof (dt_nonneg asserts h handle d g sol G Sv i Hi) as Dt.
    pose proof (pair_turn asserts h handle d g sol G Sv W k a b Hk Ha Hb) as B.
    pose proof (spacing_step d s _ a Sp St Ha). pose proof (spacing_step d s _ b Sp St Hb).
    assert (L : s <= dist2 (pt (m_translation a)) (pt (m_translation b))).
    { rewrite dist2_norm. unfold pt. cbn [fst snd]. destruct E as [->| ->]; rewrite Rabs_minus_sym;
        [apply norm2_ge_x|apply norm2_ge_y]. }
    pose proof (Rabs_pos (q_w (at_sample sol k))) as P. pose proof (Rmult_le_compat_l _ _ _ Dt B) as B'.
    apply (Rmult_le_reg_r s); [exact Ps|].
    apply Rle_trans with (step_to sol i * (Rabs (q_w (at_sample sol k)) * dist2 (pt (m_translation a)) (pt (m_translation b)))); [|lra].
    rewrite Rmult_assoc. apply Rmult_le_compat_l; [exact Dt|]. apply Rmult_le_compat_l; assumption.
  Qed.

  (** The lag within a segment. *)
  Lemma lag_in_segment : forall w j, (w < length N)%nat -> (waypoint_sample N w < j <= waypoint_sample N (S w))%nat ->
    forall f, lag f sol j = lag f sol (waypoint_sample N w) +
      (f (at_sample sol j) - f (at_sample sol (waypoint_sample N w))) * step_to sol j / 2.
  Proof.
    intros w j Hw Hj f. rewrite waypoint_S in Hj by exact Hw. set (i := waypoint_sample N w) in *.
    assert (U : forall k, (k < nth w N 0)%nat -> step_to sol (S (i + k)) = step_to sol (S i))
      by (intros k Hk; exact (uniform asserts h handle d g sol G Sv w k Hw Hk)).
    assert (Ej : step_to sol j = step_to sol (S i)).
    { replace j with (S (i + (j - i - 1)))%nat by lia. apply U. lia. }
    rewrite Ej. replace j with (i + (j - i))%nat by lia. apply lag_segment. intros k Hk. apply U. lia.
  Qed.
  Lemma lag_step : forall w j, (w < length N)%nat -> (waypoint_sample N w < j <= waypoint_sample N (S w))%nat ->
    let p := at_sample sol (waypoint_sample N w) in let q := at_sample sol j in
    norm2 (lag q_vx sol j, lag q_vy sol j) <=
      norm2 (lag q_vx sol (waypoint_sample N w), lag q_vy sol (waypoint_sample N w)) +
      step_to sol j * (norm2 (q_vx p, q_vy p) + norm2 (q_vx q, q_vy q)) / 2 /\
    Rabs (lag q_w sol j) <= Rabs (lag q_w sol (waypoint_sample N w)) + step_to sol j * (Rabs (q_w p) + Rabs (q_w q)) / 2.
  Proof.
    intros w j Hw Hj p q. rewrite !(lag_in_segment w j Hw Hj). fold p q.
    pose proof (waypoint_le N (S w)) as Le.
    pose proof (dt_nonneg asserts h handle d g sol G Sv j ltac:(fold N; lia)) as Dt. set (dt := step_to sol j) in *. split.
    - eapply Rle_trans; [apply norm2_triangle|]. apply Rplus_le_compat_l.
      replace ((q_vx q - q_vx p) * dt / 2) with (dt / 2 * (q_vx q + -1 * q_vx p)) by field.
      replace ((q_vy q - q_vy p) * dt / 2) with (dt / 2 * (q_vy q + -1 * q_vy p)) by field.
      rewrite norm2_scale, Rabs_right by lra.
      pose proof (norm2_triangle (q_vx q) (q_vy q) (-1 * q_vx p) (-1 * q_vy p)) as T. rewrite norm2_scale, Rabs_left in T by lra.
      assert (0 <= dt / 2) by lra. pose proof (Rmult_le_compat_l _ _ _ H T). lra.
    - eapply Rle_trans; [apply Rabs_triang|]. apply Rplus_le_compat_l.
      replace ((q_w q - q_w p) * dt / 2) with (dt / 2 * (q_w q + - q_w p)) by field.
      rewrite Rabs_mult, Rabs_right by lra. pose proof (Rabs_triang (q_w q) (- q_w p)) as T. rewrite Rabs_Ropp in T.
      assert (0 <= dt / 2) by lra. pose proof (Rmult_le_compat_l _ _ _ H T). lra.
  Qed.

  Lemma heading_unit : forall q a, heading_is q a -> unit_heading q.
  Proof. intros q a [C S]. unfold unit_heading. rewrite C, S. pose proof (sin2_cos2 a) as X. unfold Rsqr in X. lra. Qed.
  Lemma throughout_unit : forall n, turns_throughout sol n -> unit_heading (at_sample sol 0) -> forall i, (i <= n)%nat -> unit_heading (at_sample sol i).
  Proof.
    intros n T U. induction i as [|i IH]; intros Hi; [exact U|].
    pose proof (T (S i) ltac:(lia)) as Ti. replace (S i - 1)%nat with i in Ti by lia.
    exact (turned_unit _ _ _ Ti (IH ltac:(lia))).
  Qed.
  Lemma which : forall (a b t dt : R) (x : R), a <= t <= b -> b - a = dt -> Rabs (t - a) <= dt / 2 \/ Rabs (t - b) <= dt / 2.
  Proof.
    intros a b t dt _ Ht E. destruct (Rle_dec t ((a + b) / 2)).
    - left. rewrite Rabs_right by lra. lra.
    - right. rewrite Rabs_left1 by lra. lra.
  Qed.

  Section Spaced.
    Variables (m : motion) (s : R).
    Hypotheses (Dr : drives sol (last_sample N) m) (W : real_wheels d) (Ce : centred d) (Sp : spacing d s).
    Hypotheses (H0 : heading_is (at_sample sol 0) (at_angle m 0)) (T : turns_throughout sol (last_sample N)).

    Lemma all_unit : forall i, (i <= last_sample N)%nat -> unit_heading (at_sample sol i).
    Proof. apply throughout_unit; [exact T|exact (heading_unit _ _ H0)]. Qed.
    Lemma step_faster : forall i, (1 <= i <= last_sample N)%nat ->
      step_to sol i * faster (at_sample sol (i - 1)) (at_sample sol i) <= s /\
      step_to sol i * faster_turn (at_sample sol (i - 1)) (at_sample sol i) <= 2.
    Proof.
      intros i Hi. split.
      - unfold faster, Rmax. destruct (Rle_dec _ _);
          apply (speed_step asserts h handle d g sol G Sv W Ce s Sp); try apply all_unit; fold N; lia.
      - unfold faster_turn, Rmax. destruct (Rle_dec _ _); apply (turn_two_at W s Sp); fold N; lia.
    Qed.
    Lemma lag_segment_end : forall w j, (w < length N)%nat -> (waypoint_sample N w <= j <= waypoint_sample N (S w))%nat ->
      norm2 (lag q_vx sol j, lag q_vy sol j) <= norm2 (lag q_vx sol (waypoint_sample N w), lag q_vy sol (waypoint_sample N w)) + s /\
      Rabs (lag q_w sol j) <= Rabs (lag q_w sol (waypoint_sample N w)) + 2.
    Proof.
      intros w j Hw Hj. pose proof Sp as (Ps & _). destruct (Nat.eq_dec j (waypoint_sample N w)) as [->|Ne]; [split; lra|].
      destruct (lag_step w j Hw ltac:(lia)) as [A B]. cbv zeta in A, B. pose proof (waypoint_le N (S w)) as Le.
      pose proof (speed_step asserts h handle d g sol G Sv W Ce s Sp j j ltac:(fold N; lia) ltac:(fold N; lia) (all_unit j ltac:(lia))).
      pose proof (speed_step asserts h handle d g sol G Sv W Ce s Sp j (waypoint_sample N w) ltac:(fold N; lia) ltac:(fold N; lia) (all_unit (waypoint_sample N w) ltac:(lia))).
      pose proof (turn_two_at W s Sp j j ltac:(fold N; lia) ltac:(fold N; lia)).
      pose proof (turn_two_at W s Sp j (waypoint_sample N w) ltac:(fold N; lia) ltac:(fold N; lia)). split; lra.
    Qed.
    Lemma lag_waypoint : forall w, (w <= length N)%nat ->
      norm2 (lag q_vx sol (waypoint_sample N w), lag q_vy sol (waypoint_sample N w)) <= INR w * s /\
      Rabs (lag q_w sol (waypoint_sample N w)) <= INR w * 2.
    Proof.
      induction w as [|w IH]; intros Hw.
      - replace (waypoint_sample N 0) with 0%nat by (destruct N; reflexivity). unfold lag, sum_to. cbn [seq map sum fold_right].
        simpl. rewrite Rabs_R0, !Rmult_0_l. split; [|lra]. apply norm2_le; lra.
      - destruct (IH ltac:(lia)) as [A B]. rewrite S_INR.
        destruct (lag_segment_end w (waypoint_sample N (S w)) ltac:(lia)) as [C D].
        { rewrite waypoint_S by lia. lia. }
        split; lra.
    Qed.
    Lemma lag_halted : forall w, (w <= length N)%nat -> (forall v, (v <= w)%nat -> halted (at_sample sol (waypoint_sample N v))) ->
      lag q_vx sol (waypoint_sample N w) = 0 /\ lag q_vy sol (waypoint_sample N w) = 0 /\ lag q_w sol (waypoint_sample N w) = 0.
    Proof.
      induction w as [|w IH]; intros Hw Hs.
      - replace (waypoint_sample N 0) with 0%nat by (destruct N; reflexivity). unfold lag, sum_to. simpl. tauto.
      - destruct (IH ltac:(lia) ltac:(intros; apply Hs; lia)) as (A & B & C).
        destruct (Nat.eq_dec (waypoint_sample N (S w)) (waypoint_sample N w)) as [->|Ne]; [tauto|].
        rewrite !(lag_in_segment w (waypoint_sample N (S w)) ltac:(lia)) by (rewrite waypoint_S in * by lia; lia).
        rewrite A, B, C. destruct (Hs w ltac:(lia)) as (-> & -> & ->). destruct (Hs (S w) ltac:(lia)) as (-> & -> & ->).
        repeat split; field.
    Qed.
    Lemma halted_lag : forall w j, (w < length N)%nat -> (forall v, (v <= w)%nat -> halted (at_sample sol (waypoint_sample N v))) ->
      (waypoint_sample N w <= j <= waypoint_sample N (S w))%nat ->
      norm2 (lag q_vx sol j, lag q_vy sol j) <= s / 2 /\ Rabs (lag q_w sol j) <= 1.
    Proof.
      intros w j Hw Hs Hj. destruct (lag_halted w ltac:(lia) Hs) as (A & B & C). pose proof Sp as (Ps & _).
      assert (Z : norm2 (0, 0) <= 0) by (apply norm2_le; lra).
      destruct (Nat.eq_dec j (waypoint_sample N w)) as [->|Ne]; [rewrite A, B, C, Rabs_R0; lra|].
      destruct (lag_step w j Hw ltac:(lia)) as [D E]. cbv zeta in D, E. pose proof (waypoint_le N (S w)) as Le.
      rewrite A, B, C in *. destruct (Hs w ltac:(lia)) as (X & Y & Q). rewrite X, Y, Q, Rabs_R0 in *.
      pose proof (speed_step asserts h handle d g sol G Sv W Ce s Sp j j ltac:(fold N; lia) ltac:(fold N; lia) (all_unit j ltac:(lia))).
      pose proof (turn_two_at W s Sp j j ltac:(fold N; lia) ltac:(fold N; lia)).
      pose proof (dt_nonneg asserts h handle d g sol G Sv j ltac:(fold N; lia)) as Dt.
      pose proof (Rmult_le_compat_l _ _ _ Dt Z). split; lra.
    Qed.

    (** Near the nearer sample. *)
    Lemma follow_near : forall i t, (1 <= i <= last_sample N)%nat -> clock sol (i - 1) <= t <= clock sol i ->
      forall L A, (forall j, (j = i - 1 \/ j = i)%nat -> norm2 (lag q_vx sol j, lag q_vy sol j) <= L /\ Rabs (lag q_w sol j) <= A) ->
      exists j, (j = i - 1 \/ j = i)%nat /\ forall p, dist2 (placed (at_sample sol j) p) (placed (driving m t) p) <=
        (L + s / 2) + norm2 (pt p) * (A + 1).
    Proof.
      intros i t Hi Ht L A Hl.
      assert (S0 : clock sol i - clock sol (i - 1) = step_to sol i).
      { destruct i as [|i]; [lia|]. replace (S i - 1)%nat with i by lia. rewrite clock_S. ring. }
      assert (Nr : exists j, (j = i - 1 \/ j = i)%nat /\ Rabs (t - clock sol j) <= step_to sol i / 2).
      { destruct (which _ _ t _ 0 Ht S0) as [B|B]; [exists (i - 1)%nat|exists i]; tauto. }
      destruct Nr as (j & Hj & B). exists j. split; [exact Hj|]. intros p.
      pose proof (follow_point (last_sample N) m (le_n _) Dr H0 T i t j Hi Ht Hj p) as F.
      destruct (Hl j Hj) as [H1 H2]. destruct (step_faster i Hi) as [F1 F2].
      set (V := faster _ _) in *. set (Om := faster_turn _ _) in *. pose proof (norm2_pos (pt p)) as P.
      assert (PV : 0 <= V) by (unfold V, faster; eapply Rle_trans; [apply norm2_pos|apply Rmax_l]).
      assert (PO : 0 <= Om) by (unfold Om, faster_turn; eapply Rle_trans; [apply Rabs_pos|apply Rmax_l]).
      assert (PK : 0 <= V + norm2 (pt p) * Om) by (pose proof (Rmult_le_pos _ _ P PO); lra).
      pose proof (Rmult_le_compat_l _ _ _ PK B) as B1. pose proof (Rmult_le_compat_l _ _ _ P H2) as B2.
      pose proof (Rmult_le_compat_l _ _ _ P F2) as B3. lra.
    Qed.
    Lemma follow_clear : forall i t, (1 <= i <= last_sample N)%nat -> clock sol (i - 1) <= t <= clock sol i ->
      forall L A, 0 <= A -> (forall j, (j = i - 1 \/ j = i)%nat -> norm2 (lag q_vx sol j, lag q_vy sol j) <= L /\ Rabs (lag q_w sol j) <= A) ->
      (forall p o k, k <= dist2 (placed (at_sample sol (i - 1)) p) o -> k <= dist2 (placed (at_sample sol i) p) o ->
         k - ((L + s / 2) + norm2 (pt p) * (A + 1)) <= dist2 (placed (driving m t) p) o) /\
      (forall bu o e rho, within_radius bu rho -> outlines_apart (at_sample sol (i - 1)) bu o e -> outlines_apart (at_sample sol i) bu o e ->
         outlines_apart (driving m t) bu o (e - ((L + s / 2) + rho * (A + 1)))).
    Proof.
      intros i t Hi Ht L A PA Hl. destruct (follow_near i t Hi Ht L A Hl) as (j & Hj & F).
      assert (X : forall p o k, k <= dist2 (placed (at_sample sol (i - 1)) p) o -> k <= dist2 (placed (at_sample sol i) p) o ->
         k - ((L + s / 2) + norm2 (pt p) * (A + 1)) <= dist2 (placed (driving m t) p) o).
      { intros p o k K1 K2. specialize (F p). pose proof (dist2_tri (placed (at_sample sol j) p) (placed (driving m t) p) o) as T1.
        assert (k <= dist2 (placed (at_sample sol j) p) o) by (destruct Hj as [->| ->]; assumption). lra. }
      split; [exact X|]. intros bu o e rho Wr O1 O2 p z Hp Hz.
      destruct (outline_point _ rho p (driving m t) Wr Hp) as (c & Hc & -> & Hon).
      pose proof (X c z e (O1 _ _ (Hon _) Hz) (O2 _ _ (Hon _) Hz)) as Y.
      assert (norm2 (pt c) * (A + 1) <= rho * (A + 1)) by (apply Rmult_le_compat_r; lra). lra.
    Qed.
  End Spaced.
End Follow.

Lemma C122_clear_proof : forall asserts h handle d g sol, generator asserts h handle d g -> solved g sol ->
  forall n m, (n <= last_sample (counts asserts h))%nat -> drives sol n m ->
  heading_is (at_sample sol 0) (at_angle m 0) -> turns_throughout sol n ->
  forall i t j, (1 <= i <= n)%nat -> clock sol (i - 1) <= t <= clock sol i -> (j = i - 1 \/ j = i)%nat ->
  let a := at_sample sol (i - 1) in let b := at_sample sol i in forall p o,
  dist2 (placed (at_sample sol j) p) o -
    (norm2 (lag q_vx sol j, lag q_vy sol j) + norm2 (pt p) * Rabs (lag q_w sol j) +
     (faster a b + norm2 (pt p) * faster_turn a b) * Rabs (t - clock sol j)) <= dist2 (placed (driving m t) p) o.
Proof.
  intros asserts h handle d g sol G Sv n m Hn Dr H0 T i t j Hi Ht Hj a b p o.
  pose proof (follow_point asserts h handle d g sol G Sv n m Hn Dr H0 T i t j Hi Ht Hj p) as F. fold a b in F.
  pose proof (dist2_tri (placed (at_sample sol j) p) (placed (driving m t) p) o). lra.
Qed.

Lemma C122_spacing_proof : forall asserts h handle d g sol, generator asserts h handle d g -> solved g sol ->
  real_wheels d -> centred d -> forall s, spacing d s -> let N := counts asserts h in
  forall m, drives sol (last_sample N) m -> heading_is (at_sample sol 0) (at_angle m 0) -> turns_throughout sol (last_sample N) ->
  forall w i t, (w < length N)%nat -> (waypoint_sample N w < i <= waypoint_sample N (S w))%nat ->
  clock sol (i - 1) <= t <= clock sol i ->
  let a := at_sample sol (i - 1) in let b := at_sample sol i in
  (forall p o k, k <= dist2 (placed a p) o -> k <= dist2 (placed b p) o ->
     k - (INR w + 3/2) * (s + 2 * norm2 (pt p)) <= dist2 (placed (driving m t) p) o) /\
  (forall bu o e rho, within_radius bu rho -> outlines_apart a bu o e -> outlines_apart b bu o e ->
     outlines_apart (driving m t) bu o (e - (INR w + 3/2) * (s + 2 * rho))).
Proof.
  intros asserts h handle d g sol G Sv W Ce s Sp N m Dr H0 T w i t Hw Hi Ht a b.
  pose proof (waypoint_le N (S w)) as Le. pose proof (pos_INR w) as Pw.
  destruct (follow_clear asserts h handle d g sol G Sv m s Dr W Ce Sp H0 T i t ltac:(fold N; lia) Ht
              (INR w * s + s) (INR w * 2 + 2) ltac:(lra)) as [A B].
  - intros j Hj. destruct (lag_waypoint asserts h handle d g sol G Sv m s Dr W Ce Sp H0 T w ltac:(fold N; lia)) as [X Y].
    destruct (lag_segment_end asserts h handle d g sol G Sv m s W Ce Sp H0 T w j Hw ltac:(fold N; lia)) as [X' Y'].
    fold N in X, Y, X', Y'. split; lra.
  - split.
    + intros p o k K1 K2. specialize (A p o k K1 K2). lra.
    + intros bu o e rho Wr O1 O2. specialize (B bu o e rho Wr O1 O2).
      replace ((INR w + 3/2) * (s + 2 * rho)) with (INR w * s + s + s / 2 + rho * (INR w * 2 + 2 + 1)) by field. exact B.
Qed.

Lemma C122_stops_proof : forall asserts h handle d g sol, generator asserts h handle d g -> solved g sol ->
  real_wheels d -> centred d -> forall s, spacing d s -> let N := counts asserts h in
  forall m, drives sol (last_sample N) m -> heading_is (at_sample sol 0) (at_angle m 0) -> turns_throughout sol (last_sample N) ->
  forall w i t, (w < length N)%nat -> (waypoint_sample N w < i <= waypoint_sample N (S w))%nat ->
  (forall v, (v <= w)%nat -> halted (at_sample sol (waypoint_sample N v))) ->
  clock sol (i - 1) <= t <= clock sol i ->
  let a := at_sample sol (i - 1) in let b := at_sample sol i in
  (forall p o k, k <= dist2 (placed a p) o -> k <= dist2 (placed b p) o ->
     k - (s + 2 * norm2 (pt p)) <= dist2 (placed (driving m t) p) o) /\
  (forall bu o e rho, within_radius bu rho -> outlines_apart a bu o e -> outlines_apart b bu o e ->
     outlines_apart (driving m t) bu o (e - (s + 2 * rho))).
Proof.
  intros asserts h handle d g sol G Sv W Ce s Sp N m Dr H0 T w i t Hw Hi Hs Ht a b.
  pose proof (waypoint_le N (S w)) as Le.
  destruct (follow_clear asserts h handle d g sol G Sv m s Dr W Ce Sp H0 T i t ltac:(fold N; lia) Ht
              (s / 2) 1 ltac:(lra)) as [A B].
  - intros j Hj. exact (halted_lag asserts h handle d g sol G Sv m s Dr W Ce Sp H0 T w j Hw Hs ltac:(fold N; lia)).
  - split.
    + intros p o k K1 K2. specialize (A p o k K1 K2). lra.
    + intros bu o e rho Wr O1 O2. specialize (B bu o e rho Wr O1 O2).
      replace (s + 2 * rho) with (s / 2 + s / 2 + rho * (1 + 1)) by field. exact B.
Qed.

(** ** The ride, past a post *)
Definition post : constraint R := PointPoint (mkTr 0 0) (mkTr (3/4) 0) (1/4).
Definition passing : list (op R) := ride ++ [OSgmtConstraint 0 1 post].
Lemma passing_good : good_history true passing.
Proof.
  destruct (ride_good true) as (A & B & C). unfold passing. split; [|split].
  - apply Forall_app. split; [exact A|]. constructor; [|constructor]. repeat split; try apply Z.ltb_lt; try reflexivity. lia.
  - apply Forall_app. split; [exact B|]. constructor; [exact I|constructor].
  - repeat split; reflexivity.
Qed.
Lemma along_x : forall q x, q_y q = 0 -> dist2 (placed q (mkTr 0 0)) (x, 0) = Rabs (x - q_x q).
Proof.
  intros q x Y. unfold placed, dist2. cbn [fst snd tX tY]. rewrite Y.
  match goal with |- sqrt ?e = _ => replace e with (Rsqr (x - q_x q)) by (unfold Rsqr; ring) end. apply sqrt_Rsqr_abs.
Qed.
Lemma passing_clear : forall i, (i <= 2)%nat -> 1/4 <= dist2 (placed (at_sample ride_solution i) (mkTr 0 0)) (3/4, 0).
Proof.
  intros i Hi. assert (i = 0 \/ i = 1 \/ i = 2)%nat as [->|[->| ->]] by lia;
    rewrite along_x by (unfold at_sample, ride_solution; simpl; reflexivity); unfold at_sample, ride_solution;
    cbn [q_x s_x nth]; unfold Rabs; destruct (Rcase_abs _); lra.
Qed.
Lemma passing_solved : exists g, generator true passing 7 cart g /\ solved g ride_solution.
Proof.
  destruct (ride_case true) as (g & Gd & G & W & Pos & (env & F & E)).
  destruct (generator_exists true passing 7 cart) as [g' G']; [apply Nat.ltb_lt; reflexivity|reflexivity|].
  assert (X : ride ++ [] = ride) by apply app_nil_r.
  destruct (C14_proof true ride 0 1 post [] 7 cart g g' env ride_solution passing_good) as [E' Q]; rewrite ?X; try assumption.
  - apply Nat.ltb_lt; reflexivity.
  - exists g'. split; [exact G'|]. exists env. split; [|exact E']. apply Q. split; [exact F|]. rewrite X.
    rewrite ride_counts. intros _ i Hi. change (waypoint_sample [2]%nat 0) with 0%nat in Hi. change (waypoint_sample [2]%nat 1) with 2%nat in Hi.
    unfold post, demands. cbv zeta. pose proof (passing_clear i ltac:(lia)) as B.
    rewrite ?(Rabs_right (1/4)) by lra. exact B.
Qed.
Lemma passing_counts : counts true passing = [2%nat].
Proof. reflexivity. Qed.
Lemma ride_turns : turns_throughout ride_solution 2.
Proof. intros i Hi. apply (proj1 ride_physics i). simpl. lia. Qed.
Lemma ride_start : heading_is (at_sample ride_solution 0) 0.
Proof. split; reflexivity. Qed.
(** The robot drives into the post. *)
Lemma passing_end : forall g m, generator true passing 7 cart g -> solved g ride_solution -> drives ride_solution 2 m ->
  clock ride_solution 2 = 1 /\ dist2 (placed (driving m 1) (mkTr 0 0)) (3/4, 0) = 0.
Proof.
  intros g m G Sv Dr.
  assert (Hn : (2 <= last_sample (counts true passing))%nat) by (rewrite passing_counts; unfold last_sample; simpl; lia).
  destruct (C115_offset_proof true passing 7 cart g ride_solution G Sv 2 m Hn Dr 2 (le_n _)) as (X & Y & _).
  assert (C : clock ride_solution 2 = 1) by (unfold clock, elapsed, step_to, ride_solution; simpl; lra).
  rewrite C in X, Y. split; [exact C|]. rewrite along_x; unfold driving; cbn [q_x q_y].
  - rewrite X. unfold lag, sum_to, at_sample, step_to, ride_solution. simpl.
    match goal with |- Rabs ?e = 0 => replace e with 0 by lra end. apply Rabs_R0.
  - rewrite Y. unfold lag, sum_to, at_sample, step_to, ride_solution. simpl. lra.
Qed.
Lemma C122_refuted_proof :
  ~ forall asserts h handle d g sol, good_history asserts h -> generator asserts h handle d g -> solved g sol -> real_wheels d ->
  let N := counts asserts h in forall f t c, In (OSgmtConstraint f t c) h -> (f <= length N)%nat ->
  forall m, drives sol (last_sample N) m -> heading_is (at_sample sol 0) (at_angle m 0) -> turns_throughout sol (last_sample N) ->
  forall i, (waypoint_sample N f <= i <= waypoint_sample N t)%nat -> demands (driving m (clock sol i)) c.
Proof.
  intros H. destruct passing_solved as (g & G & Sv).
  assert (Hn : (2 <= last_sample (counts true passing))%nat) by (rewrite passing_counts; unfold last_sample; simpl; lia).
  destruct (C115_drivable_proof true passing 7 cart g ride_solution G Sv 2 0 Hn) as (m & Dr & A0).
  specialize (H true passing 7%Z cart g ride_solution passing_good G Sv cart_wheels). cbv zeta in H. rewrite passing_counts in H.
  specialize (H 0%nat 1%nat post ltac:(apply in_or_app; right; left; reflexivity) ltac:(simpl; lia) m Dr).
  rewrite A0 in H. specialize (H ride_start ride_turns 2%nat ltac:(unfold waypoint_sample; simpl; lia)).
  destruct (passing_end g m G Sv Dr) as [C D]. rewrite C in H. unfold post, demands in H. cbv zeta in H.
  rewrite ?(Rabs_right (1/4)) in H by lra. unfold pt in H. cbn [tX tY] in H. lra.
Qed.
