(** Paths driven the other way (C123). *)
From Coq Require Import List Lia Lra Psatz Reals ZArith.
Import ListNotations.
From Verif Require Import Outcome Num NumR Geometry Expr Constraints Util Builder Guess Generator Trajectory
  Spec SpecBuilder SpecPhysics SpecTrajectory SpecGenerator SpecStep SpecLegs SpecDrive SpecReach SpecMore SpecBackward Semantics BuilderProofs BuilderHistory HistoryFacts
  BuilderCases GeometryFacts SolutionProofs TrajectoryProofs GeneratorCases LimitProofs StepProofs DurationProofs LegProofs PartsProofs GeneratorProofs
  ReachProofs MoreProofs DashProofs DriveClaims.
Open Scope R_scope.

(** ** A solution from its states *)
Section Made.
  Variables (n : nat) (st : nat -> state) (dt : nat -> R) (fx fy : nat -> list R).
  Definition along_n {A} (f : nat -> A) : list A := map f (seq 0 (S n)).
  Definition made : solution R :=
    mkSolution (map (fun i => dt (S i)) (seq 0 n))
      (along_n (fun i => q_x (st i))) (along_n (fun i => q_y (st i))) (along_n (fun i => q_c (st i))) (along_n (fun i => q_s (st i)))
      (along_n (fun i => q_vx (st i))) (along_n (fun i => q_vy (st i))) (along_n (fun i => q_w (st i)))
      (along_n (fun i => q_ax (st i))) (along_n (fun i => q_ay (st i))) (along_n (fun i => q_al (st i)))
      (along_n fx) (along_n fy).
  Lemma along_nth : forall {A} (f : nat -> A) z i, (i <= n)%nat -> nth i (along_n f) z = f i.
  Proof.
    intros A f z i H. unfold along_n. rewrite (nth_indep _ z (f 0%nat)) by (rewrite map_length, seq_length; lia).
    rewrite map_nth, seq_nth by lia. reflexivity.
  Qed.
  Lemma made_at : forall i, (i <= n)%nat -> at_sample made i = st i.
  Proof.
    intros i H. unfold at_sample, made. cbn [s_x s_y s_thetacos s_thetasin s_vx s_vy s_omega s_ax s_ay s_alpha].
    rewrite !along_nth by exact H. destruct (st i). reflexivity.
  Qed.
  Lemma made_step : forall i, (1 <= i <= n)%nat -> step_to made i = dt i.
  Proof.
    intros i H. unfold step_to, made. cbn [s_dt].
    rewrite (nth_indep _ 0 (dt 1%nat)) by (rewrite map_length, seq_length; lia).
    rewrite (map_nth (fun i => dt (S i)) _ 0%nat), seq_nth by lia. f_equal. lia.
  Qed.
  Lemma made_forces : forall i, (i <= n)%nat -> forces made i = combine (fx i) (fy i).
  Proof. intros i H. unfold forces, made. cbn [s_moduleFX s_moduleFY]. rewrite !along_nth by exact H. reflexivity. Qed.
  Lemma made_shaped : forall ns m, last_sample ns = n -> (forall i, (i <= n)%nat -> length (fx i) = m /\ length (fy i) = m) ->
    well_shaped ns m made.
  Proof.
    intros ns m E F. unfold well_shaped. rewrite E. unfold made, along_n.
    cbn [s_dt s_x s_y s_thetacos s_thetasin s_vx s_vy s_omega s_ax s_ay s_alpha s_moduleFX s_moduleFY].
    rewrite !map_length, !seq_length. repeat split; apply Forall_forall; intros r Hr; apply in_map_iff in Hr;
      destruct Hr as (i & <- & Hi); apply in_seq in Hi; apply F; lia.
  Qed.
  Lemma made_dt : s_dt made = map (fun i => dt (S i)) (seq 0 n).
  Proof. reflexivity. Qed.
End Made.

(** ** Counts the other way *)
Lemma sum_rev : forall l, list_sum (rev l) = list_sum l.
Proof. induction l as [|x l IH]; [reflexivity|]. cbn [rev]. rewrite list_sum_app, IH. simpl. lia. Qed.
Lemma rev_last : forall ns, last_sample (rev ns) = last_sample ns.
Proof. intros ns. apply sum_rev. Qed.
Lemma rev_waypoint : forall ns j, (j <= length ns)%nat ->
  (waypoint_sample (rev ns) j + waypoint_sample ns (length ns - j) = last_sample ns)%nat.
Proof.
  intros ns j H. unfold waypoint_sample, last_sample. rewrite firstn_rev, sum_rev, Nat.add_comm, <- list_sum_app, firstn_skipn.
  reflexivity.
Qed.
Lemma waypoint_last : forall ns w, (waypoint_sample ns w <= last_sample ns)%nat.
Proof.
  intros ns w. destruct (le_lt_dec w (length ns)) as [L|L]; [|rewrite waypoint_sample_past by lia; lia].
  pose proof (waypoint_sample_mono ns w (length ns) L) as M. rewrite (waypoint_sample_past ns (length ns)) in M by lia. exact M.
Qed.

(** ** Demands on place and on speed *)
Definition not_acceleration (c : constraint R) : Prop :=
  match c with LinearAccelerationMaxMagnitude _ => False | _ => True end.
Lemma acceleration_or_not : forall c, not_acceleration c \/ exists m, c = LinearAccelerationMaxMagnitude m.
Proof. intros c. destruct c; try (left; exact I). right. eexists. reflexivity. Qed.
Definition same_place (a b : state) : Prop := q_x a = q_x b /\ q_y a = q_y b /\ q_c a = q_c b /\ q_s a = q_s b.
Definition opposite_speed (a b : state) : Prop := q_vx a = - q_vx b /\ q_vy a = - q_vy b /\ q_w a = - q_w b.
Lemma norm2_opp : forall x y, norm2 (- x, - y) = norm2 (x, y).
Proof. intros x y. unfold norm2. cbn [fst snd]. f_equal. ring. Qed.
Lemma demands_split : forall q p v c, not_acceleration c -> same_place q p -> opposite_speed q v ->
  demands p c -> demands v c -> demands q c.
Proof.
  intros q p v c K (X & Y & C & S) (VX & VY & OM) Dp Dv.
  destruct c; try contradiction; cbn [demands] in *; unfold placed in *; rewrite ?X, ?Y, ?C, ?S; try exact Dp.
  - rewrite OM, Rabs_Ropp. exact Dv.
  - rewrite VX, VY. destruct Dv as (k & -> & ->). exists (- k). split; ring.
  - rewrite VX, VY, norm2_opp. exact Dv.
Qed.

Lemma unit_of_step : forall ns d sol c s, obeys_physics turns_up_to_half d ns sol -> never_turns c s (last_sample ns) sol ->
  (1 <= last_sample ns)%nat -> c * c + s * s = 1.
Proof.
  intros ns d sol c s [P _] Nt H. destruct (P 1%nat ltac:(lia)) as (_ & _ & T & _).
  destruct (Nt 0%nat ltac:(lia)) as (C0 & S0 & _). destruct (Nt 1%nat ltac:(lia)) as (C1 & S1 & W1).
  unfold turns_up_to_half in T. cbn [Nat.sub] in T. rewrite C0, S0, C1, S1, W1, Rmult_0_l, cos_0 in T.
  destruct T as [[T _]|[T _]]; nra.
Qed.

(** ** The other way without turning *)
Section Back.
  Variables (sol : solution R) (n m : nat).
  Definition bstate (k : nat) : state :=
    let p := at_sample sol (n - 1 - k) in let v := at_sample sol (n - k) in let a := at_sample sol (n - k + 1) in
    if (k =? 0)%nat then mkState (q_x p) (q_y p) (q_c p) (q_s p) (- q_vx v) (- q_vy v) (- q_w v) 0 0 0
    else mkState (q_x p) (q_y p) (q_c p) (q_s p) (- q_vx v) (- q_vy v) (- q_w v) (q_ax a) (q_ay a) (q_al a).
  Definition bforce (f : list (list R)) (k : nat) : list R :=
    if (k =? 0)%nat then repeat 0 m else nth (n - k + 1) f [].
  Definition back : solution R :=
    made n bstate (fun k => step_to sol (n - k + 1)) (bforce (s_moduleFX sol)) (bforce (s_moduleFY sol)).
End Back.

Lemma C123_unturned_proof : forall asserts h h' d handle handle' g g' sol c s, good_history asserts h -> good_history asserts h' ->
  generator asserts h handle d g -> generator asserts h' handle' d g' -> real_wheels d ->
  let N := counts asserts h in (forall k, In k N -> (1 <= k)%nat) -> counts asserts h' = rev N -> other_way (length N) h h' ->
  limits_last (length N) h ->
  solved g sol -> never_turns c s (last_sample N) sol -> stands_at_waypoints N sol ->
  exists sol', solved g' sol' /\ s_dt sol' = rev (s_dt sol).
Proof.
  intros asserts h h' d handle handle' g g' sol c s GH GH' G G' Wh N Po C' (Ow1 & Ow2) La Sv Nt St.
  destruct (proj1 (solved_exact asserts h handle d g GH G Wh Po sol) Sv) as (Sh & Us & (Ph1 & Ph2) & (Rw & Rs)).
  fold N in Sh, Us, Ph1, Ph2, Rw, Rs. set (n := last_sample N) in *. set (L := length N) in *. set (W := waypoint_sample N) in *.
  set (m := length (d_modules d)). set (sol' := back sol n m).
  assert (At : forall k, (k <= n)%nat -> at_sample sol' k = bstate sol n k) by (intros; apply made_at; assumption).
  assert (Dt : forall k, (1 <= k <= n)%nat -> step_to sol' k = step_to sol (n - k + 1))
    by (intros k Hk; unfold sol', back; rewrite made_step by exact Hk; reflexivity).
  assert (WL : forall w, (W w <= n)%nat) by (intros w; apply waypoint_last).
  assert (W'e : forall j, (j <= L)%nat -> (waypoint_sample (rev N) j + W (L - j) = n)%nat) by (intros; apply rev_waypoint; assumption).
  assert (WL0 : W L = n) by (apply waypoint_sample_past; unfold L; lia).
  assert (W0 : W 0%nat = 0%nat) by reflexivity.
  assert (Rest : forall w, (w <= L)%nat -> q_vx (at_sample sol (W w)) = 0 /\ q_vy (at_sample sol (W w)) = 0) by exact St.
  (* standing still over the step into a waypoint *)
  assert (Same : forall w, (w <= L)%nat -> q_x (at_sample sol (W w - 1)) = q_x (at_sample sol (W w)) /\
    q_y (at_sample sol (W w - 1)) = q_y (at_sample sol (W w))).
  { intros w Hw. destruct (Nat.eq_dec (W w) 0) as [->|Ne]; [split; reflexivity|].
    destruct (Ph1 (W w) ltac:(specialize (WL w); lia)) as (_ & (MX & MY) & _). destruct (Rest w Hw) as [V1 V2].
    rewrite V1 in MX. rewrite V2 in MY. split; lra. }
  (* the place of state k *)
  assert (Pl0 : forall k, (k < n)%nat -> same_place (bstate sol n k) (at_sample sol (n - 1 - k))).
  { intros k Hk. unfold bstate. destruct (k =? 0)%nat; repeat split; reflexivity. }
  assert (Hd : forall k, (k <= n)%nat -> q_c (bstate sol n k) = c /\ q_s (bstate sol n k) = s).
  { intros k Hk. destruct (Nt (n - 1 - k)%nat ltac:(lia)) as (A & B & _).
    unfold bstate. destruct (k =? 0)%nat; cbn [q_c q_s]; rewrite A, B; split; reflexivity. }
  assert (Pw : forall w, (w <= L)%nat -> same_place (bstate sol n (n - W w)) (at_sample sol (W w))).
  { intros w Hw. specialize (WL w). destruct (Hd (n - W w)%nat ltac:(lia)) as [A B]. destruct (Nt (W w) WL) as (C & D & _).
    destruct (Same w Hw) as [X Y]. unfold same_place. rewrite A, B, C, D. rewrite <- X, <- Y.
    replace (W w - 1)%nat with (n - 1 - (n - W w))%nat by lia.
    unfold bstate. destruct ((n - W w) =? 0)%nat; cbn [q_x q_y]; repeat split; reflexivity. }
  assert (Vl : forall k, (k <= n)%nat -> opposite_speed (bstate sol n k) (at_sample sol (n - k))).
  { intros k Hk. unfold bstate. destruct (k =? 0)%nat; repeat split; reflexivity. }
  assert (Len : n = length (s_dt sol)) by (destruct Sh as (Ld & _); symmetry; exact Ld).
  exists sol'. split.
  2:{ unfold sol', back. rewrite made_dt. apply (nth_ext _ _ 0 0).
      - rewrite map_length, seq_length, rev_length. exact Len.
      - intros k Hk. rewrite map_length, seq_length in Hk.
        rewrite (nth_indep _ 0 (step_to sol (n - 1 + 1))) by (rewrite map_length, seq_length; exact Hk).
        rewrite (map_nth (fun i => step_to sol (n - S i + 1)) (seq 0 n) 0%nat k), seq_nth by exact Hk.
        rewrite rev_nth by (rewrite <- Len; exact Hk). unfold step_to. rewrite <- Len. f_equal. lia. }
  apply (solved_intro asserts h' handle' d g' sol' GH' G' Wh); rewrite C'.
  - intros k Hk. apply Po. apply in_rev. exact Hk.
  - apply made_shaped; [apply rev_last|]. intros i Hi. unfold bforce. destruct (Nat.eqb_spec i 0) as [->|Ne]; [rewrite repeat_length; split; reflexivity|].
    destruct Sh as (_ & _ & _ & _ & _ & _ & _ & _ & _ & _ & _ & LX & LY & FX & FY). rewrite Forall_forall in FX, FY.
    split; [apply FX|apply FY]; apply nth_In; [rewrite LX|rewrite LY]; fold n; lia.
  - intros w k Hw Hk. rewrite rev_length in Hw. fold L in Hw. rewrite rev_nth in Hk by exact Hw. fold L in Hk.
    pose proof (W'e w ltac:(lia)) as E. set (W' := waypoint_sample (rev N) w) in *.
    pose proof (waypoint_sample_S N (L - S w) ltac:(unfold L in *; lia)) as E2. fold W in E2. replace (S (L - S w)) with (L - w)%nat in E2 by lia.
    pose proof (WL (L - w)%nat). rewrite !Dt by lia.
    replace (n - S (W' + k) + 1)%nat with (S (W (L - S w) + (nth (L - S w) N 0 - 1 - k)))%nat by lia.
    replace (n - S W' + 1)%nat with (S (W (L - S w) + (nth (L - S w) N 0 - 1)))%nat by lia.
    assert (Hl : (L - S w < length N)%nat) by (unfold L in *; lia).
    pose proof (Us (L - S w)%nat (nth (L - S w) N 0 - 1 - k)%nat Hl ltac:(lia)) as Q1.
    pose proof (Us (L - S w)%nat (nth (L - S w) N 0 - 1)%nat Hl ltac:(lia)) as Q2.
    fold W in Q1, Q2. rewrite Q1, Q2. reflexivity.
  - split; rewrite rev_last; fold n; intros k Hk.
    + cbv zeta. rewrite !At, Dt by lia. destruct (Ph1 (n - k + 1)%nat ltac:(lia)) as (SW & _ & _ & (A1 & A2 & A3)).
      replace (n - k + 1 - 1)%nat with (n - k)%nat in A1, A2, A3 by lia. split; [exact SW|].
      destruct (Vl k ltac:(lia)) as (V1 & V2 & V3). destruct (Vl (k - 1)%nat ltac:(lia)) as (U1 & U2 & U3).
      replace (n - (k - 1))%nat with (n - k + 1)%nat in U1, U2, U3 by lia.
      assert (Ac : q_ax (bstate sol n k) = q_ax (at_sample sol (n - k + 1)) /\ q_ay (bstate sol n k) = q_ay (at_sample sol (n - k + 1)) /\
        q_al (bstate sol n k) = q_al (at_sample sol (n - k + 1))).
      { unfold bstate. destruct (Nat.eqb_spec k 0); [lia|]. repeat split; reflexivity. }
      destruct Ac as (B1 & B2 & B3). destruct (Hd k ltac:(lia)) as [H1 H2]. destruct (Hd (k - 1)%nat ltac:(lia)) as [H3 H4].
      split; [|split].
      * (* moves *)
        destruct (Pl0 (k - 1)%nat ltac:(lia)) as (X & Y & _). replace (n - 1 - (k - 1))%nat with (n - k)%nat in X, Y by lia.
        unfold moves. rewrite V1, V2, X, Y.
        assert (Q : exists w, (w <= L)%nat /\ (n - k)%nat = W w \/ (1 <= n - k)%nat /\ step_to sol (n - k) = step_to sol (n - k + 1)).
        { clear - Hk Us Po W0 WL0. assert (F : forall w, (w <= L)%nat -> (n - k <= W w)%nat ->
            exists w, (w <= L)%nat /\ (n - k)%nat = W w \/ (1 <= n - k)%nat /\ step_to sol (n - k) = step_to sol (n - k + 1)).
          { induction w as [|w IH]; intros Hw Hb; [exists 0%nat; left; split; lia|].
            destruct (le_lt_dec (n - k) (W w)) as [B|B]; [apply IH; lia|].
            destruct (Nat.eq_dec (n - k) (W (S w))) as [E|E]; [exists (S w); left; split; assumption|].
            pose proof (waypoint_sample_S N w ltac:(unfold L in *; lia)) as E2. fold W in E2.
            exists 0%nat. right. split; [lia|].
            replace (n - k)%nat with (S (W w + (n - k - W w - 1))) at 1 by lia.
            replace (n - k + 1)%nat with (S (W w + (n - k - W w))) by lia.
            assert (Hl : (w < length N)%nat) by (unfold L in *; lia).
            pose proof (Us w (n - k - W w - 1)%nat Hl ltac:(lia)) as Q1. pose proof (Us w (n - k - W w)%nat Hl ltac:(lia)) as Q2.
            fold W in Q1, Q2. rewrite Q1, Q2. reflexivity. }
          apply (F L); lia. }
        destruct Q as (w & [[Hw E]|[Hp E]]).
        -- assert (E' : k = (n - W w)%nat) by lia. destruct (Pw w Hw) as (X' & Y' & _). rewrite <- E' in X', Y'.
           rewrite X', Y'. destruct (Rest w Hw) as [Z1 Z2]. rewrite E, Z1, Z2. split; ring.
        -- destruct (Pl0 k ltac:(lia)) as (X' & Y' & _). rewrite X', Y'. destruct (Ph1 (n - k)%nat ltac:(lia)) as (_ & (M1 & M2) & _).
           replace (n - k - 1)%nat with (n - 1 - k)%nat in M1, M2 by lia. rewrite <- E, M1, M2. split; ring.
      * (* turns *)
        destruct (Nt (n - k)%nat ltac:(lia)) as (_ & _ & O). rewrite O in V3.
        pose proof (unit_of_step N d sol c s (conj Ph1 Ph2) Nt ltac:(fold n; lia)) as U.
        unfold turns_up_to_half. cbv zeta. rewrite H1, H2, H3, H4, V3. left.
        replace (- 0 * step_to sol (n - k + 1)) with 0 by ring. rewrite cos_0, sin_0. split; [exact U|ring].
      * unfold accelerates. rewrite V1, V2, V3, U1, U2, U3, B1, B2, B3, A1, A2, A3. repeat split; ring.
    + rewrite At by lia. unfold sol', back. rewrite made_forces by lia. destruct (Vl k Hk) as (V1 & V2 & V3).
      destruct (Nt (n - k)%nat ltac:(lia)) as (C1 & C2 & C3). destruct (Hd k Hk) as [H1 H2].
      assert (WW : wheels_within d (bstate sol n k)).
      { destruct (Ph2 (n - k)%nat ltac:(lia)) as (_ & WW & _). intros md Hm. specialize (WW md Hm).
        unfold wheel_velocity in *. rewrite V1, V2, V3, H1, H2. rewrite C1, C2, C3 in *.
        match type of WW with norm2 (?x, ?y) <= _ => rewrite <- (norm2_opp x y) in WW end.
        match goal with |- norm2 (?x, ?y) <= _ => match type of WW with norm2 (?x', ?y') <= _ =>
          replace x with x' by ring; replace y with y' by ring end end. exact WW. }
      unfold bforce. destruct (Nat.eqb_spec k 0) as [->|Ne].
      * rewrite combine_zero. destruct (no_force d (bstate sol n 0)) as [F1 F2]. split; [|split; [exact WW|apply F2, Wh]].
        exact (F1 _ eq_refl).
      * destruct (Ph2 (n - k + 1)%nat ltac:(lia)) as (Nw & _ & Fw). split; [|split; [exact WW|exact Fw]].
        destruct (Nt (n - k + 1)%nat ltac:(lia)) as (D1 & D2 & _).
        assert (Ac : q_ax (bstate sol n k) = q_ax (at_sample sol (n - k + 1)) /\ q_ay (bstate sol n k) = q_ay (at_sample sol (n - k + 1)) /\
          q_al (bstate sol n k) = q_al (at_sample sol (n - k + 1))).
        { unfold bstate. destruct (Nat.eqb_spec k 0); [lia|]. repeat split; reflexivity. }
        destruct Ac as (B1 & B2 & B3). destruct Nw as (N1 & N2 & N3). unfold newton. rewrite B1, B2, B3.
        split; [exact N1|]. split; [exact N2|]. rewrite <- N3. f_equal. apply map_ext. intros [md f]. unfold turned.
        rewrite H1, H2, D1, D2. reflexivity.
  - assert (Acc : forall k a, k = 0%nat \/ demands (at_sample sol (n - k + 1)) (LinearAccelerationMaxMagnitude a) ->
      demands (bstate sol n k) (LinearAccelerationMaxMagnitude a)).
    { intros k a K. unfold bstate. destruct (Nat.eqb_spec k 0) as [->|Ne].
      - cbn [demands q_ax q_ay]. unfold norm2. cbn [fst snd]. rewrite Rmult_0_l, Rplus_0_l, sqrt_0. apply Rabs_pos.
      - destruct K as [K|K]; [contradiction|exact K]. }
    assert (Wacc : forall w a, (w <= L)%nat -> In (LinearAccelerationMaxMagnitude a) (wpt_requests [] h w) ->
      (n - W w = 0)%nat \/ demands (at_sample sol (n - (n - W w) + 1)) (LinearAccelerationMaxMagnitude a)).
    { intros w a Hw Hc. destruct (Nat.eq_dec w L) as [->|Ne]; [left; lia|right].
      pose proof (waypoint_sample_S N w ltac:(unfold L in *; lia)) as E. fold W in E.
      pose proof (Po (nth w N 0%nat) ltac:(apply nth_In; unfold L in *; lia)) as P1.
      pose proof (WL (S w)). replace (n - (n - W w) + 1)%nat with (S (W w)) by lia.
      apply (Rs (S w) _ (S (W w))); [lia|apply La; [lia|exact Hc]|]. replace (S w - 1)%nat with w by lia. fold W. lia. }
    assert (Wp : forall w cn, (w <= L)%nat -> In cn (wpt_requests [] h w) -> demands (bstate sol n (n - W w)) cn).
    { intros w cn Hw Hc. pose proof (Rw w cn Hw Hc) as D. fold W in D.
      destruct (acceleration_or_not cn) as [Na|[a ->]]; [|apply (Acc _ _ (Wacc w a Hw Hc))].
      apply (demands_split _ (at_sample sol (W w)) (at_sample sol (W w))); try exact D.
      - exact Na.
      - exact (Pw w Hw).
      - replace (W w) with (n - (n - W w))%nat at 2 by (specialize (WL w); lia). apply Vl. lia. }
    split.
    + intros w cn Hw Hc. rewrite rev_length in Hw. fold L in Hw. apply Ow1 in Hc; [|exact Hw]. pose proof (W'e w Hw) as E.
      rewrite At by lia. replace (waypoint_sample (rev N) w) with (n - W (L - w))%nat by lia. apply Wp; [lia|exact Hc].
    + intros w cn k Hw Hc Hk. rewrite rev_length in Hw. fold L in Hw. apply Ow2 in Hc; [|exact Hw].
      pose proof (W'e w ltac:(lia)) as E. pose proof (W'e (w - 1)%nat ltac:(lia)) as E1.
      set (v := (S L - w)%nat) in *. replace (L - (w - 1))%nat with v in E1 by lia. replace (L - w)%nat with (v - 1)%nat in E by lia.
      rewrite At by lia.
      assert (Dm : forall j, (W (v - 1)%nat <= j <= W v)%nat -> demands (at_sample sol j) cn).
      { intros j Hj. destruct (Nat.eq_dec j (W (v - 1)%nat)) as [->|Ne].
        - apply Rw; [lia|]. apply sgmt_at_start. replace (S (v - 1)) with v by lia. exact Hc.
        - apply (Rs v cn j); [unfold v; lia|exact Hc|fold W; lia]. }
      destruct (Nat.eq_dec (n - k) (W (v - 1)%nat)) as [Eq|Ne].
      * replace k with (n - W (v - 1))%nat by lia. apply Wp; [lia|]. apply sgmt_at_start. replace (S (v - 1)) with v by lia. exact Hc.
      * destruct (acceleration_or_not cn) as [Na|[a ->]].
        2:{ apply Acc. right. apply Dm. lia. }
        apply (demands_split _ (at_sample sol (n - 1 - k)) (at_sample sol (n - k))).
        -- exact Na.
        -- apply Pl0. lia.
        -- apply Vl. lia.
        -- apply Dm. lia.
        -- apply Dm. lia.
Qed.

(** ** Straightening *)
Lemma sum_repeat : forall x k, sum (repeat x k) = INR k * x.
Proof. induction k as [|k IH]; [simpl; ring|]. cbn [repeat sum]. rewrite IH, S_INR. ring. Qed.
Lemma combine_repeat : forall {A B} (x : A) (y : B) k, combine (repeat x k) (repeat y k) = repeat (x, y) k.
Proof. induction k as [|k IH]; [reflexivity|]. cbn [repeat combine]. rewrite IH. reflexivity. Qed.
Lemma map_repeat' : forall {A B} (f : A -> B) x k, map f (repeat x k) = repeat (f x) k.
Proof. induction k as [|k IH]; [reflexivity|]. cbn [repeat map]. rewrite IH. reflexivity. Qed.
Lemma sum_alike : forall (f : swerve_module R -> R) ms md, (forall a b, In a ms -> In b ms -> f a = f b) -> In md ms ->
  sum (map f ms) = INR (length ms) * f md.
Proof.
  intros f ms md Al Hm. rewrite <- sum_repeat.
  rewrite (map_ext_in f (fun _ => f md)) by (intros a Ha; apply Al; assumption).
  f_equal. clear. induction ms as [|a ms IH]; [reflexivity|]. cbn [map length repeat]. rewrite IH. reflexivity.
Qed.
Lemma even_torque : forall q fx fy ms,
  sum (map (fun mf => cross2 (turned q (m_translation (fst mf))) (snd mf)) (combine ms (repeat (fx, fy) (length ms)))) =
  sum (map (fun md => tX (m_translation md)) ms) * (q_c q * fy - q_s q * fx) -
  sum (map (fun md => tY (m_translation md)) ms) * (q_s q * fy + q_c q * fx).
Proof.
  intros q fx fy. induction ms as [|md ms IH]; [simpl; ring|].
  cbn [length repeat combine map sum fst snd]. rewrite IH. unfold cross2, turned. cbn [fst snd]. ring.
Qed.

Definition straight_state (c s : R) (q : state) : state :=
  mkState (q_x q) (q_y q) c s (q_vx q) (q_vy q) 0 (q_ax q) (q_ay q) 0.
Definition straightened (c s : R) (d : drivetrain R) (n : nat) (sol : solution R) : solution R :=
  let k := length (d_modules d) in
  made n (fun i => straight_state c s (at_sample sol i)) (step_to sol)
    (fun i => repeat (d_mass d * q_ax (at_sample sol i) / INR k) k)
    (fun i => repeat (d_mass d * q_ay (at_sample sol i) / INR k) k).

Lemma straight_demands : forall a q c, facing_one_way a c -> demands q c -> demands (straight_state (cos a) (sin a) q) c.
Proof.
  intros a q c K D. destruct c; try contradiction; cbn [demands straight_state facing_one_way q_x q_y q_c q_s q_vx q_vy q_w] in *; try exact D.
  - rewrite Rabs_R0. pose proof (Rabs_pos (q_w q)). lra.
  - destruct D as (X & Y & _). destruct K as [-> ->]. split; [exact X|]. split; [exact Y|]. left. split; reflexivity.
Qed.

Lemma straighten : forall asserts h d handle g sol a, good_history asserts h -> generator asserts h handle d g ->
  real_wheels d -> alike d -> centred d -> let N := counts asserts h in (forall k, In k N -> (1 <= k)%nat) ->
  requests_are (facing_one_way a) (length N) h -> headings_unit N sol -> solved g sol ->
  let sol' := straightened (cos a) (sin a) d (last_sample N) sol in
  solved g sol' /\ s_dt sol' = s_dt sol /\ never_turns (cos a) (sin a) (last_sample N) sol' /\
  (stands_at_waypoints N sol -> stands_at_waypoints N sol').
Proof.
  intros asserts h d handle g sol a GH G Wh Al Ce N Po (Ka1 & Ka2) Un Sv sol'.
  destruct (proj1 (solved_exact asserts h handle d g GH G Wh Po sol) Sv) as (Sh & Us & (Ph1 & Ph2) & (Rw & Rs)).
  fold N in Sh, Us, Ph1, Ph2, Rw, Rs. set (n := last_sample N) in *.
  assert (At : forall k, (k <= n)%nat -> at_sample sol' k = straight_state (cos a) (sin a) (at_sample sol k))
    by (intros k Hk; unfold sol', straightened; cbv zeta; rewrite made_at by exact Hk; reflexivity).
  assert (Dt : forall k, (1 <= k <= n)%nat -> step_to sol' k = step_to sol k)
    by (intros k Hk; unfold sol', straightened; cbv zeta; rewrite made_step by exact Hk; reflexivity).
  assert (Len : n = length (s_dt sol)) by (destruct Sh as (Ld & _); symmetry; exact Ld).
  assert (WL : forall w, (waypoint_sample N w <= n)%nat) by (intros w; apply waypoint_last).
  assert (U1 : cos a * cos a + sin a * sin a = 1) by (pose proof (sin2_cos2 a) as T; unfold Rsqr in T; lra).
  split; [|split; [|split]].
  - apply (solved_intro asserts h handle d g sol' GH G Wh Po); fold N.
    + apply made_shaped; [reflexivity|]. intros i Hi. rewrite !repeat_length. split; reflexivity.
    + intros w k Hw Hk. pose proof (waypoint_sample_S N w Hw) as E. pose proof (WL (S w)). rewrite !Dt by lia. apply Us; assumption.
    + split; fold n; intros i Hi.
      * cbv zeta. rewrite !At, Dt by lia. destruct (Ph1 i Hi) as (SW & Mv & _ & (A1 & A2 & _)). split; [exact SW|]. split; [exact Mv|].
        split.
        -- left. cbn [straight_state q_c q_s q_w]. rewrite Rmult_0_l, cos_0, sin_0. split; [exact U1|ring].
        -- unfold accelerates. cbn [straight_state q_vx q_vy q_w q_ax q_ay q_al]. split; [exact A1|]. split; [exact A2|ring].
      * rewrite At by lia. unfold sol', straightened. cbv zeta. rewrite made_forces, combine_repeat by lia.
        destruct (Ph2 i Hi) as (Nw & _ & Fw). set (q := at_sample sol i) in *. set (k := length (d_modules d)).
        assert (Lf : length (forces sol i) = k).
        { unfold forces. destruct Sh as (_ & _ & _ & _ & _ & _ & _ & _ & _ & _ & _ & LX & LY & FX & FY). rewrite Forall_forall in FX, FY.
          rewrite combine_length, FX, FY; [apply Nat.min_id|apply nth_In; rewrite LY; fold n; lia|apply nth_In; rewrite LX; fold n; lia]. }
        pose proof (newton_limits d q (forces sol i) Lf Nw Fw) as [Fl _].
        pose proof (speed_limit_proof asserts h handle d g sol G Sv Wh Ce i Hi (Un i Hi)) as Vl. fold q k in Vl.
        assert (Kp : forall md, In md (d_modules d) -> 0 < INR k).
        { intros md Hm. apply lt_0_INR. unfold k. destruct (d_modules d); [destruct Hm|simpl; lia]. }
        split; [|split].
        -- destruct Nw as (N1 & N2 & _). unfold newton. rewrite !map_repeat', !sum_repeat. cbn [fst snd straight_state q_ax q_ay q_al].
           unfold k at 5. rewrite even_torque. destruct Ce as [-> ->].
           destruct (Nat.eq_dec k 0) as [Z|Z].
           ++ destruct (forces sol i) as [|f fs] eqn:Ef; [|cbn [length] in Lf; lia]. cbn [map sum] in N1, N2. rewrite Z, <- N1, <- N2. simpl (INR 0). repeat split; ring.
           ++ assert (INR k <> 0) by (apply not_0_INR; exact Z). repeat split; try ring; field; assumption.
        -- intros md Hm. unfold wheel_velocity. cbn [straight_state q_vx q_vy q_w q_c q_s].
           rewrite (sum_alike wheel_limit (d_modules d) md) in Vl; [|intros x y Hx Hy; apply Al; assumption|exact Hm].
           fold k in Vl. change (m_wheelRadius md * m_wheelMaxAngularVelocity md) with (wheel_limit md).
           apply Rmult_le_reg_l in Vl; [|exact (Kp md Hm)]. eapply Rle_trans; [|exact Vl]. right. unfold norm2. cbn [fst snd]. f_equal.
           transitivity ((q_vx q * q_vx q + q_vy q * q_vy q) * (cos a * cos a + sin a * sin a)); [ring|rewrite U1; ring].
        -- intros md f Hf. assert (Hm : In md (d_modules d)) by (apply in_combine_l in Hf; exact Hf).
           apply in_combine_r in Hf. apply repeat_spec in Hf. subst f.
           rewrite (sum_alike force_limit (d_modules d) md) in Fl; [|intros x y Hx Hy; apply Al; assumption|exact Hm].
           fold k in Fl. change (m_wheelMaxTorque md / m_wheelRadius md) with (force_limit md). specialize (Kp md Hm).
           replace (d_mass d * q_ax q / INR k) with (d_mass d / INR k * q_ax q) by (field; lra).
           replace (d_mass d * q_ay q / INR k) with (d_mass d / INR k * q_ay q) by (field; lra).
           rewrite norm2_scale. unfold Rdiv. rewrite Rabs_mult, (Rabs_pos_eq (/ INR k)) by (left; apply Rinv_0_lt_compat, Kp).
           apply (Rmult_le_reg_l (INR k)); [exact Kp|]. eapply Rle_trans; [|exact Fl]. right. field. lra.
    + split.
      * intros w c Hw Hc. rewrite At by apply WL. apply straight_demands; [exact (Ka1 w c Hw Hc)|exact (Rw w c Hw Hc)].
      * intros w c i Hw Hc Hi. pose proof (WL w). rewrite At by lia. apply straight_demands; [exact (Ka2 w c Hw Hc)|exact (Rs w c i Hw Hc Hi)].
  - unfold sol', straightened. cbv zeta. rewrite made_dt. apply (nth_ext _ _ 0 0).
    + rewrite map_length, seq_length. exact Len.
    + intros k Hk. rewrite map_length, seq_length in Hk.
      rewrite (nth_indep _ 0 (step_to sol 1)) by (rewrite map_length, seq_length; exact Hk).
      rewrite (map_nth (fun i => step_to sol (S i)) (seq 0 n) 0%nat k), seq_nth by exact Hk.
      unfold step_to. f_equal. lia.
  - intros i Hi. rewrite At by exact Hi. repeat split; reflexivity.
  - intros St w Hw. rewrite At by apply WL. exact (St w Hw).
Qed.

Lemma C123_straight_proof : forall asserts h h' d handle handle' g g' sol a i x y b, good_history asserts h -> good_history asserts h' ->
  generator asserts h handle d g -> generator asserts h' handle' d g' -> real_wheels d -> alike d -> centred d ->
  let N := counts asserts h in (forall k, In k N -> (1 <= k)%nat) -> counts asserts h' = rev N -> other_way (length N) h h' ->
  requests_are (facing_one_way a) (length N) h -> limits_last (length N) h -> In (OPoseWpt i x y b) h -> (i <= length N)%nat ->
  solved g sol -> stands_at_waypoints N sol ->
  exists sol', solved g' sol' /\ s_dt sol' = rev (s_dt sol).
Proof.
  intros asserts h h' d handle handle' g g' sol a i x y b GH GH' G G' Wh Al Ce N Po C' Ow Ka La Ip Hi Sv St.
  pose proof (C17_partial_proof asserts h handle d g sol i x y b GH G Sv Ip Hi) as Un.
  destruct (straighten asserts h d handle g sol a GH G Wh Al Ce Po Ka Un Sv) as (Sv1 & E1 & Nt1 & St1).
  rewrite <- E1. apply (C123_unturned_proof asserts h h' d handle handle' g g' _ (cos a) (sin a) GH GH' G G' Wh Po C' Ow);
    [exact La|exact Sv1|exact Nt1|exact (St1 St)].
Qed.

(** ** Tours *)
Lemma tour_wpt : forall d v w ps k c, (2 <= length ps)%nat -> (k < length ps)%nat -> let p := nth k ps (mkStop 0 0 0) in
  (In c (wpt_requests [] (tour d v w ps) k) <->
   c = PoseEquality (pose_xyh (o_x p) (o_y p) (o_a p)) \/ c = LinearVelocityMaxMagnitude 0 \/ c = AngularVelocityMaxMagnitude 0 \/
   c = LinearVelocityMaxMagnitude v \/ c = AngularVelocityMaxMagnitude w).
Proof.
  intros d v w ps k c L2 Hk p. split.
  - intros H. exact (proj1 (tour_requests d v w ps k) c H Hk).
  - intros H. unfold tour. cbn [wpt_requests wpt_request bumper_request app]. rewrite wpt_requests_app, in_app_iff.
    destruct (visit_asks ps 0 [] k Hk) as (H1 & H2 & H3). cbn [Nat.add] in *.
    destruct H as [-> |[-> |[-> |H]]]; [left; exact H1|left; exact H2|left; exact H3|right].
    cbn [wpt_requests wpt_request bumper_request app].
    destruct (Nat.leb_spec 0 k), (Nat.leb_spec k (length ps - 1)); try lia. cbn [andb app In].
    destruct H as [-> | ->]; [left; reflexivity|right; left; reflexivity].
Qed.
Lemma tour_sgmt : forall d v w ps k c, (1 <= k <= length ps - 1)%nat ->
  (In c (sgmt_requests [] (tour d v w ps) k) <-> c = LinearVelocityMaxMagnitude v \/ c = AngularVelocityMaxMagnitude w).
Proof.
  intros d v w ps k c Hk. split.
  - exact (proj2 (tour_requests d v w ps k) c).
  - intros H. unfold tour. cbn [sgmt_requests sgmt_request app]. rewrite sgmt_requests_app, in_app_iff. right.
    cbn [sgmt_requests sgmt_request app].
    destruct (Nat.ltb_spec 0 k), (Nat.leb_spec k (length ps - 1)); try lia. cbn [andb app In].
    destruct H as [-> | ->]; [left; reflexivity|right; left; reflexivity].
Qed.
Lemma tour_other_way : forall d v w ps, (2 <= length ps)%nat -> other_way (length ps - 1) (tour d v w ps) (tour d v w (rev ps)).
Proof.
  intros d v w ps L2. split.
  - intros k c Hk. rewrite !tour_wpt by (rewrite ?rev_length; lia). rewrite rev_nth by lia.
    replace (length ps - S k)%nat with (length ps - 1 - k)%nat by lia. reflexivity.
  - intros k c Hk. rewrite !tour_sgmt by (rewrite ?rev_length; lia). reflexivity.
Qed.
Lemma visit_has : forall ps i, ps <> [] -> exists x y b, In (OPoseWpt i x y b) (visit i ps).
Proof. intros [|p ps] i H; [contradiction|]. do 3 eexists. left. reflexivity. Qed.

Lemma tour_ready : forall asserts d v w ps ns a, (2 <= length ps)%nat -> (Z.of_nat (length ps) <= 2 ^ 63)%Z ->
  (forall p, In p ps -> o_a p = a) -> length ns = (length ps - 1)%nat ->
  let h := with_counts (tour d v w ps) ns in let h' := with_counts (tour d v w (rev ps)) (rev ns) in
  good_history asserts h /\ good_history asserts h' /\ counts asserts h = ns /\ counts asserts h' = rev ns /\
  (forall handle', exists g', generator asserts h' handle' d g') /\ other_way (length ns) h h' /\
  requests_are (facing_one_way a) (length ns) h /\ limits_last (length ns) h /\ (exists x y b, In (OPoseWpt 0 x y b) h) /\
  (forall handle g sol, generator asserts h handle d g -> solved g sol -> stands_at_waypoints ns sol).
Proof.
  intros asserts d v w ps ns a L2 LZ Ea Ln h h'.
  destruct (tour_facts asserts d v w ps L2 LZ) as (GH & _ & _).
  destruct (tour_facts asserts d v w (rev ps) ltac:(rewrite rev_length; exact L2) ltac:(rewrite rev_length; exact LZ)) as (GHr & Wr & Dr).
  destruct (counts_set asserts _ ns GH) as (GH1 & C1 & _ & _ & Qw1 & Qs1).
  destruct (counts_set asserts _ (rev ns) GHr) as (GH2 & C2 & W2 & D2 & Qw2 & Qs2).
  destruct (tour_other_way d v w ps L2) as [O1 O2].
  split; [exact GH1|]. split; [exact GH2|]. split; [exact C1|]. split; [exact C2|]. split.
  { intros handle'. apply generator_exists; unfold h'; [rewrite C2, W2, Wr, !rev_length; lia|rewrite D2; exact Dr]. }
  split; [|split; [|split; [|split]]].
  - rewrite Ln. unfold h, h'. split; intros k c Hk; rewrite ?Qw1, ?Qw2, ?Qs1, ?Qs2; [apply O1|apply O2]; exact Hk.
  - rewrite Ln. unfold h. split; intros k c Hk; rewrite ?Qw1, ?Qs1; intros Hc.
    + apply tour_wpt in Hc; [|exact L2|lia].
      assert (In (nth k ps (mkStop 0 0 0)) ps) as Hp by (apply nth_In; lia). apply Ea in Hp.
      destruct Hc as [-> |[-> |[-> |[-> | ->]]]]; try exact I. cbn. rewrite Hp. split; reflexivity.
    + apply tour_sgmt in Hc; [|lia]. destruct Hc as [-> | ->]; exact I.
  - intros k m Hk Hc. unfold h in Hc. rewrite Qw1 in Hc. apply tour_wpt in Hc; [|exact L2|lia].
    destruct Hc as [E|[E|[E|[E|E]]]]; discriminate E.
  - destruct (visit_has ps 0) as (x & y & b & Ip); [destruct ps; [simpl in L2; lia|discriminate]|]. exists x, y, b.
    unfold h, with_counts, tour. apply in_or_app. left. right. apply in_or_app. left. exact Ip.
  - intros handle g sol G Sv k Hk. rewrite Ln in Hk.
    destruct (stop_rests asserts (tour d v w ps) d ns k handle g sol GH ltac:(lia) G Sv (tour_asks d v w ps k ltac:(lia))) as (Hr & _).
    exact Hr.
Qed.
Lemma C123_tours_proof : forall asserts d v w ps ns a handle g sol, real_wheels d -> alike d -> centred d ->
  (2 <= length ps)%nat -> (Z.of_nat (length ps) <= 2 ^ 63)%Z -> (forall p, In p ps -> o_a p = a) ->
  length ns = (length ps - 1)%nat -> (forall n, In n ns -> (1 <= n)%nat) ->
  generator asserts (with_counts (tour d v w ps) ns) handle d g -> solved g sol ->
  good_history asserts (with_counts (tour d v w (rev ps)) (rev ns)) /\
  forall handle', exists g' sol', generator asserts (with_counts (tour d v w (rev ps)) (rev ns)) handle' d g' /\ solved g' sol' /\
    s_dt sol' = rev (s_dt sol).
Proof.
  intros asserts d v w ps ns a handle g sol Wh Al Ce L2 LZ Ea Ln Po G Sv.
  destruct (tour_ready asserts d v w ps ns a L2 LZ Ea Ln) as (GH1 & GH2 & C1 & C2 & Ge & Ow & Rq & La & (x & y & b & Ip) & St).
  split; [exact GH2|]. intros handle'. destruct (Ge handle') as [g' G']. exists g'.
  destruct (C123_straight_proof asserts _ _ d handle handle' g g' sol a 0 x y b GH1 GH2 G G' Wh Al Ce) as (sol' & Sv' & E);
    rewrite ?C1; try assumption; [lia|exact (St handle g sol G Sv)|].
  exists sol'. split; [exact G'|]. split; assumption.
Qed.

(** ** The dash *)
Lemma brake_counts : forall asserts d n D, counts asserts (brake d n D) = [n].
Proof. destruct asserts; reflexivity. Qed.
Lemma brake_generator : forall asserts d n D handle, exists g, generator asserts (brake d n D) handle d g.
Proof. intros asserts d n D handle. apply generator_exists; [destruct asserts; apply Nat.ltb_lt; reflexivity|reflexivity]. Qed.
Lemma brake_good : forall asserts d n D, good_history asserts (brake d n D).
Proof.
  intros asserts d n D. split; [repeat constructor|]. split.
  - repeat constructor; simpl; try exact I; unfold unit_rot; simpl.
  - destruct asserts; repeat split; reflexivity.
Qed.
Lemma brake_other_way : forall d n D, other_way 1 (dash d n D) (brake d n D).
Proof.
  intros d n D. split; intros w c Hw.
  - assert (w = 0 \/ w = 1)%nat as [-> | ->] by lia; simpl; tauto.
  - assert (w = 1)%nat as -> by lia. simpl. tauto.
Qed.
Lemma brake_least : forall asserts handle d n D g sol, real_wheels d -> 0 < d_mass d -> 0 <= D -> (1 <= n)%nat ->
  generator asserts (brake d n D) handle d g -> solved g sol ->
  let T := sum (s_dt sol) in 0 <= T /\ 2 * INR n * d_mass d * D <= (INR n - 1) * thrust d * (T * T).
Proof.
  intros asserts handle d n D g sol W Pm HD Hn G Sv T.
  destruct (C116_bounds_proof asserts _ handle d g sol G Sv W Pm 0%nat) as [_ B]; [rewrite brake_counts; simpl; lia|].
  rewrite brake_counts in B. change (waypoint_sample [n] 0) with 0%nat in B.
  replace (waypoint_sample [n] 1) with n in B by (unfold waypoint_sample; simpl; lia). cbn [nth] in B.
  pose proof (waypoint_position asserts _ handle d g sol 0 D 0 0 (brake_good asserts d n D) G Sv) as P0.
  rewrite brake_counts in P0. specialize (P0 ltac:(left; simpl; tauto) ltac:(simpl; lia)). change (waypoint_sample [n] 0) with 0%nat in P0.
  pose proof (waypoint_position asserts _ handle d g sol 1 0 0 0 (brake_good asserts d n D) G Sv) as P1.
  rewrite brake_counts in P1. specialize (P1 ltac:(left; simpl; tauto) ltac:(simpl; lia)).
  replace (waypoint_sample [n] 1) with n in P1 by (unfold waypoint_sample; simpl; lia).
  rewrite P0, P1 in B.
  assert (Dd : dist2 (D, 0) (0, 0) = D).
  { unfold dist2. cbn [fst snd]. replace ((D - 0) * (D - 0) + (0 - 0) * (0 - 0)) with (D * D) by ring. apply sqrt_square, HD. }
  rewrite Dd in B.
  assert (Rs : at_rest (at_sample sol n)).
  { destruct (solved_requests asserts _ handle d g sol (brake_good asserts d n D) G Sv) as (M & _). rewrite brake_counts in M.
    specialize (M 1%nat (LinearVelocityMaxMagnitude 0) ltac:(simpl; lia) ltac:(simpl; tauto)).
    replace (waypoint_sample [n] 1) with n in M by (unfold waypoint_sample; simpl; lia). cbn [demands] in M.
    rewrite Rabs_R0 in M. apply ConstraintFacts.norm2_zero in M. exact M. }
  assert (El : elapsed sol 0 n = T).
  { unfold T. rewrite <- elapsed_all. f_equal. destruct Sv as (env & F & E).
    destruct (C25_proof asserts _ handle d g env G) as (sol' & E' & Sh). rewrite E in E'. injection E' as <-.
    rewrite brake_counts in Sh. destruct Sh as [L _]. rewrite L. unfold last_sample. simpl. lia. }
  specialize (B Rs). rewrite El in B. split; [|exact B].
  rewrite <- El. apply (elapsed_pos asserts _ handle d g sol G Sv). rewrite brake_counts. unfold last_sample. simpl. lia.
Qed.
Lemma C123_dash_proof : forall asserts handle d n D, can_dash d n D ->
  good_history asserts (brake d n D) /\ counts asserts (brake d n D) = rev (counts asserts (dash d n D)) /\
  other_way 1 (dash d n D) (brake d n D) /\
  exists g, generator asserts (brake d n D) handle d g /\
  forall sol, solved g sol -> let T := sum (s_dt sol) in
    dash_time d n D < T /\ INR (n + 1) * (dash_time d n D * dash_time d n D) <= INR (n - 1) * (T * T).
Proof.
  intros asserts handle d n D Cd. split; [apply brake_good|]. split; [rewrite brake_counts, dash_counts; reflexivity|].
  split; [apply brake_other_way|]. destruct (brake_generator asserts d n D handle) as [g G]. exists g. split; [exact G|].
  intros sol Sv T. destruct Cd as (W & Ce & Ar & Pm & Pt & Hn & HD & _).
  destruct (brake_least asserts handle d n D g sol W Pm (Rlt_le _ _ HD) Hn G Sv) as [HT B]. fold T in HT, B.
  assert (Pn : 0 < INR n) by (apply lt_0_INR; lia).
  assert (X : 0 < 2 * INR n * d_mass d * D / (INR (S n) * thrust d)).
  { apply Rdiv_lt_0_compat; [repeat apply Rmult_lt_0_compat; lra|]. apply Rmult_lt_0_compat; [apply lt_0_INR; lia|lra]. }
  assert (E : INR (n + 1) * (dash_time d n D * dash_time d n D) <= INR (n - 1) * (T * T)).
  { unfold dash_time. rewrite sqrt_sqrt by lra. rewrite minus_INR by lia. replace (n + 1)%nat with (S n) by lia.
    apply (Rmult_le_reg_l (thrust d)); [exact Pt|]. simpl (INR 1). rewrite S_INR in *.
    replace (thrust d * ((INR n + 1) * (2 * INR n * d_mass d * D / ((INR n + 1) * thrust d)))) with (2 * INR n * d_mass d * D) by (field; lra).
    lra. }
  split; [|exact E].
  assert (P : 0 < dash_time d n D) by (apply sqrt_lt_R0, X). rewrite plus_INR, minus_INR in E by lia. simpl (INR 1) in E.
  apply Rnot_le_lt. intros L. set (t := dash_time d n D) in *.
  assert (T * T <= t * t) by (apply Rmult_le_compat; lra). assert (0 < t * t) by nra.
  assert (1 <= INR n) by (apply (le_INR 1); lia). nra.
Qed.
Section Brake.
  Variables (d : drivetrain R) (n : nat) (D : R).
  Hypothesis (Cb : can_brake d n D).
  Let T := brake_time d n D.
  Let dt := T / INR n.
  Let a := thrust d / d_mass d.
  Lemma brake_T : 0 < T /\ INR (n - 1) * thrust d * (T * T) = 2 * INR n * d_mass d * D.
  Proof.
    destruct Cb as (W & Ce & Ar & Pm & Pt & Hn & HD & _).
    assert (Pn : 0 < INR n) by (apply lt_0_INR; lia). assert (Ps : 0 < INR (n - 1)) by (apply lt_0_INR; lia).
    assert (P : 0 < 2 * INR n * d_mass d * D / (INR (n - 1) * thrust d)).
    { apply Rdiv_lt_0_compat; [|nra]. repeat apply Rmult_lt_0_compat; lra. }
    unfold T, brake_time. split; [apply sqrt_lt_R0, P|]. rewrite sqrt_sqrt by lra. field. split; lra.
  Qed.
  Definition brake_state (k : nat) : state :=
    mkState (a * (dt * dt) * tri (n - k - 1)) 0 1 0 (- (a * INR (n - k) * dt)) 0 0 (match k with O => 0 | S _ => a end) 0 0.
  Definition brake_solution : solution R :=
    made n brake_state (fun _ => dt) (fun i => map (fun md => fst (lforce d (brake_state i) md)) (d_modules d))
      (fun i => map (fun md => snd (lforce d (brake_state i) md)) (d_modules d)).
  Lemma brake_forces : forall i, (i <= n)%nat -> forces brake_solution i = map (lforce d (brake_state i)) (d_modules d).
  Proof.
    intros i H. unfold brake_solution. rewrite made_forces by exact H.
    rewrite combine_split. apply map_ext. intros md. symmetry. apply surjective_pairing.
  Qed.
  Lemma brake_start : q_x (brake_state 0) = D.
  Proof.
    destruct brake_T as [P E]. destruct Cb as (W & Ce & Ar & Pm & Pt & Hn & HD & _).
    assert (Pn : 0 < INR n) by (apply lt_0_INR; lia). assert (Ps : 0 < INR (n - 1)) by (apply lt_0_INR; lia). cbn [q_x brake_state].
    replace (n - 0 - 1)%nat with (n - 1)%nat by lia.
    replace (a * (dt * dt) * tri (n - 1)) with (thrust d * (T * T) * (2 * tri (n - 1)) / (2 * d_mass d * (INR n * INR n)))
      by (unfold a, dt; field; split; lra).
    rewrite tri_val. rewrite S_INR. replace (INR (n - 1) + 1) with (INR n) by (rewrite minus_INR by lia; simpl; ring).
    apply (Rmult_eq_reg_l (2 * INR n * d_mass d)); [|apply Rgt_not_eq; apply Rmult_lt_0_compat; lra].
    rewrite <- E. field. split; lra.
  Qed.
  Lemma brake_obeys : obeys_physics turns d [n] brake_solution.
  Proof.
    destruct brake_T as [P E]. destruct Cb as (W & Ce & Ar & Pm & Pt & Hn & HD & Eq & St & Sp).
    assert (Pn : 0 < INR n) by (apply lt_0_INR; lia).
    assert (Pd : 0 < dt) by (apply Rdiv_lt_0_compat; assumption).
    assert (Pa : 0 < a) by (apply Rdiv_lt_0_compat; assumption).
    assert (Ls : last_sample [n] = n) by (unfold last_sample; simpl; lia).
    assert (Pl : 0 < INR (length (d_modules d))) by (apply modules_some; exact Ar).
    split; rewrite Ls; intros i Hi.
    - cbv zeta. unfold brake_solution. rewrite !made_at, made_step by lia. destruct i as [|i]; [lia|]. replace (S i - 1)%nat with i by lia.
      split; [exact St|]. split; [|split].
      + unfold moves. cbn [brake_state q_x q_y q_vx q_vy]. split; [|ring].
        replace (n - i - 1)%nat with (n - S i)%nat by lia. destruct (n - S i)%nat as [|j] eqn:Ej.
        * simpl. ring.
        * replace (S j - 1)%nat with j by lia. cbn [tri]. ring.
      + unfold turns. cbn [brake_state q_c q_s q_w]. rewrite Rmult_0_l, cos_0, sin_0. split; ring.
      + unfold accelerates. cbn [brake_state q_vx q_vy q_w q_ax q_ay q_al]. replace (n - i)%nat with (S (n - S i)) by lia. rewrite S_INR. repeat split; ring.
    - rewrite brake_forces by lia. unfold brake_solution. rewrite made_at by lia. split; [|split].
      + apply (lforce_newton d Ce Ar). unfold unit_heading. cbn [brake_state q_c q_s]. ring.
      + intros md Hm. unfold wheel_velocity. cbn [brake_state q_c q_s q_vx q_vy q_w].
        replace (_ - _ * 0) with (- (a * INR (n - i) * dt)) by ring.
        match goal with |- norm2 (_, ?y) <= _ => replace y with 0 by ring end.
        assert (V : 0 <= a * INR (n - i) * dt <= a * T).
        { pose proof (pos_INR (n - i)). assert (INR (n - i) <= INR n) by (apply le_INR; lia).
          assert (Dn : INR n * dt = T) by (unfold dt; field; lra).
          split; [apply Rmult_le_pos; [apply Rmult_le_pos|]; lra|]. rewrite Rmult_assoc. apply Rmult_le_compat_l; [lra|].
          rewrite <- Dn. apply Rmult_le_compat_r; lra. }
        apply norm2_le; [|].
        * eapply Rle_trans; [|apply (Sp md Hm)]. fold a T. lra.
        * pose proof (Sp md Hm) as B. fold a T in B. unfold wheel_limit in B.
          assert (a * INR (n - i) * dt <= m_wheelRadius md * m_wheelMaxAngularVelocity md) by lra. nra.
      + intros md f Hf.
        assert (Z : forall l, combine l (map (lforce d (brake_state i)) l) = map (fun md => (md, lforce d (brake_state i) md)) l).
        { induction l as [|x l IH]; simpl; [reflexivity|]. rewrite IH. reflexivity. }
        rewrite Z in Hf. apply in_map_iff in Hf. destruct Hf as (md' & Ef & Hm). injection Ef as -> <-.
        unfold lforce. cbn [brake_state q_ax q_ay q_al].
        match goal with |- norm2 (?x, ?y) <= _ => replace y with 0 by (unfold Rdiv; ring);
          replace x with (d_mass d * (match i with O => 0 | S _ => a end) / INR (length (d_modules d))) by (unfold Rdiv; ring) end.
        fold (force_limit md). pose proof (Eq md Hm) as Q.
        assert (F : force_limit md = thrust d / INR (length (d_modules d))) by (rewrite <- Q; field; lra).
        assert (X : 0 <= d_mass d * (match i with O => 0 | S _ => a end) / INR (length (d_modules d)) <= force_limit md).
        { rewrite F. assert (0 < thrust d / INR (length (d_modules d))) by (apply Rdiv_lt_0_compat; lra).
          destruct i as [|i].
          - replace (d_mass d * 0 / _) with 0 by (field; lra). lra.
          - replace (d_mass d * a) with (thrust d) by (unfold a; field; lra). lra. }
        apply norm2_le; [lra|]. nra.
  Qed.
  Lemma brake_solved : forall asserts handle g, generator asserts (brake d n D) handle d g -> solved g brake_solution.
  Proof.
    intros asserts handle g G. pose proof Cb as (W & Ce & Ar & Pm & Pt & Hn & HD & Eq & St & Sp).
    apply (C15_accepts_proof asserts _ handle d g (brake_good asserts d n D) G W); rewrite ?brake_counts.
    - intros k [<-|[]]. lia.
    - apply made_shaped; [unfold last_sample; simpl; lia|]. intros i Hi. rewrite !map_length. split; reflexivity.
    - intros s k Hs Hk. cbn [length] in Hs. assert (s = 0)%nat as -> by lia. cbn [nth] in Hk.
      change (waypoint_sample [n] 0) with 0%nat. unfold brake_solution. rewrite !made_step by lia. reflexivity.
    - intros i Hi. unfold last_sample in Hi. cbn [list_sum fold_right] in Hi. unfold brake_solution. rewrite made_at by lia.
      unfold unit_heading. cbn [brake_state q_c q_s]. ring.
    - apply brake_obeys.
    - split.
      + intros w c Hw Hc. cbn [length] in Hw. assert (w = 0 \/ w = 1)%nat as [->| ->] by lia.
        * change (waypoint_sample [n] 0) with 0%nat. unfold brake_solution. rewrite made_at by lia.
          simpl in Hc. destruct Hc as [<-|[]]. pose proof brake_start as En. cbn [demands].
          split; [exact En|]. simpl. rewrite cos_0, sin_0. repeat split; try ring; try lra.
        * replace (waypoint_sample [n] 1) with n by (unfold waypoint_sample; simpl; lia). unfold brake_solution. rewrite made_at by lia.
          simpl in Hc. destruct Hc as [<-|[<-|[]]]; cbn [demands brake_state q_x q_y q_c q_s q_vx q_vy]; rewrite !Nat.sub_diag.
          -- simpl. rewrite cos_0, sin_0. repeat split; try ring; try lra.
          -- simpl. rewrite ?Rabs_R0. apply norm2_le; [lra|]. rewrite Rmult_0_r, Rmult_0_l. lra.
      + intros w c i Hw Hc Hi. cbn [length] in Hw. assert (w = 1)%nat as -> by lia. simpl in Hc. destruct Hc.
  Qed.
  Lemma brake_total : sum (s_dt brake_solution) = T.
  Proof.
    destruct Cb as (_ & _ & _ & _ & _ & Hn & _). assert (Pn : 0 < INR n) by (apply lt_0_INR; lia).
    unfold brake_solution. rewrite made_dt.
    assert (X : forall k j, sum (map (fun _ : nat => dt) (seq j k)) = INR k * dt).
    { induction k as [|k IH]; intros j; [simpl; ring|]. cbn [seq map sum]. rewrite IH, S_INR. ring. }
    rewrite X. unfold dt. field. lra.
  Qed.
End Brake.
Lemma C123_brake_proof : forall asserts handle d n D, can_brake d n D ->
  exists g, good_history asserts (brake d n D) /\ generator asserts (brake d n D) handle d g /\
  (exists sol, solved g sol /\ sum (s_dt sol) = brake_time d n D) /\
  (forall sol, solved g sol -> brake_time d n D <= sum (s_dt sol)) /\
  brake_time d n D = sqrt (INR (n + 1) / INR (n - 1)) * dash_time d n D /\ true_time d D < brake_time d n D.
Proof.
  intros asserts handle d n D Cb. destruct (brake_generator asserts d n D handle) as [g G]. exists g.
  split; [apply brake_good|]. split; [exact G|]. split.
  { exists (brake_solution d n D). split; [exact (brake_solved d n D Cb asserts handle g G)|apply brake_total, Cb]. }
  destruct Cb as (W & Ce & Ar & Pm & Pt & Hn & HD & _).
  assert (Pn : 0 < INR n) by (apply lt_0_INR; lia). assert (Ps : 0 < INR (n - 1)) by (apply lt_0_INR; lia).
  assert (Pp : 0 < INR (S n)) by (apply lt_0_INR; lia).
  assert (PD : 0 < d_mass d * D) by nra.
  split; [|split].
  - intros sol Sv. destruct (brake_least asserts handle d n D g sol W Pm (Rlt_le _ _ HD) ltac:(lia) G Sv) as [HT B].
    set (T := sum (s_dt sol)) in *. unfold brake_time. rewrite <- (sqrt_square T HT). apply sqrt_le_1_alt.
    apply (Rmult_le_reg_l (INR (n - 1) * thrust d)); [nra|].
    replace (INR (n - 1) * thrust d * (2 * INR n * d_mass d * D / (INR (n - 1) * thrust d))) with (2 * INR n * d_mass d * D) by (field; lra).
    rewrite minus_INR by lia. exact B.
  - unfold brake_time, dash_time. rewrite <- sqrt_mult_alt; [f_equal; replace (n + 1)%nat with (S n) by lia; field; lra|].
    left. apply Rdiv_lt_0_compat; [replace (n + 1)%nat with (S n) by lia|]; lra.
  - unfold true_time, brake_time. apply sqrt_lt_1_alt. split; [left; apply Rdiv_lt_0_compat; nra|].
    apply (Rmult_lt_reg_l (INR (n - 1) * thrust d)); [nra|].
    replace (INR (n - 1) * thrust d * (2 * INR n * d_mass d * D / (INR (n - 1) * thrust d))) with (2 * INR n * (d_mass d * D)) by (field; lra).
    replace (INR (n - 1) * thrust d * (2 * d_mass d * D / thrust d)) with (2 * INR (n - 1) * (d_mass d * D)) by (field; lra).
    apply Rmult_lt_compat_r; [exact PD|]. rewrite minus_INR by lia. simpl. lra.
Qed.
Lemma C123_refuted_proof : ~ forall asserts h h' d handle handle' g g' sol, good_history asserts h -> good_history asserts h' ->
  generator asserts h handle d g -> generator asserts h' handle' d g' -> real_wheels d ->
  let N := counts asserts h in (forall k, In k N -> (1 <= k)%nat) -> counts asserts h' = rev N -> other_way (length N) h h' ->
  solved g sol -> exists sol', solved g' sol' /\ sum (s_dt sol') = sum (s_dt sol).
Proof.
  intros H. destruct (C123_dash_proof true 7 cart 1 1 cart_can_dash) as (GH' & C' & Ow & g' & G' & B).
  destruct (dash_generator cart 1 1 true 7) as [g G].
  destruct (H true (dash cart 1 1) (brake cart 1 1) cart 7%Z 7%Z g g' (dash_solution cart 1 1) (dash_good cart 1 1 true) GH' G G') as (sol' & Sv' & _).
  - exact (proj1 cart_can_dash).
  - rewrite dash_counts. intros k [<-|[]]. lia.
  - exact C'.
  - rewrite dash_counts. exact Ow.
  - exact (dash_solved cart 1 1 cart_can_dash true 7%Z g G).
  - destruct (B sol' Sv') as [B1 B2]. rewrite cart_dash_time in B2. simpl in B2. lra.
Qed.

(** ** Cases *)
Lemma cart_alike : alike cart.
Proof. intros a b [<-|[<-|[]]] [<-|[<-|[]]]; split; reflexivity. Qed.
Lemma cart_centred : centred cart.
Proof. split; simpl; lra. Qed.
Lemma around_case : exists ns handle g g' sol,
  let h := with_counts (tour cart 1 1 around) ns in let h' := with_counts (tour cart 1 1 (rev around)) (rev ns) in
  good_history true h /\ good_history true h' /\ generator true h handle cart g /\ generator true h' handle cart g' /\
  counts true h = ns /\ length ns = 2%nat /\ (forall n, In n ns -> (1 <= n)%nat) /\ nth 0 ns 0%nat <> nth 1 ns 0%nat /\
  counts true h' = rev ns /\ other_way 2 h h' /\ requests_are (facing_one_way 0) 2 h /\ limits_last 2 h /\
  (exists x y b, In (OPoseWpt 0 x y b) h) /\
  solved g sol /\ never_turns (cos 0) (sin 0) (last_sample ns) sol /\ stands_at_waypoints ns sol.
Proof.
  assert (Dw : driven_wheels cart) by (intros md [<-|[<-|[]]]; simpl; lra).
  assert (Ap : apart cart).
  { exists (wheel 1 1), (wheel (-1) (-1)). split; [left; reflexivity|]. split; [right; left; reflexivity|].
    unfold pt. simpl. intros E. injection E as E1 E2. lra. }
  destruct (C119_tour_proof true cart 1 1 around Dw Ap ltac:(lra) ltac:(lra) ltac:(simpl; lia) ltac:(simpl; lia)) as (m & M).
  set (ns := [S m; S (S m)]).
  assert (Po : forall n, In n ns -> (1 <= n)%nat) by (intros n [<-|[<-|[]]]; lia).
  destruct (M ns eq_refl ltac:(intros n [<-|[<-|[]]]; lia)) as [_ Mh]. destruct (Mh 7%Z) as (g & sol & G & Sv).
  assert (Ea : forall p, In p around -> o_a p = 0) by (intros p [<-|[<-|[<-|[]]]]; reflexivity).
  destruct (tour_ready true cart 1 1 around ns 0 ltac:(simpl; lia) ltac:(simpl; lia) Ea eq_refl)
    as (GH1 & GH2 & C1 & C2 & Ge & Ow & Rq & La & (x & y & b & Ip) & St).
  destruct (Ge 7%Z) as [g' G'].
  pose proof (C17_partial_proof true _ 7 cart g sol 0 x y b GH1 G Sv Ip ltac:(lia)) as Un.
  destruct (straighten true _ cart 7 g sol 0 GH1 G cart_wheels cart_alike cart_centred ltac:(rewrite C1; exact Po)
    ltac:(rewrite C1; exact Rq) Un Sv) as (Sv1 & _ & Nt & _). rewrite C1 in Nt.
  eexists ns, 7%Z, g, g', _. cbv zeta. split; [exact GH1|]. split; [exact GH2|]. split; [exact G|]. split; [exact G'|]. split; [exact C1|].
  split; [reflexivity|]. split; [exact Po|]. split; [simpl; lia|]. split; [exact C2|]. split; [exact Ow|]. split; [exact Rq|]. split; [exact La|].
  split; [exists x, y, b; exact Ip|]. split; [exact Sv1|]. split; [rewrite C1; exact Nt|exact (St 7%Z g _ G Sv1)].
Qed.
Lemma cart_brake_time : brake_time cart 2 1 = 1.
Proof.
  unfold brake_time. rewrite cart_thrust. replace (2 * INR 2 * d_mass cart * 1 / (INR (2 - 1) * 8)) with 1 by (simpl; field). apply sqrt_1.
Qed.
Lemma cart_can_brake : can_brake cart 2 1.
Proof.
  unfold can_brake. rewrite cart_brake_time, cart_thrust.
  split; [exact cart_wheels|]. split; [exact cart_centred|]. split.
  { simpl. unfold arm, pt. simpl. rewrite !norm2_sqr. lra. }
  split; [simpl; lra|]. split; [lra|]. split; [lia|]. split; [lra|]. split.
  { intros md [<-|[<-|[]]]; unfold force_limit; simpl; field. }
  split.
  { apply cart_steps. simpl. lra. }
  intros md [<-|[<-|[]]]; unfold wheel_limit; simpl; lra.
Qed.

(** ** With a limit on acceleration *)
Lemma bounded : forall (f : nat -> R) n, exists m, 0 < m /\ forall i, (i <= n)%nat -> f i <= m.
Proof.
  intros f. induction n as [|n (m & P & H)].
  - exists (Rmax 1 (f 0%nat)). split; [eapply Rlt_le_trans; [apply Rlt_0_1|apply Rmax_l]|].
    intros i Hi. assert (i = 0)%nat as -> by lia. apply Rmax_r.
  - exists (Rmax m (f (S n))). split; [eapply Rlt_le_trans; [exact P|apply Rmax_l]|].
    intros i Hi. destruct (Nat.eq_dec i (S n)) as [->|E]; [apply Rmax_r|].
    eapply Rle_trans; [apply H; lia|apply Rmax_l].
Qed.
Lemma gently_wpt : forall m h w, (w <= 2)%nat -> wpt_requests [] (gently m h) w = wpt_requests [] h w ++ [LinearAccelerationMaxMagnitude m].
Proof.
  intros m h w Hw. unfold gently. rewrite wpt_requests_app. f_equal. cbn [wpt_requests wpt_request].
  destruct w as [|[|[|w]]]; try reflexivity. lia.
Qed.
Lemma gently_sgmt : forall m h w, (1 <= w <= 2)%nat -> sgmt_requests [] (gently m h) w = sgmt_requests [] h w ++ [LinearAccelerationMaxMagnitude m].
Proof.
  intros m h w Hw. unfold gently. rewrite sgmt_requests_app. f_equal. cbn [sgmt_requests sgmt_request].
  destruct w as [|[|[|w]]]; try reflexivity; lia.
Qed.
Lemma gently_facts : forall asserts m h d ns, good_history asserts h -> waypoint_count (path asserts h) = 3%nat ->
  last_drivetrain None h = Some d -> (length ns <= 2)%nat ->
  let h' := with_counts (gently m h) ns in good_history asserts h' /\ counts asserts h' = ns /\
  (forall handle, exists g, generator asserts h' handle d g) /\
  (forall w, wpt_requests [] h' w = wpt_requests [] (gently m h) w) /\ (forall w, sgmt_requests [] h' w = sgmt_requests [] (gently m h) w).
Proof.
  intros asserts m h d ns (A & B & C) Wc Ld Ln h'.
  assert (M2 : (3 <= BuilderFacts.max63)%nat) by (apply Nat2Z.inj_le; rewrite BuilderFacts.max63_Z; simpl; lia).
  assert (Pl : Forall plain_call [OSgmtConstraint 0 2 (LinearAccelerationMaxMagnitude m)]) by (constructor; [simpl; lia|constructor]).
  destruct (plain_returned asserts _ (path asserts h) (path_inv asserts h) Pl) as [R1 R2].
  assert (Gd : good_history asserts (gently m h)).
  { unfold gently. split.
    { apply Forall_app. split; [exact A|]. constructor; [|constructor]. cbn [proper_call].
      split; [apply BuilderCases.below63_size; lia|]. split; [apply BuilderCases.below63_size; lia|lia]. }
    split; [apply Forall_app; split; [exact B|repeat constructor]|]. apply all_returned_app. split; [exact C|exact R1]. }
  destruct (counts_set asserts _ ns Gd) as (G1 & C1 & W1 & D1 & Q1 & Q2). fold h' in G1, C1, W1, D1, Q1, Q2.
  split; [exact G1|]. split; [exact C1|]. split; [|split; assumption].
  intros handle. apply generator_exists.
  - rewrite C1, W1. unfold gently, waypoint_count, path. rewrite run_ops_app. fold (path asserts h).
    unfold waypoint_count in Wc. unfold BuilderFacts.wlen in R2. rewrite Wc in R2. rewrite R2. simpl. lia.
  - rewrite D1. unfold gently. rewrite last_drivetrain_app, Ld. reflexivity.
Qed.
Lemma gently_case : exists m ns handle g g' sol, 0 < m /\
  let h := with_counts (gently m (tour cart 1 1 around)) ns in let h' := with_counts (gently m (tour cart 1 1 (rev around))) (rev ns) in
  good_history true h /\ good_history true h' /\ generator true h handle cart g /\ generator true h' handle cart g' /\
  counts true h = ns /\ length ns = 2%nat /\ (forall n, In n ns -> (1 <= n)%nat) /\ nth 0 ns 0%nat <> nth 1 ns 0%nat /\
  counts true h' = rev ns /\ other_way 2 h h' /\ requests_are (facing_one_way 0) 2 h /\ limits_last 2 h /\
  In (LinearAccelerationMaxMagnitude m) (wpt_requests [] h 1) /\ (exists x y b, In (OPoseWpt 0 x y b) h) /\
  solved g sol /\ never_turns (cos 0) (sin 0) (last_sample ns) sol /\ stands_at_waypoints ns sol.
Proof.
  destruct around_case as (ns & handle & g0 & g0' & sol & H). cbv zeta in H.
  destruct H as (Gd & Gd' & G0 & G0' & C & Ln & Po & Ne & C' & (O1 & O2) & (Q1 & Q2) & La & (x & y & b & Ip) & Sv & Nt & St).
  destruct (bounded (fun i => norm2 (q_ax (at_sample sol i), q_ay (at_sample sol i))) (last_sample ns)) as (m & Pm & Bm).
  destruct (tour_facts true cart 1 1 around ltac:(simpl; lia) ltac:(simpl; lia)) as (Gt & Wt & Dt).
  destruct (tour_facts true cart 1 1 (rev around) ltac:(simpl; lia) ltac:(simpl; lia)) as (Gr & Wr & Dr).
  destruct (counts_set true _ ns Gt) as (_ & _ & _ & _ & E1 & E2).
  destruct (counts_set true _ (rev ns) Gr) as (_ & _ & _ & _ & E3 & E4).
  destruct (gently_facts true m _ cart ns Gt Wt Dt ltac:(lia)) as (F1 & F2 & F3 & F4 & F5).
  destruct (gently_facts true m _ cart (rev ns) Gr Wr Dr ltac:(rewrite rev_length; lia)) as (H1 & H2 & H3 & H4 & H5).
  destruct (F3 handle) as (g & G). destruct (H3 handle) as (g' & G').
  assert (In2 : forall (l l' : list (constraint R)) c k, (In c l <-> In c l') -> (In c (l ++ [k]) <-> In c (l' ++ [k])))
    by (intros l l' c k E; rewrite !in_app_iff, E; tauto).
  exists m, ns, handle, g, g', sol. split; [exact Pm|]. cbv zeta.
  split; [exact F1|]. split; [exact H1|]. split; [exact G|]. split; [exact G'|]. split; [exact F2|]. split; [exact Ln|].
  split; [exact Po|]. split; [exact Ne|]. split; [exact H2|]. split; [|split; [|split; [|split; [|split; [|split]]]]].
  - split; intros w c Hw.
    + rewrite F4, H4, !gently_wpt by lia. apply In2. rewrite <- E1, <- E3. apply O1. exact Hw.
    + rewrite F5, H5, !gently_sgmt by lia. apply In2. rewrite <- E2, <- E4. apply O2. exact Hw.
  - split; intros w c Hw.
    + rewrite F4, gently_wpt by lia. intros Hc. apply in_app_or in Hc. destruct Hc as [Hc|[<-|[]]]; [|exact I].
      apply (Q1 w); [exact Hw|]. rewrite E1. exact Hc.
    + rewrite F5, gently_sgmt by lia. intros Hc. apply in_app_or in Hc. destruct Hc as [Hc|[<-|[]]]; [|exact I].
      apply (Q2 w); [exact Hw|]. rewrite E2. exact Hc.
  - intros w k Hw. rewrite F4, F5, gently_wpt, gently_sgmt by lia. intros Hc. apply in_app_or in Hc. apply in_or_app.
    destruct Hc as [Hc|Hc]; [left|right; exact Hc]. rewrite <- E2. apply (La w k Hw). rewrite E1. exact Hc.
  - rewrite F4, gently_wpt by lia. apply in_or_app. right. left. reflexivity.
  - exists x, y, b. unfold with_counts, gently in *. apply in_app_or in Ip. destruct Ip as [Ip|[Ip|[]]]; [|discriminate Ip].
    apply in_or_app. left. apply in_or_app. left. exact Ip.
  - assert (Pos : forall n, In n (counts true (with_counts (tour cart 1 1 around) ns)) -> (1 <= n)%nat) by (rewrite C; exact Po).
    apply (solved_exact true _ handle cart g0 Gd G0 cart_wheels Pos) in Sv. rewrite C in Sv. destruct Sv as (S1 & S2 & S3 & M1 & M2).
    assert (Pos' : forall n, In n (counts true (with_counts (gently m (tour cart 1 1 around)) ns)) -> (1 <= n)%nat) by (rewrite F2; exact Po).
    apply (solved_exact true _ handle cart g F1 G cart_wheels Pos'). rewrite F2.
    split; [exact S1|]. split; [exact S2|]. split; [exact S3|].
    assert (Dm : forall i, (i <= last_sample ns)%nat -> demands (at_sample sol i) (LinearAccelerationMaxMagnitude m)) by (intros i Hi; cbn [demands]; rewrite (Rabs_right m) by lra; apply (Bm i Hi)).
    split.
    + intros w c Hw. rewrite F4, gently_wpt by lia. intros Hc. apply in_app_or in Hc. destruct Hc as [Hc|[<-|[]]].
      * apply M1; [exact Hw|]. rewrite E1. exact Hc.
      * apply Dm. apply waypoint_last.
    + intros w c i Hw. rewrite F5, gently_sgmt by lia. intros Hc Hi. apply in_app_or in Hc. destruct Hc as [Hc|[<-|[]]].
      * apply (M2 w); [exact Hw|rewrite E2; exact Hc|exact Hi].
      * apply Dm. destruct Hi as [_ Hi]. pose proof (waypoint_last ns w). lia.
  - split; [exact Nt|exact St].
Qed.
