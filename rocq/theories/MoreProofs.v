(** More control intervals (C120). *)
From Coq Require Import List Lia Lra Psatz Reals ZArith.
Import ListNotations.
From Verif Require Import Outcome Num NumR Geometry Expr Constraints Util Builder Guess Generator Trajectory
  Spec SpecBuilder SpecPhysics SpecTrajectory SpecGenerator SpecStep SpecLegs SpecReach SpecMore Semantics BuilderProofs BuilderHistory HistoryFacts
  BuilderCases GeometryFacts SolutionProofs TrajectoryProofs GeneratorCases LimitProofs StepProofs DurationProofs LegProofs PartsProofs GeneratorProofs ReachProofs.
Open Scope R_scope.

(** ** Samples of the longer path *)
Lemma bump_length : forall ns w k, (w < length ns)%nat -> length (bump ns w k) = length ns.
Proof.
  intros ns w k H. unfold bump. rewrite app_length, firstn_length. cbn [length]. rewrite skipn_length. lia.
Qed.
Lemma bump_nth : forall ns w k j, (w < length ns)%nat ->
  nth j (bump ns w k) 0%nat = (nth j ns 0 + (if (j =? w)%nat then k else 0))%nat.
Proof.
  induction ns as [|n ns IH]; intros w k j H; [simpl in H; lia|]. destruct w as [|w].
  - unfold bump. cbn [firstn app nth skipn]. destruct j as [|j]; cbn [nth Nat.eqb]; lia.
  - change (bump (n :: ns) (S w) k) with (n :: bump ns w k). destruct j as [|j]; cbn [nth Nat.eqb]; [lia|].
    apply IH. simpl in H. lia.
Qed.
Lemma bump_sample : forall ns w k j, (w < length ns)%nat ->
  waypoint_sample (bump ns w k) j = (waypoint_sample ns j + (if (j <=? w)%nat then 0 else k))%nat.
Proof.
  induction ns as [|n ns IH]; intros w k j H; [simpl in H; lia|]. destruct j as [|j]; [reflexivity|]. destruct w as [|w].
  - unfold bump, waypoint_sample. cbn [firstn app nth skipn Nat.leb]. change (list_sum (?x :: ?l)) with (x + list_sum l)%nat. lia.
  - change (bump (n :: ns) (S w) k) with (n :: bump ns w k).
    change (waypoint_sample (n :: bump ns w k) (S j)) with (n + waypoint_sample (bump ns w k) j)%nat.
    change (waypoint_sample (n :: ns) (S j)) with (n + waypoint_sample ns j)%nat.
    rewrite IH by (simpl in H; lia). cbn [Nat.leb]. lia.
Qed.
Lemma bump_last : forall ns w k, (w < length ns)%nat -> last_sample (bump ns w k) = (last_sample ns + k)%nat.
Proof.
  intros ns w k H. rewrite <- (waypoint_sample_past (bump ns w k) (length (bump ns w k))) by lia.
  rewrite bump_sample by exact H. rewrite bump_length by exact H. rewrite waypoint_sample_past by lia.
  destruct (Nat.leb_spec (length ns) w); lia.
Qed.

(** ** Waiting *)
Definition calm (q : state) : state := mkState (q_x q) (q_y q) (q_c q) (q_s q) (q_vx q) (q_vy q) (q_w q) 0 0 0.
Lemma calm_demands : forall q c, demands q c -> demands (calm q) c.
Proof.
  intros q c H. destruct c; try exact H. cbn [demands] in *. cbn [calm q_ax q_ay]. unfold norm2. cbn [fst snd].
  rewrite Rmult_0_l, Rplus_0_l, sqrt_0. apply Rabs_pos.
Qed.
Section Wait.
  Variables (sol : solution R) (ns : list nat) (w k s m : nat).
  Let W := waypoint_sample ns.
  Definition waiting (i : nat) : bool := ((s <? i) && (i <=? s + k))%nat.
  Definition before (i : nat) : nat := if (i <=? s)%nat then i else if (i <=? s + k)%nat then s else (i - k)%nat.
  Definition wstate (i : nat) : state := if waiting i then calm (at_sample sol (before i)) else at_sample sol (before i).
  Definition wstep (i : nat) : R :=
    if (i <=? s)%nat then step_to sol i else if (i <=? s + k)%nat then step_to sol (S (W w)) else step_to sol (i - k).
  Definition wforce (f : list (list R)) (i : nat) : list R := if waiting i then repeat 0 m else nth (before i) f [].
  Definition over {A} (f : nat -> A) : list A := map f (seq 0 (S (last_sample ns + k))).
  Definition waited : solution R :=
    mkSolution (map (fun i => wstep (S i)) (seq 0 (last_sample ns + k)))
      (over (fun i => q_x (wstate i))) (over (fun i => q_y (wstate i))) (over (fun i => q_c (wstate i))) (over (fun i => q_s (wstate i)))
      (over (fun i => q_vx (wstate i))) (over (fun i => q_vy (wstate i))) (over (fun i => q_w (wstate i)))
      (over (fun i => q_ax (wstate i))) (over (fun i => q_ay (wstate i))) (over (fun i => q_al (wstate i)))
      (over (wforce (s_moduleFX sol))) (over (wforce (s_moduleFY sol))).
  Lemma over_nth : forall {A} (f : nat -> A) z i, (i <= last_sample ns + k)%nat -> nth i (over f) z = f i.
  Proof.
    intros A f z i H. unfold over. rewrite (nth_indep _ z (f 0%nat)) by (rewrite map_length, seq_length; lia).
    rewrite map_nth, seq_nth by lia. reflexivity.
  Qed.
  Lemma waited_at : forall i, (i <= last_sample ns + k)%nat -> at_sample waited i = wstate i.
  Proof.
    intros i H. unfold at_sample at 1. unfold waited. cbn [s_x s_y s_thetacos s_thetasin s_vx s_vy s_omega s_ax s_ay s_alpha].
    rewrite !over_nth by exact H. destruct (wstate i). reflexivity.
  Qed.
  Lemma waited_step : forall i, (1 <= i <= last_sample ns + k)%nat -> step_to waited i = wstep i.
  Proof.
    intros i H. unfold step_to at 1. unfold waited. cbn [s_dt].
    rewrite (nth_indep _ 0 (wstep 1)) by (rewrite map_length, seq_length; lia).
    rewrite (map_nth (fun i => wstep (S i)) _ 0%nat), seq_nth by lia. f_equal. lia.
  Qed.
  Lemma combine_zero : forall n, combine (repeat 0 n) (repeat 0 n) = repeat (0, 0) n.
  Proof. induction n as [|n IH]; simpl; [reflexivity|]. rewrite IH. reflexivity. Qed.
  Lemma waited_forces : forall i, (i <= last_sample ns + k)%nat ->
    forces waited i = if waiting i then repeat (0, 0) m else forces sol (before i).
  Proof.
    intros i H. unfold forces, waited. cbn [s_moduleFX s_moduleFY]. rewrite !over_nth by exact H. unfold wforce.
    destruct (waiting i); [apply combine_zero|reflexivity].
  Qed.
End Wait.
Lemma no_force : forall d q, (forall fs, fs = repeat (0, 0) (length (d_modules d)) -> newton d (calm q) fs) /\
  (real_wheels d -> forces_within d (repeat (0, 0) (length (d_modules d)))).
Proof.
  intros d q.
  assert (Z : forall md f, In (md, f) (combine (d_modules d) (repeat (0, 0) (length (d_modules d)))) -> In md (d_modules d) /\ f = (0, 0)).
  { intros md f H. split; [apply in_combine_l in H; exact H|apply in_combine_r in H; apply repeat_spec in H; exact H]. }
  split.
  - intros fs ->. unfold newton. cbn [calm q_ax q_ay q_al]. rewrite !Rmult_0_r.
    assert (S0 : forall {A} (f : A -> R) l, (forall a, In a l -> f a = 0) -> sum (map f l) = 0).
    { intros A f. induction l as [|a l IH]; intros H; [reflexivity|]. cbn [map sum]. rewrite (H a (or_introl eq_refl)), IH; [lra|intros; apply H; right; assumption]. }
    split; [|split]; apply S0.
    + intros a Ha. apply repeat_spec in Ha. subst. reflexivity.
    + intros a Ha. apply repeat_spec in Ha. subst. reflexivity.
    + intros [md f] Ha. destruct (Z md f Ha) as [_ ->]. unfold cross2. cbn [fst snd]. ring.
  - intros Wh md f Hf. destruct (Z md f Hf) as [Hm ->]. destruct (Wh md Hm) as (A & _ & C).
    unfold norm2. cbn [fst snd]. rewrite Rmult_0_l, Rplus_0_l, sqrt_0. apply Rmult_le_pos; [exact C|left; apply Rinv_0_lt_compat, A].
Qed.

(** What a segment is asked for, its first waypoint is asked for as well. *)
Lemma sgmt_at_start : forall (h : list (op R)) bs w c, In c (sgmt_requests bs h (S w)) -> In c (wpt_requests bs h w).
Proof.
  induction h as [|o h IH]; intros bs w c H; [destruct H|]. cbn [sgmt_requests wpt_requests] in *. rewrite in_app_iff in *.
  destruct H as [H|H]; [left|right; apply IH, H].
  destruct o; cbn [sgmt_request wpt_request] in *; try contradiction;
    destruct (Nat.ltb_spec fromIndex (S w)), (Nat.leb_spec (S w) toIndex); cbn [andb] in H; try contradiction;
    destruct (Nat.leb_spec fromIndex w), (Nat.leb_spec w toIndex); try lia; exact H.
Qed.

Lemma C120_rest_proof : forall asserts h d ns w k s handle g sol, good_history asserts h -> real_wheels d ->
  (forall n, In n ns -> (1 <= n)%nat) -> (w < length ns)%nat ->
  generator asserts (with_counts h ns) handle d g -> solved g sol ->
  (waypoint_sample ns w <= s <= waypoint_sample ns (S w))%nat -> rests (at_sample sol s) ->
  good_history asserts (with_counts h (bump ns w k)) /\
  forall handle', exists g' sol', generator asserts (with_counts h (bump ns w k)) handle' d g' /\ solved g' sol' /\
    (forall i, (i <= s)%nat -> at_sample sol' i = at_sample sol i) /\
    (forall i, (s < i <= last_sample ns)%nat -> at_sample sol' (i + k) = at_sample sol i).
Proof.
  intros asserts h d ns w k s handle g sol GH Wh Po Hw G Sv Hs ((V1 & V2) & Om & Un).
  destruct (counts_set asserts h ns GH) as (GH1 & C1 & W1 & D1 & Qw1 & Qs1).
  destruct (counts_set asserts h (bump ns w k) GH) as (GH2 & C2 & W2 & D2 & Qw2 & Qs2).
  split; [exact GH2|]. intros handle'.
  destruct (proj1 (solved_exact asserts _ handle d g GH1 G Wh ltac:(rewrite C1; exact Po) sol) Sv) as (Sh & Us & (Ph1 & Ph2) & (Rw & Rs)).
  rewrite C1 in *. set (n := last_sample ns) in *. set (W := waypoint_sample ns) in *.
  assert (Ln : (length ns < waypoint_count (path asserts h))%nat).
  { destruct G as [Cs _]. destruct (construct_inversion _ _ _ (path_inv asserts (with_counts h ns)) Cs) as [L _].
    change (b_counts (path asserts (with_counts h ns))) with (counts asserts (with_counts h ns)) in L. rewrite C1, W1 in L. exact L. }
  destruct (generator_exists asserts (with_counts h (bump ns w k)) handle' d) as (g' & G').
  { rewrite C2, W2, bump_length by exact Hw. exact Ln. }
  { rewrite D2, <- D1. destruct G as [_ Dr]. rewrite <- Dr. symmetry. apply path_drivetrain. }
  exists g', (waited sol ns w k s (length (d_modules d))). split; [exact G'|].
  assert (WS : W (S w) = (W w + nth w ns 0)%nat) by (apply waypoint_sample_S; exact Hw).
  assert (WL : (W (S w) <= n)%nat).
  { pose proof (waypoint_sample_mono ns (S w) (length ns) ltac:(lia)) as M. rewrite (waypoint_sample_past ns (length ns)) in M by lia. exact M. }
  assert (N1 : (1 <= nth w ns 0)%nat) by (apply Po, nth_In, Hw).
  set (sol' := waited sol ns w k s (length (d_modules d))).
  assert (At : forall i, (i <= n + k)%nat -> at_sample sol' i = wstate sol k s i) by (intros; apply waited_at; assumption).
  assert (St : forall i, (1 <= i <= n + k)%nat -> step_to sol' i = wstep sol ns w k s i) by (intros; apply waited_step; assumption).
  assert (Early : forall i, (i <= s)%nat -> wstate sol k s i = at_sample sol i).
  { intros i Hi. unfold wstate, waiting, before. destruct (Nat.ltb_spec s i), (Nat.leb_spec i s); try lia. reflexivity. }
  assert (Mid : forall i, (s < i <= s + k)%nat -> wstate sol k s i = calm (at_sample sol s)).
  { intros i Hi. unfold wstate, waiting, before. destruct (Nat.ltb_spec s i), (Nat.leb_spec i (s + k)), (Nat.leb_spec i s); try lia. reflexivity. }
  assert (Late : forall i, (s + k < i)%nat -> wstate sol k s i = at_sample sol (i - k)).
  { intros i Hi. unfold wstate, waiting, before. destruct (Nat.ltb_spec s i), (Nat.leb_spec i (s + k)), (Nat.leb_spec i s); try lia; reflexivity. }
  split; [|split].
  2:{ intros i Hi. rewrite At by (fold W in Hs; lia). apply Early, Hi. }
  2:{ intros i Hi. rewrite At by lia. rewrite Late by lia. f_equal. lia. }
  apply (solved_intro asserts (with_counts h (bump ns w k)) handle' d g' sol' GH2 G' Wh); rewrite C2.
  - intros x Hx. destruct (In_nth _ _ 0%nat Hx) as (j & Hj & <-). rewrite bump_length in Hj by exact Hw.
    rewrite bump_nth by exact Hw. pose proof (Po (nth j ns 0%nat) ltac:(apply nth_In; exact Hj)). lia.
  - unfold well_shaped. rewrite bump_last by exact Hw. unfold sol', waited, over.
    cbn [s_dt s_x s_y s_thetacos s_thetasin s_vx s_vy s_omega s_ax s_ay s_alpha s_moduleFX s_moduleFY].
    rewrite !map_length, !seq_length. fold n.
    assert (FF : forall f, length f = S n -> Forall (fun r => length r = length (d_modules d)) f ->
      Forall (fun r => length r = length (d_modules d)) (map (wforce k s (length (d_modules d)) f) (seq 0 (S (n + k))))).
    { intros f Lf Ff. apply Forall_forall. intros r Hr. apply in_map_iff in Hr. destruct Hr as (i & <- & Hi). apply in_seq in Hi.
      unfold wforce. destruct (waiting k s i) eqn:E; [apply repeat_length|].
      rewrite Forall_forall in Ff. apply Ff, nth_In. rewrite Lf. unfold waiting, before in *.
      destruct (Nat.ltb_spec s i), (Nat.leb_spec i (s + k)), (Nat.leb_spec i s); cbn [andb] in E; try discriminate; fold W in Hs; lia. }
    destruct Sh as (_ & _ & _ & _ & _ & _ & _ & _ & _ & _ & _ & LX & LY & FX & FY).
    repeat split; apply FF; assumption.
  - intros v j Hv Hj. rewrite bump_length in Hv by exact Hw. rewrite bump_nth in Hj by exact Hw. rewrite bump_sample by exact Hw. fold W.
    pose proof (waypoint_sample_S ns v Hv) as WV. fold W in WV.
    assert (VL : (W (S v) <= n)%nat).
    { pose proof (waypoint_sample_mono ns (S v) (length ns) ltac:(lia)) as M. rewrite (waypoint_sample_past ns (length ns)) in M by lia. exact M. }
    assert (Nv : (1 <= nth v ns 0)%nat) by (apply Po, nth_In, Hv). fold W in Hs.
    destruct (Nat.lt_trichotomy v w) as [L|[->|L]].
    + destruct (Nat.leb_spec v w); [|lia]. destruct (Nat.eqb_spec v w); [lia|]. rewrite Nat.add_0_r in Hj.
      pose proof (waypoint_sample_mono ns (S v) w ltac:(lia)) as M. fold W in M.
      rewrite !St by lia. unfold wstep.
      destruct (Nat.leb_spec (S (W v + 0 + j)) s), (Nat.leb_spec (S (W v + 0)) s); try lia. rewrite Nat.add_0_r. apply Us; assumption.
    + rewrite Nat.eqb_refl in Hj. destruct (Nat.leb_spec w w); [|lia]. rewrite Nat.add_0_r. rewrite !St by lia.
      assert (A : forall i, (W w < i <= W (S w) + k)%nat -> wstep sol ns w k s i = step_to sol (S (W w))).
      { intros i Hi. unfold wstep. fold W.
        destruct (Nat.leb_spec i s).
        - replace i with (S (W w + (i - W w - 1))) by lia. apply Us; [exact Hw|lia].
        - destruct (Nat.leb_spec i (s + k)); [reflexivity|].
          replace (i - k)%nat with (S (W w + (i - k - W w - 1))) by lia. apply Us; [exact Hw|lia]. }
      rewrite !A by lia. reflexivity.
    + destruct (Nat.leb_spec v w); [lia|]. destruct (Nat.eqb_spec v w); [lia|]. rewrite Nat.add_0_r in Hj.
      pose proof (waypoint_sample_mono ns (S w) v ltac:(lia)) as M. fold W in M. rewrite !St by lia. unfold wstep.
      destruct (Nat.leb_spec (S (W v + k + j)) s), (Nat.leb_spec (S (W v + k + j)) (s + k)), (Nat.leb_spec (S (W v + k)) s), (Nat.leb_spec (S (W v + k)) (s + k)); try lia.
      replace (S (W v + k + j) - k)%nat with (S (W v + j)) by lia. replace (S (W v + k) - k)%nat with (S (W v)) by lia. apply Us; assumption.
  - split; rewrite bump_last by exact Hw; fold n; intros i Hi; fold W in Hs.
    + cbv zeta. rewrite !At, St by lia. unfold wstep. destruct (Nat.leb_spec i s) as [L|L].
      { rewrite !Early by lia. apply Ph1. lia. }
      destruct (Nat.leb_spec i (s + k)) as [L'|L'].
      { rewrite (Mid i) by lia. destruct (Ph1 (S (W w)) ltac:(lia)) as (SW & _). split; [exact SW|].
        assert (P : forall q, q = at_sample sol s \/ q = calm (at_sample sol s) ->
          moves q (calm (at_sample sol s)) (step_to sol (S (W w))) /\ turns_up_to_half q (calm (at_sample sol s)) (step_to sol (S (W w))) /\
          accelerates q (calm (at_sample sol s)) (step_to sol (S (W w)))).
        { intros q Hq. assert (Q : q_x q = q_x (at_sample sol s) /\ q_y q = q_y (at_sample sol s) /\ q_c q = q_c (at_sample sol s) /\
            q_s q = q_s (at_sample sol s) /\ q_vx q = q_vx (at_sample sol s) /\ q_vy q = q_vy (at_sample sol s) /\ q_w q = q_w (at_sample sol s))
            by (destruct Hq as [-> | ->]; repeat split; reflexivity).
          destruct Q as (Q1 & Q2 & Q3 & Q4 & Q5 & Q6 & Q7). unfold moves, turns_up_to_half, accelerates. cbv zeta.
          rewrite Q1, Q2, Q3, Q4, Q5, Q6, Q7. cbn [calm q_x q_y q_c q_s q_vx q_vy q_w q_ax q_ay q_al]. rewrite V1, V2, Om.
          split; [split; ring|]. split; [|repeat split; ring]. left. rewrite Rmult_0_l, cos_0, sin_0. split; [exact Un|ring]. }
        apply P. destruct (Nat.eq_dec i (S s)) as [->|Ne].
        - left. replace (S s - 1)%nat with s by lia. apply Early. lia.
        - right. apply Mid. lia. }
      rewrite (Late i) by lia. destruct (Ph1 (i - k)%nat ltac:(lia)) as (P1 & P2 & P3 & P4).
      assert (E : at_sample sol (i - k - 1) = wstate sol k s (i - 1) \/ (wstate sol k s (i - 1) = calm (at_sample sol (i - k - 1)))).
      { destruct (Nat.eq_dec i (s + k + 1)) as [->|Ne].
        - replace (s + k + 1 - k - 1)%nat with s by lia. replace (s + k + 1 - 1)%nat with (s + k)%nat by lia.
          destruct (Nat.eq_dec k 0) as [->|K0]; [left; rewrite Early by lia; f_equal; lia|right; apply Mid; lia].
        - left. rewrite Late by lia. f_equal. lia. }
      destruct E as [E|E]; [rewrite <- E|rewrite E].
      * split; [exact P1|]. split; [exact P2|]. split; [exact P3|exact P4].
      * split; [exact P1|]. split; [exact P2|]. split; [exact P3|exact P4].
    + rewrite At by lia. unfold sol'. rewrite waited_forces by (fold n; lia). unfold wstate. destruct (waiting k s i) eqn:E.
      * unfold waiting in E. apply andb_prop in E. destruct E as [E1 E2]. apply Nat.ltb_lt in E1. apply Nat.leb_le in E2.
        assert (B : before k s i = s) by (unfold before; destruct (Nat.leb_spec i s), (Nat.leb_spec i (s + k)); lia). rewrite B.
        destruct (no_force d (at_sample sol s)) as [F1 F2]. split; [apply F1; reflexivity|]. split; [|apply F2, Wh].
        destruct (Ph2 s ltac:(lia)) as (_ & WW & _). exact WW.
      * apply Ph2. unfold before, waiting in *. destruct (Nat.ltb_spec s i), (Nat.leb_spec i s), (Nat.leb_spec i (s + k)); cbn [andb] in E; try discriminate; lia.
  - fold W in Hs. split.
    + intros v c Hv Hc. rewrite bump_length in Hv by exact Hw. rewrite Qw2 in Hc. rewrite <- Qw1 in Hc. specialize (Rw v c Hv Hc). rewrite bump_sample by exact Hw. fold W in Rw |- *.
      assert (VL : (W v <= n)%nat).
      { pose proof (waypoint_sample_mono ns v (length ns) ltac:(lia)) as M. rewrite (waypoint_sample_past ns (length ns)) in M by lia. exact M. }
      destruct (Nat.leb_spec v w) as [L|L].
      * pose proof (waypoint_sample_mono ns v w ltac:(lia)) as M. fold W in M. rewrite Nat.add_0_r, At, Early by lia. exact Rw.
      * pose proof (waypoint_sample_mono ns (S w) v ltac:(lia)) as M. fold W in M. rewrite At by lia.
        destruct (Nat.eq_dec (W v) s) as [E|E].
        -- rewrite E in Rw |- *. destruct (Nat.eq_dec k 0) as [->|K0]; [rewrite Nat.add_0_r, Early by lia; exact Rw|].
           rewrite Mid by lia. apply calm_demands, Rw.
        -- rewrite Late by lia. replace (W v + k - k)%nat with (W v) by lia. exact Rw.
    + intros v c i Hv Hc Hi. rewrite bump_length in Hv by exact Hw. rewrite Qs2 in Hc. rewrite !bump_sample in Hi by exact Hw. fold W in Hi.
      assert (VL : (W v <= n)%nat).
      { pose proof (waypoint_sample_mono ns v (length ns) ltac:(lia)) as M. rewrite (waypoint_sample_past ns (length ns)) in M by lia. exact M. }
      assert (R : forall j, (W (v - 1)%nat < j <= W v)%nat -> demands (at_sample sol j) c).
      { intros j Hj. apply (Rs v c j Hv); [rewrite Qs1; exact Hc|exact Hj]. }
      destruct (Nat.lt_trichotomy v (S w)) as [L|[->|L]].
      * destruct (Nat.leb_spec (v - 1) w), (Nat.leb_spec v w); try lia.
        pose proof (waypoint_sample_mono ns v w ltac:(lia)) as M. fold W in M. rewrite At, Early by lia. apply R. lia.
      * replace (S w - 1)%nat with w in * by lia. destruct (Nat.leb_spec w w), (Nat.leb_spec (S w) w); try lia.
        rewrite At by lia. destruct (le_lt_dec i s) as [L|L]; [rewrite Early by lia; apply R; lia|].
        destruct (le_lt_dec i (s + k)) as [L'|L']; [|rewrite Late by lia; apply R; lia].
        rewrite Mid by lia. apply calm_demands. destruct (Nat.eq_dec s (W w)) as [E|E]; [|apply R; lia].
        rewrite E. apply (Rw w c); [lia|]. rewrite Qw1. apply sgmt_at_start, Hc.
      * destruct (Nat.leb_spec (v - 1) w), (Nat.leb_spec v w); try lia.
        pose proof (waypoint_sample_mono ns (S w) (v - 1) ltac:(lia)) as M. fold W in M. rewrite At, Late by lia. apply R. lia.
Qed.

(** ** Stopping *)
Lemma stop_rests : forall asserts h d ns v handle g sol, good_history asserts h -> (v <= length ns)%nat ->
  generator asserts (with_counts h ns) handle d g -> solved g sol -> asks_to_stop h v ->
  rests (at_sample sol (waypoint_sample ns v)).
Proof.
  intros asserts h d ns v handle g sol GH Hv G Sv ((p & P1 & P2) & L & A).
  destruct (counts_set asserts h ns GH) as (GH1 & C1 & _ & _ & Qw & _).
  destruct (solved_requests asserts _ handle d g sol GH1 G Sv) as (Rq & _). rewrite C1 in Rq.
  assert (R : forall c, In c (wpt_requests [] h v) -> demands (at_sample sol (waypoint_sample ns v)) c).
  { intros c Hc. apply Rq; [exact Hv|rewrite Qw; exact Hc]. }
  pose proof (R _ P1) as (_ & _ & H). pose proof (R _ L) as HL. pose proof (R _ A) as HA. cbn [demands] in HL, HA.
  set (q := at_sample sol (waypoint_sample ns v)) in *. rewrite Rabs_R0 in HL.
  pose proof (norm2_sqr (q_vx q) (q_vy q)) as E. pose proof (norm2_pos (q_vx q, q_vy q)) as Np.
  assert (Z : norm2 (q_vx q, q_vy q) = 0) by lra. rewrite Z, Rmult_0_l in E.
  split; [split; nra|]. split; [revert HA; unfold Rabs; destruct (Rcase_abs _); lra|].
  unfold unit_heading. unfold unit_rot in P2. destruct H as [[-> ->]|[-> ->]]; nra.
Qed.
(** Raising the counts one segment after the other. *)
Definition raised (ns ns' : list nat) (j : nat) : list nat := firstn j ns' ++ skipn j ns.
Lemma raised_S : forall ns ns' j, length ns' = length ns -> (j < length ns)%nat -> (nth j ns 0 <= nth j ns' 0)%nat ->
  raised ns ns' (S j) = bump (raised ns ns' j) j (nth j ns' 0 - nth j ns 0)%nat.
Proof.
  unfold raised. induction ns as [|n ns IH]; intros [|n' ns'] j L H Le; try (simpl in *; lia).
  destruct j as [|j].
  - unfold bump. cbn [firstn skipn app nth] in *. f_equal. lia.
  - change (firstn (S (S j)) (n' :: ns')) with (n' :: firstn (S j) ns'). change (skipn (S (S j)) (n :: ns)) with (skipn (S j) ns).
    change (firstn (S j) (n' :: ns')) with (n' :: firstn j ns'). change (skipn (S j) (n :: ns)) with (skipn j ns).
    rewrite <- !app_comm_cons. rewrite IH; [reflexivity|simpl in *; lia|simpl in *; lia|exact Le].
Qed.
Lemma raised_length : forall ns ns' j, length ns' = length ns -> length (raised ns ns' j) = length ns.
Proof. intros. unfold raised. rewrite app_length, firstn_length, skipn_length. lia. Qed.
Lemma C120_stops_proof : forall asserts h d ns ns' handle g sol, good_history asserts h -> real_wheels d ->
  (forall n, In n ns -> (1 <= n)%nat) -> length ns' = length ns -> (forall w, (nth w ns 0 <= nth w ns' 0)%nat) ->
  (forall w, (w < length ns)%nat -> (nth w ns 0 < nth w ns' 0)%nat -> asks_to_stop h w \/ asks_to_stop h (S w)) ->
  generator asserts (with_counts h ns) handle d g -> solved g sol ->
  good_history asserts (with_counts h ns') /\
  forall handle', exists g' sol', generator asserts (with_counts h ns') handle' d g' /\ solved g' sol'.
Proof.
  intros asserts h d ns ns' handle g sol GH Wh Po L Le St G Sv.
  assert (Main : forall j, (j <= length ns)%nat ->
    good_history asserts (with_counts h (raised ns ns' j)) /\ (forall n, In n (raised ns ns' j) -> (1 <= n)%nat) /\
    forall handle', exists g' sol', generator asserts (with_counts h (raised ns ns' j)) handle' d g' /\ solved g' sol').
  { induction j as [|j IH]; intros Hj.
    - change (raised ns ns' 0) with ns. destruct (counts_set asserts h ns GH) as (GH1 & C1 & W1 & D1 & _).
      split; [exact GH1|]. split; [exact Po|]. intros handle'.
      destruct ns as [|n0 ns0].
      + destruct (construct_inversion _ _ _ (path_inv asserts (with_counts h [])) (proj1 G)) as [Ln _].
        destruct (generator_exists asserts (with_counts h []) handle' d) as (g' & G').
        { exact Ln. } { rewrite <- path_drivetrain with (asserts := asserts). apply G. }
        exists g', sol. split; [exact G'|].
        apply (solved_exact asserts _ handle' d g' GH1 G' Wh ltac:(rewrite C1; intros n [])).
        apply (solved_exact asserts _ handle d g GH1 G Wh ltac:(rewrite C1; intros n [])). exact Sv.
      + destruct (construct_inversion _ _ _ (path_inv asserts (with_counts h (n0 :: ns0))) (proj1 G)) as [Ln _].
        destruct (generator_exists asserts (with_counts h (n0 :: ns0)) handle' d) as (g' & G').
        { exact Ln. } { rewrite <- path_drivetrain with (asserts := asserts). apply G. }
        exists g', sol. split; [exact G'|].
        apply (solved_exact asserts _ handle' d g' GH1 G' Wh ltac:(rewrite C1; exact Po)).
        apply (solved_exact asserts _ handle d g GH1 G Wh ltac:(rewrite C1; exact Po)). exact Sv.
    - destruct (IH ltac:(lia)) as (I1 & I2 & I3).
      rewrite raised_S by (try exact L; try lia; apply Le). set (k := (nth j ns' 0 - nth j ns 0)%nat).
      pose proof (raised_length ns ns' j L) as RL.
      destruct (Nat.eq_dec k 0) as [E|E].
      { rewrite E. assert (B0 : bump (raised ns ns' j) j 0 = raised ns ns' j).
        { apply (nth_ext _ _ 0%nat 0%nat); [apply bump_length; lia|]. intros i Hi. rewrite bump_nth by lia. destruct (i =? j)%nat; lia. }
        rewrite B0. split; [exact I1|]. split; [exact I2|exact I3]. }
      destruct (I3 0%Z) as (g1 & sol1 & G1 & S1).
      assert (R : exists s, (waypoint_sample (raised ns ns' j) j <= s <= waypoint_sample (raised ns ns' j) (S j))%nat /\ rests (at_sample sol1 s)).
      { pose proof (waypoint_sample_mono (raised ns ns' j) j (S j) ltac:(lia)) as M.
        destruct (St j ltac:(lia) ltac:(lia)) as [A|A].
        - exists (waypoint_sample (raised ns ns' j) j). split; [lia|].
          apply (stop_rests asserts h d _ j 0%Z g1 sol1 GH); [lia|exact G1|exact S1|exact A].
        - exists (waypoint_sample (raised ns ns' j) (S j)). split; [lia|].
          apply (stop_rests asserts h d _ (S j) 0%Z g1 sol1 GH); [lia|exact G1|exact S1|exact A]. }
      destruct R as (s & Hs & Re).
      destruct (C120_rest_proof asserts h d (raised ns ns' j) j k s 0%Z g1 sol1 GH Wh I2 ltac:(lia) G1 S1 Hs Re) as (B1 & B2).
      split; [exact B1|]. split.
      + intros n Hn. destruct (In_nth _ _ 0%nat Hn) as (i & Hi & <-). rewrite bump_length in Hi by lia. rewrite bump_nth by lia.
        pose proof (I2 (nth i (raised ns ns' j) 0%nat) ltac:(apply nth_In; exact Hi)). lia.
      + intros handle'. destruct (B2 handle') as (g' & sol' & A1 & A2 & _). exists g', sol'. split; assumption. }
  destruct (Main (length ns) ltac:(lia)) as (A & _ & B).
  assert (E : raised ns ns' (length ns) = ns').
  { unfold raised. rewrite skipn_all, app_nil_r, <- L. apply firstn_all. }
  rewrite E in A, B. split; assumption.
Qed.

(** ** Jumping over a point, or not *)
Definition leap_plan : solution R :=
  mkSolution [2] [0; 2] [0; 0] [1; 1] [0; 0] [1; 1] [0; 0] [0; 0] [0; 0] [0; 0] [0; 0]
    [[0; 0; 0; 0]; [0; 0; 0; 0]] [[0; 0; 0; 0]; [0; 0; 0; 0]].
Lemma heavy_wheels : real_wheels heavy.
Proof. intros md [<-|[<-|[<-|[<-|[]]]]]; simpl; lra. Qed.
Lemma leap_facts : forall asserts ns, (length ns <= 1)%nat -> good_history asserts (with_counts leap ns) /\
  counts asserts (with_counts leap ns) = ns /\ (forall handle, exists g, generator asserts (with_counts leap ns) handle heavy g) /\
  (forall w, wpt_requests [] (with_counts leap ns) w = wpt_requests [] leap w) /\
  (forall w, sgmt_requests [] (with_counts leap ns) w = sgmt_requests [] leap w).
Proof.
  intros asserts ns Ln.
  assert (M2 : (2 <= BuilderFacts.max63)%nat) by (apply Nat2Z.inj_le; rewrite BuilderFacts.max63_Z; simpl; lia).
  assert (Pl : Forall plain_call leap) by (repeat (constructor; [simpl; lia|]); constructor).
  destruct (plain_returned asserts leap new_builder BuilderFacts.inv_new Pl) as [R1 R2].
  assert (GH : good_history asserts leap).
  { split; [|split; [repeat (constructor; [exact I|]); constructor|exact R1]].
    eapply Forall_impl; [|exact Pl]. intros o Ho. destruct o; try contradiction; cbn [plain_call proper_call] in *.
    - exact I.
    - apply BuilderCases.below63_size, Ho.
    - apply BuilderCases.below63_size, Ho.
    - split; [apply BuilderCases.below63_size; lia|]. split; [apply BuilderCases.below63_size; lia|lia]. }
  destruct (counts_set asserts leap ns GH) as (G1 & C1 & W1 & D1 & Q1 & Q2).
  split; [exact G1|]. split; [exact C1|]. split; [|split; assumption]. intros handle. apply generator_exists.
  - rewrite C1, W1. unfold waypoint_count, path. unfold BuilderFacts.wlen in R2. rewrite R2.
    change (fold_left (fun n o => Nat.max n (needed [] o)) leap (length (b_waypoints (@new_builder R)))) with 2%nat. lia.
  - rewrite D1. reflexivity.
Qed.
Lemma C120_refuted_proof : forall asserts handle,
  (exists g sol, generator asserts (with_counts leap [1%nat]) handle heavy g /\ solved g sol) /\
  (exists g, generator asserts (with_counts leap [2%nat]) handle heavy g /\ forall sol, ~ solved g sol).
Proof.
  intros asserts handle. split.
  - destruct (leap_facts asserts [1%nat] ltac:(simpl; lia)) as (GH & C & Ge & Qw & Qs). destruct (Ge handle) as (g & G).
    exists g, leap_plan. split; [exact G|].
    apply (solved_intro asserts _ handle heavy g leap_plan GH G heavy_wheels); rewrite C.
    + intros n [<-|[]]; lia.
    + unfold well_shaped. cbn. repeat split; repeat constructor.
    + intros s k Hs Hk. destruct s as [|s]; [|simpl in Hs; lia]. cbn in Hk. assert (k = 0)%nat as -> by lia. reflexivity.
    + split; change (last_sample [1%nat]) with 1%nat; intros i Hi.
      * assert (i = 1%nat) as -> by lia. unfold at_sample, step_to, leap_plan. cbn -[cos sin Rabs].
        split; [split; [lra|]|split; [|split]].
        -- intros md a b Hm Hab. assert (E : m_wheelRadius md = 1 /\ m_wheelMaxAngularVelocity md = 1) by (destruct Hm as [<-|[<-|[<-|[<-|[]]]]]; split; reflexivity).
           destruct E as [-> ->]. cbn in Hab.
           destruct Hab as [E|[E|[E|[]]]]; injection E as <- <-; cbn [m_translation tX tY]; split; intros Ne; try (exfalso; lra);
             unfold Rabs; destruct (Rcase_abs _); lra.
        -- unfold moves. cbn. split; ring.
        -- unfold turns_up_to_half. cbn -[cos sin]. left. replace (0 * 2) with 0 by ring. rewrite cos_0, sin_0. split; ring.
        -- unfold accelerates. cbn. repeat split; ring.
      * assert (E : i = 0%nat \/ i = 1%nat) by lia.
        assert (Q : q_vx (at_sample leap_plan i) = 1 /\ q_vy (at_sample leap_plan i) = 0 /\ q_w (at_sample leap_plan i) = 0 /\
          q_c (at_sample leap_plan i) = 1 /\ q_s (at_sample leap_plan i) = 0 /\ q_ax (at_sample leap_plan i) = 0 /\
          q_ay (at_sample leap_plan i) = 0 /\ q_al (at_sample leap_plan i) = 0 /\ forces leap_plan i = repeat (0, 0) 4)
          by (destruct E as [-> | ->]; repeat split; reflexivity).
        destruct Q as (Q1 & Q2 & Q3 & Q4 & Q5 & Q6 & Q7 & Q8 & Q9). rewrite Q9. 
        split; [|split].
        -- unfold newton. rewrite Q6, Q7, Q8. cbn. unfold cross2. cbn [fst snd]. repeat split; ring.
        -- intros md Hm. unfold wheel_velocity. rewrite Q1, Q2, Q3, Q4, Q5.
           assert (E1 : m_wheelRadius md = 1 /\ m_wheelMaxAngularVelocity md = 1) by (destruct Hm as [<-|[<-|[<-|[<-|[]]]]]; split; reflexivity).
           destruct E1 as [-> ->]. unfold norm2. cbn [fst snd].
           match goal with |- sqrt ?x <= _ => replace x with 1 by ring end. rewrite sqrt_1. lra.
        -- apply (no_force heavy (at_sample leap_plan i)), heavy_wheels.
    + split.
      * intros w c Hw Hc. rewrite Qw in Hc. assert (E : w = 0%nat \/ w = 1%nat) by (simpl in Hw; lia).
        destruct E as [-> | ->]; cbn in Hc; destruct Hc as [<-|[<-|[]]]; unfold waypoint_sample; cbn -[cos sin dist2 Rabs].
        -- split; [reflexivity|]. split; [reflexivity|]. left. rewrite ?cos_0, ?sin_0. split; reflexivity.
        -- unfold placed, pt. cbn -[dist2 Rabs]. rewrite dist2_norm. unfold norm2. cbn [fst snd]. rewrite Rabs_right by lra.
           match goal with |- _ <= sqrt ?x => replace x with 1 by ring end. rewrite sqrt_1. lra.
        -- split; [reflexivity|]. split; [reflexivity|]. left. rewrite ?cos_0, ?sin_0. split; reflexivity.
        -- unfold placed, pt. cbn -[dist2 Rabs]. rewrite dist2_norm. unfold norm2. cbn [fst snd]. rewrite Rabs_right by lra.
           match goal with |- _ <= sqrt ?x => replace x with 1 by ring end. rewrite sqrt_1. lra.
      * intros w c i Hw Hc Hi. rewrite Qs in Hc. assert (w = 1%nat) as -> by (simpl in Hw; lia).
        unfold waypoint_sample in Hi. cbn in Hi. assert (i = 1%nat) as -> by lia. cbn in Hc. destruct Hc as [<-|[]].
        cbn -[dist2 Rabs]. unfold placed, pt. cbn -[dist2 Rabs]. rewrite dist2_norm. unfold norm2. cbn [fst snd]. rewrite Rabs_right by lra.
        match goal with |- _ <= sqrt ?x => replace x with 1 by ring end. rewrite sqrt_1. lra.
  - destruct (leap_facts asserts [2%nat] ltac:(simpl; lia)) as (GH & C & Ge & Qw & Qs). destruct (Ge handle) as (g & G).
    exists g. split; [exact G|]. intros sol Sv.
    destruct (proj1 (solved_exact asserts _ handle heavy g GH G heavy_wheels ltac:(rewrite C; intros n [<-|[]]; lia) sol) Sv)
      as (Sh & Us & (Ph1 & Ph2) & (Rw & Rs)). rewrite C in *.
    pose proof (Us 0%nat 1%nat ltac:(simpl; lia) ltac:(simpl; lia)) as U. unfold waypoint_sample in U. cbn [firstn list_sum fold_right Nat.add] in U.
    destruct (Ph1 1%nat ltac:(simpl; lia)) as ((T0 & T1) & (X1 & Y1) & _ & _).
    destruct (Ph1 2%nat ltac:(simpl; lia)) as (_ & (X2 & Y2) & _ & (A1 & A2 & _)).
    change (2 - 1)%nat with 1%nat in *. change (1 - 1)%nat with 0%nat in *. rewrite U in X2, Y2, A1, A2.
    destruct (Ph2 2%nat ltac:(simpl; lia)) as (Nw & _ & Fw).
    assert (Lf : length (forces sol 2) = length (d_modules heavy)).
    { destruct Sh as (_ & _ & _ & _ & _ & _ & _ & _ & _ & _ & _ & LX & LY & FX & FY). unfold forces. rewrite combine_length.
      rewrite Forall_forall in FX, FY. rewrite (FX (nth 2 (s_moduleFX sol) [])), (FY (nth 2 (s_moduleFY sol) [])); [apply Nat.min_id| |];
        apply nth_In; [rewrite LY|rewrite LX]; simpl; lia. }
    destruct (newton_limits heavy _ _ Lf Nw Fw) as [Ac _]. cbn [heavy d_mass d_modules map force_limit] in Ac.
    unfold force_limit in Ac. cbn [m_wheelMaxTorque m_wheelRadius sum] in Ac. rewrite (Rabs_right 64) in Ac by lra.
    pose proof (Rw 0%nat (PoseEquality (pose_xyh 0 0 0)) ltac:(simpl; lia) ltac:(rewrite Qw; left; reflexivity)) as (P0 & Q0 & _).
    pose proof (Rw 1%nat (PoseEquality (pose_xyh 2 0 0)) ltac:(simpl; lia) ltac:(rewrite Qw; left; reflexivity)) as (P2 & Q2 & _).
    pose proof (Rs 1%nat (PointPoint (mkTr 0 0) (mkTr 1 0) (1 / 2)) 1%nat ltac:(simpl; lia) ltac:(rewrite Qs; left; reflexivity)
      ltac:(unfold waypoint_sample; simpl; lia)) as K.
    unfold waypoint_sample in P0, Q0, P2, Q2. cbn [firstn list_sum fold_right Nat.add pose_xyh pTr tX tY] in P0, Q0, P2, Q2.
    cbn [demands] in K. unfold placed, pt in K. cbn [tX tY] in K. rewrite (Rabs_right (1 / 2)) in K by lra.
    destruct (T1 (mkModule (mkTr 2 2) 1 1 (1 / 4)) (mkModule (mkTr 2 2) 1 1 (1 / 4)) (mkModule (mkTr 2 (-2)) 1 1 (1 / 4))
      ltac:(left; reflexivity) ltac:(left; reflexivity)) as [_ T2].
    cbn [m_translation tX tY m_wheelRadius m_wheelMaxAngularVelocity] in T2. specialize (T2 ltac:(lra)).
    rewrite (Rabs_right (2 - -2)) in T2 by lra.
    set (dt := step_to sol 1) in *. set (a := at_sample sol 0) in *. set (b := at_sample sol 1) in *. set (c := at_sample sol 2) in *.
    pose proof (norm2_sqr (q_ax c) (q_ay c)) as Sq. pose proof (norm2_pos (q_ax c, q_ay c)) as Np. set (A := norm2 (q_ax c, q_ay c)) in *.
    rewrite dist2_norm in K. cbn [fst snd] in K.
    match type of K with _ <= norm2 (?x, ?y) => pose proof (norm2_sqr x y) as Kq; set (D := norm2 (x, y)) in * end.
    assert (EX : q_x b - 1 = - (q_ax c * (dt * dt)) / 2) by (rewrite P2 in X2; rewrite P0 in X1; rewrite A1 in X2; nra).
    assert (EY : q_y b = - (q_ay c * (dt * dt)) / 2) by (rewrite Q2 in Y2; rewrite Q0 in Y1; rewrite A2 in Y2; nra).
    assert (Kq' : D * D = (q_x b - 1) * (q_x b - 1) + q_y b * q_y b) by (rewrite Kq; ring).
    rewrite EX, EY in Kq'. assert (Kq2 : D * D = A * A * ((dt * dt) * (dt * dt)) / 4) by (rewrite Kq', Sq; field).
    assert (B1 : dt <= 4) by lra. assert (B2 : dt * dt <= 16) by nra. assert (B2' : 0 <= dt * dt) by nra.
    assert (B3 : dt * dt * (dt * dt) <= 256) by nra. assert (B4 : A * A <= 1 / 64 * (1 / 64)) by (apply Rmult_le_compat; lra).
    assert (B5 : 1 / 4 <= D * D) by nra.
    assert (A * A * (dt * dt * (dt * dt)) <= 1 / 64 * (1 / 64) * 256) by (apply Rmult_le_compat; nra). lra.
Qed.

(** ** Tours *)
Lemma visit_asks : forall ps i bs k, (k < length ps)%nat -> let p := nth k ps (mkStop 0 0 0) in
  In (PoseEquality (pose_xyh (o_x p) (o_y p) (o_a p))) (wpt_requests bs (visit i ps) (i + k)) /\
  In (LinearVelocityMaxMagnitude 0) (wpt_requests bs (visit i ps) (i + k)) /\
  In (AngularVelocityMaxMagnitude 0) (wpt_requests bs (visit i ps) (i + k)).
Proof.
  induction ps as [|p ps IH]; intros i bs k H; [simpl in H; lia|]. destruct k as [|k]; cbv zeta.
  - rewrite Nat.add_0_r. cbn [visit wpt_requests wpt_request bumper_request nth]. rewrite Nat.eqb_refl, !in_app_iff.
    split; [left; left; reflexivity|]. split; [right; left; left; reflexivity|right; right; left; left; reflexivity].
  - cbn [visit wpt_requests wpt_request bumper_request nth]. rewrite !in_app_iff.
    replace (i + S k)%nat with (S i + k)%nat by lia. rewrite !app_nil_r. destruct (IH (S i) bs k ltac:(simpl in H; lia)) as (H1 & H2 & H3).
    split; [do 3 right; exact H1|]. split; [do 3 right; exact H2|do 3 right; exact H3].
Qed.
Lemma tour_asks : forall d v w ps k, (k < length ps)%nat -> asks_to_stop (tour d v w ps) k.
Proof.
  intros d v w ps k Hk. destruct (visit_asks ps 0 [] k Hk) as (H1 & H2 & H3). cbn [Nat.add] in *.
  unfold asks_to_stop, tour. cbn [wpt_requests wpt_request bumper_request app]. rewrite wpt_requests_app, !in_app_iff.
  split; [|split; left; assumption]. eexists. rewrite in_app_iff. split; [left; exact H1|].
  unfold unit_rot. cbn. pose proof (sin2_cos2 (o_a (nth k ps (mkStop 0 0 0)))) as T. unfold Rsqr in T. lra.
Qed.
Lemma C120_tours_proof : forall asserts d v w ps ns ns' handle g sol, real_wheels d ->
  (2 <= length ps)%nat -> (Z.of_nat (length ps) <= 2 ^ 63)%Z -> length ns = (length ps - 1)%nat ->
  (forall n, In n ns -> (1 <= n)%nat) -> length ns' = length ns -> (forall k, (nth k ns 0 <= nth k ns' 0)%nat) ->
  generator asserts (with_counts (tour d v w ps) ns) handle d g -> solved g sol ->
  good_history asserts (with_counts (tour d v w ps) ns') /\
  forall handle', exists g' sol', generator asserts (with_counts (tour d v w ps) ns') handle' d g' /\ solved g' sol'.
Proof.
  intros asserts d v w ps ns ns' handle g sol Wh L2 LZ Ln Po Ln' Le G Sv.
  destruct (tour_facts asserts d v w ps L2 LZ) as (GH & _).
  apply (C120_stops_proof asserts _ d ns ns' handle g sol GH Wh Po Ln' Le); [|exact G|exact Sv].
  intros k Hk _. left. apply tour_asks. lia.
Qed.
Lemma round_trip_case : forall handle, real_wheels lopsided /\ good_history true round_trip /\
  (forall k, (k <= 2)%nat -> asks_to_stop round_trip k) /\
  exists ns g sol, length ns = 2%nat /\ (forall n, In n ns -> (1 <= n)%nat) /\
    generator true (with_counts round_trip ns) handle lopsided g /\ solved g sol /\
    rests (at_sample sol (waypoint_sample ns 1)).
Proof.
  intros handle. 
  assert (GH : good_history true round_trip) by (apply tour_facts; simpl; lia).
  assert (St : forall k, (k <= 2)%nat -> asks_to_stop round_trip k) by (intros k Hk; apply tour_asks; simpl; lia).
  split; [|split; [exact GH|split; [exact St|]]].
  - intros md [<-|[<-|[<-|[]]]]; simpl; lra.
  - destruct tour_case as (m & M). set (ns := [S m; S m]).
    destruct (M ns eq_refl ltac:(intros n [<-|[<-|[]]]; lia)) as (_ & M2). destruct (M2 handle) as (g & sol & G & Sv).
    exists ns, g, sol. split; [reflexivity|]. split; [intros n [<-|[<-|[]]]; lia|]. split; [exact G|]. split; [exact Sv|].
    apply (stop_rests true round_trip lopsided ns 1 handle g sol GH); [simpl; lia|exact G|exact Sv|apply St; lia].
Qed.
