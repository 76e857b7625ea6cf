(** Parts of paths and of trajectories (C100, C101). *)
From Coq Require Import List Lia Lra Psatz Reals ZArith.
Import ListNotations.
From Verif Require Import Outcome Num NumR Geometry Expr Constraints Util Builder Guess Generator Trajectory
  Spec SpecBuilder SpecPhysics SpecTrajectory SpecGenerator SpecChange SpecParts Semantics
  UtilFacts GeometryFacts BuilderFacts BuilderHistory ConstraintFacts GuessFacts GeneratorFacts SeedFacts FeasibleFacts
  GeneratorProofs HistoryFacts SolutionProofs TrajectoryProofs GeneratorCases LimitProofs OrderProofs ConstraintOrder.
Local Open Scope nat_scope.

(** ** All that a solution is *)
Lemma solved_exact : forall asserts h handle d g, good_history asserts h -> generator asserts h handle d g ->
  real_wheels d -> (forall n, In n (counts asserts h) -> (1 <= n)%nat) ->
  forall sol, solved g sol <->
    well_shaped (counts asserts h) (length (d_modules d)) sol /\ uniform_steps (counts asserts h) sol /\
    obeys_physics turns_up_to_half d (counts asserts h) sol /\
    meets_requests (counts asserts h) sol (wpt_requests [] h) (sgmt_requests [] h).
Proof.
  intros asserts h handle d g GH G W Pos sol. split.
  - intros (env & F & E). destruct (proj1 (C15_proof asserts h handle d g GH G W Pos env sol E) F) as [P M].
    pose proof (uniform_read asserts h handle d g env sol G E) as U.
    destruct (C25_proof asserts h handle d g env G) as (s0 & E0 & S0). rewrite E in E0. injection E0 as <-.
    repeat (split; [assumption|]). assumption.
  - intros (Sh & U & P & M). apply (solved_intro asserts h handle d g); assumption.
Qed.

(** ** Slices *)
Lemma nth_slice : forall {A} (l : list A) i n k d, k < n -> nth k (slice i n l) d = nth (i + k) l d.
Proof.
  intros A l i n k d Hk. unfold slice. revert i n k Hk. induction l as [|x l IH]; intros i n k Hk.
  - rewrite skipn_nil, firstn_nil. rewrite !nth_overflow by (cbn [length]; lia). reflexivity.
  - destruct i as [|i].
    + cbn [skipn]. destruct n as [|n]; [lia|]. destruct k as [|k]; [reflexivity|]. cbn [firstn nth Nat.add].
      specialize (IH 0 n k ltac:(lia)). exact IH.
    + cbn [skipn Nat.add nth]. apply IH. exact Hk.
Qed.
Lemma length_slice : forall {A} (l : list A) i n, i + n <= length l -> length (slice i n l) = n.
Proof. intros A l i n H. unfold slice. rewrite firstn_length, skipn_length. lia. Qed.
Lemma Forall_slice : forall {A} (P : A -> Prop) l i n, Forall P l -> Forall P (slice i n l).
Proof.
  intros A P l i n F. rewrite Forall_forall in *. intros x Hx. apply F. unfold slice in Hx.
  rewrite <- (firstn_skipn i l). apply in_or_app. right. rewrite <- (firstn_skipn n (skipn i l)). apply in_or_app. left. exact Hx.
Qed.
Lemma sample_stretch : forall i n sol k, k <= n -> at_sample (stretch i n sol) k = at_sample sol (i + k).
Proof. intros i n sol k H. unfold at_sample, stretch. cbn -[slice]. rewrite !nth_slice by lia. reflexivity. Qed.
Lemma forces_stretch : forall i n sol k, k <= n -> forces (stretch i n sol) k = forces sol (i + k).
Proof. intros i n sol k H. unfold forces, stretch. cbn -[slice]. rewrite !nth_slice by lia. reflexivity. Qed.
Lemma step_stretch : forall i n sol k, 1 <= k <= n -> step_to (stretch i n sol) k = step_to sol (i + k).
Proof.
  intros i n sol k H. unfold step_to, stretch. cbn [s_dt]. rewrite nth_slice by lia. f_equal. lia.
Qed.
Lemma shape_stretch : forall N N' m sol i, well_shaped N m sol -> i + last_sample N' <= last_sample N ->
  well_shaped N' m (stretch i (last_sample N') sol).
Proof.
  intros N N' m sol i S L. unfold well_shaped in *. destruct S as (S1 & S2 & S3 & S4 & S5 & S6 & S7 & S8 & S9 & S10 & S11 & S12 & S13 & S14 & S15).
  unfold stretch. cbn [s_dt s_x s_y s_thetacos s_thetasin s_vx s_vy s_omega s_ax s_ay s_alpha s_moduleFX s_moduleFY].
  repeat (split; [apply length_slice; lia|]). split; apply Forall_slice; assumption.
Qed.

(** ** Waypoints of a part *)
Lemma list_sum_app' : forall a b, list_sum (a ++ b) = list_sum a + list_sum b.
Proof. induction a as [|x a IH]; intros b; [reflexivity|]. cbn [app list_sum fold_right]. change (fold_right Nat.add 0 (a ++ b)) with (list_sum (a ++ b)).
  rewrite IH. change (fold_right Nat.add 0 a) with (list_sum a). lia. Qed.
Lemma part_waypoint : forall A C B w, w <= length C ->
  waypoint_sample (A ++ C ++ B) (length A + w) = list_sum A + waypoint_sample C w.
Proof.
  intros A C B w H. unfold waypoint_sample. rewrite firstn_app_2, list_sum_app'. f_equal.
  rewrite firstn_app. replace (w - length C) with 0 by lia. cbn [firstn]. rewrite app_nil_r. reflexivity.
Qed.
Lemma part_last : forall A C B, list_sum A + last_sample C <= last_sample (A ++ C ++ B).
Proof. intros. unfold last_sample. rewrite !list_sum_app'. lia. Qed.
Lemma waypoint_le : forall C w, waypoint_sample C w <= last_sample C.
Proof. intros. apply list_sum_firstn_le. Qed.
Lemma waypoint_S : forall C s, waypoint_sample C (S s) = waypoint_sample C s + nth s C 0.
Proof. intros. apply list_sum_firstn_S. Qed.
Lemma waypoint_end : forall C, waypoint_sample C (length C) = last_sample C.
Proof. intros. unfold waypoint_sample. rewrite firstn_all. reflexivity. Qed.
Lemma waypoint_mono : forall C a b, a <= b -> waypoint_sample C a <= waypoint_sample C b.
Proof. intros. apply list_sum_firstn_mono. assumption. Qed.

Section Part.
  Variables (A C B : list nat) (sol : solution R).
  Let N := A ++ C ++ B.
  Let i := list_sum A.
  Let part := stretch i (last_sample C) sol.

  Lemma uniform_part : uniform_steps N sol -> uniform_steps C part.
  Proof.
    intros U s k Hs Hk.
    pose proof (waypoint_S C s) as E. pose proof (waypoint_le C (S s)) as L. unfold part.
    rewrite !step_stretch by lia.
    assert (Es : nth (length A + s) N 0 = nth s C 0).
    { unfold N. rewrite app_nth2 by lia. replace (length A + s - length A) with s by lia. apply app_nth1. exact Hs. }
    assert (Ew : waypoint_sample N (length A + s) = i + waypoint_sample C s) by (apply part_waypoint; lia).
    specialize (U (length A + s) k). rewrite Ew, Es in U.
    replace (i + S (waypoint_sample C s + k)) with (S (i + waypoint_sample C s + k)) by lia.
    replace (i + S (waypoint_sample C s)) with (S (i + waypoint_sample C s)) by lia.
    apply U; [|exact Hk]. unfold N. rewrite !app_length. lia.
  Qed.
  Lemma physics_part : forall turning d, obeys_physics turning d N sol -> obeys_physics turning d C part.
  Proof.
    intros turning d (P1 & P2). pose proof (part_last A C B) as L. fold N i in L. split.
    - intros k Hk. cbv zeta. unfold part. rewrite !sample_stretch by lia. rewrite step_stretch by lia.
      replace (i + (k - 1)) with (i + k - 1) by lia. apply (P1 (i + k)). lia.
    - intros k Hk. unfold part. rewrite sample_stretch, forces_stretch by lia. apply P2. lia.
  Qed.
  Lemma requests_part : forall wp sg wp' sg',
    (forall w, w <= length C -> incl (wp' w) (wp (length A + w))) ->
    (forall w, 1 <= w <= length C -> incl (sg' w) (sg (length A + w))) ->
    meets_requests N sol wp sg -> meets_requests C part wp' sg'.
  Proof.
    intros wp sg wp' sg' I1 I2 (M1 & M2). split.
    - intros w c Hw Hc. unfold part. rewrite sample_stretch by apply waypoint_le.
      unfold i. rewrite <- (part_waypoint A C B w Hw). apply M1; [|apply I1; assumption].
      unfold N. rewrite !app_length. lia.
    - intros w c k Hw Hc Hk. pose proof (waypoint_le C w). unfold part. rewrite sample_stretch by lia.
      apply (M2 (length A + w) c); [|apply I2; assumption|].
      + unfold N. rewrite !app_length. lia.
      + replace (length A + w - 1) with (length A + (w - 1)) by lia. unfold N.
        rewrite !part_waypoint by lia. fold i. lia.
  Qed.
End Part.

Lemma C100_stretch_proof : forall asserts h handle d g h' handle' g' before after,
  good_history asserts h -> generator asserts h handle d g ->
  good_history asserts h' -> generator asserts h' handle' d g' ->
  real_wheels d -> (forall n, In n (counts asserts h) -> 1 <= n) ->
  counts asserts h = before ++ counts asserts h' ++ after ->
  asks_less h' h (length before) (length (counts asserts h')) ->
  forall sol, solved g sol ->
    solved g' (stretch (waypoint_sample (counts asserts h) (length before)) (last_sample (counts asserts h')) sol).
Proof.
  intros asserts h handle d g h' handle' g' A B GH G GH' G' W Pos E (I1 & I2) sol S.
  apply (solved_exact asserts h handle d g GH G W Pos) in S. destruct S as (Sh & U & P & M).
  assert (Pos' : forall n, In n (counts asserts h') -> 1 <= n).
  { intros n Hn. apply Pos. rewrite E. apply in_or_app. right. apply in_or_app. left. exact Hn. }
  apply (solved_exact asserts h' handle' d g' GH' G' W Pos'). rewrite E in *.
  replace (length A) with (length A + 0) by lia. rewrite part_waypoint by lia.
  replace (list_sum A + waypoint_sample (counts asserts h') 0) with (list_sum A) by (unfold waypoint_sample; cbn; lia).
  split; [|split; [|split]].
  - apply (shape_stretch (A ++ counts asserts h' ++ B)); [exact Sh|apply part_last].
  - apply (uniform_part A _ B). exact U.
  - apply (physics_part A _ B). exact P.
  - apply (requests_part A _ B sol _ _ _ _ I1 I2 M).
Qed.

(** ** Durations *)
Lemma sum_app : forall a b, (sum (a ++ b) = sum a + sum b)%R.
Proof. induction a as [|x a IH]; intros b; cbn [app sum]; [lra|]. rewrite IH. lra. Qed.
Lemma C100_durations_proof : forall asserts h handle d g sol k, generator asserts h handle d g -> solved g sol ->
  k <= last_sample (counts asserts h) ->
  (sum (s_dt sol) = sum (s_dt (stretch 0 k sol)) + sum (s_dt (stretch k (last_sample (counts asserts h) - k) sol)))%R.
Proof.
  intros asserts h handle d g sol k G (env & F & E) Hk.
  destruct (C25_proof asserts h handle d g env G) as (s0 & E0 & S0). rewrite E in E0. injection E0 as <-.
  destruct S0 as (L & _). rewrite <- sum_app. f_equal. unfold stretch, slice. cbn [s_dt skipn].
  rewrite (firstn_all2 (skipn k (s_dt sol))) by (rewrite skipn_length; lia). symmetry. apply firstn_skipn.
Qed.

Lemma C100_legs_proof : forall asserts h handle d g h1 handle1 g1 h2 handle2 g2 T1 T2,
  good_history asserts h -> generator asserts h handle d g ->
  good_history asserts h1 -> generator asserts h1 handle1 d g1 ->
  good_history asserts h2 -> generator asserts h2 handle2 d g2 ->
  real_wheels d -> (forall n, In n (counts asserts h) -> 1 <= n) ->
  counts asserts h = counts asserts h1 ++ counts asserts h2 ->
  asks_less h1 h 0 (length (counts asserts h1)) ->
  asks_less h2 h (length (counts asserts h1)) (length (counts asserts h2)) ->
  (forall sol, solved g1 sol -> (T1 <= sum (s_dt sol))%R) ->
  (forall sol, solved g2 sol -> (T2 <= sum (s_dt sol))%R) ->
  forall sol, solved g sol -> (T1 + T2 <= sum (s_dt sol))%R.
Proof.
  intros asserts h handle d g h1 handle1 g1 h2 handle2 g2 T1 T2 GH G GH1 G1 GH2 G2 W Pos E A1 A2 B1 B2 sol S.
  pose proof (C100_stretch_proof asserts h handle d g h1 handle1 g1 [] (counts asserts h2) GH G GH1 G1 W Pos E A1 sol S) as S1.
  pose proof (C100_stretch_proof asserts h handle d g h2 handle2 g2 (counts asserts h1) [] GH G GH2 G2 W Pos) as S2.
  rewrite app_nil_r in S2. specialize (S2 E A2 sol S).
  assert (L : last_sample (counts asserts h) = last_sample (counts asserts h1) + last_sample (counts asserts h2))
    by (unfold last_sample; rewrite E; apply list_sum_app').
  assert (Wp : waypoint_sample (counts asserts h) (length (counts asserts h1)) = last_sample (counts asserts h1)).
  { rewrite E. unfold waypoint_sample. rewrite firstn_app, firstn_all, Nat.sub_diag. cbn [firstn]. rewrite app_nil_r. reflexivity. }
  rewrite Wp in S2. cbn [length] in S1. change (waypoint_sample (counts asserts h) 0) with 0 in S1.
  rewrite (C100_durations_proof asserts h handle d g sol (last_sample (counts asserts h1)) G S ltac:(lia)).
  replace (last_sample (counts asserts h) - last_sample (counts asserts h1)) with (last_sample (counts asserts h2)) by lia.
  specialize (B1 _ S1). specialize (B2 _ S2). lra.
Qed.

(** ** Joining *)
Section Join.
  Variables (C1 C2 : list nat) (m : nat) (a b : solution R).
  Hypotheses (S1 : well_shaped C1 m a) (S2 : well_shaped C2 m b).
  Let L := last_sample C1.
  Hypothesis Meet : at_sample a L = at_sample b 0.
  Let N := C1 ++ C2.
  Let j := joined a b.

  Lemma nth_join1 : forall {X} (l l' : list X) k d, length l = S L -> k <= L -> nth k (l ++ tl l') d = nth k l d.
  Proof. intros X l l' k d E H. apply app_nth1. lia. Qed.
  Lemma nth_join2 : forall {X} (l l' : list X) k d, length l = S L -> L < k -> nth k (l ++ tl l') d = nth (k - L) l' d.
  Proof.
    intros X l l' k d E H. rewrite app_nth2 by lia. rewrite E. replace (k - L) with (S (k - S L)) by lia.
    destruct l' as [|x l']; cbn [tl nth]; [destruct (k - S L); reflexivity|reflexivity].
  Qed.
  Lemma sample_join1 : forall k, k <= L -> at_sample j k = at_sample a k.
  Proof.
    intros k H. destruct S1 as (_ & E1 & E2 & E3 & E4 & E5 & E6 & E7 & E8 & E9 & E10 & _).
    unfold at_sample, j, joined. cbn [s_x s_y s_thetacos s_thetasin s_vx s_vy s_omega s_ax s_ay s_alpha].
    rewrite !nth_join1 by assumption. reflexivity.
  Qed.
  Lemma sample_join2 : forall k, L <= k -> at_sample j k = at_sample b (k - L).
  Proof.
    intros k H. destruct (Nat.eq_dec k L) as [->|Ne]; [rewrite sample_join1 by lia; rewrite Meet; f_equal; lia|].
    assert (H' : L < k) by lia.
    destruct S1 as (_ & E1 & E2 & E3 & E4 & E5 & E6 & E7 & E8 & E9 & E10 & _).
    unfold at_sample, j, joined. cbn [s_x s_y s_thetacos s_thetasin s_vx s_vy s_omega s_ax s_ay s_alpha].
    rewrite !nth_join2 by assumption. reflexivity.
  Qed.
  Lemma forces_join1 : forall k, k <= L -> forces j k = forces a k.
  Proof.
    intros k H. destruct S1 as (_ & _ & _ & _ & _ & _ & _ & _ & _ & _ & _ & E1 & E2 & _).
    unfold forces, j, joined. cbn [s_moduleFX s_moduleFY]. rewrite !nth_join1 by assumption. reflexivity.
  Qed.
  Lemma forces_join2 : forall k, L < k -> forces j k = forces b (k - L).
  Proof.
    intros k H. destruct S1 as (_ & _ & _ & _ & _ & _ & _ & _ & _ & _ & _ & E1 & E2 & _).
    unfold forces, j, joined. cbn [s_moduleFX s_moduleFY]. rewrite !nth_join2 by assumption. reflexivity.
  Qed.
  Lemma step_join1 : forall k, 1 <= k <= L -> step_to j k = step_to a k.
  Proof. intros k H. destruct S1 as (E & _). unfold step_to, j, joined. cbn [s_dt]. apply app_nth1. fold L in E. lia. Qed.
  Lemma step_join2 : forall k, L < k -> step_to j k = step_to b (k - L).
  Proof.
    intros k H. destruct S1 as (E & _). unfold step_to, j, joined. cbn [s_dt]. fold L in E. rewrite app_nth2 by lia.
    rewrite E. f_equal. lia.
  Qed.
  Lemma last_join : last_sample N = L + last_sample C2.
  Proof. apply list_sum_app'. Qed.
  Lemma shape_join : well_shaped N m j.
  Proof.
    pose proof last_join as E. unfold well_shaped in *.
    destruct S1 as (A1 & A2 & A3 & A4 & A5 & A6 & A7 & A8 & A9 & A10 & A11 & A12 & A13 & A14 & A15).
    destruct S2 as (B1 & B2 & B3 & B4 & B5 & B6 & B7 & B8 & B9 & B10 & B11 & B12 & B13 & B14 & B15).
    fold L in A1, A2, A3, A4, A5, A6, A7, A8, A9, A10, A11, A12, A13.
    unfold j, joined. cbn [s_dt s_x s_y s_thetacos s_thetasin s_vx s_vy s_omega s_ax s_ay s_alpha s_moduleFX s_moduleFY].
    assert (T : forall {X} (l l' : list X), length l = S L -> length l' = S (last_sample C2) -> length (l ++ tl l') = S (last_sample N)).
    { intros X l l' H1 H2. destruct l' as [|x l']; [discriminate|]. rewrite app_length. cbn [tl length] in *. lia. }
    split; [rewrite app_length; lia|]. repeat (split; [apply T; assumption|]).
    assert (Q : forall (l l' : list (list R)), Forall (fun r => length r = m) l -> Forall (fun r => length r = m) l' ->
      Forall (fun r => length r = m) (l ++ tl l')).
    { intros l l' F F'. apply Forall_app. split; [exact F|]. destruct F'; [constructor|exact F']. }
    split; apply Q; assumption.
  Qed.
  Lemma waypoint_join1 : forall w, w <= length C1 -> waypoint_sample N w = waypoint_sample C1 w.
  Proof.
    intros w H. pose proof (part_waypoint [] C1 C2 w H) as E. cbn [app length Nat.add list_sum fold_right] in E. exact E.
  Qed.
  Lemma waypoint_join2 : forall w, waypoint_sample N (length C1 + w) = L + waypoint_sample C2 w.
  Proof.
    intros w. unfold waypoint_sample, N. rewrite firstn_app_2, list_sum_app'. reflexivity.
  Qed.
  Lemma uniform_join : uniform_steps C1 a -> uniform_steps C2 b -> uniform_steps N j.
  Proof.
    intros U1 U2 s k Hs Hk. unfold N in Hs. rewrite app_length in Hs. destruct (Nat.lt_ge_cases s (length C1)) as [H|H].
    - assert (E : nth s N 0 = nth s C1 0) by (apply app_nth1; exact H). rewrite E in Hk.
      rewrite waypoint_join1 by lia. pose proof (waypoint_S C1 s). pose proof (waypoint_le C1 (S s)).
      rewrite !step_join1 by (unfold L; lia). apply U1; assumption.
    - replace s with (length C1 + (s - length C1)) in Hk |- * by lia. set (v := s - length C1) in *.
      rewrite waypoint_join2. unfold N in Hk. rewrite app_nth2 in Hk by lia. replace (length C1 + v - length C1) with v in Hk by lia.
      rewrite !step_join2 by lia.
      replace (S (L + waypoint_sample C2 v + k) - L) with (S (waypoint_sample C2 v + k)) by lia.
      replace (S (L + waypoint_sample C2 v) - L) with (S (waypoint_sample C2 v)) by lia.
      apply U2; [lia|exact Hk].
  Qed.
  Lemma physics_join : forall turning d, obeys_physics turning d C1 a -> obeys_physics turning d C2 b ->
    obeys_physics turning d N j.
  Proof.
    intros turning d (P1 & P2) (Q1 & Q2). unfold obeys_physics. rewrite last_join. split.
    - intros k Hk. cbv zeta. destruct (Nat.le_gt_cases k L) as [H|H].
      + rewrite !sample_join1 by lia. rewrite step_join1 by lia. apply P1. fold L. lia.
      + rewrite !sample_join2 by lia. rewrite step_join2 by lia. replace (k - 1 - L) with (k - L - 1) by lia. apply Q1. lia.
    - intros k Hk. destruct (Nat.le_gt_cases k L) as [H|H].
      + rewrite sample_join1, forces_join1 by lia. apply P2. exact H.
      + rewrite sample_join2, forces_join2 by lia. apply Q2. lia.
  Qed.
  Lemma requests_join : forall wp sg wp1 sg1 wp2 sg2,
    (forall w c, In c (wp w) -> (w <= length C1 /\ In c (wp1 w)) \/ (length C1 <= w /\ In c (wp2 (w - length C1)))) ->
    (forall w c, In c (sg w) -> (w <= length C1 /\ In c (sg1 w)) \/ (length C1 < w /\ In c (sg2 (w - length C1)))) ->
    meets_requests C1 a wp1 sg1 -> meets_requests C2 b wp2 sg2 -> meets_requests N j wp sg.
  Proof.
    intros wp sg wp1 sg1 wp2 sg2 I1 I2 (M1 & M2) (M3 & M4). split.
    - intros w c Hw Hc. unfold N in Hw. rewrite app_length in Hw. destruct (I1 w c Hc) as [[H J]|[H J]].
      + rewrite waypoint_join1 by exact H. rewrite sample_join1 by (apply waypoint_le). apply M1; assumption.
      + replace w with (length C1 + (w - length C1)) by lia. rewrite waypoint_join2. rewrite sample_join2 by lia.
        replace (L + waypoint_sample C2 (w - length C1) - L) with (waypoint_sample C2 (w - length C1)) by lia.
        apply M3; [lia|exact J].
    - intros w c k Hw Hc Hk. unfold N in Hw. rewrite app_length in Hw. destruct (I2 w c Hc) as [[H J]|[H J]].
      + rewrite !waypoint_join1 in Hk by lia. pose proof (waypoint_le C1 w).
        rewrite sample_join1 by (unfold L; lia). apply (M2 w c k); [lia|exact J|exact Hk].
      + replace w with (length C1 + (w - length C1)) in Hk by lia.
        replace (length C1 + (w - length C1) - 1) with (length C1 + (w - length C1 - 1)) in Hk by lia.
        rewrite !waypoint_join2 in Hk. rewrite sample_join2 by lia.
        apply (M4 (w - length C1) c); [lia|exact J|lia].
  Qed.
End Join.

Lemma C100_joining_proof : forall asserts h handle d g h1 handle1 g1 h2 handle2 g2,
  good_history asserts h -> generator asserts h handle d g ->
  good_history asserts h1 -> generator asserts h1 handle1 d g1 ->
  good_history asserts h2 -> generator asserts h2 handle2 d g2 ->
  real_wheels d -> (forall n, In n (counts asserts h) -> 1 <= n) ->
  counts asserts h = counts asserts h1 ++ counts asserts h2 ->
  asked_by h1 h2 h (length (counts asserts h1)) ->
  forall sol1 sol2, solved g1 sol1 -> solved g2 sol2 ->
  at_sample sol1 (last_sample (counts asserts h1)) = at_sample sol2 0 ->
  solved g (joined sol1 sol2) /\ (sum (s_dt (joined sol1 sol2)) = sum (s_dt sol1) + sum (s_dt sol2))%R.
Proof.
  intros asserts h handle d g h1 handle1 g1 h2 handle2 g2 GH G GH1 G1 GH2 G2 W Pos E (I1 & I2) sol1 sol2 S1 S2 Meet.
  split; [|apply sum_app].
  assert (P1 : forall n, In n (counts asserts h1) -> 1 <= n) by (intros n Hn; apply Pos; rewrite E; apply in_or_app; left; exact Hn).
  assert (P2 : forall n, In n (counts asserts h2) -> 1 <= n) by (intros n Hn; apply Pos; rewrite E; apply in_or_app; right; exact Hn).
  apply (solved_exact asserts h1 handle1 d g1 GH1 G1 W P1) in S1. destruct S1 as (Sh1 & U1 & Ph1 & M1).
  apply (solved_exact asserts h2 handle2 d g2 GH2 G2 W P2) in S2. destruct S2 as (Sh2 & U2 & Ph2 & M2).
  apply (solved_exact asserts h handle d g GH G W Pos). rewrite E. split; [|split; [|split]].
  - apply shape_join; assumption.
  - apply (uniform_join _ _ (length (d_modules d)) sol1 sol2 Sh1); assumption.
  - apply (physics_join _ _ (length (d_modules d)) sol1 sol2 Sh1 Meet); assumption.
  - apply (requests_join _ _ (length (d_modules d)) sol1 sol2 Sh1 Meet _ _ (wpt_requests [] h1) (sgmt_requests [] h1) (wpt_requests [] h2) (sgmt_requests [] h2)); assumption.
Qed.

(** ** One more waypoint *)
Section Between.
  Variables (A B : list nat) (n1 n2 : nat).
  Let N := A ++ [n1 + n2] ++ B.
  Let N' := A ++ [n1; n2] ++ B.
  Let k := S (length A).
  Lemma between_before : forall w, w < k -> waypoint_sample N' w = waypoint_sample N w.
  Proof.
    intros w H. unfold N', N.
    rewrite !waypoint_join1 by (unfold k in H; lia). reflexivity.
  Qed.
  Lemma between_at : waypoint_sample N' k = waypoint_sample N (k - 1) + n1.
  Proof.
    unfold k. replace (S (length A) - 1) with (length A + 0) by lia. replace (S (length A)) with (length A + 1) by lia.
    unfold N', N. rewrite !(waypoint_join2 A). unfold waypoint_sample. cbn. lia.
  Qed.
  Lemma between_after : forall w, k <= w -> waypoint_sample N' (S w) = waypoint_sample N w.
  Proof.
    intros w H. unfold k in H. replace w with (length A + S (w - S (length A))) by lia.
    set (v := w - S (length A)). replace (S (length A + S v)) with (length A + S (S v)) by lia.
    clearbody v. unfold N', N. rewrite !(waypoint_join2 A). unfold waypoint_sample. cbn [app firstn list_sum fold_right]. fold (list_sum (firstn v B)). lia.
  Qed.
  Lemma between_last : last_sample N' = last_sample N.
  Proof. unfold last_sample, N', N. rewrite !list_sum_app'. cbn. lia. Qed.
  Lemma between_nth : forall s, s < length A -> nth s N' 0 = nth s N 0.
  Proof. intros s H. unfold N', N. rewrite !app_nth1 by exact H. reflexivity. Qed.

  Lemma uniform_between : forall sol, uniform_steps N sol -> uniform_steps N' sol.
  Proof.
    intros sol U s i Hs Hi. unfold N' in Hs. rewrite !app_length in Hs. cbn [length] in Hs.
    assert (LN : length N = S (length A + length B)) by (unfold N; rewrite !app_length; cbn [length]; lia).
    assert (EN : forall v, nth (S (length A + v)) N 0 = nth v B 0).
    { intros v. unfold N. rewrite app_nth2 by lia. replace (S (length A + v) - length A) with (S v) by lia. reflexivity. }
    assert (EN0 : nth (length A) N 0 = n1 + n2) by (unfold N; rewrite app_nth2, Nat.sub_diag by lia; reflexivity).
    destruct (Nat.lt_ge_cases s (length A)) as [H|H].
    - rewrite between_before by (unfold k; lia). rewrite between_nth in Hi by exact H. apply U; [lia|exact Hi].
    - destruct (Nat.eq_dec s (length A)) as [->|H'].
      + rewrite between_before by (unfold k; lia). unfold N' in Hi. rewrite app_nth2, Nat.sub_diag in Hi by lia. cbn in Hi.
        apply U; [lia|rewrite EN0; lia].
      + destruct (Nat.eq_dec s k) as [->|H''].
        * rewrite between_at. unfold k in Hi. unfold N' in Hi. rewrite app_nth2 in Hi by lia.
          replace (S (length A) - length A) with 1 in Hi by lia. cbn in Hi. unfold k. replace (S (length A) - 1) with (length A) by lia.
          pose proof (U (length A) (n1 + i) ltac:(lia) ltac:(rewrite EN0; lia)) as E1.
          replace (S (waypoint_sample N (length A) + n1 + i)) with (S (waypoint_sample N (length A) + (n1 + i))) by lia.
          rewrite E1. destruct n2 as [|n2']; [lia|].
          pose proof (U (length A) (n1 + 0) ltac:(lia) ltac:(rewrite EN0; lia)) as E2.
          replace (S (waypoint_sample N (length A) + n1)) with (S (waypoint_sample N (length A) + (n1 + 0))) by lia.
          symmetry. exact E2.
        * unfold k in *. set (v := s - S (S (length A))). replace s with (S (S (length A + v))) in * by (unfold v; lia).
          rewrite between_after by (unfold k; lia). apply U; [lia|]. rewrite EN.
          unfold N' in Hi. rewrite app_nth2 in Hi by lia. replace (S (S (length A + v)) - length A) with (S (S v)) in Hi by lia. exact Hi.
  Qed.
  Lemma requests_between : forall sol finer coarse, 1 <= n1 -> asks_between finer coarse k ->
    meets_requests N sol (wpt_requests [] coarse) (sgmt_requests [] coarse) ->
    meets_requests N' sol (wpt_requests [] finer) (sgmt_requests [] finer).
  Proof.
    intros sol finer coarse H1 (I1 & I2 & I3 & I4) (M1 & M2).
    assert (LN : length N = S (length A + length B)) by (unfold N; rewrite !app_length; cbn [length]; lia).
    assert (LN' : length N' = S (length N)) by (rewrite LN; unfold N'; rewrite !app_length; cbn [length]; lia).
    assert (Ek : waypoint_sample N k = waypoint_sample N (k - 1) + (n1 + n2)).
    { unfold k. replace (S (length A) - 1) with (length A + 0) by lia. replace (S (length A)) with (length A + 1) by lia.
      unfold N. rewrite !(waypoint_join2 A). unfold waypoint_sample. cbn. lia. }
    assert (Hk : 1 <= k <= length N) by (unfold k; lia). split.
    - intros w c Hw Hc. destruct (Nat.lt_trichotomy w k) as [H|[->|H]].
      + rewrite between_before by exact H. apply M1; [lia|]. apply (proj1 (I1 w H)). exact Hc.
      + rewrite between_at. apply (M2 k c); [exact Hk|exact (I2 c Hc)|lia].
      + destruct w as [|w]; [lia|]. rewrite between_after by lia. apply M1; [lia|]. apply (proj1 (I4 w ltac:(lia))). exact Hc.
    - intros w c i Hw Hc Hi. destruct (Nat.lt_trichotomy w k) as [H|[->|H]].
      + rewrite !between_before in Hi by lia. apply (M2 w c); [lia|exact (proj2 (I1 w H) c Hc)|exact Hi].
      + rewrite between_at, between_before in Hi by lia. apply (M2 k c); [exact Hk|exact (I3 c Hc)|lia].
      + destruct w as [|w]; [lia|]. cbn [Nat.sub] in Hi. rewrite Nat.sub_0_r in Hi. rewrite between_after in Hi by lia.
        apply (M2 w c); [lia|exact (proj2 (I4 w ltac:(lia)) c Hc)|].
        destruct (Nat.eq_dec w k) as [->|Ne]; [rewrite between_at in Hi; lia|].
        destruct w as [|w]; [lia|]. rewrite between_after in Hi by lia. cbn [Nat.sub]. rewrite Nat.sub_0_r. exact Hi.
  Qed.
End Between.

Lemma C101_waypoint_proof : forall asserts coarse handle d g finer handle' g' before n1 n2 after,
  good_history asserts coarse -> generator asserts coarse handle d g ->
  good_history asserts finer -> generator asserts finer handle' d g' ->
  real_wheels d -> (forall n, In n (counts asserts finer) -> 1 <= n) ->
  counts asserts coarse = before ++ [n1 + n2] ++ after ->
  counts asserts finer = before ++ [n1; n2] ++ after ->
  asks_between finer coarse (S (length before)) ->
  forall sol, solved g sol -> solved g' sol.
Proof.
  intros asserts coarse handle d g finer handle' g' A n1 n2 B GH G GH' G' W Pos E E' As sol S.
  assert (H1 : 1 <= n1) by (apply Pos; rewrite E'; apply in_or_app; right; left; reflexivity).
  assert (Pos' : forall n, In n (counts asserts coarse) -> 1 <= n).
  { intros n Hn. rewrite E in Hn. apply in_app_or in Hn. destruct Hn as [Hn|[<-|Hn]]; [|lia|]; apply Pos; rewrite E';
      apply in_or_app; [left; exact Hn|right; right; right; exact Hn]. }
  apply (solved_exact asserts coarse handle d g GH G W Pos') in S. destruct S as (Sh & U & P & M).
  apply (solved_exact asserts finer handle' d g' GH' G' W Pos). rewrite E' in *. rewrite E in *.
  split; [|split; [|split]].
  - unfold well_shaped in *. rewrite between_last. exact Sh.
  - apply uniform_between. exact U.
  - unfold obeys_physics in *. rewrite between_last. exact P.
  - apply (requests_between A B n1 n2 sol finer coarse H1 As M).
Qed.

(** ** One constraint less *)
Section Still.
  Context {K : Type} {HA : Arith K} {HD : Dbl K}.
  (** Changing nothing but constraints, returning or not. *)
  Definition mild n {A} (m : bld K A) : Prop := forall b, wlen b = n -> alike b (fst (m b)).
  Lemma mild_bind : forall {A C} n (m : bld K A) (f : A -> bld K C), mild n m -> (forall a, mild n (f a)) -> mild n (bbind m f).
  Proof.
    intros A C n m f M F b L. specialize (M b L). unfold bbind. destruct (m b) as [b1 o1]. cbn [fst] in M.
    destruct o1; try exact M. apply (alike_trans _ _ _ M), F. unfold wlen in *. rewrite (al_w _ _ M). exact L.
  Qed.
  Lemma mild_lift : forall {A} n (o : outcome A), mild n (blift o).
  Proof. intros A n o b L. apply alike_refl. Qed.
  Lemma mild_ret : forall {A} n (a : A), mild n (bret a).
  Proof. intros A n a b L. apply alike_refl. Qed.
  Lemma mild_for : forall {A} n (l : list A) f, (forall a, mild n (f a)) -> mild n (bfor l f).
  Proof. induction l; intros; cbn [bfor]; [apply mild_ret|]. apply mild_bind; auto. Qed.
  Lemma mild_loop : forall n f, (forall i, mild n (f i)) -> forall fuel i bound, mild n (bloop fuel i bound f).
  Proof.
    intros n f F. induction fuel as [|fuel IH]; intros i bound; cbn [bloop]; destruct (_ <? bound)%Z;
      try apply mild_ret; try apply mild_lift. apply mild_bind; [apply F|]. intros; apply IH.
  Qed.
  Lemma mild_quiet : forall n m, quiet n m -> mild n m.
  Proof. intros n m Q b L. apply (Q b L). Qed.
  Ltac mild_steps := repeat (apply mild_bind; [apply mild_lift|intros]).
  Lemma mild_obstacle : forall n asserts add o bs, (forall c, mild n (add c)) -> mild n (obstacle_loop asserts add o bs).
  Proof.
    intros n asserts add o bs Add. induction bs as [|bu bs IH]; cbn [obstacle_loop]; [apply mild_ret|].
    destruct (_ && _)%bool; [mild_steps; apply Add|].
    apply mild_bind; [|intros _; apply mild_bind; [|intros _; exact IH]]; apply mild_for; intros.
    - apply mild_bind; [apply mild_loop; intros; mild_steps; apply Add|intros _].
      destruct (3 <=? _); [|apply mild_ret]. mild_steps. apply Add.
    - destruct (1 <? _); [|mild_steps; apply Add].
      apply mild_bind; [apply mild_loop; intros; mild_steps; apply Add|intros _].
      destruct (3 <=? _); [|apply mild_ret]. mild_steps. apply Add.
  Qed.
  Lemma limit_alike : forall asserts o b, inv b -> limits (wlen b) o -> alike b (fst (run_op asserts o b)).
  Proof.
    intros asserts o b V L.
    assert (C : forall o, constrains (wlen b) o -> mild (wlen b) (run_op asserts o)).
    { intros o' C b' E. destruct V as (_ & _ & M). rewrite <- E in C.
      revert C. generalize (eq_refl (wlen b')). generalize (wlen b') at 2 3. intros n' En C.
      assert (Q : n' <= max63 -> quiet n' (run_op asserts o')).
      { intros M'. destruct o'; try contradiction; cbn [run_op constrains] in *.
        - apply quiet_seq; [apply quiet_new; assumption|]. intros b2 E2. apply push_alike. lia.
        - destruct C as [C1 C2]. unfold SgmtConstraint. apply quiet_seq.
          + assert (F : fromIndex <? toIndex = true) by (apply Nat.ltb_lt; exact C1). rewrite F, Bool.andb_false_r.
            intros b2 E2. split; [apply alike_refl|reflexivity].
          + apply quiet_seq; [apply quiet_new; assumption|]. apply quiet_seq; [intros b2 E2; apply push_alike; lia|].
            apply quiet_for. intros j J. apply in_seq in J. apply quiet_seq; intros b2 E2; [apply push_alike|apply push_sgmt_alike]; lia. }
      apply Q; [lia|exact En]. }
    destruct o; try contradiction; cbn [limits] in L.
    - cbn [run_op]. unfold WptObstacle. apply (mild_obstacle (wlen b)); [|reflexivity].
      intros c. apply (C (OWptConstraint index c)). exact L.
    - cbn [run_op]. unfold SgmtObstacle. apply (mild_obstacle (wlen b)); [|reflexivity].
      intros c. apply (C (OSgmtConstraint fromIndex toIndex c)). exact L.
    - apply (C (OWptConstraint index c)); [exact L|reflexivity].
    - apply (C (OSgmtConstraint fromIndex toIndex c)); [exact L|reflexivity].
  Qed.
End Still.

Lemma C101_fewer_proof : forall asserts h1 o h2 handle d g,
  limits (waypoint_count (path asserts h1)) o ->
  good_history asserts (h1 ++ o :: h2) -> generator asserts (h1 ++ o :: h2) handle d g ->
  good_history asserts (h1 ++ h2) /\
  exists g', generator asserts (h1 ++ h2) handle d g' /\ forall sol, solved g sol -> solved g' sol.
Proof.
  intros asserts h1 o h2 handle d g L GH G. pose proof GH as (P & Q & Rt).
  assert (A0 : alike (path asserts h1) (fst (run_op asserts o (path asserts h1))))
    by (apply limit_alike; [apply path_inv|exact L]).
  assert (E1 : path asserts (h1 ++ o :: h2) = run_ops asserts h2 (fst (run_op asserts o (path asserts h1))))
    by (unfold path; rewrite run_ops_app; reflexivity).
  assert (E2 : path asserts (h1 ++ h2) = run_ops asserts h2 (path asserts h1)) by (unfold path; apply run_ops_app).
  apply all_returned_app in Rt. destruct Rt as [R1 R2]. cbn [all_returned] in R2. destruct R2 as [_ R2].
  destruct (alike_run asserts h2 _ _ (alike_sym _ _ A0)) as [A1 AR].
  assert (GH' : good_history asserts (h1 ++ h2)).
  { apply Forall_app in P. apply Forall_app in Q. destruct P as [P1 P2]. destruct Q as [Q1 Q2].
    inversion P2; subst. inversion Q2; subst.
    split; [apply Forall_app; split; assumption|]. split; [apply Forall_app; split; assumption|].
    apply all_returned_app. split; [exact R1|]. apply AR. exact R2. }
  split; [exact GH'|].
  assert (A2 : alike (path asserts (h1 ++ o :: h2)) (path asserts (h1 ++ h2))) by (rewrite E1, E2; exact A1).
  pose proof G as [C D].
  destruct (construct_inversion _ _ _ (path_inv asserts _) C) as (Lw & d0 & p0 & D0 & Eg & _).
  assert (D' : b_drivetrain (path asserts (h1 ++ h2)) = Some d) by (rewrite (al_d _ _ A2); exact D).
  destruct (construct_ok (path asserts (h1 ++ h2)) handle d (path_inv asserts (h1 ++ h2))) as (p & C' & _);
    [unfold waypoint_count in *; rewrite (al_c _ _ A2), (al_w _ _ A2); exact Lw|exact D'|].
  eexists. assert (G' := conj C' D'). split; [exact G'|].
  assert (NC : counts asserts (h1 ++ o :: h2) = counts asserts (h1 ++ h2)) by (symmetry; exact (al_c _ _ A2)).
  intros sol (env & F & E).
  destruct (C25_proof asserts (h1 ++ h2) handle d _ env G') as (s0 & E0 & _).
  destruct (insert_feasible asserts (h1 ++ h2) (h1 ++ o :: h2) handle d _ g GH' GH G' G NC env s0 E0) as [E' I'].
  rewrite E in E'. injection E' as <-. exists env. split; [|exact E0].
  apply (I' (meets_requests (counts asserts (h1 ++ h2)) sol (wpt_requests [] (h1 ++ o :: h2)) (sgmt_requests [] (h1 ++ o :: h2)))); [|exact F].
  split; [|tauto]. intros M. split; [|exact M]. destruct M as [M1 M2].
  assert (Bo : forall bs, bs ++ bumper_request o = bs) by (intros bs; destruct o; try contradiction; apply app_nil_r).
  split.
  - intros w c Hw Hc. apply M1; [exact Hw|]. rewrite wpt_requests_app in *. cbn [wpt_requests]. rewrite Bo.
    apply in_app_or in Hc. apply in_or_app. destruct Hc as [Hc|Hc]; [left; exact Hc|right; apply in_or_app; right; exact Hc].
  - intros w c i Hw Hc Hi. apply (M2 w c); [exact Hw| |exact Hi]. rewrite sgmt_requests_app in *. cbn [sgmt_requests]. rewrite Bo.
    apply in_app_or in Hc. apply in_or_app. destruct Hc as [Hc|Hc]; [left; exact Hc|right; apply in_or_app; right; exact Hc].
Qed.
