(** What every solution of the generated problem satisfies: C13-C21, C25, C28,
    C29, C58. *)
From Coq Require Import List Lia Lra Psatz Reals Bool.
Import ListNotations.
From Verif Require Import Outcome Num NumR Geometry Expr Constraints Util Builder Guess Generator
  Spec SpecBuilder SpecPhysics SpecTrajectory SpecGenerator Semantics
  UtilFacts GeometryFacts BuilderFacts BuilderHistory ConstraintFacts ConstraintProofs GuessFacts GuessProofs GeneratorFacts
  SeedFacts FeasibleFacts GeneratorProofs HistoryFacts.
Local Open Scope nat_scope.
Open Scope R_scope.

(** ** C15 *)
Lemma good_recorded : forall asserts h, good_history asserts h -> forall w,
  constraints_at (path asserts h) w = wpt_requests [] h w /\
  segment_constraints_to (path asserts h) w = sgmt_requests [] h w.
Proof. intros asserts h (P & _ & R0) w. apply C11_proof; assumption. Qed.
Lemma good_proper : forall asserts h, good_history asserts h -> forall w c,
  In c (constraints_at (path asserts h) w) \/ In c (segment_constraints_to (path asserts h) w) ->
  proper_constraint c.
Proof.
  intros asserts h G w c. destruct (good_recorded asserts h G w) as [-> ->].
  apply requests_proper. apply G.
Qed.

Lemma C15_recorded_proof : forall asserts h handle d g, generator asserts h handle d g ->
  real_wheels d -> (forall n, In n (counts asserts h) -> (1 <= n)%nat) ->
  (forall w c, In c (constraints_at (path asserts h) w) \/ In c (segment_constraints_to (path asserts h) w) ->
     proper_constraint c) ->
  forall env sol, ConstructSwerveSolution g env = Ok sol ->
  (feasible env (g_problem g) <->
   obeys_physics turns_up_to_half d (counts asserts h) sol /\
   meets_requests (counts asserts h) sol (constraints_at (path asserts h)) (segment_constraints_to (path asserts h))).
Proof.
  intros asserts h handle d g [C D] W Pos Pr env sol E.
  apply (feasible_iff (path asserts h) handle g d (path_inv asserts h) C D W Pos Pr env sol E).
Qed.

Lemma meets_ext : forall N sol a a' t t', (forall w, a w = a' w) -> (forall w, t w = t' w) ->
  (meets_requests N sol a t <-> meets_requests N sol a' t').
Proof.
  intros N sol a a' t t' A B. unfold meets_requests.
  split; intros [G1 G2]; split; intros; [apply (G1 w)|apply (G2 w)|apply (G1 w)|apply (G2 w)]; try assumption;
    rewrite ?A, ?B; try assumption; rewrite <- ?A, <- ?B; assumption.
Qed.

Lemma C15_proof : forall asserts h handle d g, good_history asserts h -> generator asserts h handle d g ->
  real_wheels d -> (forall n, In n (counts asserts h) -> (1 <= n)%nat) ->
  forall env sol, ConstructSwerveSolution g env = Ok sol ->
  (feasible env (g_problem g) <->
   obeys_physics turns_up_to_half d (counts asserts h) sol /\
   meets_requests (counts asserts h) sol (wpt_requests [] h) (sgmt_requests [] h)).
Proof.
  intros asserts h handle d g GH Gn W Pos env sol E.
  rewrite (C15_recorded_proof asserts h handle d g Gn W Pos (good_proper asserts h GH) env sol E).
  rewrite (meets_ext _ sol _ (wpt_requests [] h) _ (sgmt_requests [] h)); [reflexivity| |];
    intros w; apply (good_recorded asserts h GH w).
Qed.

Lemma C15_complete_proof : forall asserts h handle d g, generator asserts h handle d g ->
  forall sol, well_shaped (counts asserts h) (length (d_modules d)) sol -> uniform_steps (counts asserts h) sol ->
  exists env, ConstructSwerveSolution g env = Ok sol.
Proof.
  intros asserts h handle d g [C D] sol Sh U.
  apply (read_surjective (path asserts h) handle g d (path_inv asserts h) C D sol Sh U).
Qed.

(** Turning by an angle, from unit headings, is what the problem accepts. *)
Lemma turns_sound : forall a b dt, unit_heading a -> turns a b dt -> turns_up_to_half a b dt.
Proof.
  intros a b dt U [E1 E2]. unfold unit_heading in U. left. rewrite E1, E2. split.
  - replace ((q_c a * cos (q_w b * dt) - q_s a * sin (q_w b * dt)) * q_c a +
      (q_c a * sin (q_w b * dt) + q_s a * cos (q_w b * dt)) * q_s a)
      with ((q_c a * q_c a + q_s a * q_s a) * cos (q_w b * dt)) by ring. rewrite U. ring.
  - replace ((q_c a * sin (q_w b * dt) + q_s a * cos (q_w b * dt)) * q_c a -
      (q_c a * cos (q_w b * dt) - q_s a * sin (q_w b * dt)) * q_s a)
      with ((q_c a * q_c a + q_s a * q_s a) * sin (q_w b * dt)) by ring. rewrite U. ring.
Qed.
(** From unit headings the problem allows that turn, or half a turn more. *)
Lemma turns_exact : forall a b dt, unit_heading a ->
  (turns_up_to_half a b dt <->
   turns a b dt \/
   (q_c b = - (q_c a * cos (q_w b * dt) - q_s a * sin (q_w b * dt)) /\
    q_s b = - (q_c a * sin (q_w b * dt) + q_s a * cos (q_w b * dt)))).
Proof.
  intros a b dt U. unfold turns_up_to_half, turns, unit_heading in *.
  set (C := cos (q_w b * dt)). set (S := sin (q_w b * dt)).
  assert (R1 : q_c b = (q_c b * q_c a + q_s b * q_s a) * q_c a - (q_s b * q_c a - q_c b * q_s a) * q_s a).
  { replace ((q_c b * q_c a + q_s b * q_s a) * q_c a - (q_s b * q_c a - q_c b * q_s a) * q_s a)
      with (q_c b * (q_c a * q_c a + q_s a * q_s a)) by ring. rewrite U. ring. }
  assert (R2 : q_s b = (q_c b * q_c a + q_s b * q_s a) * q_s a + (q_s b * q_c a - q_c b * q_s a) * q_c a).
  { replace ((q_c b * q_c a + q_s b * q_s a) * q_s a + (q_s b * q_c a - q_c b * q_s a) * q_c a)
      with (q_s b * (q_c a * q_c a + q_s a * q_s a)) by ring. rewrite U. ring. }
  assert (back : forall k, q_c b = k * (q_c a * C - q_s a * S) -> q_s b = k * (q_c a * S + q_s a * C) ->
    q_c b * q_c a + q_s b * q_s a = k * C /\ q_s b * q_c a - q_c b * q_s a = k * S).
  { intros k E1 E2. rewrite E1, E2. split.
    - replace (k * (q_c a * C - q_s a * S) * q_c a + k * (q_c a * S + q_s a * C) * q_s a)
        with (k * C * (q_c a * q_c a + q_s a * q_s a)) by ring. rewrite U. ring.
    - replace (k * (q_c a * S + q_s a * C) * q_c a - k * (q_c a * C - q_s a * S) * q_s a)
        with (k * S * (q_c a * q_c a + q_s a * q_s a)) by ring. rewrite U. ring. }
  split.
  - intros [[E1 E2]|[E1 E2]]; [left|right]; rewrite E1, E2 in R1, R2; rewrite R1, R2; split; ring.
  - intros [[E1 E2]|[E1 E2]]; [left|right].
    + destruct (back 1) as [-> ->]; [rewrite E1; ring|rewrite E2; ring|split; ring].
    + destruct (back (-1)) as [-> ->]; [rewrite E1; ring|rewrite E2; ring|split; ring].
Qed.

(** The documented motion with unit headings is feasible. *)
Lemma C15_accepts_proof : forall asserts h handle d g, good_history asserts h -> generator asserts h handle d g ->
  real_wheels d -> (forall n, In n (counts asserts h) -> (1 <= n)%nat) ->
  forall sol, well_shaped (counts asserts h) (length (d_modules d)) sol -> uniform_steps (counts asserts h) sol ->
  headings_unit (counts asserts h) sol ->
  obeys_physics turns d (counts asserts h) sol ->
  meets_requests (counts asserts h) sol (wpt_requests [] h) (sgmt_requests [] h) ->
  solved g sol.
Proof.
  intros asserts h handle d g GH Gn W Pos sol Sh U HU [P1 P2] M.
  destruct (C15_complete_proof asserts h handle d g Gn sol Sh U) as (env & E).
  exists env. split; [|assumption].
  apply (C15_proof asserts h handle d g GH Gn W Pos env sol E). split; [|assumption].
  split; [|assumption]. intros i Hi. destruct (P1 i Hi) as (A & B & C & D).
  split; [assumption|]. split; [assumption|]. split; [|assumption].
  apply turns_sound; [|assumption]. apply HU. lia.
Qed.

(** ** Consequences for solutions *)
Section Solved.
  Variables (asserts : bool) (h : list (op R)) (handle : Z) (d : drivetrain R) (g : gen R) (sol : solution R).
  Hypothesis G : generator asserts h handle d g.
  Hypothesis S : solved g sol.
  Let N := counts asserts h.

  Lemma solved_motion :
    (forall i, (1 <= i <= last_sample N)%nat ->
       step_within d (step_to sol i) /\
       moves (at_sample sol (i - 1)) (at_sample sol i) (step_to sol i) /\
       turns_up_to_half (at_sample sol (i - 1)) (at_sample sol i) (step_to sol i) /\
       accelerates (at_sample sol (i - 1)) (at_sample sol i) (step_to sol i)) /\
    (forall i, (i <= last_sample N)%nat -> newton d (at_sample sol i) (forces sol i)).
  Proof.
    destruct S as (env & F & E). destruct G as [C D].
    apply (feasible_motion (path asserts h) handle g d (path_inv asserts h) C D env sol E F).
  Qed.

  (** C16 *)
  Lemma C16_steps_proof : forall i, (1 <= i <= last_sample N)%nat ->
    moves (at_sample sol (i - 1)) (at_sample sol i) (step_to sol i) /\
    accelerates (at_sample sol (i - 1)) (at_sample sol i) (step_to sol i).
  Proof. intros i Hi. destruct solved_motion as [M _]. destruct (M i Hi) as (_ & A & _ & B). split; assumption. Qed.

  Lemma sum_to_S : forall f n, sum_to f (Datatypes.S n) = sum_to f n + f (Datatypes.S n).
  Proof.
    intros f n. unfold sum_to. rewrite seq_S, map_app. simpl.
    generalize (map f (seq 1 n)). induction l as [|x l IH]; simpl; [ring|rewrite IH; ring].
  Qed.
  Lemma telescope : forall (f v : nat -> R),
    (forall i, (1 <= i <= last_sample N)%nat -> f i = f (i - 1)%nat + v i) ->
    forall n, (n <= last_sample N)%nat -> f n = f 0%nat + sum_to v n.
  Proof.
    intros f v E n. induction n as [|n IH]; intros Hn; [unfold sum_to; simpl; ring|].
    rewrite (E (Datatypes.S n)) by lia. rewrite sum_to_S. replace (Datatypes.S n - 1)%nat with n by lia.
    rewrite IH by lia. ring.
  Qed.
  Lemma C16_sums_proof : forall n, (n <= last_sample N)%nat ->
    let q := at_sample sol in let dt := step_to sol in
    q_x (q n) = q_x (q 0%nat) + sum_to (fun i => q_vx (q i) * dt i) n /\
    q_y (q n) = q_y (q 0%nat) + sum_to (fun i => q_vy (q i) * dt i) n /\
    q_vx (q n) = q_vx (q 0%nat) + sum_to (fun i => q_ax (q i) * dt i) n /\
    q_vy (q n) = q_vy (q 0%nat) + sum_to (fun i => q_ay (q i) * dt i) n /\
    q_w (q n) = q_w (q 0%nat) + sum_to (fun i => q_al (q i) * dt i) n.
  Proof.
    intros n Hn q dt. unfold q, dt. repeat split.
    - apply (telescope (fun i => q_x (at_sample sol i))); [|assumption].
      intros i Hi. destruct (C16_steps_proof i Hi) as ((A & _) & _). exact A.
    - apply (telescope (fun i => q_y (at_sample sol i))); [|assumption].
      intros i Hi. destruct (C16_steps_proof i Hi) as ((_ & A) & _). exact A.
    - apply (telescope (fun i => q_vx (at_sample sol i))); [|assumption].
      intros i Hi. destruct (C16_steps_proof i Hi) as (_ & A & _). exact A.
    - apply (telescope (fun i => q_vy (at_sample sol i))); [|assumption].
      intros i Hi. destruct (C16_steps_proof i Hi) as (_ & _ & A & _). exact A.
    - apply (telescope (fun i => q_w (at_sample sol i))); [|assumption].
      intros i Hi. destruct (C16_steps_proof i Hi) as (_ & _ & _ & A). exact A.
  Qed.

  (** C17 *)
  Definition len2 (s : state) : R := q_c s * q_c s + q_s s * q_s s.
  Lemma heading_product : forall i, (1 <= i <= last_sample N)%nat ->
    len2 (at_sample sol i) * len2 (at_sample sol (i - 1)) = 1.
  Proof.
    intros i Hi. destruct solved_motion as [M _]. destruct (M i Hi) as (_ & _ & T & _).
    set (b := at_sample sol i) in *. set (a := at_sample sol (i - 1)) in *. unfold len2.
    replace ((q_c b * q_c b + q_s b * q_s b) * (q_c a * q_c a + q_s a * q_s a))
      with ((q_c b * q_c a + q_s b * q_s a) * (q_c b * q_c a + q_s b * q_s a) +
            (q_s b * q_c a - q_c b * q_s a) * (q_s b * q_c a - q_c b * q_s a)) by ring.
    pose proof (pyth (q_w b * step_to sol i)) as P.
    destruct T as [[-> ->]|[-> ->]]; lra.
  Qed.
  Lemma unit_neighbours : forall i, (1 <= i <= last_sample N)%nat ->
    (unit_heading (at_sample sol i) <-> unit_heading (at_sample sol (i - 1))).
  Proof.
    intros i Hi. pose proof (heading_product i Hi) as P. unfold unit_heading.
    fold (len2 (at_sample sol i)) (len2 (at_sample sol (i - 1))). split; intros E; rewrite E in P; lra.
  Qed.
  Lemma unit_from_first : forall i, (i <= last_sample N)%nat ->
    (unit_heading (at_sample sol i) <-> unit_heading (at_sample sol 0)).
  Proof.
    intros i. induction i as [|i IH]; intros Hi; [reflexivity|].
    rewrite (unit_neighbours (Datatypes.S i)) by lia. replace (Datatypes.S i - 1)%nat with i by lia. apply IH. lia.
  Qed.
  Lemma C17_one_proof : forall i, (i <= last_sample N)%nat -> unit_heading (at_sample sol i) -> headings_unit N sol.
  Proof.
    intros i Hi U j Hj. apply unit_from_first; [assumption|]. apply (unit_from_first i Hi). assumption.
  Qed.
  (** Lengths alternate. *)
  Lemma C17_alternate_proof : forall i, (2 <= i <= last_sample N)%nat ->
    len2 (at_sample sol i) = len2 (at_sample sol (i - 2)).
  Proof.
    intros i Hi. pose proof (heading_product i ltac:(lia)) as P1.
    pose proof (heading_product (i - 1) ltac:(lia)) as P2.
    replace (i - 1 - 1)%nat with (i - 2)%nat in P2 by lia.
    set (u := len2 (at_sample sol i)) in *. set (v := len2 (at_sample sol (i - 1))) in *.
    set (w := len2 (at_sample sol (i - 2))) in *.
    assert (v <> 0) by (intros Z; rewrite Z in P1; lra).
    apply (Rmult_eq_reg_r v); [|assumption]. lra.
  Qed.

  (** C20: forces unconditionally, wheels in the robot frame. *)
  Hypothesis W : real_wheels d.
  Lemma solved_physics : obeys_physics turns_up_to_half d N sol.
  Proof.
    destruct S as (env & F & E). destruct G as [C D].
    apply (feasible_physics (path asserts h) handle g d (path_inv asserts h) C D W env sol E) in F. apply F.
  Qed.
End Solved.

Lemma wheel_ground_norm : forall s p, unit_heading s -> norm2 (wheel_velocity s p) = norm2 (ground_velocity s p).
Proof.
  intros s p U. unfold norm2, wheel_velocity, ground_velocity, turned, unit_heading in *. cbn [fst snd].
  f_equal.
  set (c := q_c s) in *. set (sn := q_s s) in *. set (vx := q_vx s). set (vy := q_vy s). set (w := q_w s).
  set (px := tX p). set (py := tY p).
  transitivity ((vx * vx + vy * vy) * (c * c + sn * sn) + w * w * (px * px + py * py)
    + 2 * w * (px * (vy * c - vx * sn) - py * (vx * c + vy * sn))); [ring|].
  rewrite U.
  transitivity (vx * vx + vy * vy + w * w * (px * px + py * py) * (c * c + sn * sn)
    + 2 * w * (px * (vy * c - vx * sn) - py * (vx * c + vy * sn))); [rewrite U; ring|ring].
Qed.

(** ** Requests at the solution level *)
Lemma solved_requests : forall asserts h handle d g sol, good_history asserts h ->
  generator asserts h handle d g -> solved g sol ->
  meets_requests (counts asserts h) sol (wpt_requests [] h) (sgmt_requests [] h).
Proof.
  intros asserts h handle d g sol GH [C D] (env & F & E).
  apply (feasible_groups (path asserts h) handle g d (path_inv asserts h) C D env sol E) in F.
  destruct F as (_ & _ & _ & F).
  apply (feasible_requests (path asserts h) handle g d (path_inv asserts h) C D (good_proper asserts h GH) env sol E) in F.
  rewrite (meets_ext _ sol _ (wpt_requests [] h) _ (sgmt_requests [] h)) in F; [exact F| |];
    intros w; apply (good_recorded asserts h GH w).
Qed.

(** ** C13, C14: the effect of one constraint call on the problem *)
Lemma insert_feasible : forall asserts h h' handle d g g',
  good_history asserts h -> good_history asserts h' ->
  generator asserts h handle d g -> generator asserts h' handle d g' ->
  counts asserts h' = counts asserts h ->
  forall env sol, ConstructSwerveSolution g env = Ok sol ->
  ConstructSwerveSolution g' env = Ok sol /\
  forall P : Prop,
  (meets_requests (counts asserts h) sol (wpt_requests [] h') (sgmt_requests [] h') <->
   meets_requests (counts asserts h) sol (wpt_requests [] h) (sgmt_requests [] h) /\ P) ->
  (feasible env (g_problem g') <-> feasible env (g_problem g) /\ P).
Proof.
  intros asserts h h' handle d g g' GH GH' [C D] [C' D'] N' env sol E.
  destruct (main_cons (path asserts h) handle g d (path_inv asserts h) C D) as (_ & _ & R1).
  destruct (main_cons (path asserts h') handle g' d (path_inv asserts h') C' D') as (_ & _ & R2).
  assert (E' : ConstructSwerveSolution g' env = Ok sol).
  { rewrite R1 in E. rewrite R2. unfold counts in N'. rewrite N'. exact E. }
  split; [exact E'|]. intros P HP.
  rewrite (feasible_groups (path asserts h) handle g d (path_inv asserts h) C D env sol E).
  rewrite (feasible_groups (path asserts h') handle g' d (path_inv asserts h') C' D' env sol E').
  rewrite (feasible_requests (path asserts h) handle g d (path_inv asserts h) C D (good_proper asserts h GH) env sol E).
  rewrite (feasible_requests (path asserts h') handle g' d (path_inv asserts h') C' D' (good_proper asserts h' GH') env sol E').
  unfold counts in *. rewrite N'.
  rewrite (meets_ext _ sol (constraints_at (path asserts h)) (wpt_requests [] h)
    (segment_constraints_to (path asserts h)) (sgmt_requests [] h)) by (intros w; apply (good_recorded asserts h GH w)).
  rewrite (meets_ext _ sol (constraints_at (path asserts h')) (wpt_requests [] h')
    (segment_constraints_to (path asserts h')) (sgmt_requests [] h')) by (intros w; apply (good_recorded asserts h' GH' w)).
  rewrite HP. tauto.
Qed.

Lemma in_insert_wpt : forall (h1 : list (op R)) o h2 w c, bumper_request o = [] ->
  In c (wpt_requests [] (h1 ++ o :: h2) w) <->
  In c (wpt_requests [] (h1 ++ h2) w) \/ In c (wpt_request (flat_map bumper_request h1) o w).
Proof.
  intros h1 o h2 w c B. rewrite !wpt_requests_app. cbn [app wpt_requests]. rewrite B, app_nil_r.
  rewrite !in_app_iff. tauto.
Qed.
Lemma in_insert_sgmt : forall (h1 : list (op R)) o h2 w c, bumper_request o = [] ->
  In c (sgmt_requests [] (h1 ++ o :: h2) w) <->
  In c (sgmt_requests [] (h1 ++ h2) w) \/ In c (sgmt_request (flat_map bumper_request h1) o w).
Proof.
  intros h1 o h2 w c B. rewrite !sgmt_requests_app. cbn [app sgmt_requests]. rewrite B, app_nil_r.
  rewrite !in_app_iff. tauto.
Qed.

Lemma good_insert_counts : forall asserts h1 o h2, good_history asserts (h1 ++ o :: h2) ->
  good_history asserts (h1 ++ h2) -> no_counts o -> bumper_request o = [] ->
  (needed (b_bumpers (path asserts h1)) o <= waypoint_count (path asserts h1))%nat ->
  counts asserts (h1 ++ o :: h2) = counts asserts (h1 ++ h2).
Proof.
  intros asserts h1 o h2 (P & _ & R1) (_ & _ & R2) NC NB NW. symmetry.
  apply (insert_shape asserts h1 o h2 P NC NB NW R1 R2).
Qed.

Lemma C13_proof : forall asserts h1 i c h2 handle d g g' env sol,
  good_history asserts (h1 ++ OWptConstraint i c :: h2) -> good_history asserts (h1 ++ h2) ->
  (i < waypoint_count (path asserts h1))%nat ->
  generator asserts (h1 ++ h2) handle d g -> generator asserts (h1 ++ OWptConstraint i c :: h2) handle d g' ->
  ConstructSwerveSolution g env = Ok sol ->
  ConstructSwerveSolution g' env = Ok sol /\
  (feasible env (g_problem g') <->
   feasible env (g_problem g) /\
   ((i <= length (counts asserts (h1 ++ h2)))%nat ->
      demands (at_sample sol (waypoint_sample (counts asserts (h1 ++ h2)) i)) c)).
Proof.
  intros asserts h1 i c h2 handle d g g' env sol GH' GH Hi Gn Gn' E.
  assert (NC : counts asserts (h1 ++ OWptConstraint i c :: h2) = counts asserts (h1 ++ h2)).
  { apply good_insert_counts; try assumption; try exact I; try reflexivity. }
  destruct (insert_feasible asserts _ _ handle d g g' GH GH' Gn Gn' NC env sol E) as [E' Q].
  split; [exact E'|]. apply Q. clear Q.
  set (N := counts asserts (h1 ++ h2)). unfold meets_requests. split.
  - intros [G1 G2]. split; [split|].
    + intros w c0 Hw Hc. apply G1; [assumption|]. apply in_insert_wpt; [reflexivity|]. left. assumption.
    + intros w c0 j Hw Hc Hj. apply (G2 w); [assumption| |assumption].
      apply in_insert_sgmt; [reflexivity|]. left. assumption.
    + intros Hl. apply (G1 i); [assumption|]. apply in_insert_wpt; [reflexivity|]. right.
      cbn [wpt_request]. rewrite Nat.eqb_refl. left. reflexivity.
  - intros [[G1 G2] D]. split.
    + intros w c0 Hw Hc. apply in_insert_wpt in Hc; [|reflexivity]. destruct Hc as [Hc|Hc]; [apply G1; assumption|].
      cbn [wpt_request] in Hc. destruct (Nat.eqb_spec w i) as [->|]; [|destruct Hc].
      destruct Hc as [<-|[]]. apply D. assumption.
    + intros w c0 j Hw Hc Hj. apply in_insert_sgmt in Hc; [|reflexivity]. destruct Hc as [Hc|[]].
      apply (G2 w); assumption.
Qed.

(** Samples from one waypoint to a later one. *)
Lemma between_waypoints : forall N f t i, (f <= t)%nat ->
  (waypoint_sample N f <= i <= waypoint_sample N t)%nat ->
  i = waypoint_sample N f \/
  exists w, (f < w <= t)%nat /\ (waypoint_sample N (w - 1) < i <= waypoint_sample N w)%nat.
Proof.
  intros N f t i Hft. induction t as [|t IH]; intros Hi.
  - assert (f = 0)%nat by lia. subst f. left. lia.
  - destruct (Nat.eq_dec f (Datatypes.S t)) as [->|]; [left; lia|].
    destruct (le_lt_dec i (waypoint_sample N t)) as [L|L].
    + destruct (IH ltac:(lia) ltac:(lia)) as [E|(w & Hw & Hi')]; [left; assumption|].
      right. exists w. split; [lia|assumption].
    + right. exists (Datatypes.S t). split; [lia|]. replace (Datatypes.S t - 1)%nat with t by lia. lia.
Qed.
Lemma waypoint_sample_mono : forall N a b, (a <= b)%nat -> (waypoint_sample N a <= waypoint_sample N b)%nat.
Proof. intros. apply list_sum_firstn_mono. assumption. Qed.
Lemma waypoint_sample_past : forall N w, (length N <= w)%nat -> waypoint_sample N w = last_sample N.
Proof. intros N w H. unfold waypoint_sample, last_sample. rewrite firstn_all2 by assumption. reflexivity. Qed.

(** Constraint [c] on waypoints [f..t] and the segments between them, is [c] on
    the closed range of samples. *)
Lemma range_demands : forall N sol f t c, (f < t)%nat ->
  ((forall w, (w <= length N)%nat -> (f <= w <= t)%nat -> demands (at_sample sol (waypoint_sample N w)) c) /\
   (forall w i, (1 <= w <= length N)%nat -> (f < w <= t)%nat ->
      (waypoint_sample N (w - 1) < i <= waypoint_sample N w)%nat -> demands (at_sample sol i) c)) <->
  ((f <= length N)%nat -> forall i, (waypoint_sample N f <= i <= waypoint_sample N t)%nat -> demands (at_sample sol i) c).
Proof.
  intros N sol f t c Hft. split.
  - intros [G1 G2] Hf i Hi.
    assert (Ht : waypoint_sample N t = waypoint_sample N (Nat.min t (length N))).
    { destruct (le_lt_dec (length N) t).
      - rewrite Nat.min_r by assumption. rewrite !waypoint_sample_past by lia. reflexivity.
      - rewrite Nat.min_l by lia. reflexivity. }
    rewrite Ht in Hi.
    destruct (between_waypoints N f (Nat.min t (length N)) i ltac:(lia) Hi) as [->|(w & Hw & Hi')].
    + apply (G1 f); lia.
    + apply (G2 w i); try lia.
  - intros Gr. split.
    + intros w Hw Hf. apply Gr; [lia|]. split; apply waypoint_sample_mono; lia.
    + intros w i Hw Hf Hi. apply Gr; [lia|].
      pose proof (waypoint_sample_mono N f (w - 1) ltac:(lia)). pose proof (waypoint_sample_mono N w t ltac:(lia)). lia.
Qed.

Lemma C14_proof : forall asserts h1 f t c h2 handle d g g' env sol,
  good_history asserts (h1 ++ OSgmtConstraint f t c :: h2) -> good_history asserts (h1 ++ h2) ->
  (t < waypoint_count (path asserts h1))%nat ->
  generator asserts (h1 ++ h2) handle d g -> generator asserts (h1 ++ OSgmtConstraint f t c :: h2) handle d g' ->
  ConstructSwerveSolution g env = Ok sol ->
  ConstructSwerveSolution g' env = Ok sol /\
  (feasible env (g_problem g') <->
   feasible env (g_problem g) /\
   ((f <= length (counts asserts (h1 ++ h2)))%nat ->
      forall i, (waypoint_sample (counts asserts (h1 ++ h2)) f <= i <= waypoint_sample (counts asserts (h1 ++ h2)) t)%nat ->
      demands (at_sample sol i) c)).
Proof.
  intros asserts h1 f t c h2 handle d g g' env sol GH' GH Hi Gn Gn' E.
  assert (Hft : (f < t)%nat).
  { destruct GH' as (P & _). apply Forall_app in P. destruct P as [_ P]. inversion P; subst. apply H1. }
  assert (NC : counts asserts (h1 ++ OSgmtConstraint f t c :: h2) = counts asserts (h1 ++ h2)).
  { apply good_insert_counts; try assumption; try exact I; try reflexivity. }
  destruct (insert_feasible asserts _ _ handle d g g' GH GH' Gn Gn' NC env sol E) as [E' Q].
  split; [exact E'|]. apply Q. clear Q.
  set (N := counts asserts (h1 ++ h2)). rewrite <- (range_demands N sol f t c Hft). unfold meets_requests. split.
  - intros [G1 G2]. split; split.
    + intros w c0 Hw Hc. apply G1; [assumption|]. apply in_insert_wpt; [reflexivity|]. left. assumption.
    + intros w c0 j Hw Hc Hj. apply (G2 w); [assumption| |assumption].
      apply in_insert_sgmt; [reflexivity|]. left. assumption.
    + intros w Hl Hw. apply (G1 w); [assumption|]. apply in_insert_wpt; [reflexivity|]. right.
      cbn [wpt_request]. rewrite (proj2 (Nat.leb_le f w)), (proj2 (Nat.leb_le w t)) by lia. left. reflexivity.
    + intros w i Hl Hw Hi'. apply (G2 w); [assumption| |assumption]. apply in_insert_sgmt; [reflexivity|]. right.
      cbn [sgmt_request]. rewrite (proj2 (Nat.ltb_lt f w)), (proj2 (Nat.leb_le w t)) by lia. left. reflexivity.
  - intros [[G1 G2] [D1 D2]]. split.
    + intros w c0 Hw Hc. apply in_insert_wpt in Hc; [|reflexivity]. destruct Hc as [Hc|Hc]; [apply G1; assumption|].
      cbn [wpt_request] in Hc. destruct (Nat.leb_spec f w); destruct (Nat.leb_spec w t); cbn [andb] in Hc;
        try (destruct Hc; fail). destruct Hc as [<-|[]]. apply D1; lia.
    + intros w c0 j Hw Hc Hj. apply in_insert_sgmt in Hc; [|reflexivity]. destruct Hc as [Hc|Hc]; [apply (G2 w); assumption|].
      cbn [sgmt_request] in Hc. destruct (Nat.ltb_spec f w); destruct (Nat.leb_spec w t); cbn [andb] in Hc;
        try (destruct Hc; fail). destruct Hc as [<-|[]]. apply (D2 w); lia.
Qed.

(** ** C28, C29: waypoint calls pin the solution *)
Lemma in_history_wpt : forall (h : list (op R)) o w c, In o h ->
  (forall bs, In c (wpt_request bs o w)) -> In c (wpt_requests [] h w).
Proof.
  intros h o w c Ho Hc. apply in_split in Ho. destruct Ho as (h1 & h2 & ->).
  apply in_wpt_requests. exists h1, o, h2. split; [reflexivity|apply Hc].
Qed.
Lemma C28_solution_proof : forall asserts h handle d g sol i x y a, good_history asserts h ->
  generator asserts h handle d g -> solved g sol ->
  In (OPoseWpt i x y a) h -> (i <= length (counts asserts h))%nat ->
  let q := at_sample sol (waypoint_sample (counts asserts h) i) in
  q_x q = x /\ q_y q = y /\ (heading_is q a \/ heading_is q (a + PI)).
Proof.
  intros asserts h handle d g sol i x y a GH Gn Sv Ho Hi q.
  destruct (solved_requests asserts h handle d g sol GH Gn Sv) as [M _].
  assert (D : demands q (PoseEquality (pose_xyh x y a))).
  { apply M; [assumption|]. apply (in_history_wpt h _ i _ Ho). intros bs. cbn [wpt_request].
    rewrite Nat.eqb_refl. left. reflexivity. }
  cbn in D. destruct D as (D1 & D2 & D3). split; [assumption|]. split; [assumption|].
  unfold heading_is. rewrite neg_cos, neg_sin. exact D3.
Qed.
Lemma C29_solution_proof : forall asserts h handle d g sol i x y a, good_history asserts h ->
  generator asserts h handle d g -> solved g sol ->
  In (OTranslationWpt i x y a) h -> (i <= length (counts asserts h))%nat ->
  let q := at_sample sol (waypoint_sample (counts asserts h) i) in
  q_x q = x /\ q_y q = y.
Proof.
  intros asserts h handle d g sol i x y a GH Gn Sv Ho Hi q.
  destruct (solved_requests asserts h handle d g sol GH Gn Sv) as [M _].
  assert (D : demands q (TranslationEquality (mkTr x y))).
  { apply M; [assumption|]. apply (in_history_wpt h _ i _ Ho). intros bs. cbn [wpt_request].
    rewrite Nat.eqb_refl. left. reflexivity. }
  exact D.
Qed.

(** A pose waypoint makes every heading of the solution a unit vector. *)
Lemma C17_partial_proof : forall asserts h handle d g sol i x y a, good_history asserts h ->
  generator asserts h handle d g -> solved g sol ->
  In (OPoseWpt i x y a) h -> (i <= length (counts asserts h))%nat ->
  headings_unit (counts asserts h) sol.
Proof.
  intros asserts h handle d g sol i x y a GH Gn Sv Ho Hi.
  destruct (C28_solution_proof asserts h handle d g sol i x y a GH Gn Sv Ho Hi) as (_ & _ & H).
  apply (C17_one_proof asserts h handle d g sol Gn Sv (waypoint_sample (counts asserts h) i)).
  - unfold waypoint_sample, last_sample. apply list_sum_firstn_le.
  - unfold unit_heading. destruct H as [[-> ->]|[-> ->]]; apply pyth.
Qed.

(** ** C18 *)
Lemma C18_partial_proof : forall asserts h handle d g sol, generator asserts h handle d g -> solved g sol ->
  forall i, (1 <= i <= last_sample (counts asserts h))%nat -> unit_heading (at_sample sol (i - 1)) ->
  let a := at_sample sol (i - 1) in let b := at_sample sol i in let turn := q_w b * step_to sol i in
  (q_c b = q_c a * cos turn - q_s a * sin turn /\ q_s b = q_c a * sin turn + q_s a * cos turn) \/
  (q_c b = - (q_c a * cos turn - q_s a * sin turn) /\ q_s b = - (q_c a * sin turn + q_s a * cos turn)).
Proof.
  intros asserts h handle d g sol Gn Sv i Hi U a b turn.
  destruct (solved_motion asserts h handle d g sol Gn Sv) as [M _]. destruct (M i Hi) as (_ & _ & T & _).
  apply turns_exact in T; [|exact U]. destruct T as [T|T]; [left|right]; exact T.
Qed.
(** With turns and heading changes below a quarter turn the heading integrates
    exactly. *)
Lemma C18_small_proof : forall asserts h handle d g sol, generator asserts h handle d g -> solved g sol ->
  forall i, (1 <= i <= last_sample (counts asserts h))%nat -> unit_heading (at_sample sol (i - 1)) ->
  Rabs (q_w (at_sample sol i) * step_to sol i) < PI / 2 ->
  0 < q_c (at_sample sol i) * q_c (at_sample sol (i - 1)) + q_s (at_sample sol i) * q_s (at_sample sol (i - 1)) ->
  turns (at_sample sol (i - 1)) (at_sample sol i) (step_to sol i).
Proof.
  intros asserts h handle d g sol Gn Sv i Hi U A Q.
  destruct (C18_partial_proof asserts h handle d g sol Gn Sv i Hi U) as [T|T]; [exact T|exfalso].
  cbv zeta in T. set (a := at_sample sol (i - 1)) in *. set (b := at_sample sol i) in *.
  set (t := q_w b * step_to sol i) in *.
  assert (0 < cos t).
  { apply Rabs_def2 in A. apply cos_gt_0; lra. }
  destruct T as [T1 T2]. rewrite T1, T2 in Q.
  replace (- (q_c a * cos t - q_s a * sin t) * q_c a + - (q_c a * sin t + q_s a * cos t) * q_s a)
    with (- ((q_c a * q_c a + q_s a * q_s a) * cos t)) in Q by ring.
  unfold unit_heading in U. rewrite U in Q. lra.
Qed.

(** ** C20 *)
Lemma C20_proof : forall asserts h handle d g sol, generator asserts h handle d g -> solved g sol ->
  real_wheels d -> forall i, (i <= last_sample (counts asserts h))%nat ->
  forces_within d (forces sol i) /\ wheels_within d (at_sample sol i) /\
  (unit_heading (at_sample sol i) -> forall md, In md (d_modules d) ->
     norm2 (ground_velocity (at_sample sol i) (m_translation md))
       <= m_wheelRadius md * m_wheelMaxAngularVelocity md).
Proof.
  intros asserts h handle d g sol Gn Sv W i Hi.
  destruct (solved_physics asserts h handle d g sol Gn Sv W) as [_ P].
  destruct (P i Hi) as (_ & Wh & Fo). split; [assumption|]. split; [assumption|].
  intros U md Hmd. rewrite <- wheel_ground_norm by assumption. apply Wh. assumption.
Qed.

Lemma C19_proof : forall asserts h handle d g sol, generator asserts h handle d g -> solved g sol ->
  forall i, (i <= last_sample (counts asserts h))%nat -> newton d (at_sample sol i) (forces sol i).
Proof. intros asserts h handle d g sol G S. apply (solved_motion asserts h handle d g sol G S). Qed.
Lemma C21_proof : forall asserts h handle d g sol, generator asserts h handle d g -> solved g sol ->
  forall i, (1 <= i <= last_sample (counts asserts h))%nat -> step_within d (step_to sol i).
Proof. intros asserts h handle d g sol G S i Hi. apply (solved_motion asserts h handle d g sol G S). exact Hi. Qed.
