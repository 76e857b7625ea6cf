(** The optimisation problem is exactly the physics plus the requests. *)
From Coq Require Import List Lia Lra Psatz Reals.
Import ListNotations.
From Verif Require Import Outcome Num NumR Geometry Expr Constraints Util Builder Guess Generator
  Spec SpecBuilder SpecPhysics SpecTrajectory Semantics
  UtilFacts GeometryFacts BuilderFacts BuilderHistory ConstraintFacts ConstraintProofs GuessFacts GuessProofs GeneratorFacts
  SeedFacts FeasibleFacts.
Local Open Scope nat_scope.

(** ** What construct's success tells *)
Section Any.
  Context {K : Type} {HA : Arith K} {HD : Dbl K}.

  Lemma run_ops_inv_new : forall asserts (h : list (op K)), inv (run_ops asserts h new_builder).
  Proof. intros. apply run_ops_inv, inv_new. Qed.

  Lemma construct_inversion : forall (b : builder K) handle g, inv b -> construct b handle = Ok g ->
    length (b_counts b) < waypoint_count b /\
    exists d p, b_drivetrain b = Some d /\
      g = mkGen (layout (1 + list_sum (b_counts b)) (length (d_modules d)) (length (b_counts b)))
            (b_counts b) p (b_callbacks b) handle /\
      pr_nvars p = (1 + list_sum (b_counts b)) * width (length (d_modules d)) + length (b_counts b) /\
      pr_cons p = problem_cons b d /\
      pr_obj p = Some (objective (1 + list_sum (b_counts b)) (length (d_modules d)) (b_counts b)).
  Proof.
    intros b handle g I E.
    destruct (construct_fails b handle I) as (F1 & F2 & F3).
    destruct (Nat.eq_dec (waypoint_count b) 0) as [Z|Z]; [rewrite F1 in E by assumption; discriminate|].
    destruct (le_lt_dec (waypoint_count b) (length (b_counts b))) as [G|G];
      [rewrite F2 in E by lia; discriminate|].
    split; [assumption|].
    destruct (b_drivetrain b) as [d|] eqn:D; [|rewrite F3 in E by auto; discriminate].
    destruct (construct_ok b handle d I G D) as (p & E' & P1 & P2 & P3 & _).
    rewrite E' in E. injection E as <-. exists d, p. repeat split; assumption.
  Qed.
End Any.

Open Scope R_scope.

(** Every well-shaped solution with uniform steps can be read from some
    assignment. *)
Lemma read_onto : forall N m sol, well_shaped N m sol -> uniform_steps N sol ->
  exists env, read_solution (1 + list_sum N) m N env = sol.
Proof.
  intros N m sol Sh U. set (T := (1 + list_sum N)%nat).
  set (cell := fun i q => nth q
    [nth i (s_x sol) 0; nth i (s_y sol) 0; nth i (s_thetacos sol) 0; nth i (s_thetasin sol) 0;
     nth i (s_vx sol) 0; nth i (s_vy sol) 0; nth i (s_omega sol) 0;
     nth i (s_ax sol) 0; nth i (s_ay sol) 0; nth i (s_alpha sol) 0] 0).
  set (env := fun v =>
    if (v <? T * width m)%nat then
      let i := (v / width m)%nat in
      let q := (v mod width m)%nat in
      if (q <? 10)%nat then cell i q
      else let j := ((q - 10) / 2)%nat in
           if Nat.even (q - 10)%nat then nth j (nth i (s_moduleFX sol) []) 0
           else nth j (nth i (s_moduleFY sol) []) 0
    else step_to sol (S (waypoint_sample N (v - T * width m)%nat))).
  assert (W0 : width m <> 0%nat) by apply width_pos.
  assert (LT : forall i q, (i < T)%nat -> (q < width m)%nat -> (i * width m + q < T * width m)%nat).
  { intros i q Hi Hq. assert (S i * width m <= T * width m)%nat by (apply Nat.mul_le_mono_r; lia). lia. }
  assert (DM : forall i q, (q < width m)%nat -> ((i * width m + q) / width m = i /\ (i * width m + q) mod width m = q)%nat).
  { intros i q Hq. split.
    - rewrite Nat.div_add_l by assumption. rewrite Nat.div_small by assumption. lia.
    - rewrite Nat.add_comm, Nat.mod_add by assumption. apply Nat.mod_small. assumption. }
  assert (EQ : forall i q, (i < T)%nat -> (q < 10)%nat -> env (i * width m + q)%nat = cell i q).
  { intros i q Hi Hq. unfold env.
    assert (Hw : (q < width m)%nat) by (unfold width; lia).
    rewrite (proj2 (Nat.ltb_lt _ _) (LT i q Hi Hw)). destruct (DM i q Hw) as [-> ->]. cbv zeta.
    rewrite (proj2 (Nat.ltb_lt q 10)) by assumption. reflexivity. }
  assert (EX : forall i j, (i < T)%nat -> (j < m)%nat ->
    env (i * width m + (10 + 2 * j))%nat = nth j (nth i (s_moduleFX sol) []) 0).
  { intros i j Hi Hj. unfold env.
    assert (Hw : (10 + 2 * j < width m)%nat) by (unfold width; lia).
    rewrite (proj2 (Nat.ltb_lt _ _) (LT i _ Hi Hw)). destruct (DM i _ Hw) as [-> ->]. cbv zeta.
    rewrite (proj2 (Nat.ltb_ge (10 + 2 * j) 10)) by lia.
    replace (10 + 2 * j - 10)%nat with (2 * j)%nat by lia.
    replace (2 * j)%nat with (0 + 2 * j)%nat at 1 by lia. rewrite Nat.even_add_mul_2. cbn [Nat.even].
    rewrite (Nat.mul_comm 2), Nat.div_mul by lia. reflexivity. }
  assert (EY : forall i j, (i < T)%nat -> (j < m)%nat ->
    env (i * width m + (11 + 2 * j))%nat = nth j (nth i (s_moduleFY sol) []) 0).
  { intros i j Hi Hj. unfold env.
    assert (Hw : (11 + 2 * j < width m)%nat) by (unfold width; lia).
    rewrite (proj2 (Nat.ltb_lt _ _) (LT i _ Hi Hw)). destruct (DM i _ Hw) as [-> ->]. cbv zeta.
    rewrite (proj2 (Nat.ltb_ge (11 + 2 * j) 10)) by lia.
    replace (11 + 2 * j - 10)%nat with (1 + 2 * j)%nat by lia.
    rewrite Nat.even_add_mul_2. cbn [Nat.even].
    replace (1 + 2 * j)%nat with (1 + j * 2)%nat by lia. rewrite Nat.div_add by lia. reflexivity. }
  assert (ED : forall s, env (T * width m + s)%nat = step_to sol (S (waypoint_sample N s))).
  { intros s. unfold env. rewrite (proj2 (Nat.ltb_ge _ _)) by lia.
    replace (T * width m + s - T * width m)%nat with s by lia. reflexivity. }
  exists env.
  destruct Sh as (L0 & L1 & L2 & L3 & L4 & L5 & L6 & L7 & L8 & L9 & L10 & L11 & L12 & F1 & F2).
  assert (HTn : S (last_sample N) = T) by reflexivity. rewrite HTn in *.
  assert (ROW : forall q (l : list R), (q < 10)%nat -> length l = T -> (forall i, cell i q = nth i l 0) ->
    row env T m q = l).
  { intros q l Hq Hl Hc. apply (nth_ext _ _ 0 0).
    - unfold row. rewrite map_length, seq_length. symmetry. assumption.
    - intros i Hi. unfold row in Hi. rewrite map_length, seq_length in Hi.
      rewrite row_nth by assumption. rewrite EQ by assumption. apply Hc. }
  assert (MAT : forall o (l : list (list R)), length l = T -> Forall (fun r => length r = m) l ->
    (forall i j, (i < T)%nat -> (j < m)%nat -> env (i * width m + (o + 2 * j))%nat = nth j (nth i l []) 0) ->
    force_matrix env T m o = l).
  { intros o l Hl Fl Hc. apply (nth_ext _ _ [] []).
    - unfold force_matrix. rewrite map_length, seq_length. symmetry. assumption.
    - intros i Hi. unfold force_matrix in Hi. rewrite map_length, seq_length in Hi.
      rewrite force_nth by assumption.
      assert (Li : length (nth i l []) = m).
      { rewrite Forall_forall in Fl. apply Fl. apply nth_In. lia. }
      apply (nth_ext _ _ 0 0).
      + rewrite map_length, seq_length. symmetry. assumption.
      + intros j Hj. rewrite map_length, seq_length in Hj.
        set (f := fun j => env (i * width m + (o + 2 * j))%nat).
        rewrite (nth_indep _ 0 (f 0%nat)) by (rewrite map_length, seq_length; assumption).
        rewrite map_nth, seq_nth by assumption. apply Hc; assumption. }
  unfold read_solution.
  rewrite (ROW 0%nat (s_x sol)), (ROW 1%nat (s_y sol)), (ROW 2%nat (s_thetacos sol)), (ROW 3%nat (s_thetasin sol)),
    (ROW 4%nat (s_vx sol)), (ROW 5%nat (s_vy sol)), (ROW 6%nat (s_omega sol)), (ROW 7%nat (s_ax sol)),
    (ROW 8%nat (s_ay sol)), (ROW 9%nat (s_alpha sol)) by (try lia; try assumption; reflexivity).
  rewrite (MAT 10%nat (s_moduleFX sol)) by assumption.
  rewrite (MAT 11%nat (s_moduleFY sol)) by assumption.
  assert (DT : flat_map (fun s => repeat (env (T * width m + s)%nat) (nth s N 0%nat)) (seq 0%nat (length N)) = s_dt sol).
  { apply (nth_ext _ _ 0 0).
    - rewrite (@flat_map_length_sum _ _ _ (fun s => nth s N 0%nat)) by (intros; apply repeat_length).
      rewrite L0. unfold last_sample. f_equal. clear.
      induction N as [|n l IH]; [reflexivity|]. cbn [length seq map nth].
      rewrite <- seq_shift, map_map. f_equal. exact IH.
    - intros i Hi.
      rewrite (@flat_map_length_sum _ _ _ (fun s => nth s N 0%nat)) in Hi by (intros; apply repeat_length).
      assert (Hi' : (i < list_sum N)%nat).
      { replace (list_sum N) with (list_sum (map (fun s => nth s N 0%nat) (seq 0%nat (length N)))); [assumption|].
        f_equal. clear. induction N as [|n l IH]; [reflexivity|]. cbn [length seq map nth].
        rewrite <- seq_shift, map_map. f_equal. exact IH. }
      destruct (locate N (S i)) as (s & k & Hs & Hk & E); [lia|].
      replace i with (start N s + k)%nat by lia.
      rewrite (dt_nth (fun s => env (T * width m + s)%nat)) by assumption. rewrite ED.
      rewrite <- (U s k Hs Hk). unfold step_to. f_equal. unfold waypoint_sample, start. lia. }
  rewrite DT. destruct sol; reflexivity.
Qed.

Section Main.
  Variables (b : builder R) (handle : Z) (g : gen R) (d : drivetrain R).
  Hypothesis Inv : inv b.
  Hypothesis Hg : construct b handle = Ok g.
  Hypothesis Hd : b_drivetrain b = Some d.
  Let N := b_counts b.
  Let T := (1 + list_sum N)%nat.
  Let m := length (d_modules d).

  Lemma main_cons : pr_cons (g_problem g) = problem_cons b d /\ (length N < waypoint_count b)%nat /\
    (forall env, ConstructSwerveSolution g env = Ok (read_solution T m N env)).
  Proof.
    destruct (construct_inversion b handle g Inv Hg) as (L & d' & p & D & -> & _ & P & _).
    rewrite Hd in D. injection D as <-. split; [exact P|]. split; [exact L|].
    intros env. apply read_ok.
  Qed.

  (** The requested constraints, as expressions. *)
  Definition requests_sat (env : nat -> R) : Prop :=
    (forall w, (w <= length N)%nat -> sat_all env (flat_map (applied m (start N w)) (constraints_at b w))) /\
    (forall s, (s < length N)%nat ->
       sat_all env (flat_map (fun c => flat_map (fun i => applied m i c) (seq (1 + start N s)%nat (nth s N 0%nat)))
         (segment_constraints_to b (S s)))).

  Lemma feasible_groups : forall env sol, ConstructSwerveSolution g env = Ok sol ->
    (feasible env (g_problem g) <->
     (forall s, (s < length N)%nat -> step_within d (env (T * width m + s)%nat)) /\
     (forall i, (1 <= i <= last_sample N)%nat ->
        moves (at_sample sol (i - 1)) (at_sample sol i) (step_to sol i) /\
        turns_up_to_half (at_sample sol (i - 1)) (at_sample sol i) (step_to sol i) /\
        accelerates (at_sample sol (i - 1)) (at_sample sol i) (step_to sol i)) /\
     (forall i, (i <= last_sample N)%nat -> sat_all env (dyn_cons m d i)) /\
     requests_sat env).
  Proof.
    intros env sol Hsol. destruct main_cons as (C & L & Rd). rewrite Rd in Hsol. injection Hsol as <-.
    set (sol := read_solution T m N env).
    unfold feasible. rewrite C. unfold problem_cons. fold N T m.
    rewrite !sat_all_app, !sat_all_flat, sat_all_map.
    assert (HS : (forall a, In a (seq 0%nat (length N)) -> sat_all env (step_cons T m (d_modules d) a)) /\
                 (forall a, In a (seq 0%nat (length N)) -> sat env (CGe (dtv T m a) (nlit 0))) <->
                 (forall s, (s < length N)%nat -> step_within d (env (T * width m + s)%nat))).
    { split.
      - intros [G1 G2] s Hs. apply (step_sat env T m). split; [apply G1|apply G2]; apply in_seq; lia.
      - intros G. split; intros a Ha; apply in_seq in Ha; apply (step_sat env T m d a); apply G; lia. }
    assert (HK : (forall a, In a (seq 0%nat (length N)) ->
                   sat_all env (flat_map (fun k => kin_cons T m a (1 + start N a + k)%nat) (seq 0%nat (nth a N 0%nat)))) <->
                 (forall i, (1 <= i <= last_sample N)%nat ->
                   moves (at_sample sol (i - 1)) (at_sample sol i) (step_to sol i) /\
                   turns_up_to_half (at_sample sol (i - 1)) (at_sample sol i) (step_to sol i) /\
                   accelerates (at_sample sol (i - 1)) (at_sample sol i) (step_to sol i))).
    { split.
      - intros G i Hi. destruct (locate N i Hi) as (s & k & Hs & Hk & ->).
        apply (kin_sat env T m N eq_refl s k Hs Hk).
        specialize (G s). rewrite sat_all_flat in G. apply G; apply in_seq; lia.
      - intros G s Hs. apply in_seq in Hs. apply sat_all_flat. intros k Hk. apply in_seq in Hk.
        apply (kin_sat env T m N eq_refl s k); try lia. apply G. unfold last_sample, start.
        pose proof (list_sum_firstn_S N s). pose proof (list_sum_firstn_le N (S s)). lia. }
    assert (HD : (forall a, In a (seq 0%nat T) -> sat_all env (dyn_cons m d a)) <->
                 (forall i, (i <= last_sample N)%nat -> sat_all env (dyn_cons m d i))).
    { split; intros G i Hi; [|apply in_seq in Hi]; apply G; [apply in_seq|]; unfold last_sample, T in *; lia. }
    rewrite HD. clear HD. unfold requests_sat.
    split.
    - intros (G1 & G2 & G3 & G4 & G5 & G6). rewrite HK in G3.
      split; [apply HS; split; assumption|]. split; [assumption|]. split; [assumption|]. split.
      + intros w Hw. apply G5. apply in_seq. lia.
      + intros s Hs. apply G6. apply in_seq. lia.
    - intros (G1 & G2 & G3 & G5 & G6). apply HS in G1. destruct G1 as [G1 G1'].
      split; [assumption|]. split; [assumption|]. split; [apply HK; assumption|]. split; [assumption|]. split.
      + intros w Hw. apply in_seq in Hw. apply G5. lia.
      + intros s Hs. apply in_seq in Hs. apply G6. lia.
  Qed.

  (** The step of sample [i] is the step variable of its segment. *)
  Lemma step_of_segment : forall env i, (1 <= i <= last_sample N)%nat ->
    exists s, (s < length N)%nat /\ step_to (read_solution T m N env) i = env (T * width m + s)%nat.
  Proof.
    intros env i Hi. destruct (locate N i Hi) as (s & k & Hs & Hk & ->).
    exists s. split; [assumption|]. apply (step_val env T m N eq_refl s k Hs Hk).
  Qed.

  (** Physics of a feasible assignment, without conditions on the wheels. *)
  Theorem feasible_motion : forall env sol, ConstructSwerveSolution g env = Ok sol ->
    feasible env (g_problem g) ->
    (forall i, (1 <= i <= last_sample N)%nat ->
       step_within d (step_to sol i) /\
       moves (at_sample sol (i - 1)) (at_sample sol i) (step_to sol i) /\
       turns_up_to_half (at_sample sol (i - 1)) (at_sample sol i) (step_to sol i) /\
       accelerates (at_sample sol (i - 1)) (at_sample sol i) (step_to sol i)) /\
    (forall i, (i <= last_sample N)%nat -> newton d (at_sample sol i) (forces sol i)).
  Proof.
    intros env sol Hsol F. apply (feasible_groups env sol Hsol) in F. destruct F as (S1 & K1 & D1 & _).
    destruct main_cons as (C & L & Rd). rewrite Rd in Hsol. injection Hsol as <-.
    split.
    - intros i Hi. split; [|apply K1; assumption].
      destruct (step_of_segment env i Hi) as (s & Hs & ->). apply S1. assumption.
    - intros i Hi. apply (dyn_newton env T m N eq_refl d i eq_refl); [unfold last_sample, T in *; lia|].
      apply D1. assumption.
  Qed.

  (** Requested constraints of a feasible assignment. *)
  Theorem feasible_requests : (forall w c,
      In c (constraints_at b w) \/ In c (segment_constraints_to b w) -> proper_constraint c) ->
    forall env sol, ConstructSwerveSolution g env = Ok sol ->
    (requests_sat env <-> meets_requests N sol (constraints_at b) (segment_constraints_to b)).
  Proof.
    intros Proper env sol Hsol. destruct main_cons as (C & L & Rd). rewrite Rd in Hsol. injection Hsol as <-.
    set (sol := read_solution T m N env).
    unfold requests_sat, meets_requests.
    assert (ST : forall w, (start N w < T)%nat)
      by (intros w; unfold start, T; pose proof (list_sum_firstn_le N w); lia).
    split; intros [G1 G2]; split.
    - intros w c Hw Hc. specialize (G1 w Hw). rewrite sat_all_flat in G1.
      apply (applied_sat env T m N (start N w) c (ST w)); [apply (Proper w); left; assumption|].
      apply G1. assumption.
    - intros w c i Hw Hc Hi. specialize (G2 (w - 1)%nat ltac:(lia)). rewrite sat_all_flat in G2.
      replace (S (w - 1)) with w in G2 by lia.
      specialize (G2 c Hc). rewrite sat_all_flat in G2.
      assert (W : waypoint_sample N w = (start N (w - 1) + nth (w - 1) N 0)%nat).
      { unfold waypoint_sample, start. rewrite <- list_sum_firstn_S. f_equal. f_equal. lia. }
      unfold waypoint_sample in Hi at 1. change (list_sum (firstn (w - 1) N)) with (start N (w - 1)) in Hi.
      apply (applied_sat env T m N i c).
      + unfold waypoint_sample, T in *. pose proof (list_sum_firstn_le N w). lia.
      + apply (Proper w). right. assumption.
      + apply G2. apply in_seq. lia.
    - intros w Hw. apply sat_all_flat. intros c Hc.
      apply (applied_sat env T m N (start N w) c (ST w)); [apply (Proper w); left; assumption|].
      apply G1; assumption.
    - intros s Hs. apply sat_all_flat. intros c Hc. apply sat_all_flat.
      intros i Hi. apply in_seq in Hi.
      pose proof (list_sum_firstn_S N s) as X. pose proof (list_sum_firstn_le N (S s)).
      apply (applied_sat env T m N i c).
      + unfold start, T in *. lia.
      + apply (Proper (S s)). right. assumption.
      + apply (G2 (S s) c i); [lia|assumption|]. unfold waypoint_sample, start in *.
        replace (S s - 1)%nat with s by lia. lia.
  Qed.

  Hypothesis Wheels : real_wheels d.

  Theorem feasible_physics : forall env sol, ConstructSwerveSolution g env = Ok sol ->
    (feasible env (g_problem g) <->
     obeys_physics turns_up_to_half d N sol /\ requests_sat env /\
     (forall s, (s < length N)%nat -> step_within d (env (T * width m + s)%nat))).
  Proof.
    intros env sol Hsol. rewrite (feasible_groups env sol Hsol).
    destruct main_cons as (C & L & Rd). rewrite Rd in Hsol. injection Hsol as <-.
    set (sol := read_solution T m N env).
    assert (HD : (forall i, (i <= last_sample N)%nat -> sat_all env (dyn_cons m d i)) <->
                 (forall i, (i <= last_sample N)%nat ->
                   newton d (at_sample sol i) (forces sol i) /\
                   wheels_within d (at_sample sol i) /\ forces_within d (forces sol i))).
    { split; intros G i Hi; apply (dyn_sat env T m N eq_refl d i eq_refl Wheels); try (apply G; assumption);
        unfold last_sample, T in *; lia. }
    rewrite HD. clear HD. unfold obeys_physics. split.
    - intros (G1 & G2 & G3 & G4). split; [split; [|assumption]|split; assumption].
      intros i Hi. split; [|apply G2; assumption].
      destruct (step_of_segment env i Hi) as (s & Hs & E). unfold sol. rewrite E. apply G1. assumption.
    - intros ((P1 & P2) & M & S1). split; [assumption|]. split; [|split; assumption].
      intros i Hi. destruct (P1 i Hi) as (_ & A & B & C'). tauto.
  Qed.

  Hypothesis Pos : forall n, In n N -> (1 <= n)%nat.

  Theorem feasible_iff_raw : forall env sol, ConstructSwerveSolution g env = Ok sol ->
    (feasible env (g_problem g) <->
     obeys_physics turns_up_to_half d N sol /\ requests_sat env).
  Proof.
    intros env sol Hsol. rewrite (feasible_physics env sol Hsol).
    split; [tauto|]. intros [P M]. split; [assumption|]. split; [assumption|].
    intros s Hs. destruct main_cons as (_ & _ & Rd). rewrite Rd in Hsol. injection Hsol as <-.
    assert (Ns : (0 < nth s N 0)%nat) by (apply (Pos (nth s N 0%nat)), nth_In; assumption).
    rewrite <- (step_val env T m N eq_refl s 0 Hs Ns).
    destruct P as [P _]. apply P. unfold last_sample, start.
    pose proof (list_sum_firstn_S N s). pose proof (list_sum_firstn_le N (S s)). lia.
  Qed.

  Theorem feasible_iff : (forall w c,
      In c (constraints_at b w) \/ In c (segment_constraints_to b w) -> proper_constraint c) ->
    forall env sol, ConstructSwerveSolution g env = Ok sol ->
    (feasible env (g_problem g) <->
     obeys_physics turns_up_to_half d N sol /\
     meets_requests N sol (constraints_at b) (segment_constraints_to b)).
  Proof.
    intros Proper env sol Hsol. rewrite (feasible_iff_raw env sol Hsol).
    rewrite (feasible_requests Proper env sol Hsol). reflexivity.
  Qed.

  (** Every well-shaped solution with uniform steps can be read from some
      assignment. *)
  Theorem read_surjective :
    forall sol, well_shaped N m sol -> uniform_steps N sol ->
    exists env, ConstructSwerveSolution g env = Ok sol.
  Proof.
    intros sol Sh U. destruct main_cons as (_ & _ & Rd). destruct (read_onto N m sol Sh U) as (env & E).
    exists env. rewrite Rd. f_equal. exact E.
  Qed.
End Main.
