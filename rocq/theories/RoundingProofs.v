(** What a problem of doubles demands of a trajectory. *)
From Coq Require Import List Lia Lra Psatz Reals SpecFloat.
Import ListNotations.
From Flocq Require Import Core BinarySingleNaN.
From Verif Require Import Outcome Num NumR NumF64 Geometry Expr Constraints Util Builder Guess Generator
  Spec SpecBuilder SpecPhysics SpecTrajectory SpecGenerator SpecDouble SpecRounding Semantics
  UtilFacts GeometryFacts BuilderFacts BuilderHistory ConstraintFacts ConstraintProofs GuessFacts GuessProofs GeneratorFacts
  SeedFacts FeasibleFacts GeneratorProofs DoubleFacts DoubleProofs DoubleGuess WidthProofs RoundingFacts.
Local Open Scope R_scope.
Opaque f64_lit f64_mul f64_sub f64_add f64_div SFopp SFeqb.

Lemma Rdiv_1 x : x / 1 = x.
Proof. unfold Rdiv. rewrite Rinv_1. apply Rmult_1_r. Qed.
Lemma combine_map_in {A B C} (f : A -> C) (l : list A) : forall (k : list B) a b,
  In (a, b) (combine l k) -> In (f a, b) (combine (map f l) k).
Proof.
  induction l as [|x l IH]; intros [|y k] a b; cbn [map combine In]; try tauto.
  intros [E|H]; [left; congruence|right; apply IH, H].
Qed.
Lemma in_combine_map {A B C} (f : A -> C) (l : list A) : forall (k : list B) c b,
  In (c, b) (combine (map f l) k) -> exists a, c = f a /\ In (a, b) (combine l k).
Proof.
  induction l as [|x l IH]; intros [|y k] c b; cbn [map combine In]; try tauto.
  intros [E|H]; [injection E as <- <-; eauto|]. destruct (IH k c b H) as (a & H1 & H2). eauto.
Qed.
Lemma sat_map_flat : forall {A} env (f : ccons f64 -> ccons R) (g : A -> list (ccons f64)) l,
  sat_all env (map f (flat_map g l)) <-> forall a, In a l -> sat_all env (map f (g a)).
Proof.
  intros A env f g l. induction l as [|x l IH]; simpl.
  - split; [intros _ a []|intros; constructor].
  - rewrite map_app, sat_all_app, IH. split.
    + intros [G1 G2] a [<-|Ha]; [assumption|apply G2; assumption].
    + intros G. split; [apply G; left; reflexivity|intros; apply G; right; assumption].
Qed.

(** ** Sizes of an ordinary drivetrain's limits *)
Lemma ordinary_speed md : ordinary_module md ->
  let v := f64_mul (m_wheelRadius md) (m_wheelMaxAngularVelocity md) in
  within 500 v /\ real v = rnd (l_speed documented md).
Proof.
  intros (_ & _ & Nr & Nw & _ & Pr & Pw & _ & L & _). cbn [l_speed documented] in *.
  apply mul_real; try assumption; [lia|]. rewrite Rabs_pos_eq by (apply Rmult_le_pos; lra). rewrite pow2. exact L.
Qed.
Lemma ordinary_force md : ordinary_module md ->
  let f := f64_div (m_wheelMaxTorque md) (m_wheelRadius md) in
  within 500 f /\ real f = rnd (l_force documented md).
Proof.
  intros (_ & _ & Nr & _ & Nt & Pr & _ & Pt & _ & L). cbn [l_force documented] in *.
  apply div_real; try assumption; [lra|lia|].
  rewrite Rabs_pos_eq by (apply Rmult_le_pos; [lra|left; apply Rinv_0_lt_compat; lra]). rewrite pow2. exact L.
Qed.
Lemma ordinary_squares md : ordinary_module md ->
  let v := f64_mul (m_wheelRadius md) (m_wheelMaxAngularVelocity md) in
  let f := f64_div (m_wheelMaxTorque md) (m_wheelRadius md) in
  finite (f64_mul v v) /\ 0 <= real (f64_mul v v) /\ finite (f64_mul f f) /\ 0 <= real (f64_mul f f).
Proof.
  intros O. destruct (ordinary_speed md O) as (V & _), (ordinary_force md O) as (F & _). cbv zeta in *.
  destruct (square_real _ 500 V ltac:(lia)) as (A & _ & B). destruct (square_real _ 500 F ltac:(lia)) as (C & _ & D). auto.
Qed.
Lemma ordinary_numbered ms : Forall ordinary_module ms -> Forall numbered_module ms /\ Forall near_module ms.
Proof.
  intros F. rewrite !Forall_forall in *. split; intros md H; destruct (F md H) as (X & Y & _).
  - split; split; eauto using within_double, within_fin.
  - split; assumption.
Qed.

Section Maps.
  Variables (fcos fsin : f64 -> f64) (fatan2 fhypot : f64 -> f64 -> f64).
  Local Instance A64' : Arith f64 := A64 fcos fsin fatan2 fhypot.

  Section Dynamics.
    Variables (env : nat -> R) (T m : nat) (N : list nat).
    Hypothesis HT : T = (1 + list_sum N)%nat.
    Let sol := read_solution T m N env.
    Lemma dyn64 d i : length (d_modules d) = m -> ordinary_drivetrain d -> (i < T)%nat ->
      (sat_all env (map exact_constraint (@dyn_cons f64 A64' m d i)) <->
       newton (real_drivetrain d) (at_sample sol i) (forces sol i) /\
       (forall md, In md (d_modules d) ->
          norm2 (wheel_velocity (at_sample sol i) (real_point (m_translation md))) <= l_speed computed md) /\
       (forall md f, In (md, f) (combine (d_modules d) (forces sol i)) -> norm2 f <= l_force computed md)).
    Proof.
      unfold A64'. intros Hm ((_ & Fm) & (_ & Fi) & O) Hi. destruct (ordinary_numbered _ O) as (Nu & _).
      unfold dyn_cons. rewrite map_app, sat_all_app, sat_map_flat.
      assert (PW : (forall a, In a (seq 0 (length (d_modules d))) -> sat_all env (map exact_constraint (@power_cons f64 (A64 fcos fsin fatan2 fhypot) m (d_modules d) i a))) <->
        (forall md, In md (d_modules d) ->
          norm2 (wheel_velocity (at_sample sol i) (real_point (m_translation md))) <= l_speed computed md) /\
        (forall md f, In (md, f) (combine (d_modules d) (forces sol i)) -> norm2 f <= l_force computed md)).
      { assert (RW : real_wheels (effective d)).
        { intros md H. apply in_map_iff in H. destruct H as (md' & <- & _). cbn. split; [lra|]. split; apply sqrt_pos. }
        pose proof (power_sat env T m N HT (effective d) i ltac:(cbn; rewrite map_length; exact Hm) RW Hi) as PS.
        fold sol in PS. cbn [d_modules effective] in PS. rewrite map_length in PS.
        transitivity (forall a, In a (seq 0 (length (d_modules d))) -> sat_all env (power_cons m (map effective_module (d_modules d)) i a)).
        - assert (E : forall a, In a (seq 0 (length (d_modules d))) ->
            map exact_constraint (@power_cons f64 (A64 fcos fsin fatan2 fhypot) m (d_modules d) i a) = power_cons m (map effective_module (d_modules d)) i a).
          { intros a Ha. apply in_seq in Ha. apply power_map; [lia|exact Nu|].
            intros md H. apply ordinary_squares. rewrite Forall_forall in O. apply O, H. }
          split; intros G a Ha; specialize (G a Ha); [rewrite <- E|rewrite E]; assumption.
        - rewrite PS. unfold wheels_within, forces_within. cbn [d_modules effective]. split.
          + intros (G1 & G2). split.
            * intros md H. specialize (G1 (effective_module md) (in_map _ _ _ H)). cbn in G1. rewrite Rmult_1_l in G1. exact G1.
            * intros md f H. specialize (G2 (effective_module md) f). cbn in G2. rewrite Rdiv_1 in G2. apply G2.
              exact (combine_map_in effective_module _ _ _ _ H).
          + intros (G1 & G2). split.
            * intros md H. apply in_map_iff in H. destruct H as (md' & <- & H). cbn. rewrite Rmult_1_l. apply G1, H.
            * intros md f H. destruct (in_combine_map effective_module _ _ _ _ H) as (md' & -> & H'). cbn. rewrite Rdiv_1. apply G2, H'. }
      rewrite PW. clear PW.
      pose proof (newton_sat env T m N HT (real_drivetrain d) i ltac:(cbn; rewrite map_length; exact Hm) Hi) as NS. fold sol in NS.
      rewrite <- NS. clear NS. cbn [map]. rewrite !sat_all_cons, sat_all_nil.
      cbn [exact_constraint nmul Arith_expr exactly real_drivetrain d_mass d_moi d_modules].
      rewrite (tau_map fcos fsin fatan2 fhypot m (d_modules d) i Nu), (constant_fin _ Fm), (constant_fin _ Fi).
      pose proof (force_map fcos fsin fatan2 fhypot m i (@fxv)) as FX. pose proof (force_map fcos fsin fatan2 fhypot m i (@fyv)) as FY.
      rewrite FX, FY by reflexivity. unfold sv. cbn [exactly]. tauto.
    Qed.
  End Dynamics.

  Section Main.
    Variables (b : builder f64) (handle : Z) (g : gen f64) (d : drivetrain f64).
    Hypothesis Inv : inv b.
    Hypothesis Hg : @construct f64 A64' _ b handle = Ok g.
    Hypothesis Hd : b_drivetrain b = Some d.
    Hypothesis Od : ordinary_drivetrain d.
    Hypothesis Oc : forall w c, In c (constraints_at b w) \/ In c (segment_constraints_to b w) -> ordinary_constraint fcos c.
    Let N := b_counts b.
    Let T := (1 + list_sum N)%nat.
    Let m := length (d_modules d).

    Lemma over_layout s : forall p cb,
      over_reals (mkGen (layout T m s) N p cb handle) =
      mkGen (layout T m s) N (mkProblem (pr_nvars p) (map exact_constraint (pr_cons p)) (option_map exactly (pr_obj p)) (fun i => real (pr_vals p i))) [] handle.
    Proof.
      intros p cb. unfold over_reals. cbn [g_vars g_N g_problem g_handle]. f_equal.
      unfold layout. cbn [v_x v_y v_cos v_sin v_vx v_vy v_omega v_ax v_ay v_alpha v_Fx v_Fy v_dt].
      unfold force_rows. rewrite !map_map.
      f_equal; apply map_ext; intros i; try reflexivity; rewrite map_map; reflexivity.
    Qed.
    Lemma over_cons : pr_cons (g_problem (over_reals g)) = map exact_constraint (problem_cons b d) /\
      (length N < waypoint_count b)%nat /\
      (forall env, ConstructSwerveSolution (over_reals g) env = Ok (read_solution T m N env)).
    Proof.
      destruct (construct_inversion b handle g Inv Hg) as (L & d' & p & D & E & _ & P & _).
      rewrite Hd in D. injection D as <-. subst g. fold N T m. rewrite over_layout. cbn [g_problem pr_cons]. rewrite P.
      split; [reflexivity|]. split; [exact L|]. intros env. apply read_ok.
    Qed.

    Lemma feasible64 : forall env, let sol := read_solution T m N env in
      (feasible env (g_problem (over_reals g)) <->
       (forall s, (s < length N)%nat -> let dt := env (T * width m + s)%nat in
          0 <= dt /\ forall md, In md (d_modules d) ->
            separate computed (d_modules d) (dt * real (m_wheelRadius md) * real (m_wheelMaxAngularVelocity md))) /\
       (forall i, (1 <= i <= last_sample N)%nat ->
          moves (at_sample sol (i - 1)) (at_sample sol i) (step_to sol i) /\
          turns_up_to_half (at_sample sol (i - 1)) (at_sample sol i) (step_to sol i) /\
          accelerates (at_sample sol (i - 1)) (at_sample sol i) (step_to sol i)) /\
       (forall i, (i <= last_sample N)%nat ->
          newton (real_drivetrain d) (at_sample sol i) (forces sol i) /\
          (forall md, In md (d_modules d) ->
             norm2 (wheel_velocity (at_sample sol i) (real_point (m_translation md))) <= l_speed computed md) /\
          (forall md f, In (md, f) (combine (d_modules d) (forces sol i)) -> norm2 f <= l_force computed md)) /\
       meets_up_to fcos computed N sol (constraints_at b) (segment_constraints_to b)).
    Proof.
      intros env sol. destruct over_cons as (C & L & _).
      unfold feasible. rewrite C. unfold problem_cons. fold N T m.
      rewrite !map_app, !sat_all_app, !sat_map_flat, map_map, sat_all_map.
      assert (OM : Forall ordinary_module (d_modules d)) by apply Od.
      destruct (ordinary_numbered _ OM) as (Nu & Ne).
      assert (OR : forall md, In md (d_modules d) -> finite (m_wheelRadius md) /\ finite (m_wheelMaxAngularVelocity md)).
      { intros md H. rewrite Forall_forall in OM. destruct (OM md H) as (_ & _ & (_ & R) & (_ & W) & _). auto. }
      assert (HS : (forall a, In a (seq 0%nat (length N)) -> sat_all env (map exact_constraint (@step_cons f64 A64' _ T m (d_modules d) a))) /\
                   (forall a, In a (seq 0%nat (length N)) -> sat env (exact_constraint (CGe (dtv T m a) (nlit 0)))) <->
                   (forall s, (s < length N)%nat -> let dt := env (T * width m + s)%nat in
                      0 <= dt /\ forall md, In md (d_modules d) ->
                      separate computed (d_modules d) (dt * real (m_wheelRadius md) * real (m_wheelMaxAngularVelocity md)))).
      { assert (zero : forall a, sat env (exact_constraint (CGe (dtv T m a) (nlit 0))) <-> 0 <= env (T * width m + a)%nat).
        { intros a. pose proof (nonneg_map fcos fsin fatan2 fhypot T m a) as NM. unfold A64'. rewrite NM.
          unfold dtv. cbn [sat]. xnum. rewrite Q2R_0. split; [intros (_ & _ & G); lra|intros; repeat split; lra]. }
        split.
        - intros [G1 G2] s Hs dt. split; [apply zero, G2, in_seq; lia|].
          apply (step_sat64 fcos fsin fatan2 fhypot env T m (d_modules d) s Ne OR). apply G1, in_seq. lia.
        - intros G. split; intros a Ha; apply in_seq in Ha; destruct (G a ltac:(lia)) as (G1 & G2).
          + apply (step_sat64 fcos fsin fatan2 fhypot env T m (d_modules d) a Ne OR). exact G2.
          + apply zero, G1. }
      assert (HK : (forall a, In a (seq 0%nat (length N)) ->
                     sat_all env (map exact_constraint (flat_map (fun k => @kin_cons f64 A64' T m a (1 + start N a + k)%nat) (seq 0%nat (nth a N 0%nat))))) <->
                   (forall i, (1 <= i <= last_sample N)%nat ->
                     moves (at_sample sol (i - 1)) (at_sample sol i) (step_to sol i) /\
                     turns_up_to_half (at_sample sol (i - 1)) (at_sample sol i) (step_to sol i) /\
                     accelerates (at_sample sol (i - 1)) (at_sample sol i) (step_to sol i))).
      { split.
        - intros G i Hi. destruct (locate N i Hi) as (s & k & Hs & Hk & ->).
          apply (kin_sat env T m N eq_refl s k Hs Hk).
          specialize (G s). rewrite sat_map_flat in G. rewrite <- (kin_map fcos fsin fatan2 fhypot). apply G; apply in_seq; lia.
        - intros G s Hs. apply in_seq in Hs. apply sat_map_flat. intros k Hk. apply in_seq in Hk.
          pose proof (kin_map fcos fsin fatan2 fhypot T m s (1 + start N s + k)) as KM. unfold A64'. rewrite KM.
          apply (kin_sat env T m N eq_refl s k); try lia. apply G. unfold last_sample, start.
          pose proof (list_sum_firstn_S N s). pose proof (list_sum_firstn_le N (S s)). lia. }
      assert (HD : (forall a, In a (seq 0%nat T) -> sat_all env (map exact_constraint (@dyn_cons f64 A64' m d a))) <->
                   (forall i, (i <= last_sample N)%nat ->
                      newton (real_drivetrain d) (at_sample sol i) (forces sol i) /\
                      (forall md, In md (d_modules d) ->
                         norm2 (wheel_velocity (at_sample sol i) (real_point (m_translation md))) <= l_speed computed md) /\
                      (forall md f, In (md, f) (combine (d_modules d) (forces sol i)) -> norm2 f <= l_force computed md))).
      { split; intros G i Hi.
        - apply (dyn64 env T m N eq_refl d i eq_refl Od); [unfold last_sample, T in *; lia|].
          apply G, in_seq. unfold last_sample, T in *. lia.
        - apply in_seq in Hi. apply (dyn64 env T m N eq_refl d i eq_refl Od); [lia|]. apply G. unfold last_sample, T in *. lia. }
      assert (ST : forall w, (start N w < T)%nat)
        by (intros w; unfold start, T; pose proof (list_sum_firstn_le N w); lia).
      assert (HR : (forall w, In w (seq 0 (1 + length N)) -> sat_all env (map exact_constraint (flat_map (@applied f64 A64' _ m (start N w)) (constraints_at b w)))) /\
                   (forall s, In s (seq 0 (length N)) -> sat_all env (map exact_constraint
                      (flat_map (fun c => flat_map (fun i => @applied f64 A64' _ m i c) (seq (1 + start N s)%nat (nth s N 0%nat)))
                        (segment_constraints_to b (S s))))) <->
                   meets_up_to fcos computed N sol (constraints_at b) (segment_constraints_to b)).
      { assert (AP : forall i c, (i < T)%nat -> ordinary_constraint fcos c ->
          (sat_all env (map exact_constraint (@applied f64 A64' _ m i c)) <-> demands_up_to fcos computed (at_sample sol i) c))
          by exact (applied64 fcos fsin fatan2 fhypot env T m N).
        unfold meets_up_to. split; intros [G1 G2]; split.
        - intros w c Hw Hc. specialize (G1 w ltac:(apply in_seq; lia)). rewrite sat_map_flat in G1.
          apply (AP (start N w) c (ST w)); [apply (Oc w); left; assumption|]. apply G1. assumption.
        - intros w c i Hw Hc Hi. specialize (G2 (w - 1)%nat ltac:(apply in_seq; lia)). rewrite sat_map_flat in G2.
          replace (S (w - 1)) with w in G2 by lia.
          specialize (G2 c Hc). rewrite sat_map_flat in G2.
          assert (W : waypoint_sample N w = (start N (w - 1) + nth (w - 1) N 0)%nat).
          { unfold waypoint_sample, start. rewrite <- list_sum_firstn_S. f_equal. f_equal. lia. }
          unfold waypoint_sample in Hi at 1. change (list_sum (firstn (w - 1) N)) with (start N (w - 1)) in Hi.
          apply (AP i c).
          + unfold waypoint_sample, T in *. pose proof (list_sum_firstn_le N w). lia.
          + apply (Oc w). right. assumption.
          + apply G2. apply in_seq. lia.
        - intros w Hw. apply in_seq in Hw. apply sat_map_flat. intros c Hc.
          apply (AP (start N w) c (ST w)); [apply (Oc w); left; assumption|].
          apply G1; [lia|assumption].
        - intros s Hs. apply in_seq in Hs. apply sat_map_flat. intros c Hc. apply sat_map_flat.
          intros i Hi. apply in_seq in Hi.
          pose proof (list_sum_firstn_S N s) as X. pose proof (list_sum_firstn_le N (S s)).
          apply (AP i c).
          + unfold start, T in *. lia.
          + apply (Oc (S s)). right. assumption.
          + apply (G2 (S s) c i); [lia|assumption|]. unfold waypoint_sample, start in *.
            replace (S s - 1)%nat with s by lia. lia. }
      rewrite HD, HK, <- HR, <- HS. clear. tauto.
    Qed.

    (** The step of sample [i] is the step variable of its segment. *)
    Lemma physics64 : forall env, let sol := read_solution T m N env in
      feasible env (g_problem (over_reals g)) ->
      obeys_up_to computed d N sol /\ meets_up_to fcos computed N sol (constraints_at b) (segment_constraints_to b).
    Proof.
      intros env sol F. apply feasible64 in F. destruct F as (S1 & K1 & D1 & M1). split; [split|exact M1].
      - intros i Hi. destruct (locate N i Hi) as (s & k & Hs & Hk & Ei). subst i. cbv zeta.
        pose proof (step_val env T m N eq_refl s k Hs Hk) as SV. fold sol in SV. rewrite SV. fold T.
        destruct (S1 s Hs) as (G1 & G2). specialize (K1 _ Hi). fold sol in K1. rewrite SV in K1.
        split; [exact G1|]. split; [|exact K1].
        intros md m1 m2 Hmd Hp. exact (G2 md Hmd m1 m2 Hp).
      - exact D1.
    Qed.
    Hypothesis Pos : forall n, In n N -> (1 <= n)%nat.
    Lemma physics64_back : forall env, let sol := read_solution T m N env in
      obeys_up_to computed d N sol -> meets_up_to fcos computed N sol (constraints_at b) (segment_constraints_to b) ->
      feasible env (g_problem (over_reals g)).
    Proof.
      intros env sol (P1 & P2) M. apply feasible64. split; [|split; [|split; assumption]].
      - intros s Hs dt.
        assert (Ns : (0 < nth s N 0)%nat) by (apply (Pos (nth s N 0%nat)), nth_In; assumption).
        pose proof (step_val env T m N eq_refl s 0 Hs Ns) as SV. fold sol T in SV.
        destruct (P1 (1 + start N s + 0)%nat) as (G1 & G2 & _).
        { unfold last_sample, start. pose proof (list_sum_firstn_S N s). pose proof (list_sum_firstn_le N (S s)). lia. }
        cbv zeta in G1, G2. rewrite SV in G1, G2. split; [exact G1|].
        intros md Hmd m1 m2 Hp. exact (G2 md m1 m2 Hmd Hp).
      - intros i Hi. destruct (P1 i Hi) as (_ & _ & K). exact K.
    Qed.
  End Main.
End Maps.
