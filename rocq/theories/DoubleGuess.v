(** Seeds in double arithmetic: proofs for C102. *)
From Coq Require Import List ZArith QArith Qreals Reals SpecFloat Lia Lra Psatz.
Import ListNotations.
From Flocq Require Import Core BinarySingleNaN.
From Verif Require Import Outcome Num NumR NumF64 Geometry Util Builder Guess Generator Trajectory Spec SpecBuilder SpecTrajectory SpecGenerator SpecDouble
  UtilFacts BuilderFacts BuilderHistory GeneratorProofs TrajectoryProofs SeedFacts GeneratorMore SeedProofs DoubleFacts DoubleProofs AngleProofs LegProofs GuessFacts GeometryFacts WidthProofs.
Local Open Scope R_scope.

(** * Sizes of results *)
Lemma rnd_size r k : (-1074 <= k)%Z -> Rabs r <= bpow radix2 k -> Rabs (rnd r) <= bpow radix2 k.
Proof.
  intros K L. apply abs_round_le_generic; try typeclasses eauto; [|exact L].
  apply generic_format_bpow. unfold SpecFloat.fexp, SpecFloat.emin. lia.
Qed.
Lemma rnd_above r k : (-1074 <= k)%Z -> bpow radix2 k <= r -> bpow radix2 k <= rnd r.
Proof.
  intros K L. apply round_ge_generic; try typeclasses eauto; [|exact L].
  apply generic_format_bpow. unfold SpecFloat.fexp, SpecFloat.emin. lia.
Qed.
Lemma within_B k (b : B64) : within k (B2SF b) <-> is_finite b = true /\ Rabs (B2R b) <= bpow radix2 k.
Proof. unfold within. rewrite finite_B, real_B, pow2. pose proof (of_B b). tauto. Qed.
Lemma within_fin k x : within k x -> finite x.
Proof. intros (_ & F & _). exact F. Qed.
Lemma within_double k x : within k x -> is_double x.
Proof. intros (D & _). exact D. Qed.
Lemma within_mono j k x : (j <= k)%Z -> within j x -> within k x.
Proof. intros L (D & F & B). split; [exact D|]. split; [exact F|]. eapply Rle_trans; [exact B|]. rewrite <- !pow2. apply bpow_le. exact L. Qed.
Lemma size_fin (z : B64) r k : (-1074 <= k <= 1023)%Z -> is_nan z = false -> ext z = clamp (rnd r) -> Rabs r <= bpow radix2 k ->
  is_finite z = true /\ B2R z = rnd r /\ Rabs (B2R z) <= bpow radix2 k.
Proof.
  intros K N E L. assert (S := rnd_size r k ltac:(lia) L).
  destruct (clamp_fin z (rnd r) N E) as [F V]; [eapply Rle_lt_trans; [exact S|]; apply bpow_lt; lia|].
  split; [exact F|]. split; [exact V|]. rewrite V. exact S.
Qed.
Lemma double_pow k : bpow radix2 k + bpow radix2 k = bpow radix2 (k + 1).
Proof. rewrite bpow_plus. cbn. lra. Qed.
Lemma within_add k x y : (-1074 <= k < 1023)%Z -> within k x -> within k y -> within (k + 1) (f64_add x y).
Proof.
  intros K X Y. destruct (to_B x (within_double _ _ X)) as (a & ->). destruct (to_B y (within_double _ _ Y)) as (b & ->).
  apply within_B in X, Y. destruct X as [Fx Bx], Y as [Fy By]. rewrite add_B. destruct (plus_ext a b Fx Fy) as [N E].
  apply within_B. destruct (size_fin _ _ (k + 1) ltac:(lia) N E) as (F & _ & S); [|auto].
  rewrite <- double_pow. eapply Rle_trans; [apply Rabs_triang|]. lra.
Qed.
Lemma within_sub k x y : (-1074 <= k < 1023)%Z -> within k x -> within k y -> within (k + 1) (f64_sub x y).
Proof.
  intros K X Y. destruct (to_B x (within_double _ _ X)) as (a & ->). destruct (to_B y (within_double _ _ Y)) as (b & ->).
  apply within_B in X, Y. destruct X as [Fx Bx], Y as [Fy By]. rewrite sub_B. destruct (minus_ext a b Fx Fy) as [N E].
  apply within_B. destruct (size_fin _ _ (k + 1) ltac:(lia) N E) as (F & _ & S); [|auto].
  rewrite <- double_pow. unfold Rminus. eapply Rle_trans; [apply Rabs_triang|]. rewrite Rabs_Ropp. lra.
Qed.
Lemma within_mul j k x y : (-1074 <= j + k <= 1023)%Z -> within j x -> within k y -> within (j + k) (f64_mul x y).
Proof.
  intros K X Y. destruct (to_B x (within_double _ _ X)) as (a & ->). destruct (to_B y (within_double _ _ Y)) as (b & ->).
  apply within_B in X, Y. destruct X as [Fx Bx], Y as [Fy By]. rewrite mul_B. destruct (mult_ext a b Fx Fy) as [N E].
  apply within_B. destruct (size_fin _ _ (j + k) ltac:(lia) N E) as (F & _ & S); [|auto].
  rewrite bpow_plus, Rabs_mult. apply Rmult_le_compat; auto using Rabs_pos.
Qed.
(** A finite double of at least 2^k. *)
Definition above (k : Z) (x : f64) : Prop := is_double x /\ finite x /\ powerRZ 2 k <= real x.
Lemma above_B k (b : B64) : above k (B2SF b) <-> is_finite b = true /\ bpow radix2 k <= B2R b.
Proof. unfold above. rewrite finite_B, real_B, pow2. pose proof (of_B b). tauto. Qed.
Lemma within_div j k x y : (-1074 <= j - k <= 1023)%Z -> within j x -> above k y -> within (j - k) (f64_div x y).
Proof.
  intros K X Y. destruct (to_B x (within_double _ _ X)) as (a & ->). destruct (to_B y (proj1 Y)) as (b & ->).
  apply within_B in X. apply above_B in Y. destruct X as [Fx Bx], Y as [Fy By]. pose proof (bpow_gt_0 radix2 k) as P.
  rewrite div_B. destruct (div_ext a b Fx Fy ltac:(lra)) as [N E].
  apply within_B. destruct (size_fin _ _ (j - k) ltac:(lia) N E) as (F & _ & S); [|auto].
  unfold Rdiv, Z.sub. rewrite bpow_plus, bpow_opp, Rabs_mult. apply Rmult_le_compat; auto using Rabs_pos.
  rewrite Rabs_inv, Rabs_right by lra. apply Rinv_le; lra.
Qed.
Lemma above_mul j k x y : (-1074 <= j + k)%Z -> above j x -> above k y -> finite (f64_mul x y) -> above (j + k) (f64_mul x y).
Proof.
  intros K X Y. destruct (to_B x (proj1 X)) as (a & ->). destruct (to_B y (proj1 Y)) as (b & ->).
  apply above_B in X, Y. destruct X as [Fx Bx], Y as [Fy By]. rewrite mul_B, finite_B. intros F. destruct (mult_ext a b Fx Fy) as [N E].
  apply above_B. split; [exact F|]. destruct (fin_ext _ _ F E) as [V _]. rewrite V. apply rnd_above; [lia|].
  rewrite bpow_plus. pose proof (bpow_gt_0 radix2 j). pose proof (bpow_gt_0 radix2 k). apply Rmult_le_compat; lra.
Qed.
Lemma above_div j k x y : (-1074 <= j - k)%Z -> above j x -> within k y -> 0 < real y -> finite (f64_div x y) -> above (j - k) (f64_div x y).
Proof.
  intros K X Y. destruct (to_B x (proj1 X)) as (a & ->). destruct (to_B y (within_double _ _ Y)) as (b & ->).
  apply above_B in X. apply within_B in Y. destruct X as [Fx Bx], Y as [Fy By]. rewrite div_B, finite_B, real_B. intros P F.
  destruct (div_ext a b Fx Fy ltac:(lra)) as [N E].
  apply above_B. split; [exact F|]. destruct (fin_ext _ _ F E) as [V _]. rewrite V. apply rnd_above; [lia|].
  unfold Rdiv, Z.sub. rewrite bpow_plus, bpow_opp. pose proof (bpow_gt_0 radix2 j). pose proof (bpow_gt_0 radix2 k) as Pk.
  rewrite Rabs_right in By by lra. apply Rmult_le_compat; try lra; [apply Rlt_le, Rinv_0_lt_compat; exact Pk|]. apply Rinv_le; lra.
Qed.
Lemma within_opp k x : within k x -> within k (SFopp x).
Proof.
  intros (D & F & B). split; [|split].
  - destruct x; exact D.
  - destruct x; exact F.
  - replace (real (SFopp x)) with (- real x); [rewrite Rabs_Ropp; exact B|].
    destruct x as [| | |s m e]; cbn; try lra. destruct s; cbn [negb]; lra.
Qed.
(** Counts. *)
Lemma nofnat_size n k : (Z.of_nat n <= 2 ^ k)%Z -> (0 <= k <= 53)%Z -> within k (nofnat n).
Proof.
  intros L K. assert (L' : (2 ^ k <= 2 ^ 53)%Z) by (apply Z.pow_le_mono_r; lia).
  unfold nofnat. change (@nofZ f64 _) with f64_ofZ. destruct (ofZ_exact (Z.of_nat n)) as (b & E & F & V); [lia|].
  rewrite E. apply within_B. split; [exact F|]. rewrite V, Rabs_right by (apply Rle_ge, IZR_le; lia).
  replace (bpow radix2 k) with (IZR (2 ^ k)); [apply IZR_le; exact L|]. rewrite <- (IZR_Zpower radix2) by lia. reflexivity.
Qed.
Lemma nofnat_above n : (1 <= n)%nat -> (Z.of_nat n <= 2 ^ 53)%Z -> above 0 (nofnat n) /\ 0 < real (nofnat n).
Proof.
  intros P L. unfold nofnat. change (@nofZ f64 _) with f64_ofZ. destruct (ofZ_exact (Z.of_nat n)) as (b & E & F & V); [lia|].
  assert (Q : 1 <= IZR (Z.of_nat n)) by (apply IZR_le; lia).
  rewrite E. split; [apply above_B; split; [exact F|]; rewrite V; cbn; exact Q|rewrite real_B, V; lra].
Qed.
Lemma five_size : within 3 (f64_lit 5) /\ above 2 (f64_lit 5).
Proof.
  assert (E : f64_lit 5 = S754_finite false 5629499534213120 (-50)) by (vm_compute; reflexivity). rewrite E.
  assert (V : real (S754_finite false 5629499534213120 (-50)) = 5).
  { cbn [real]. rewrite Rmult_1_l. replace 5629499534213120%Z with (5 * 2 ^ 50)%Z by (vm_compute; reflexivity).
    cbn [Pos.to_nat]. rewrite mult_IZR. change (powerRZ 2 (-50)) with (/ (2 ^ Pos.to_nat 50)).
    replace (2 ^ Pos.to_nat 50) with (IZR (2 ^ 50)); [field; apply IZR_neq; discriminate|].
    change 2 with (IZR 2). rewrite pow_IZR. f_equal. }
  split; (split; [reflexivity|split; [exact I|]]); rewrite V, <- pow2; [rewrite Rabs_right by lra|]; cbn; lra.
Qed.

(** * Guess points stay moderate *)
Section Calls.
  Context {K : Type} {HA : Arith K} {HD : Dbl K}.
  Variable Q : Pose2 K -> Prop.
  Hypothesis Q0 : Q zero_pose.
  Definition guesses (b : builder K) : Prop := Forall (Forall Q) (b_guess b).
  Lemma add_guesses : forall n i b, guesses b -> guesses (add_wpts n i b).
  Proof.
    induction n as [|n IH]; intros i b V; [exact V|]. cbn [add_wpts]. apply IH. unfold guesses in *. cbn [b_guess].
    apply Forall_app. split; [exact V|]. repeat constructor. exact Q0.
  Qed.
  Definition keeps {A} (m : bld K A) : Prop := forall b, guesses b -> guesses (fst (m b)).
  Lemma keeps_bind : forall {A C} (m : bld K A) (f : A -> bld K C), keeps m -> (forall a, keeps (f a)) -> keeps (bbind m f).
  Proof.
    intros A C m f M F b V. specialize (M b V). unfold bbind. destruct (m b) as [b1 o1]. cbn [fst] in M.
    destruct o1; try exact M. apply F. exact M.
  Qed.
  Lemma keeps_lift : forall {A} (o : outcome A), keeps (blift o).
  Proof. intros A o b V. exact V. Qed.
  Lemma keeps_ret : forall {A} (a : A), keeps (bret a).
  Proof. intros A a b V. exact V. Qed.
  Lemma keeps_for : forall {A} (l : list A) f, (forall a, keeps (f a)) -> keeps (bfor l f).
  Proof. induction l; intros; cbn [bfor]; [apply keeps_ret|]. apply keeps_bind; auto. Qed.
  Lemma keeps_loop : forall f, (forall i, keeps (f i)) -> forall fuel i bound, keeps (bloop fuel i bound f).
  Proof.
    intros f F. induction fuel as [|fuel IH]; intros i bound; cbn [bloop]; destruct (_ <? bound)%Z;
      try apply keeps_ret; try apply keeps_lift. apply keeps_bind; [apply F|]. intros; apply IH.
  Qed.
  Lemma keeps_new : forall i, keeps (newWpts i).
  Proof. intros i b V. unfold newWpts, NewWpts. cbn [fst]. destruct (_ <? _)%Z; [apply add_guesses|]; exact V. Qed.
  Lemma keeps_push : forall i c, keeps (push_wpt i c).
  Proof. intros i c b V. unfold push_wpt. destruct (upd_at _ _ _); exact V. Qed.
  Lemma keeps_push_sgmt : forall i c, keeps (push_sgmt i c).
  Proof. intros i c b V. unfold push_sgmt. destruct (upd_at _ _ _); exact V. Qed.
  Lemma keeps_wpt : forall i c, keeps (WptConstraint i c).
  Proof. intros. apply keeps_bind; [apply keeps_new|intros; apply keeps_push]. Qed.
  Lemma keeps_sgmt : forall asserts f t c, keeps (SgmtConstraint asserts f t c).
  Proof.
    intros. unfold SgmtConstraint. apply keeps_bind; [destruct (_ && _)%bool; [apply keeps_lift|apply keeps_ret]|intros _].
    apply keeps_bind; [apply keeps_new|intros _]. apply keeps_bind; [apply keeps_push|intros _].
    apply keeps_for. intros. apply keeps_bind; [apply keeps_push|intros; apply keeps_push_sgmt].
  Qed.
  Lemma Forall_upd : forall {A} (P : A -> Prop) l i f, Forall P l -> (forall a, P a -> P (f a)) -> Forall P (upd l i f).
  Proof.
    induction l as [|a l IH]; intros i f F Pf; [destruct i; exact F|]. inversion F; subst.
    destruct i; cbn [upd]; constructor; auto.
  Qed.
  Lemma Forall_last : forall {A} (P : A -> Prop) l, Forall P l -> Forall P (removelast l).
  Proof.
    induction l as [|a l IH]; intros F; [exact F|]. inversion F; subst. cbn [removelast]. destruct l; [constructor|]. constructor; auto.
  Qed.
  Lemma keeps_guess : forall i p, Q p -> keeps (WptInitialGuessPoint i p).
  Proof.
    intros i p Qp. apply keeps_bind; [apply keeps_new|intros _]. intros b V.
    destruct (at_ (b_guess b) i) as [[|q l]|e| |u|]; try exact V. unfold guesses in *. cbn [fst set_guess b_guess].
    apply Forall_upd; [exact V|]. intros a Ha. unfold set_back. apply Forall_app. split; [apply Forall_last; exact Ha|]. repeat constructor. exact Qp.
  Qed.
  Lemma keeps_guesses : forall i ps, Forall Q ps -> keeps (SgmtInitialGuessPoints i ps).
  Proof.
    intros i ps Qp. apply keeps_bind; [apply keeps_new|intros _]. intros b V. unfold upd_at.
    destruct (_ <? _)%nat; try exact V. unfold guesses in *. cbn [fst set_guess b_guess].
    apply Forall_upd; [exact V|]. intros a Ha. apply Forall_app. split; assumption.
  Qed.
  Ltac keeps_steps := repeat (apply keeps_bind; [apply keeps_lift|intros]).
  Lemma keeps_obstacle : forall asserts add o bs, (forall c, keeps (add c)) -> keeps (obstacle_loop asserts add o bs).
  Proof.
    intros asserts add o bs Add. induction bs as [|bu bs IH]; cbn [obstacle_loop]; [apply keeps_ret|].
    destruct (_ && _)%bool; [keeps_steps; apply Add|].
    apply keeps_bind; [|intros _; apply keeps_bind; [|intros _; exact IH]]; apply keeps_for; intros.
    - apply keeps_bind; [apply keeps_loop; intros; keeps_steps; apply Add|intros _].
      destruct (3 <=? _)%nat; [|apply keeps_ret]. keeps_steps. apply Add.
    - destruct (1 <? _)%nat; [|keeps_steps; apply Add].
      apply keeps_bind; [apply keeps_loop; intros; keeps_steps; apply Add|intros _].
      destruct (3 <=? _)%nat; [|apply keeps_ret]. keeps_steps. apply Add.
  Qed.
  (** Guess points of a call. *)
  Definition points_of (o : op K) : list (Pose2 K) :=
    match o with
    | OPoseWpt _ x y a | OTranslationWpt _ x y a => [pose_xyh x y a]
    | OWptInitialGuessPoint _ p => [p]
    | OSgmtInitialGuessPoints _ ps => ps
    | _ => []
    end.
  Lemma keeps_op : forall asserts o, Forall Q (points_of o) -> keeps (run_op asserts o).
  Proof.
    intros asserts o F. destruct o; cbn [run_op points_of] in *.
    1,6,11,12: (intros b V; exact V).
    - inversion F; subst. apply keeps_bind; [apply keeps_wpt|intros; apply keeps_guess; assumption].
    - inversion F; subst. apply keeps_bind; [apply keeps_wpt|intros; apply keeps_guess; assumption].
    - inversion F; subst. apply keeps_guess; assumption.
    - apply keeps_guesses. exact F.
    - intros b V. unfold WptObstacle. apply keeps_obstacle; [intros; apply keeps_wpt|exact V].
    - intros b V. unfold SgmtObstacle. apply keeps_obstacle; [intros; apply keeps_sgmt|exact V].
    - apply keeps_wpt.
    - apply keeps_sgmt.
  Qed.
  Lemma keeps_path : forall asserts h, Forall (fun o => Forall Q (points_of o)) h -> guesses (path asserts h).
  Proof.
    intros asserts h. unfold path. assert (V : guesses new_builder) by constructor. revert V. generalize (@new_builder K).
    induction h as [|o h IH]; intros b V F; [exact V|]. inversion F; subst. cbn [run_ops]. apply IH; [|assumption]. apply keeps_op; assumption.
  Qed.
End Calls.

(** * The guess and the seeds *)
Lemma in_at : forall {A} (l : list A) i a, at_ l i = Ok a -> In a l.
Proof. intros A l i a. unfold at_. destruct (nth_error l i) eqn:E; intros H; [|discriminate]. injection H as <-. exact (nth_error_In _ _ E). Qed.
Lemma in_front : forall {A} (l : list A) a, front l = Ok a -> In a l.
Proof. intros A [|x l] a H; [discriminate|]. injection H as <-. left. reflexivity. Qed.
Lemma in_back : forall {A} (l : list A) a, back l = Ok a -> In a l.
Proof.
  intros A l a H. unfold back in H. destruct (rev l) as [|x r] eqn:E; [discriminate|]. injection H as <-.
  apply in_rev. rewrite E. left. reflexivity.
Qed.
Lemma foldM_keep : forall {A S} (P : S -> Prop) (f : A -> S -> outcome S) l s r,
  (forall a s r, In a l -> P s -> f a s = Ok r -> P r) -> P s -> foldM f l s = Ok r -> P r.
Proof.
  induction l as [|a l IH]; intros s r F Ps E; cbn [foldM] in E; [injection E as <-; exact Ps|].
  destruct (f a s) as [s1| | | |] eqn:E1; try discriminate. cbn [obind] in E.
  apply (IH s1 r); [intros; eapply F; try eassumption; right; assumption| |exact E]. apply (F a s s1); [left; reflexivity|exact Ps|exact E1].
Qed.

Lemma sum_ge : forall (l : list nat) n, In n l -> (n <= list_sum l)%nat.
Proof.
  induction l as [|c l IH]; intros n H; [contradiction|]. change (list_sum (c :: l)) with (c + list_sum l)%nat.
  destruct H as [->|H]; [lia|]. specialize (IH n H). lia.
Qed.
Section Seeds.
  Variables (fcos fsin : f64 -> f64) (fatan2 fhypot : f64 -> f64 -> f64).
  Hypothesis Libm : sound_libm fcos fsin fatan2.
  #[local] Instance A64 : Arith f64 := Arith_f64 fcos fsin fatan2 fhypot.

  Lemma circle_within : forall x, is_double x -> finite x -> within 1 (fcos x) /\ within 1 (fsin x).
  Proof.
    intros x D F. destruct (proj1 Libm x D F) as [(D1 & F1 & B1) (D2 & F2 & B2)].
    pose proof (COS_bound (real x)). pose proof (SIN_bound (real x)).
    apply Rabs_le_inv in B1, B2.
    split; (split; [assumption|]); (split; [assumption|]); rewrite <- pow2; cbn; apply Rabs_le; lra.
  Qed.
  Lemma atan2_within : forall y x, is_double y -> finite y -> is_double x -> finite x -> within 2 (fatan2 y x).
  Proof.
    intros y x Dy Fy Dx Fx. destruct (proj2 Libm y x Dy Fy Dx Fx) as (D & F & B). split; [exact D|]. split; [exact F|].
    pose proof (Ratan2_range (real x) (real y)) as Rg. pose proof PI_4.
    assert (P : PI <= 7 / 2).
    { pose proof pi_close as Q. apply Rabs_le_inv in Q.
      assert (U : roundoff <= / 100).
      { unfold roundoff. apply Rinv_le_contravar; [lra|]. rewrite (pow_IZR 2 53). apply IZR_le. vm_compute. discriminate. }
      assert (V : (qpi <= 16 # 5)%Q) by (vm_compute; discriminate). apply Qle_Rle in V.
      assert (W : Q2R (16 # 5) = 16 / 5) by (unfold Q2R; cbn [Qnum Qden]; lra). lra. }
    apply Rabs_le_inv in B. rewrite <- pow2. cbn. apply Rabs_le. lra.
  Qed.
  Lemma zero_within k : within k (nlit 0).
  Proof.
    assert (E : @nlit f64 _ 0 = fzero) by (vm_compute; reflexivity). rewrite E. split; [reflexivity|]. split; [exact I|].
    cbn [real fzero]. rewrite Rabs_R0, <- pow2. apply bpow_ge_0.
  Qed.
  Lemma linspace_within a b n : within 400 a -> within 400 b -> (Z.of_nat n <= 2 ^ 53)%Z -> Forall (within 455) (Linspace a b n).
  Proof.
    intros Ha Hb Hn. unfold Linspace. apply Forall_forall. intros v Hv. apply in_map_iff in Hv. destruct Hv as (i & <- & Hi). apply in_seq in Hi.
    assert (D : within 401 (f64_div (f64_sub b a) (nofnat n))).
    { apply (within_div 401 0); [lia|apply (within_sub 400); [lia|assumption..]|]. apply nofnat_above; [lia|exact Hn]. }
    apply (within_add 454); [lia|apply (within_mono 400); [lia|exact Ha]|].
    apply (within_mul 53 401); [lia|apply nofnat_size; lia|exact D].
  Qed.
  Lemma angles_within a b n : within 2 a -> within 2 b -> (Z.of_nat n <= 2 ^ 53)%Z ->
    Forall (fun v => is_double v /\ finite v) (AngleLinspace a b n).
  Proof.
    intros (Da & Fa & Ba) (Db & Fb & Bb) Hn. rewrite <- pow2 in Ba, Bb. cbn in Ba, Bb.
    destruct (C97_proof fcos fsin fatan2 fhypot a b n Da Db Fa Fb Hn) as (j & _ & H); [simpl; lra|].
    apply Forall_forall. intros v Hv. apply In_nth_error in Hv. destruct Hv as [k Hk].
    destruct (H k v Hk) as (D & F & _). split; assumption.
  Qed.
  Lemma radians_within (r : Rotation2 f64) k : within k (rCos r) -> within k (rSin r) -> within 2 (rot_radians r).
  Proof. intros (Dc & Fc & _) (Ds & Fs & _). apply atan2_within; assumption. Qed.

  Definition started (s : solution f64) : Prop :=
    Forall (within 455) (s_x s) /\ Forall (within 455) (s_y s) /\ Forall (within 400) (s_thetacos s) /\ Forall (within 400) (s_thetasin s).
  Lemma leg_started p q n s : moderate_pose p -> moderate_pose q -> (Z.of_nat n <= 2 ^ 53)%Z -> started s ->
    started (append_leg p q n s) /\ s_dt (append_leg p q n s) = s_dt s.
  Proof.
    intros (P1 & P2 & P3 & P4) (Q1 & Q2 & Q3 & Q4) Hn (S1 & S2 & S3 & S4). split; [|reflexivity].
    pose proof (angles_within _ _ n (radians_within (pRot p) 400 P3 P4) (radians_within (pRot q) 400 Q3 Q4) Hn) as T.
    unfold started, append_leg. cbn [s_x s_y s_thetacos s_thetasin].
    assert (TC : Forall (within 400) (map ncos (AngleLinspace (rot_radians (pRot p)) (rot_radians (pRot q)) n)) /\
                 Forall (within 400) (map nsin (AngleLinspace (rot_radians (pRot p)) (rot_radians (pRot q)) n))).
    { rewrite Forall_forall in T. split; apply Forall_forall; intros v Hv; apply in_map_iff in Hv; destruct Hv as (u & <- & Hu);
        destruct (T u Hu) as [D F]; apply (within_mono 1); try lia; apply (circle_within u D F). }
    destruct TC as [TC TS].
    split; [|split; [|split]]; apply Forall_app; (split; [assumption|]); try assumption; apply linspace_within; assumption.
  Qed.

  Definition ready (dt : list f64) (s : solution f64) : Prop := started s /\ s_dt s = dt.
  Lemma segment_started guess counts w s r dt : Forall (Forall moderate_pose) guess -> (Z.of_nat (list_sum counts) <= 2 ^ 53)%Z ->
    ready dt s -> guess_segment guess counts w s = Ok r -> ready dt r.
  Proof.
    intros G L S E. unfold guess_segment in E.
    destruct (at_ counts (w - 1)) as [n| | | |] eqn:En; try discriminate. cbn [obind] in E.
    destruct (at_ guess w) as [here| | | |] eqn:Eh; try discriminate. cbn [obind] in E.
    destruct (udiv n (length here)) as [m| | | |] eqn:Em; try discriminate. cbn [obind] in E.
    destruct (at_ guess (w - 1)) as [prev| | | |] eqn:Ep; try discriminate. cbn [obind] in E.
    destruct (back prev) as [p| | | |] eqn:Eb; try discriminate. cbn [obind] in E.
    destruct (front here) as [q| | | |] eqn:Ef; try discriminate. cbn [obind] in E.
    assert (Mh : forall p, In p here -> moderate_pose p).
    { apply in_at in Eh. rewrite Forall_forall in G. apply Forall_forall. exact (G _ Eh). }
    assert (Mp : moderate_pose p).
    { apply in_at in Ep. rewrite Forall_forall in G. specialize (G _ Ep). rewrite Forall_forall in G. apply G, in_back. exact Eb. }
    assert (Mq := Mh q (in_front _ _ Ef)).
    assert (Ln : (Z.of_nat n <= 2 ^ 53)%Z).
    { apply in_at, sum_ge in En. lia. }
    assert (Lm : (Z.of_nat m <= 2 ^ 53)%Z).
    { unfold udiv in Em. destruct (length here); [discriminate|]. injection Em as <-.
      pose proof (Nat.div_le_upper_bound n (Datatypes.S n0) n ltac:(lia) (Nat.le_add_r n (n0 * n))) as Q.
      eapply Z.le_trans; [apply inj_le; exact Q|exact Ln]. }
    assert (S1 : ready dt (append_leg p q m s)).
    { destruct S as [S Sd]. destruct (leg_started p q m s Mp Mq Lm S) as [S' Ed]. split; [exact S'|]. rewrite Ed. exact Sd. }
    match type of E with obind (foldM ?f ?l ?s0) _ = _ => destruct (foldM f l s0) as [s2| | | |] eqn:E2; try discriminate end.
    cbn [obind] in E.
    assert (S2 : ready dt s2).
    { revert E2. apply foldM_keep; [|exact S1]. intros a s' r' _ S' E'.
      destruct (at_ here (a - 1)) as [p'| | | |] eqn:E1'; try discriminate. cbn [obind] in E'.
      destruct (at_ here a) as [q'| | | |] eqn:E2'; try discriminate. cbn [obind] in E'. injection E' as <-.
      destruct S' as [S' Sd]. destruct (leg_started p' q' m s' (Mh _ (in_at _ _ _ E1')) (Mh _ (in_at _ _ _ E2')) Lm S') as [S3 Ed].
      split; [exact S3|]. rewrite Ed. exact Sd. }
    destruct (1 <? length here)%nat; [|injection E as <-; exact S2].
    destruct (at_ here (length here - 2)) as [p'| | | |] eqn:E1'; try discriminate. cbn [obind] in E.
    destruct (back here) as [q'| | | |] eqn:E2'; try discriminate. cbn [obind] in E. injection E as <-.
    destruct S2 as [S2 Sd].
    destruct (leg_started p' q' (n - (length here - 1) * m) s2 (Mh _ (in_at _ _ _ E1')) (Mh _ (in_back _ _ E2')) ltac:(lia) S2) as [S3 Ed].
    split; [exact S3|]. rewrite Ed. exact Sd.
  Qed.

  Lemma guess_started guess counts r : Forall (Forall moderate_pose) guess -> (Z.of_nat (list_sum counts) <= 2 ^ 53)%Z ->
    GenerateLinearInitialGuess guess counts = Ok r ->
    started r /\ exists T, GetIndex counts (length counts + 1) 0 = Ok T /\
      s_dt r = repeat (ndiv (nmul (nofnat (length counts + 1)) (nlit 5)) (nofnat T)) T.
  Proof.
    intros G L E. unfold GenerateLinearInitialGuess in E.
    destruct (GetIndex counts (length counts + 1) 0) as [T| | | |] eqn:ET; try discriminate. cbn [obind] in E.
    destruct (front guess) as [first| | | |] eqn:Ef; try discriminate. cbn [obind] in E.
    destruct (front first) as [p| | | |] eqn:Ep; try discriminate. cbn [obind] in E.
    set (dt := repeat (ndiv (nmul (nofnat (length counts + 1)) (nlit 5)) (nofnat T)) T) in *.
    assert (Mp : moderate_pose p).
    { apply in_front in Ef. rewrite Forall_forall in G. specialize (G _ Ef). rewrite Forall_forall in G. apply G, in_front. exact Ep. }
    destruct Mp as (P1 & P2 & P3 & P4).
    assert (R : ready dt r).
    { revert E. apply foldM_keep.
      - intros a s r' _ S E. exact (segment_started guess counts a s r' dt G L S E).
      - split; [|reflexivity]. unfold started. cbn [s_x s_y s_thetacos s_thetasin].
        split; [|split; [|split]]; (apply Forall_cons; [|apply Forall_nil]); try assumption; apply (within_mono 400); try lia; assumption. }
    destruct R as [R Ed]. split; [exact R|]. exists T. split; [reflexivity|exact Ed].
  Qed.

  Lemma Forall_nth_le : forall {A} (P : A -> Prop) (l : list A) d n, length l = n -> (forall i, (i < n)%nat -> P (nth i l d)) -> Forall P l.
  Proof.
    intros A P l d n L H. apply Forall_forall. intros a Ha. destruct (In_nth l a d Ha) as (i & Hi & <-). apply H. lia.
  Qed.
  Lemma nth_Forall : forall {A} (P : A -> Prop) (l : list A) d i, Forall P l -> (i < length l)%nat -> P (nth i l d).
  Proof. intros A P l d i F L. rewrite Forall_forall in F. apply F, nth_In. exact L. Qed.

  Lemma C102_proof : forall asserts (h : list (op f64)) handle d g s0,
    generator asserts h handle d g -> ConstructSwerveSolution g (pr_vals (g_problem g)) = Ok s0 ->
    Forall moderate_call h -> (forall n, In n (counts asserts h) -> (1 <= n)%nat) ->
    (Z.of_nat (S (last_sample (counts asserts h))) <= 2 ^ 53)%Z -> finite_solution s0.
  Proof.
    intros asserts h handle d g s0 G E M Pos L.
    destruct (seeds_read asserts h handle d g G) as (guess & p0 & Hg & X1 & X2 & X3 & X4 & X5 & _).
    destruct (C07_seeds_proof asserts h handle d g guess s0 G Hg E) as
      (X & Y & C & Si & V0 & V1 & V2 & V3 & V4 & V5 & Mo & Fo & Dt).
    destruct (C25_proof asserts h handle d g (pr_vals (g_problem g)) G) as (s1 & E1 & Sh). rewrite E in E1. injection E1 as <-.
    set (N := counts asserts h) in *.
    assert (MP : guesses moderate_pose (path asserts h)).
    { apply keeps_path.
      - assert (Z0 : within 400 (nlit 0)) by apply zero_within.
        assert (D0 : is_double (nlit 0)) by (vm_compute; reflexivity). assert (F0 : finite (nlit 0)) by exact Logic.I.
        destruct (circle_within _ D0 F0) as [Hc Hs]. unfold moderate_pose, zero_pose, pose_xyh, rot_angle. cbn [pTr pRot tX tY rCos rSin].
        split; [exact Z0|]. split; [exact Z0|]. split; apply (within_mono 1); try lia; assumption.
      - rewrite Forall_forall in *. intros o Ho. specialize (M o Ho). destruct o; cbn [points_of moderate_call] in *; try exact (Forall_nil _); try exact M;
          try (apply Forall_cons; [|exact (Forall_nil _)]); try exact M.
        + destruct M as (Mx & My & Da & Fa). unfold moderate_pose, pose_xyh, rot_angle. cbn [pTr pRot tX tY rCos rSin].
          destruct (circle_within heading Da Fa) as [Hc Hs]. split; [exact Mx|]. split; [exact My|]. split; apply (within_mono 1); try lia; assumption.
        + destruct M as (Mx & My & Da & Fa). unfold moderate_pose, pose_xyh, rot_angle. cbn [pTr pRot tX tY rCos rSin].
          destruct (circle_within headingGuess Da Fa) as [Hc Hs]. split; [exact Mx|]. split; [exact My|]. split; apply (within_mono 1); try lia; assumption. }
    assert (LN : (length N <= list_sum N)%nat).
    { clear -Pos. induction N as [|n l IH]; [cbn; lia|]. cbn [length]. change (list_sum (n :: l)) with (n + list_sum l)%nat.
      pose proof (Pos n (or_introl eq_refl)). specialize (IH (fun a Ha => Pos a (or_intror Ha))). lia. }
    unfold last_sample in L.
    destruct (guess_started (b_guess (path asserts h)) N guess MP ltac:(lia) Hg) as ((GX & GY & GC & GS) & _).
    assert (DT : above (-51) (guess_dt N)).
    { destruct five_size as [F1 F2]. unfold guess_dt. apply (above_div 2 53).
      - lia.
      - apply (above_mul 0 2); [lia|apply nofnat_above; lia|exact F2|].
        apply (within_fin 56). apply (within_mul 53 3); [lia|apply nofnat_size; lia|exact F1].
      - apply nofnat_size; lia.
      - apply nofnat_above; lia.
      - apply (within_fin 56). apply (within_div 56 0); [lia| |apply nofnat_above; lia].
        apply (within_mul 53 3); [lia|apply nofnat_size; lia|exact F1]. }
    assert (DI : forall i, (i <= last_sample N)%nat -> nth i (s_dt guess) (nlit 0) = guess_dt N).
    { intros i Hi. rewrite X5. unfold last_sample in Hi. rewrite (nth_indep _ _ (guess_dt N)) by (rewrite repeat_length; lia).
      apply nth_repeat. }
    destruct Sh as (H1 & H2 & H3 & H4 & H5 & H6 & H7 & H8 & H9 & H10 & H11 & H12 & H13 & H14 & H15).
    assert (NX : forall i, (i <= last_sample N)%nat -> within 455 (nth i (s_x guess) (nlit 0))).
    { intros i Hi. apply nth_Forall; [exact GX|]. unfold last_sample in Hi. lia. }
    assert (NY : forall i, (i <= last_sample N)%nat -> within 455 (nth i (s_y guess) (nlit 0))).
    { intros i Hi. apply nth_Forall; [exact GY|]. unfold last_sample in Hi. lia. }
    assert (NC : forall i, (i <= last_sample N)%nat -> within 400 (nth i (s_thetacos guess) (nlit 0))).
    { intros i Hi. apply nth_Forall; [exact GC|]. unfold last_sample in Hi. lia. }
    assert (NS : forall i, (i <= last_sample N)%nat -> within 400 (nth i (s_thetasin guess) (nlit 0))).
    { intros i Hi. apply nth_Forall; [exact GS|]. unfold last_sample in Hi. lia. }
    assert (RATE : forall (f : list f64) k i, (0 <= k <= 600)%Z -> (1 <= i <= last_sample N)%nat ->
              (forall i, (i <= last_sample N)%nat -> within k (nth i f (nlit 0))) ->
              within (k + 52) (ndiv (nsub (nth i f (nlit 0)) (nth (i - 1) f (nlit 0))) (nth i (s_dt guess) (nlit 0)))).
    { intros f k i K Hi Hf. rewrite DI by lia. replace (k + 52)%Z with (k + 1 - -51)%Z by lia.
      apply (within_div (k + 1) (-51)); [lia| |exact DT]. apply within_sub; [lia|apply Hf; lia|apply Hf; lia]. }
    assert (VX : forall i, (i <= last_sample N)%nat -> within 507 (nth i (s_vx s0) (nlit 0))).
    { intros [|i] Hi; [rewrite V0; apply zero_within|]. destruct (Mo (S i) ltac:(lia)) as (-> & _). apply (RATE _ 455%Z); [lia|lia|exact NX]. }
    assert (VY : forall i, (i <= last_sample N)%nat -> within 507 (nth i (s_vy s0) (nlit 0))).
    { intros [|i] Hi; [rewrite V1; apply zero_within|]. destruct (Mo (S i) ltac:(lia)) as (_ & -> & _). apply (RATE _ 455%Z); [lia|lia|exact NY]. }
    assert (VW : forall i, (i <= last_sample N)%nat -> within 53 (nth i (s_omega s0) (nlit 0))).
    { intros [|i] Hi; [rewrite V2; apply zero_within|]. destruct (Mo (S i) ltac:(lia)) as (_ & _ & -> & _). rewrite DI by lia.
      apply (within_div 2 (-51)); [lia| |exact DT]. apply (radians_within _ 801).
      - unfold rot_rotateBy, rot_neg. cbn [rCos rSin].
        apply (within_sub 800); [lia| |]; apply (within_mul 400 400); try lia; try apply within_opp; try apply NC; try apply NS; lia.
      - unfold rot_rotateBy, rot_neg. cbn [rCos rSin].
        apply (within_add 800); [lia| |]; apply (within_mul 400 400); try lia; try apply within_opp; try apply NC; try apply NS; lia. }
    assert (FI : forall k (l : list f64), length l = S (last_sample N) ->
              (forall i, (i <= last_sample N)%nat -> within k (nth i l (nlit 0))) -> Forall finite l).
    { intros k l Hl H. apply (Forall_nth_le _ l (nlit 0) _ Hl). intros i Hi. apply (within_fin k). apply H. lia. }
    assert (FF : forall l : list f64, (forall j, (j < length (d_modules d))%nat -> nth j l (nlit 0) = nlit 0) -> length l = length (d_modules d) ->
              Forall finite l).
    { intros l H Hl. apply (Forall_nth_le _ l (nlit 0) _ Hl). intros j Hj. rewrite (H j Hj). apply (within_fin 0). apply zero_within. }
    unfold finite_solution.
    split; [|split; [|split; [|split; [|split; [|split; [|split; [|split; [|split; [|split; [|split; [|split]]]]]]]]]]].
    - apply (Forall_nth_le _ _ (nlit 0) _ H1). intros i Hi.
      destruct (sample_in_leg N (S i) ltac:(lia)) as (sg & k & Hs & Hk & Ei).
      replace i with (waypoint_sample N sg + (k - 1))%nat by lia. rewrite (Dt sg (k - 1)%nat Hs ltac:(lia)).
      assert (Pn := Pos _ (nth_In N 0%nat Hs)).
      assert (Ln : (nth sg N 0 <= list_sum N)%nat) by (apply sum_ge, nth_In; exact Hs).
      apply (within_fin 3). apply (within_div 3 0); [lia|exact (proj1 five_size)|refine (proj1 (nofnat_above _ _ _)); lia].
    - rewrite X. eapply Forall_impl; [|exact GX]. intros a. apply within_fin.
    - rewrite Y. eapply Forall_impl; [|exact GY]. intros a. apply within_fin.
    - rewrite C. eapply Forall_impl; [|exact GC]. intros a. apply within_fin.
    - rewrite Si. eapply Forall_impl; [|exact GS]. intros a. apply within_fin.
    - exact (FI 507%Z _ H6 VX).
    - exact (FI 507%Z _ H7 VY).
    - exact (FI 53%Z _ H8 VW).
    - apply (FI 559%Z _ H9). intros [|i] Hi; [rewrite V3; apply zero_within|].
      destruct (Mo (S i) ltac:(lia)) as (_ & _ & _ & -> & _). apply (RATE _ 507%Z); [lia|lia|exact VX].
    - apply (FI 559%Z _ H10). intros [|i] Hi; [rewrite V4; apply zero_within|].
      destruct (Mo (S i) ltac:(lia)) as (_ & _ & _ & _ & -> & _). apply (RATE _ 507%Z); [lia|lia|exact VY].
    - apply (FI 105%Z _ H11). intros [|i] Hi; [rewrite V5; apply zero_within|].
      destruct (Mo (S i) ltac:(lia)) as (_ & _ & _ & _ & _ & ->). apply (RATE _ 53%Z); [lia|lia|exact VW].
    - apply (Forall_nth_le _ _ [] _ H12). intros i Hi. apply FF; [intros j Hj; apply Fo; lia|].
      apply nth_Forall; [exact H14|]. rewrite H12. exact Hi.
    - apply (Forall_nth_le _ _ [] _ H13). intros i Hi. apply FF; [intros j Hj; apply Fo; lia|].
      apply nth_Forall; [exact H15|]. rewrite H13. exact Hi.
  Qed.
End Seeds.

(** * Functions that round the exact value to the nearest double *)
Definition nearest (r : R) : f64 :=
  B2SF (binary_normalize 53 1024 P53 P1024 mode_NE
    (Ztrunc (scaled_mantissa radix2 (SpecFloat.fexp 53 1024) (rnd r))) (cexp radix2 (SpecFloat.fexp 53 1024) (rnd r)) false).
Lemma nearest_rnd r : Rabs r <= 4 -> is_double (nearest r) /\ finite (nearest r) /\ real (nearest r) = rnd r.
Proof.
  intros B. unfold nearest.
  match goal with |- context[binary_normalize ?a ?b ?c ?d ?m ?x ?e ?s] => pose proof (binary_normalize_correct a b c d m x e s) as H end.
  cbn [round_mode] in H.
  assert (G : generic_format radix2 (SpecFloat.fexp 53 1024) (rnd r)) by (apply generic_format_round; typeclasses eauto).
  unfold generic_format in G. rewrite <- G in H. rewrite round_generic in H by (try typeclasses eauto; apply generic_format_round; typeclasses eauto).
  assert (L : Rabs (rnd r) <= bpow radix2 2) by (apply rnd_size; [lia|cbn; lra]).
  rewrite Rlt_bool_true in H.
  - destruct H as (V & F & _). split; [|split].
    + apply valid_binary_B2SF.
    + apply finite_B. exact F.
    + rewrite real_B. exact V.
  - eapply Rle_lt_trans; [exact L|]. apply bpow_lt. lia.
Qed.
Lemma nearest_close r : Rabs r <= 4 -> is_double (nearest r) /\ finite (nearest r) /\ Rabs (real (nearest r) - r) <= 1 / 2.
Proof.
  intros B. destruct (nearest_rnd r B) as (D & F & ->). split; [exact D|]. split; [exact F|].
  destruct (Req_dec r 0) as [->|N].
  - rewrite round_0 by typeclasses eauto. rewrite Rminus_0_r, Rabs_R0. lra.
  - eapply Rle_trans; [apply error_le_half_ulp; typeclasses eauto|].
    assert (U : ulp radix2 (SpecFloat.fexp 53 1024) r <= 1); [|lra].
    rewrite ulp_neq_0 by exact N. change 1 with (bpow radix2 0). apply bpow_le. unfold cexp.
    assert (M : (mag radix2 r <= 3)%Z) by (apply mag_le_bpow; [exact N|]; eapply Rle_lt_trans; [exact B|]; cbn; lra).
    unfold SpecFloat.fexp, SpecFloat.emin. lia.
Qed.
Lemma nearest_sound : sound_libm (fun x => nearest (cos (real x))) (fun x => nearest (sin (real x)))
  (fun y x => nearest (Ratan2 (real y) (real x))).
Proof.
  split.
  - intros x _ _. pose proof (COS_bound (real x)). pose proof (SIN_bound (real x)).
    split; apply nearest_close; apply Rabs_le; lra.
  - intros y x _ _ _ _. pose proof (Ratan2_range (real x) (real y)). pose proof PI_4. apply nearest_close, Rabs_le. lra.
Qed.
(** * Concrete paths *)
Definition far : f64 := f64_lit (inject_Z (2 ^ 1023)).
Definition far_history : list (op f64) :=
  [OSetDrivetrain (mkDrivetrain (f64_lit 1) (f64_lit 1) posts); OPoseWpt 0 (SFopp far) fzero fzero;
   OPoseWpt 1 far fzero fzero; OControlIntervalCounts [3%nat]].
Lemma history_generator fcos fsin fatan2 fhypot asserts (h : list (op f64)) d :
  (length (@counts f64 (Arith_f64 fcos fsin fatan2 fhypot) Dbl_f64 asserts h) <
   waypoint_count (@path f64 (Arith_f64 fcos fsin fatan2 fhypot) Dbl_f64 asserts h))%nat ->
  b_drivetrain (@path f64 (Arith_f64 fcos fsin fatan2 fhypot) Dbl_f64 asserts h) = Some d ->
  exists g s0, @generator f64 (Arith_f64 fcos fsin fatan2 fhypot) Dbl_f64 asserts h 0 d g /\
    @ConstructSwerveSolution f64 (Arith_f64 fcos fsin fatan2 fhypot) g (pr_vals (g_problem g)) = Ok s0.
Proof.
  intros W D. set (A := Arith_f64 fcos fsin fatan2 fhypot) in *.
  destruct (@construct_ok f64 A Dbl_f64 _ 0%Z d (@run_ops_inv_new f64 A Dbl_f64 asserts h) W D) as (p & C & _).
  match type of C with _ = Ok ?g0 => set (g := g0) in *; assert (G : @generator f64 A Dbl_f64 asserts h 0 d g) by (split; [exact C|exact D]) end.
  destruct (@C25_proof f64 A Dbl_f64 asserts h 0%Z d g (pr_vals (g_problem g)) G) as (s0 & E & _).
  exists g, s0. split; [exact G|exact E].
Qed.
Definition two_posts : drivetrain f64 := mkDrivetrain (f64_lit 1) (f64_lit 1) posts.
Lemma one_within : within 400 (f64_lit 1).
Proof.
  assert (E : f64_lit 1 = nofnat 1) by (vm_compute; reflexivity). rewrite E. apply (within_mono 0); [lia|]. apply nofnat_size; lia.
Qed.
Lemma fzero_within k : within k fzero.
Proof. split; [reflexivity|]. split; [exact Logic.I|]. cbn [real fzero]. rewrite Rabs_R0, <- pow2. apply bpow_ge_0. Qed.
Lemma finite_case : forall fcos fsin fatan2 fhypot asserts,
  let A := Arith_f64 fcos fsin fatan2 fhypot in
  Forall moderate_call post_history /\ @counts f64 A Dbl_f64 asserts post_history = [3%nat] /\
  exists g s0, @generator f64 A Dbl_f64 asserts post_history 0 two_posts g /\
    @ConstructSwerveSolution f64 A g (pr_vals (g_problem g)) = Ok s0.
Proof.
  intros fcos fsin fatan2 fhypot asserts A. split; [|split].
  - repeat apply Forall_cons; try apply Forall_nil; cbn [moderate_call]; try exact Logic.I;
      (split; [first [exact (fzero_within _)|exact one_within]|]); (split; [exact (fzero_within _)|]);
      (split; [reflexivity|exact Logic.I]).
  - destruct asserts; vm_compute; reflexivity.
  - apply history_generator; [apply Nat.ltb_lt|]; destruct asserts; vm_compute; reflexivity.
Qed.
Lemma far_guess : forall fcos fsin fatan2 fhypot asserts guess,
  @CalculateInitialGuess f64 (Arith_f64 fcos fsin fatan2 fhypot) Dbl_f64 (@path f64 (Arith_f64 fcos fsin fatan2 fhypot) Dbl_f64 asserts far_history) = Ok guess ->
  nth_error (s_x guess) 1 = Some (S754_infinity false).
Proof.
  intros fcos fsin fatan2 fhypot asserts guess E.
  assert (X : match @CalculateInitialGuess f64 (Arith_f64 fcos fsin fatan2 fhypot) Dbl_f64 (@path f64 (Arith_f64 fcos fsin fatan2 fhypot) Dbl_f64 asserts far_history) with
    Ok gs => nth_error (s_x gs) 1 | _ => None end = Some (S754_infinity false)) by (destruct asserts; vm_compute; reflexivity).
  rewrite E in X. exact X.
Qed.
Lemma far_case : forall fcos fsin fatan2 fhypot asserts,
  let A := Arith_f64 fcos fsin fatan2 fhypot in
  exists x h d g s0, is_double x /\ finite x /\
    h = [OSetDrivetrain d; OPoseWpt 0 (SFopp x) fzero fzero; OPoseWpt 1 x fzero fzero; OControlIntervalCounts [3%nat]] /\
    @generator f64 A Dbl_f64 asserts h 0 d g /\
    @ConstructSwerveSolution f64 A g (pr_vals (g_problem g)) = Ok s0 /\ nth_error (s_x s0) 1 = Some (S754_infinity false).
Proof.
  intros fcos fsin fatan2 fhypot asserts A. exists far, far_history, two_posts.
  destruct (history_generator fcos fsin fatan2 fhypot asserts far_history two_posts) as (g & s0 & G & E).
  { apply Nat.ltb_lt. destruct asserts; vm_compute; reflexivity. }
  { destruct asserts; vm_compute; reflexivity. }
  exists g, s0. split; [reflexivity|]. split; [exact Logic.I|]. split; [reflexivity|]. split; [exact G|]. split; [exact E|].
  destruct (@seeds_read f64 A Dbl_f64 asserts far_history 0%Z two_posts g G) as (guess & p & Hg & _).
  destruct (@C07_seeds_proof f64 A Dbl_f64 asserts far_history 0%Z two_posts g guess s0 G Hg E) as (X & _).
  rewrite X. exact (far_guess _ _ _ _ _ _ Hg).
Qed.
