(** Proofs of C48 to C50 and C70. *)
From Coq Require Import List Lia ZArith QArith Bool.
Import ListNotations.
From Verif Require Import Outcome Num Geometry Expr Constraints Builder Generator Trajectory Runtime RustFFI
  SpecBuilder SpecGenerator SpecRuntime SpecRust UtilFacts BuilderFacts BuilderEffects BuilderProofs BuilderHistory BuilderCases HistoryFacts TrajectoryProofs SessionProofs.
Local Open Scope nat_scope.

Section Proofs.
  Context {K : Type} {HA : Arith K} {HD : Dbl K}.

  Lemma seen : forall (m : bld K unit) b, rs_call m b = (fst (m b), as_seen (snd (m b))).
  Proof. intros m b. unfold rs_call. destruct (m b) as [b' [[]|e| |u|]]; reflexivity. Qed.

  Lemma lifted : forall {A} (a : A) (k : A -> bld K unit) b, bbind (blift (Ok a)) k b = k a b.
  Proof. reflexivity. Qed.

  Lemma corners : forall (x y : list K), length x = length y -> forall acc n,
    foldM (fun i ps => a <- at_ x i ;; b <- at_ y i ;; Ok (ps ++ [mkTr a b])) (seq n (length x - n)) acc =
    Ok (acc ++ map (fun p => mkTr (fst p) (snd p)) (combine (skipn n x) (skipn n y))).
  Proof.
    intros x y L acc n. remember (length x - n) as k eqn:E. revert acc n E.
    induction k as [|k IH]; intros acc n E.
    - rewrite !skipn_all2 by lia. cbn. rewrite app_nil_r. reflexivity.
    - cbn [seq foldM]. unfold at_.
      destruct (nth_error x n) as [a|] eqn:Ea; [|apply nth_error_None in Ea; lia].
      destruct (nth_error y n) as [c|] eqn:Ec; [|apply nth_error_None in Ec; lia].
      cbn [obind]. fold (@at_ K). rewrite (IH _ (S n)) by lia.
      assert (X : skipn n x = a :: skipn (S n) x).
      { clear -Ea. revert x Ea. induction n as [|n IH]; intros [|z x] Ea; try discriminate; [cbn in *; congruence|].
        cbn [nth_error] in Ea. exact (IH x Ea). }
      assert (Y : skipn n y = c :: skipn (S n) y).
      { clear -Ec. revert y Ec. induction n as [|n IH]; intros [|z y] Ec; try discriminate; [cbn in *; congruence|].
        cbn [nth_error] in Ec. exact (IH y Ec). }
      rewrite X, Y. cbn [combine map fst snd]. rewrite <- app_assoc. reflexivity.
  Qed.

  Theorem C48_call_proof : forall asserts (o : rs_op K) b,
    ((asserts = true -> ~ refused o) ->
     match cpp_call o with
     | Some c => rs_call (rs_method asserts o) b =
         (fst (run_op asserts c b), as_seen (snd (run_op asserts c b)))
     | None => rs_call (rs_method asserts o) b = (b, RsOk)
     end) /\
    (asserts = true -> refused o -> rs_call (rs_method asserts o) b = (b, RsAbort)).
  Proof.
    intros asserts o b.
    assert (M : forall m, bounded_argument o = Some m -> (asserts = true -> ~ refused o) ->
                asserts && negb (nleb (nlit 0) m) = false).
    { intros m E N. destruct asserts; [|reflexivity]. destruct (nleb (nlit 0) m) eqn:L; [reflexivity|].
      exfalso. apply N; [reflexivity|]. exists m. split; [exact E|exact L]. }
    split.
    - intros N. rewrite seen.
      destruct o; cbn [cpp_call rs_method bounded_argument] in *;
        try reflexivity;
        try (unfold rs_wpt_linear_velocity_max_magnitude, rs_wpt_angular_velocity_max_magnitude,
               rs_wpt_linear_acceleration_max_magnitude, rs_wpt_point_at, rs_sgmt_linear_velocity_max_magnitude,
               rs_sgmt_angular_velocity_max_magnitude, rs_sgmt_linear_acceleration_max_magnitude, rs_sgmt_point_at,
               wpt_checked, sgmt_checked, mkLinearVelocityMaxMagnitude, mkAngularVelocityMaxMagnitude,
               mkLinearAccelerationMaxMagnitude, mkPointAt, assert_nonneg;
             rewrite (M _ eq_refl N); reflexivity).
      destruct (length x =? length y) eqn:L.
      + unfold rs_sgmt_polygon_obstacle. rewrite L. cbn [negb].
        apply Nat.eqb_eq in L. pose proof (corners x y L [] 0) as C. rewrite Nat.sub_0_r in C.
        rewrite C. cbn [skipn app]. reflexivity.
      + unfold rs_sgmt_polygon_obstacle. rewrite L. reflexivity.
    - intros -> (m & E & L). rewrite seen.
      destruct o; cbn [bounded_argument] in E; try discriminate E; injection E as <-;
        cbn [rs_method];
        unfold rs_wpt_linear_velocity_max_magnitude, rs_wpt_angular_velocity_max_magnitude,
               rs_wpt_linear_acceleration_max_magnitude, rs_wpt_point_at, rs_sgmt_linear_velocity_max_magnitude,
               rs_sgmt_angular_velocity_max_magnitude, rs_sgmt_linear_acceleration_max_magnitude, rs_sgmt_point_at,
               wpt_checked, sgmt_checked, mkLinearVelocityMaxMagnitude, mkAngularVelocityMaxMagnitude,
               mkLinearAccelerationMaxMagnitude, mkPointAt, assert_nonneg;
        rewrite L; reflexivity.
  Qed.

  Lemma refused_dec : forall o : rs_op K, refused o \/ ~ refused o.
  Proof.
    intros o. unfold refused. destruct (bounded_argument o) as [m|].
    - destruct (nleb (nlit 0) m) eqn:E.
      + right. intros (m' & [= <-] & F). congruence.
      + left. exists m. split; [reflexivity|exact E].
    - right. intros (m' & F & _). discriminate.
  Qed.

  Theorem C48_history_proof : forall asserts (os : list (rs_op K)) b b',
    rs_run asserts os b = inl b' <->
    (asserts = true -> Forall (fun o => ~ refused o) os) /\
    all_returned asserts (cpp_calls os) b /\ b' = run_ops asserts (cpp_calls os) b.
  Proof.
    intros asserts. induction os as [|o os IH]; intros b b'.
    - cbn. split; [intros [= <-]; repeat split; constructor|intros (_ & _ & ->); reflexivity].
    - destruct (C48_call_proof asserts o b) as [P Q]. cbn [rs_run cpp_calls].
      assert (D : (asserts = true -> ~ refused o) \/ (asserts = true /\ refused o)).
      { destruct asserts; [|left; discriminate]. destruct (refused_dec o); tauto. }
      destruct D as [D|[D1 D2]].
      + specialize (P D).
        assert (F : forall X Y Z : Prop, (X <-> (asserts = true -> Forall (fun o => ~ refused o) os) /\ Y /\ Z) ->
          (X <-> (asserts = true -> Forall (fun o => ~ refused o) (o :: os)) /\ Y /\ Z)).
        { intros X Y Z H. rewrite H. split; intros (H1 & H2 & H3); (split; [|split; assumption]).
          - intros A. constructor; auto.
          - intros A. specialize (H1 A). inversion H1. assumption. }
        apply F. destruct (cpp_call o) as [c|].
        * rewrite P. cbn [app all_returned]. change (run_ops asserts (c :: cpp_calls os) b) with (run_ops asserts (cpp_calls os) (fst (run_op asserts c b))).
          destruct (run_op asserts c b) as [b1 [[]|e| |u|]]; cbn [fst snd as_seen];
            try (split; [discriminate|intros (_ & (H & _) & _); discriminate H]).
          rewrite IH. tauto.
        * rewrite P. cbn [app]. apply IH.
      + rewrite (Q D1 D2). split; [discriminate|]. intros (H & _). specialize (H D1). inversion H. contradiction.
  Qed.

  Lemma rs_new_path : forall asserts (h : list (op K)),
    run_ops asserts h rs_new = path asserts (zero_drivetrain :: h).
  Proof. reflexivity. Qed.

  Theorem C48_path_proof : forall asserts (os : list (rs_op K)) b,
    rs_run asserts os rs_new = inl b -> b = path asserts (zero_drivetrain :: cpp_calls os).
  Proof. intros asserts os b R. apply C48_history_proof in R as (_ & _ & ->). reflexivity. Qed.

  Lemma pushed : forall (l acc : list K), fold_left (fun v f => v ++ [f]) l acc = acc ++ l.
  Proof.
    induction l as [|a l IH]; intros acc; cbn; [symmetry; apply app_nil_r|]. rewrite IH, <- app_assoc. reflexivity.
  Qed.
  Lemma rust_samples_same : forall l : list (sample K), rust_samples l = l.
  Proof.
    induction l as [|[] l IH]; [reflexivity|]. unfold rust_samples in *. cbn [map]. rewrite IH. f_equal.
    cbn. rewrite !pushed. reflexivity.
  Qed.

  Theorem C48_generate_proof : forall stop (b : builder K) handle code env,
    (forall tr, rs_generate stop b handle code env = RsSamples tr <->
       exists g sol, construct b handle = Ok g /\ generate_result stop g code env = Ok (inl sol) /\
         HolonomicTrajectory sol = Ok tr) /\
    (forall c, rs_generate stop b handle code env = RsErrMessage c <->
       exists g, construct b handle = Ok g /\ generate_result stop g code env = Ok (inr c)).
  Proof.
    intros stop b handle code env. unfold rs_generate.
    split; intros x; (split; [|intros H; repeat match type of H with exists _, _ => destruct H as [? H] end;
                               repeat match type of H with _ /\ _ => let G := fresh in destruct H as [G H]; try rewrite G end;
                               try rewrite H; cbn beta iota; try rewrite rust_samples_same; try reflexivity]).
    - destruct (construct b handle) as [g|e| |u|]; try discriminate. intros H. exists g.
      destruct (generate_result stop g code env) as [[sol|c]|e| |u|] eqn:G; try discriminate.
      exists sol. destruct (HolonomicTrajectory sol) as [tr|e| |u|] eqn:T; try discriminate.
      rewrite rust_samples_same in H. injection H as <-. repeat split; reflexivity || assumption.
    - destruct (construct b handle) as [g|e| |u|]; try discriminate. intros H. exists g.
      destruct (generate_result stop g code env) as [[sol|c]|e| |u|] eqn:G; try discriminate.
      + destruct (HolonomicTrajectory sol) as [tr|e| |u|]; discriminate.
      + injection H as <-. split; reflexivity || exact G.
  Qed.

  Lemma callbacks_calls : forall (os : list (rs_op K)),
    flat_map callback_request (cpp_calls os) = repeat (fun s _ => s) (progress_callbacks os).
  Proof.
    induction os as [|o os IH]; [reflexivity|]. cbn [cpp_calls]. rewrite flat_map_app, IH.
    unfold progress_callbacks.
    destruct o; cbn [cpp_call filter]; try reflexivity. destruct (length x =? length y); reflexivity.
  Qed.

  Lemma calls_untouched : forall n t i (sol : solution K) handle now,
    calls_from t i (repeat (fun s _ => s) n) sol handle now =
    map (fun j => mkDelivery t j sol handle now) (seq i n).
  Proof.
    induction n as [|n IH]; intros t i sol handle now; [reflexivity|]. cbn [repeat calls_from seq map].
    rewrite IH. reflexivity.
  Qed.

  Theorem C48_progress_proof : forall asserts (os : list (rs_op K)) b handle g,
    rs_run asserts os rs_new = inl b -> construct b handle = Ok g ->
    real_generator g /\
    (forall t sol now, calls_from t 0 (g_callbacks g) sol (g_handle g) now =
       map (fun i => mkDelivery t i sol handle now) (seq 0 (progress_callbacks os))) /\
    (forall sol, rs_progress_payload sol = HolonomicTrajectory sol).
  Proof.
    intros asserts os b handle g R C. apply C48_path_proof in R. subst b.
    assert (D : exists d, b_drivetrain (path asserts (zero_drivetrain :: cpp_calls os)) = Some d).
    { rewrite path_drivetrain. cbn [last_drivetrain zero_drivetrain].
      destruct (last_drivetrain _ _) as [d|] eqn:E; [exists d; reflexivity|].
      exfalso. eapply last_drivetrain_some. exact E. }
    destruct D as (d & D).
    split; [exists asserts, (zero_drivetrain :: cpp_calls os), handle, d; split; assumption|].
    split.
    - intros t sol now.
      destruct (GeneratorProofs.construct_inversion _ _ _ (path_inv asserts _) C) as (_ & d' & p & _ & -> & _).
      cbn [g_callbacks g_handle]. rewrite path_callbacks. cbn [flat_map zero_drivetrain callback_request app].
      rewrite callbacks_calls. apply calls_untouched.
    - intros sol. unfold rs_progress_payload. destruct (HolonomicTrajectory sol); cbn; try reflexivity.
      rewrite rust_samples_same. reflexivity.
  Qed.

  (** C50. *)
  Theorem C50_proof : forall asserts f t (x y : list K) r b,
    (length x <> length y ->
       rs_call (rs_method asserts (RSgmtPolygonObstacle f t x y r)) b = (b, RsOk)) /\
    (length x = length y -> exists ps, length ps = length x /\
       (forall i, i < length x -> exists a c, nth_error x i = Some a /\ nth_error y i = Some c /\
          nth_error ps i = Some (mkTr a c)) /\
       rs_call (rs_method asserts (RSgmtPolygonObstacle f t x y r)) b =
         (fst (run_op asserts (OSgmtObstacle f t (mkObstacle r ps)) b),
          as_seen (snd (run_op asserts (OSgmtObstacle f t (mkObstacle r ps)) b)))).
  Proof.
    intros asserts f t x y r b.
    destruct (C48_call_proof asserts (RSgmtPolygonObstacle f t x y r) b) as [P _].
    assert (N : asserts = true -> ~ refused (RSgmtPolygonObstacle f t x y r)).
    { intros _ (m & E & _). discriminate E. }
    specialize (P N). cbn [cpp_call] in P. split; intros L.
    - apply Nat.eqb_neq in L. rewrite L in P. exact P.
    - pose proof L as L'. apply Nat.eqb_eq in L'. rewrite L' in P. eexists. split; [|split; [|exact P]].
      + rewrite map_length, combine_length. lia.
      + intros i Hi. clear - L Hi. revert y i L Hi. induction x as [|a x IH]; intros [|c y] i L Hi; cbn in *; try lia.
        destruct i as [|i]; [exists a, c; repeat split|]. apply (IH y i); lia.
  Qed.

  (** C49. *)
  Lemma run_op_bumpers : forall asserts (o : op K) b, inv b ->
    b_bumpers (fst (run_op asserts o b)) = b_bumpers b ++ bumper_request o.
  Proof.
    intros asserts o b Hb.
    assert (D : forall m : bld K unit, preserves keeps1 m -> b_bumpers (fst (m b)) = b_bumpers b ++ []).
    { intros m Hm. destruct (Hm b Hb) as ((A & B & C & F & G) & _). rewrite app_nil_r. auto. }
    destruct o; cbn [run_op bumper_request]; try (symmetry; apply app_nil_r); try reflexivity.
    - apply D. apply k_bind; [apply k_WptConstraint|intros; apply k_WptGuess].
    - apply D. apply k_bind; [apply k_WptConstraint|intros; apply k_WptGuess].
    - apply D. apply k_WptGuess.
    - destruct (k_SgmtGuess fromIndex ps b Hb) as ((A & B & C & F & G) & _). rewrite app_nil_r. auto.
    - apply (D (WptObstacle asserts index o)). intros x Hx. apply k_obstacle; auto using k_WptConstraint.
    - apply (D (SgmtObstacle asserts fromIndex toIndex o)). intros x Hx.
      apply k_obstacle; auto using k_SgmtConstraint.
    - apply D. apply k_WptConstraint.
    - apply D. apply k_SgmtConstraint.
  Qed.
  Lemma run_ops_bumpers : forall asserts (h : list (op K)) b, inv b ->
    b_bumpers (run_ops asserts h b) = b_bumpers b ++ flat_map bumper_request h.
  Proof.
    intros asserts h. induction h as [|o h IH]; intros b Hb; [symmetry; apply app_nil_r|].
    change (run_ops asserts (o :: h) b) with (run_ops asserts h (fst (run_op asserts o b))).
    rewrite (IH _ (run_op_inv _ _ _ Hb)), run_op_bumpers, <- app_assoc by exact Hb. reflexivity.
  Qed.

  Lemma rectangles_calls : forall (os : list (rs_op K)),
    flat_map bumper_request (cpp_calls os) = rectangles os.
  Proof.
    induction os as [|o os IH]; [reflexivity|]. cbn [cpp_calls]. rewrite flat_map_app, IH.
    unfold rectangles. destruct o; cbn [cpp_call]; try reflexivity. destruct (length x =? length y); reflexivity.
  Qed.
  Theorem C49_all_proof : forall asserts (os : list (rs_op K)) b,
    rs_run asserts os rs_new = inl b -> b_bumpers b = rectangles os.
  Proof.
    intros asserts os b R. apply C48_history_proof in R as (_ & _ & ->).
    rewrite run_ops_bumpers by apply inv_rs_new. apply rectangles_calls.
  Qed.

  (** C70. *)
  Theorem C70_proof : forall asserts (os : list (rs_op K)) b stop handle code env,
    rs_run asserts os rs_new = inl b -> 0 < waypoint_count b ->
    (exists tr, rs_generate stop b handle code env = RsSamples tr /\
       length tr = 1 + list_sum (b_counts b) /\
       (0 <= code)%Z /\ code <> stop /\ length (b_counts b) < waypoint_count b) \/
    (rs_generate stop b handle code env = RsErrMessage code /\
       ((code < 0)%Z \/ code = stop) /\ length (b_counts b) < waypoint_count b) \/
    (rs_generate stop b handle code env = RsErrRange /\ waypoint_count b <= length (b_counts b)).
  Proof.
    intros asserts os b stop handle code env R W. apply C48_path_proof in R. subst b.
    set (h := zero_drivetrain :: cpp_calls os) in *.
    assert (D : exists d, b_drivetrain (path asserts h) = Some d).
    { rewrite path_drivetrain. unfold h. cbn [last_drivetrain zero_drivetrain].
      destruct (last_drivetrain _ _) as [d|] eqn:E; [exists d; reflexivity|].
      exfalso. eapply last_drivetrain_some. exact E. }
    destruct D as (d & D).
    destruct (C55_accepts_proof asserts h handle d D W) as [A T]. unfold counts in *.
    destruct (le_lt_dec (waypoint_count (path asserts h)) (length (b_counts (path asserts h)))) as [L|L].
    - right. right. split; [|exact L]. unfold rs_generate. rewrite T by lia. reflexivity.
    - destruct (proj1 A ltac:(lia)) as (g & G). unfold rs_generate. rewrite G.
      unfold generate_result.
      destruct ((code <? 0)%Z || (code =? stop)%Z) eqn:E.
      + right. left. split; [reflexivity|]. split; [|exact L].
        apply orb_true_iff in E. rewrite Z.ltb_lt, Z.eqb_eq in E. exact E.
      + left. destruct (C25_proof asserts h handle d g env (conj G D)) as (sol & C & _).
        destruct (C27_outcome_proof asserts h handle d g env sol (conj G D) C) as (tr & Tr & Len).
        rewrite C. cbn [obind]. rewrite Tr, rust_samples_same. exists tr. split; [reflexivity|].
        split; [exact Len|]. apply orb_false_iff in E. rewrite Z.ltb_ge, Z.eqb_neq in E. tauto.
  Qed.
  Theorem C70_empty_proof : forall asserts (os : list (rs_op K)) b stop handle code env,
    rs_run asserts os rs_new = inl b -> waypoint_count b = 0 ->
    rs_generate stop b handle code env = RsDied EmptyAccess.
  Proof.
    intros asserts os b stop handle code env R W. apply C48_path_proof in R. subst b.
    unfold rs_generate. rewrite (proj1 (C66_proof asserts _ handle) W). reflexivity.
  Qed.

  (** C71. *)
  Lemma rust_call_fine : forall asserts (os : list (rs_op K)) b o,
    rs_run asserts os rs_new = inl b ->
    snd (rs_call (rs_method asserts o) b) = RsOk \/ snd (rs_call (rs_method asserts o) b) = RsAbort.
  Proof.
    intros asserts os b o R. apply C48_path_proof in R. subst b.
    set (h := zero_drivetrain :: cpp_calls os).
    destruct (C48_call_proof asserts o (path asserts h)) as [P Q].
    assert (D : (asserts = true -> ~ refused o) \/ (asserts = true /\ refused o)).
    { destruct asserts; [|left; discriminate]. destruct (refused_dec o); tauto. }
    destruct D as [D|[D1 D2]]; [|rewrite (Q D1 D2); right; reflexivity].
    specialize (P D). destruct (cpp_call o) as [c|]; rewrite P; [|left; reflexivity].
    pose proof (C59_proof asserts h c) as F. fold (path asserts h) in F. cbn [snd].
    destruct (snd (run_op asserts c (path asserts h))); cbn [as_seen]; tauto.
  Qed.

  Theorem C71_proof : forall asserts (os : list (rs_op K)) b f t (x y : list K) r,
    rs_run asserts os rs_new = inl b -> rectangles os <> [] ->
    length x = length y -> in_size_t (length x) -> f < t -> (Z.of_nat t < 2 ^ 63)%Z ->
    let seen := snd (rs_call (rs_method asserts (RSgmtPolygonObstacle f t x y r)) b) in
    let good := length x <> 0 /\ length x <> 3 /\
      (asserts = true -> nleb (nlit 0) (nadd (nlit (1 # 100)) r) = true) in
    (seen = RsOk <-> good) /\ (seen = RsAbort <-> ~ good).
  Proof.
    intros asserts os b f t x y r R NE L S Hf Ht seen good.
    assert (X : seen = RsOk <-> good).
    { destruct (C50_proof asserts f t x y r b) as [_ P]. destruct (P L) as (ps & Lp & _ & E).
      unfold seen. rewrite E. cbn [snd]. clear P E.
      assert (Hb : inv b). { apply C48_path_proof in R. subst b. apply path_inv. }
      assert (EB : b_bumpers b = rectangles os) by (exact (C49_all_proof asserts os b R)).
      assert (Rect : forall bu, In bu (rectangles os) ->
                length (o_points bu) = 4 /\ o_safetyDistance bu = nlit (1 # 100)).
      { intros bu I. apply in_flat_map in I. destruct I as (o & _ & I).
        destruct o; cbn in I; try contradiction. destruct I as [<-|[]]. split; reflexivity. }
      assert (Hs : Forall small_points (b_bumpers b)).
      { apply Forall_forall. intros bu I. rewrite EB in I. unfold small_points, in_size_t.
        rewrite (proj1 (Rect bu I)). reflexivity. }
      set (o := mkObstacle r ps).
      assert (Ho : small_points o) by (unfold small_points, o; cbn [o_points]; rewrite Lp; exact S).
      assert (A : accepts_all asserts (b_bumpers b) o <-> good).
      { rewrite EB. split.
        - intros A. destruct (rectangles os) as [|bu rest] eqn:ER; [contradiction|].
          destruct A as [A _]. destruct (Rect bu (or_introl eq_refl)) as [R1 R2].
          unfold accepts in A. rewrite R1, R2 in A. unfold o in A. cbn [o_points o_safetyDistance] in A. rewrite Lp in A.
          destruct A as [[A _]|(_ & A1 & A2 & A3)]; [discriminate|]. unfold good.
          split; [lia|]. split; [|exact A3]. intros E3. rewrite E3 in A2. specialize (A2 (le_n 3)). lia.
        - intros (G1 & G2 & G3). apply accepts_all_intro. apply Forall_forall. intros bu I.
          destruct (Rect bu I) as [R1 R2]. right. rewrite R1, R2. unfold o. cbn [o_points o_safetyDistance]. rewrite Lp.
          split; [lia|]. split; [lia|]. split; [lia|exact G3]. }
      rewrite <- A. apply below63 in Ht.
      assert (Q : snd (run_op asserts (OSgmtObstacle f t o) b) = Ok tt <-> accepts_all asserts (b_bumpers b) o).
      { split.
        - cbn [run_op]. unfold SgmtObstacle. intros H.
          destruct (obstacle_loop asserts (SgmtConstraint asserts f t) o (b_bumpers b) b) as [b' z] eqn:E.
          cbn [snd] in H. subst z. eapply obstacle_loop_returned; eassumption.
        - intros AA. cbn [run_op]. unfold SgmtObstacle. rewrite obstacle_loop_eq by assumption.
          destruct (bfor_effect (SgmtConstraint asserts f t) (Datatypes.S t)
            (fun c => within f t [c]) (fun c => within' f t [c])
            (fun c b Hb => SgmtConstraint_ok asserts f t c b Hb Hf Ht) (actual_obstacle (b_bumpers b) o) b Hb)
            as (b2 & -> & _). reflexivity. }
      rewrite <- Q. fold o.
      destruct (snd (run_op asserts (OSgmtObstacle f t o) b)) as [[]|e| |u|]; cbn [as_seen];
        split; intros H; try discriminate H; reflexivity. }
    split; [exact X|].
    destruct (rust_call_fine asserts os b (RSgmtPolygonObstacle f t x y r) R) as [F|F]; fold seen in F; rewrite F in *.
    - split; [discriminate|]. intros N. exfalso. apply N. apply X. reflexivity.
    - split; [|reflexivity]. intros _ G. apply X in G. discriminate G.
  Qed.
End Proofs.
