(** Constraint calls on waypoints that exist: where and in what order they are
    made (C92). *)
From Coq Require Import List Lia Lra Reals Bool ZArith Permutation.
Import ListNotations.
From Verif Require Import Outcome Num NumR Geometry Expr Constraints Util Builder Guess Generator
  Spec SpecBuilder SpecPhysics SpecTrajectory SpecGenerator SpecChange Semantics
  UtilFacts GeometryFacts BuilderFacts BuilderEffects BuilderProofs BuilderHistory GuessFacts GuessProofs GeneratorFacts SeedFacts
  GeneratorProofs HistoryFacts SolutionProofs GeneratorCases.
Local Open Scope nat_scope.

Section Any.
  Context {K : Type} {HA : Arith K} {HD : Dbl K}.
  Implicit Types b : builder K.

  (** Equal but for the constraints in the waypoints. *)
  Record alike b b' : Prop := mkAlike {
    al_w : length (b_waypoints b') = length (b_waypoints b);
    al_d : b_drivetrain b' = b_drivetrain b;
    al_k : b_callbacks b' = b_callbacks b;
    al_b : b_bumpers b' = b_bumpers b;
    al_g : b_guess b' = b_guess b;
    al_c : b_counts b' = b_counts b
  }.
  Lemma alike_refl : forall b, alike b b.
  Proof. intros. split; reflexivity. Qed.
  Lemma alike_sym : forall b b', alike b b' -> alike b' b.
  Proof. intros b b' []. split; congruence. Qed.
  Lemma alike_trans : forall b b' b'', alike b b' -> alike b' b'' -> alike b b''.
  Proof. intros b b' b'' [] []. split; congruence. Qed.

  Definition resp {A} (m : bld K A) : Prop := forall b b', alike b b' ->
    alike (fst (m b)) (fst (m b')) /\ snd (m b') = snd (m b).
  Lemma resp_bind : forall {A B} (m : bld K A) (f : A -> bld K B), resp m -> (forall a, resp (f a)) -> resp (bbind m f).
  Proof.
    intros A B m f M F b b' S. destruct (M b b' S) as [S1 E]. unfold bbind.
    destruct (m b) as [b1 o1], (m b') as [b1' o1']. cbn [fst snd] in *. subst o1'.
    destruct o1; try (split; [exact S1|reflexivity]). apply F. exact S1.
  Qed.
  Lemma resp_lift : forall {A} (o : outcome A), resp (blift o).
  Proof. intros A o b b' S. split; [exact S|reflexivity]. Qed.
  Lemma resp_ret : forall {A} (a : A), resp (bret a).
  Proof. intros A a b b' S. split; [exact S|reflexivity]. Qed.
  Lemma resp_for : forall {A} (l : list A) (f : A -> bld K unit), (forall a, resp (f a)) -> resp (bfor l f).
  Proof. induction l; intros; cbn [bfor]; [apply resp_ret|]. apply resp_bind; auto. Qed.
  Lemma resp_loop : forall (f : nat -> bld K unit), (forall i, resp (f i)) -> forall fuel i bound, resp (bloop fuel i bound f).
  Proof.
    intros f F. induction fuel as [|fuel IH]; intros i bound; cbn [bloop]; destruct (_ <? bound)%Z;
      try apply resp_ret; try apply resp_lift. apply resp_bind; [apply F|]. intros; apply IH.
  Qed.
  Lemma resp_add : forall n i b b', alike b b' -> alike (add_wpts n i b) (add_wpts n i b').
  Proof.
    induction n as [|n IH]; intros i b b' S; [exact S|]. cbn [add_wpts]. apply IH. destruct S as [W D Q B G C].
    split; cbn [b_waypoints b_drivetrain b_callbacks b_bumpers b_guess b_counts]; try assumption.
    - rewrite !app_length, W. reflexivity.
    - rewrite G. reflexivity.
    - rewrite C. reflexivity.
  Qed.
  Lemma resp_new : forall i, resp (newWpts i).
  Proof.
    intros i b b' S. unfold newWpts. cbn [fst snd]. split; [|reflexivity]. unfold NewWpts.
    rewrite (al_w _ _ S). destruct (_ <? _)%Z; [apply resp_add|]; exact S.
  Qed.
  Lemma resp_push : forall i c, resp (push_wpt i c).
  Proof.
    intros i c b b' S. unfold push_wpt, upd_at. rewrite (al_w _ _ S). destruct (i <? _); cbn [fst snd]; (split; [|reflexivity]); [|exact S].
    destruct S. split; cbn [set_waypoints b_waypoints b_drivetrain b_callbacks b_bumpers b_guess b_counts]; rewrite ?upd_length; congruence.
  Qed.
  Lemma resp_push_sgmt : forall i c, resp (push_sgmt i c).
  Proof.
    intros i c b b' S. unfold push_sgmt, upd_at. rewrite (al_w _ _ S). destruct (i <? _); cbn [fst snd]; (split; [|reflexivity]); [|exact S].
    destruct S. split; cbn [set_waypoints b_waypoints b_drivetrain b_callbacks b_bumpers b_guess b_counts]; rewrite ?upd_length; congruence.
  Qed.
  Lemma resp_wpt : forall i c, resp (WptConstraint i c).
  Proof. intros. apply resp_bind; [apply resp_new|intros; apply resp_push]. Qed.
  Lemma resp_sgmt : forall asserts f t c, resp (SgmtConstraint asserts f t c).
  Proof.
    intros. unfold SgmtConstraint. apply resp_bind; [destruct (_ && _)%bool; [apply resp_lift|apply resp_ret]|intros _].
    apply resp_bind; [apply resp_new|intros _]. apply resp_bind; [apply resp_push|intros _].
    apply resp_for. intros. apply resp_bind; [apply resp_push|intros; apply resp_push_sgmt].
  Qed.
  Lemma resp_guess : forall i p, resp (WptInitialGuessPoint i p).
  Proof.
    intros. apply resp_bind; [apply resp_new|intros _]. intros b b' S. rewrite (al_g _ _ S).
    destruct (at_ (b_guess b) i) as [[|q l]|e| |u|]; cbn [fst snd]; (split; [|reflexivity]); try exact S.
    destruct S. split; cbn [set_guess b_waypoints b_drivetrain b_callbacks b_bumpers b_guess b_counts]; congruence.
  Qed.
  Lemma resp_guesses : forall i ps, resp (SgmtInitialGuessPoints i ps).
  Proof.
    intros. apply resp_bind; [apply resp_new|intros _]. intros b b' S. rewrite (al_g _ _ S).
    destruct (upd_at _ _ _); cbn [fst snd]; (split; [|reflexivity]); try exact S.
    destruct S. split; cbn [set_guess b_waypoints b_drivetrain b_callbacks b_bumpers b_guess b_counts]; congruence.
  Qed.
  Ltac resp_steps := repeat (apply resp_bind; [apply resp_lift|intros]).
  Lemma resp_obstacle : forall asserts add o bs, (forall c, resp (add c)) -> resp (obstacle_loop asserts add o bs).
  Proof.
    intros asserts add o bs Add. induction bs as [|bu bs IH]; cbn [obstacle_loop]; [apply resp_ret|].
    destruct (_ && _)%bool; [resp_steps; apply Add|].
    apply resp_bind; [|intros _; apply resp_bind; [|intros _; exact IH]]; apply resp_for; intros.
    - apply resp_bind; [apply resp_loop; intros; resp_steps; apply Add|intros _].
      destruct (3 <=? _); [|apply resp_ret]. resp_steps. apply Add.
    - destruct (1 <? _); [|resp_steps; apply Add].
      apply resp_bind; [apply resp_loop; intros; resp_steps; apply Add|intros _].
      destruct (3 <=? _); [|apply resp_ret]. resp_steps. apply Add.
  Qed.
  Lemma resp_op : forall asserts o, resp (run_op asserts o).
  Proof.
    intros asserts o. destruct o; cbn [run_op].
    1,6,11,12: (intros b b' []; split; [|reflexivity]; split; cbn; congruence).
    - apply resp_bind; [apply resp_wpt|intros; apply resp_guess].
    - apply resp_bind; [apply resp_wpt|intros; apply resp_guess].
    - apply resp_guess.
    - apply resp_guesses.
    - intros b b' S. unfold WptObstacle. rewrite (al_b _ _ S). apply resp_obstacle; [intros; apply resp_wpt|exact S].
    - intros b b' S. unfold SgmtObstacle. rewrite (al_b _ _ S). apply resp_obstacle; [intros; apply resp_sgmt|exact S].
    - apply resp_wpt.
    - apply resp_sgmt.
  Qed.
  Lemma alike_run : forall asserts h b b', alike b b' ->
    alike (run_ops asserts h b) (run_ops asserts h b') /\ (all_returned asserts h b -> all_returned asserts h b').
  Proof.
    induction h as [|o h IH]; intros b b' S; [split; [exact S|auto]|].
    destruct (resp_op asserts o b b' S) as (S1 & O). destruct (IH _ _ S1) as (S2 & A).
    split; [exact S2|]. cbn [all_returned]. intros (E & R). split; [congruence|exact (A R)].
  Qed.

  Lemma push_alike : forall i c b, i < wlen b -> alike b (fst (push_wpt i c b)) /\ snd (push_wpt i c b) = Ok tt.
  Proof.
    intros i c b L. unfold push_wpt, upd_at, wlen in *. apply Nat.ltb_lt in L. rewrite L. cbn [fst snd].
    split; [|reflexivity]. split; cbn [set_waypoints b_waypoints b_drivetrain b_callbacks b_bumpers b_guess b_counts]; try reflexivity. apply upd_length.
  Qed.
  Lemma push_sgmt_alike : forall i c b, i < wlen b -> alike b (fst (push_sgmt i c b)) /\ snd (push_sgmt i c b) = Ok tt.
  Proof.
    intros i c b L. unfold push_sgmt, upd_at, wlen in *. apply Nat.ltb_lt in L. rewrite L. cbn [fst snd].
    split; [|reflexivity]. split; cbn [set_waypoints b_waypoints b_drivetrain b_callbacks b_bumpers b_guess b_counts]; try reflexivity. apply upd_length.
  Qed.
  (** Returning without changing more than constraints. *)
  Definition quiet n (m : bld K unit) : Prop := forall b, wlen b = n -> alike b (fst (m b)) /\ snd (m b) = Ok tt.
  Lemma quiet_seq : forall n m k, quiet n m -> quiet n k -> quiet n (m ;~ k).
  Proof.
    intros n m k M Q b L. destruct (M b L) as [A E]. unfold bbind. destruct (m b) as [b1 o1]. cbn [fst snd] in *. subst o1.
    destruct (Q b1) as [A' E']; [unfold wlen in *; rewrite (al_w _ _ A); exact L|]. split; [exact (alike_trans _ _ _ A A')|exact E'].
  Qed.
  Lemma quiet_for : forall {A} n (f : A -> bld K unit) l, (forall a, In a l -> quiet n (f a)) -> quiet n (bfor l f).
  Proof.
    induction l as [|a l IH]; intros Q; cbn [bfor]; [intros b L; split; [apply alike_refl|reflexivity]|].
    apply quiet_seq; [apply Q; left; reflexivity|apply IH; intros; apply Q; right; assumption].
  Qed.
  Lemma quiet_new : forall n i, i < n -> n <= max63 -> quiet n (newWpts i).
  Proof.
    intros n i L M b E. unfold newWpts. cbn [fst snd]. split; [|reflexivity].
    rewrite NewWpts_small by (unfold wlen in *; lia). unfold extend. replace (S i - wlen b) with 0 by lia.
    destruct b as [w d k bu gu cn]. unfold wlen in *. cbn [b_waypoints] in *.
    split; cbn [b_waypoints b_drivetrain b_callbacks b_bumpers b_guess b_counts repeat]; rewrite ?app_nil_r; try reflexivity.
    replace (S i - 1 - (length w - 1)) with 0 by lia. cbn [repeat]. apply app_nil_r.
  Qed.
  Lemma constraint_alike : forall asserts o b, inv b -> constrains (wlen b) o ->
    alike b (fst (run_op asserts o b)) /\ snd (run_op asserts o b) = Ok tt.
  Proof.
    intros asserts o b (_ & _ & M) C. revert C. generalize (eq_refl (wlen b)). generalize (wlen b) at 2 3. intros n E C. rewrite E in M.
    revert b E M. assert (Q : n <= max63 -> quiet n (run_op asserts o)); [|intros b E M; exact (Q M b E)].
    intros M. destruct o; try contradiction; cbn [run_op constrains] in *.
    - apply quiet_seq; [apply quiet_new; assumption|]. intros b E. apply push_alike. lia.
    - destruct C as [C1 C2]. unfold SgmtConstraint. apply quiet_seq.
      + assert (F : fromIndex <? toIndex = true) by (apply Nat.ltb_lt; exact C1). rewrite F, andb_false_r.
        intros b E. split; [apply alike_refl|reflexivity].
      + apply quiet_seq; [apply quiet_new; assumption|]. apply quiet_seq; [intros b E; apply push_alike; lia|].
        apply quiet_for. intros j J. apply in_seq in J. apply quiet_seq; intros b E; [apply push_alike|apply push_sgmt_alike]; lia.
  Qed.
End Any.

Open Scope R_scope.
(** Two good histories with the same shape and the same requests, perhaps in
    another order, have the same solutions. *)
Lemma same_solutions : forall asserts h h' handle d g, good_history asserts h -> good_history asserts h' ->
  alike (path asserts h) (path asserts h') ->
  (forall w c, In c (wpt_requests [] h w) <-> In c (wpt_requests [] h' w)) ->
  (forall w c, In c (sgmt_requests [] h w) <-> In c (sgmt_requests [] h' w)) ->
  generator asserts h handle d g ->
  exists g', generator asserts h' handle d g' /\ counts asserts h' = counts asserts h /\ g_callbacks g' = g_callbacks g /\
    forall env sol, ConstructSwerveSolution g env = Ok sol ->
      ConstructSwerveSolution g' env = Ok sol /\ (feasible env (g_problem g') <-> feasible env (g_problem g)).
Proof.
  intros asserts h h' handle d g GH GH' A W S G.
  destruct G as [C D].
  destruct (construct_inversion _ _ _ (path_inv asserts h) C) as (L & d0 & p0 & D0 & Eg & _).
  assert (D' : b_drivetrain (path asserts h') = Some d) by (rewrite (al_d _ _ A); exact D).
  destruct (construct_ok (path asserts h') handle d (path_inv asserts h')) as (p & C' & _);
    [unfold waypoint_count in *; rewrite (al_c _ _ A), (al_w _ _ A); exact L|exact D'|].
  eexists. assert (G' := conj C' D'). split; [exact G'|].
  assert (NC : counts asserts h' = counts asserts h) by exact (al_c _ _ A).
  split; [exact NC|]. split; [rewrite Eg; exact (al_k _ _ A)|]. intros env sol E.
  destruct (insert_feasible asserts h h' handle d g _ GH GH' (conj C D) G' NC env sol E) as [E' Q].
  split; [exact E'|]. rewrite (Q True); [tauto|].
  unfold meets_requests. split.
  - intros [M1 M2]. split; [|exact I]. split; intros; [apply M1; [assumption|]; apply W; assumption|].
    eapply M2; try eassumption. apply S; assumption.
  - intros [[M1 M2] _]. split; intros; [apply M1; [assumption|]; apply W; assumption|].
    eapply M2; try eassumption. apply S; assumption.
Qed.

Lemma block_alike : forall {K} {HA : Arith K} {HD : Dbl K} asserts p (b : builder K), inv b -> Forall (constrains (wlen b)) p ->
  alike b (run_ops asserts p b) /\ all_returned asserts p b.
Proof.
  intros K HA HD asserts. induction p as [|o p IH]; intros b V F; [split; [apply alike_refl|exact I]|].
  inversion F; subst. destruct (constraint_alike asserts o b V H1) as [A E].
  destruct (IH (fst (run_op asserts o b)) (run_op_inv asserts o b V)) as [A' R].
  { unfold wlen in *. rewrite (al_w _ _ A). exact H2. }
  split; [exact (alike_trans _ _ _ A A')|]. split; assumption.
Qed.

Lemma requests_perm : forall (p p' : list (op R)), Permutation p p' -> (forall o, In o p -> bumper_request o = []) ->
  flat_map bumper_request p = [] /\ flat_map bumper_request p' = [] /\
  (forall bs w c, In c (wpt_requests bs p w) <-> In c (wpt_requests bs p' w)) /\
  (forall bs w c, In c (sgmt_requests bs p w) <-> In c (sgmt_requests bs p' w)).
Proof.
  intros p p' Pm. induction Pm as [|o p p' Pm IH|a b p|p p' p'' Pm IH Pm' IH']; intros B.
  - repeat split; tauto.
  - destruct IH as (A1 & A2 & A3 & A4); [intros; apply B; right; assumption|].
    assert (B0 : bumper_request o = []) by (apply B; left; reflexivity).
    cbn [flat_map wpt_requests sgmt_requests]. rewrite B0. cbn [app]. split; [exact A1|]. split; [exact A2|].
    split; intros bs w c; rewrite !in_app_iff, ?A3, ?A4; tauto.
  - assert (B0 : bumper_request a = []) by (apply B; right; left; reflexivity).
    assert (B1 : bumper_request b = []) by (apply B; left; reflexivity).
    assert (B2 : flat_map bumper_request p = []).
    { clear - B. induction p as [|o p IH]; [reflexivity|]. cbn [flat_map]. rewrite (B o) by (right; right; left; reflexivity).
      apply IH. intros o' [<-|[<-|H]]; apply B; [left; reflexivity|right; left; reflexivity|right; right; right; exact H]. }
    cbn [flat_map wpt_requests sgmt_requests]. rewrite B0, B1. cbn [app]. split; [exact B2|]. split; [exact B2|].
    split; intros bs w c; rewrite !app_nil_r, !in_app_iff;
      destruct a, b; try discriminate; cbn [wpt_request sgmt_request]; tauto.
  - destruct (IH B) as (A1 & A2 & A3 & A4).
    destruct IH' as (B1 & B2 & B3 & B4); [intros o Ho; apply B; apply Permutation_sym in Pm; apply (Permutation_in o Pm Ho)|].
    split; [exact A1|]. split; [exact B2|]. split; intros bs w c; rewrite ?A3, ?A4; [apply B3|apply B4].
Qed.

Lemma C92_block_proof : forall asserts h1 p p' h2 handle d g, Permutation p p' ->
  Forall (constrains (waypoint_count (path asserts h1))) p ->
  good_history asserts (h1 ++ p ++ h2) -> generator asserts (h1 ++ p ++ h2) handle d g ->
  good_history asserts (h1 ++ p' ++ h2) /\
  exists g', generator asserts (h1 ++ p' ++ h2) handle d g' /\ forall sol, solved g' sol <-> solved g sol.
Proof.
  intros asserts h1 p p' h2 handle d g Pm F GH G.
  assert (F' : Forall (constrains (waypoint_count (path asserts h1))) p').
  { rewrite Forall_forall in *. intros o Ho. apply F. apply (Permutation_in o (Permutation_sym Pm) Ho). }
  pose proof (path_inv asserts h1) as V.
  destruct (block_alike asserts p _ V F) as [A R], (block_alike asserts p' _ V F') as [A' R'].
  assert (AA : alike (run_ops asserts p (path asserts h1)) (run_ops asserts p' (path asserts h1)))
    by exact (alike_trans _ _ _ (alike_sym _ _ A) A').
  assert (Al : alike (path asserts (h1 ++ p ++ h2)) (path asserts (h1 ++ p' ++ h2))).
  { unfold path. rewrite !run_ops_app. apply alike_run. exact AA. }
  assert (GH' : good_history asserts (h1 ++ p' ++ h2)).
  { destruct GH as (Pc & Pr & Rt). split; [|split].
    - rewrite !Forall_app in *. destruct Pc as (P1 & P2 & P3). split; [exact P1|]. split; [|exact P3].
      rewrite Forall_forall in *. intros o Ho. apply P2. apply (Permutation_in o (Permutation_sym Pm) Ho).
    - rewrite !Forall_app in *. destruct Pr as (P1 & P2 & P3). split; [exact P1|]. split; [|exact P3].
      rewrite Forall_forall in *. intros o Ho. apply P2. apply (Permutation_in o (Permutation_sym Pm) Ho).
    - rewrite !all_returned_app in *. destruct Rt as (R1 & R2 & R3). split; [exact R1|]. split; [exact R'|].
      apply (proj2 (alike_run asserts h2 _ _ AA)). exact R3. }
  split; [exact GH'|].
  assert (B : forall o, In o p -> bumper_request o = []).
  { intros o Ho. rewrite Forall_forall in F. specialize (F o Ho). destruct o; try contradiction; reflexivity. }
  destruct (requests_perm p p' Pm B) as (B1 & B2 & W & S).
  destruct (same_solutions asserts _ _ handle d g GH GH' Al) as (g' & G' & _ & _ & Q).
  - intros w c. rewrite !wpt_requests_app, B1, B2, !in_app_iff, W. tauto.
  - intros w c. rewrite !sgmt_requests_app, B1, B2, !in_app_iff, S. tauto.
  - exact G.
  - exists g'. split; [exact G'|]. intros sol. split.
    + intros (env & Fe & E).
      assert (X : exists sol0, ConstructSwerveSolution g env = Ok sol0).
      { destruct G as [C D]. destruct (main_cons _ _ _ _ (path_inv asserts _) C D) as (_ & _ & Rd). eexists. apply Rd. }
      destruct X as [sol0 E0]. destruct (Q env sol0 E0) as [E1 Q1]. rewrite E in E1. injection E1 as <-.
      exists env. split; [apply Q1; exact Fe|exact E0].
    + intros (env & Fe & E). destruct (Q env sol E) as [E1 Q1]. exists env. split; [apply Q1; exact Fe|exact E1].
Qed.

Lemma constrains_mono : forall {K} n n' (o : op K), (n <= n')%nat -> constrains n o -> constrains n' o.
Proof. intros K n n' o L. destruct o; cbn [constrains]; try tauto; lia. Qed.

(** Moving one call later. *)
Lemma C92_delay_proof : forall asserts h1 o h2 h3, constrains (waypoint_count (path asserts h1)) o ->
  let early := h1 ++ o :: h2 ++ h3 in let late := h1 ++ h2 ++ o :: h3 in
  (good_history asserts early <-> good_history asserts late) /\
  (good_history asserts early -> forall handle d,
    (exists g, generator asserts early handle d g) <-> (exists g, generator asserts late handle d g)) /\
  (good_history asserts early -> forall handle d g g',
    generator asserts early handle d g -> generator asserts late handle d g' ->
    forall sol, solved g sol <-> solved g' sol).
Proof.
  intros asserts h1 o h2 h3 Co early late.
  pose proof (path_inv asserts h1) as V.
  assert (Co2 : constrains (wlen (run_ops asserts h2 (path asserts h1))) o).
  { apply (constrains_mono (waypoint_count (path asserts h1))); [|exact Co].
    apply (run_ops_grows asserts h2 (path asserts h1) V). }
  pose proof (run_ops_inv asserts h2 (path asserts h1) V) as V2.
  destruct (constraint_alike asserts o _ V Co) as [A1 E1].
  destruct (constraint_alike asserts o _ V2 Co2) as [A2 E2].
  destruct (alike_run asserts h2 _ _ A1) as [A3 R3].
  destruct (alike_run asserts h2 _ _ (alike_sym _ _ A1)) as [_ R3'].
  assert (A4 : alike (run_ops asserts h2 (fst (run_op asserts o (path asserts h1)))) (fst (run_op asserts o (run_ops asserts h2 (path asserts h1)))))
    by exact (alike_trans _ _ _ (alike_sym _ _ A3) A2).
  assert (Al : alike (path asserts early) (path asserts late)).
  { unfold path, early, late. rewrite !run_ops_app.
    change (run_ops asserts (o :: h2 ++ h3) ?x) with (run_ops asserts (h2 ++ h3) (fst (run_op asserts o x))).
    change (run_ops asserts (o :: h3) ?x) with (run_ops asserts h3 (fst (run_op asserts o x))).
    rewrite !run_ops_app. apply alike_run. exact A4. }
  assert (GI : good_history asserts early <-> good_history asserts late).
  { unfold good_history, early, late. rewrite !Forall_app, !Forall_cons_iff, !Forall_app, !all_returned_app. cbn [all_returned].
    rewrite !all_returned_app.
    pose proof (proj2 (alike_run asserts h3 _ _ A4)) as R4. pose proof (proj2 (alike_run asserts h3 _ _ (alike_sym _ _ A4))) as R4'.
    fold (path asserts h1) in *.
    split; intros ((P1 & P2 & P3 & P4) & (Q1 & Q2 & Q3 & Q4) & R); repeat split; try tauto. }
  assert (B : bumper_request o = []) by (destruct o; try contradiction; reflexivity).
  assert (W : forall w c, In c (wpt_requests [] early w) <-> In c (wpt_requests [] late w)).
  { intros w c. unfold early, late. rewrite !wpt_requests_app. cbn [wpt_requests]. rewrite !wpt_requests_app, B, !app_nil_r, !in_app_iff.
    assert (X : forall bs, wpt_request bs o w = wpt_request [] o w) by (intros; destruct o; try contradiction; reflexivity).
    rewrite (X ([] ++ flat_map bumper_request h1)), (X (([] ++ flat_map bumper_request h1) ++ flat_map bumper_request h2)). tauto. }
  assert (S : forall w c, In c (sgmt_requests [] early w) <-> In c (sgmt_requests [] late w)).
  { intros w c. unfold early, late. rewrite !sgmt_requests_app. cbn [sgmt_requests]. rewrite !sgmt_requests_app, B, !app_nil_r, !in_app_iff.
    assert (X : forall bs, sgmt_request bs o w = sgmt_request [] o w) by (intros; destruct o; try contradiction; reflexivity).
    rewrite (X ([] ++ flat_map bumper_request h1)), (X (([] ++ flat_map bumper_request h1) ++ flat_map bumper_request h2)). tauto. }
  split; [exact GI|]. split.
  - intros GE handle d. pose proof (proj1 GI GE) as GL. split; intros [g G].
    + destruct (same_solutions asserts _ _ handle d g GE GL Al W S G) as (g' & G' & _). exists g'. exact G'.
    + destruct (same_solutions asserts _ _ handle d g GL GE (alike_sym _ _ Al)) as (g' & G' & _); try assumption.
      * intros; symmetry; apply W.
      * intros; symmetry; apply S.
      * exists g'. exact G'.
  - intros GE handle d g g' G G'. pose proof (proj1 GI GE) as GL.
    assert (X : forall h h' g g', good_history asserts h -> good_history asserts h' -> alike (path asserts h) (path asserts h') ->
      (forall w c, In c (wpt_requests [] h w) <-> In c (wpt_requests [] h' w)) ->
      (forall w c, In c (sgmt_requests [] h w) <-> In c (sgmt_requests [] h' w)) ->
      generator asserts h handle d g -> generator asserts h' handle d g' -> forall sol, solved g sol -> solved g' sol).
    { clear. intros h h' g g' GE GL Al W S G G' sol (env & F & E).
      destruct (same_solutions asserts _ _ handle d g GE GL Al W S G) as (g'' & G'' & _ & _ & Q).
      assert (g'' = g') by (destruct G' as [C' _], G'' as [C'' _]; rewrite C' in C''; injection C'' as <-; reflexivity). subst g''.
      destruct (Q env sol E) as [E1 Q1]. exists env. split; [apply Q1; exact F|exact E1]. }
    intros sol. split; [apply (X _ _ _ _ GE GL Al W S G G')|].
    apply (X _ _ _ _ GL GE (alike_sym _ _ Al)); try assumption; intros; symmetry; [apply W|apply S].
Qed.

(** ** The drivetrain and callbacks a generator uses *)
Lemma C94_proof : forall {K} {HA : Arith K} {HD : Dbl K} asserts (h : list (op K)) handle d g, generator asserts h handle d g ->
  last_drivetrain None h = Some d /\ g_callbacks g = flat_map callback_request h /\ g_handle g = handle.
Proof.
  intros K HA HD asserts h handle d g [C D]. rewrite <- path_drivetrain with (asserts := asserts).
  destruct (construct_inversion _ _ _ (path_inv asserts h) C) as (_ & d' & p & _ & -> & _).
  split; [exact D|]. split; [apply path_callbacks|reflexivity].
Qed.

(** ** Cases *)
(** The ride with its constraints in another order, and with the speed limit
    moved behind the interval counts. *)
Definition ride_poses : list (op R) := [OSetDrivetrain cart; OPoseWpt 0 0 0 0; OPoseWpt 1 1 0 1].
Definition ride_limits : list (op R) :=
  [OWptConstraint 0 (LinearVelocityMaxMagnitude 0); OSgmtConstraint 0 1 (AngularVelocityMaxMagnitude 1)].
Lemma order_case : exists g,
  ride = ride_poses ++ ride_limits ++ [OControlIntervalCounts [2%nat]] /\
  good_history true ride /\ generator true ride 7 cart g /\ solved g ride_solution /\
  waypoint_count (path true ride_poses) = 2%nat /\ Forall (constrains 2) ride_limits /\
  Permutation ride_limits (rev ride_limits) /\ ride_limits <> rev ride_limits.
Proof.
  destruct (ride_case true) as (g & GH & G & W & Pos & Sv). exists g. split; [reflexivity|]. repeat (split; [assumption|]).
  split; [reflexivity|]. split; [repeat constructor|]. split; [apply Permutation_rev|]. discriminate.
Qed.
(** Two drivetrains, two callbacks and a call that fails. *)
Definition wordy (cb cb' : callback R) : list (op R) :=
  OSetDrivetrain (mkDrivetrain 1 1 []) :: OAddIntermediateCallback cb :: ride ++
  [OSgmtConstraint 1 0 (LinearVelocityMaxMagnitude 0); OAddIntermediateCallback cb'].
Lemma wordy_case : forall cb cb' : callback R, exists g,
  generator true (wordy cb cb') 7 cart g /\ g_callbacks g = [cb; cb'] /\ ~ all_returned true (wordy cb cb') new_builder.
Proof.
  intros cb cb'. destruct (generator_exists true (wordy cb cb') 7 cart) as [g G]; [apply Nat.ltb_lt; reflexivity|reflexivity|].
  exists g. split; [exact G|]. split; [apply (C94_proof true (wordy cb cb') 7 cart g G)|].
  intros R0. unfold wordy in R0. cbn [all_returned] in R0. destruct R0 as (_ & _ & R0). apply all_returned_app in R0.
  destruct R0 as (_ & R0 & _). discriminate R0.
Qed.
