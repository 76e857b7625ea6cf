(** Concrete schedules: examples for the runtime theorems and counterexamples
    to the claims that are false. *)
From Coq Require Import List Lia ZArith Bool Reals.
Import ListNotations.
From Verif Require Import Outcome Num NumR Geometry Expr Constraints Util Builder Guess Generator Runtime
  SpecBuilder SpecGenerator SpecRuntime BuilderFacts GeneratorProofs HistoryFacts GeneratorCases RuntimeProofs RaceProofs HbProofs.
Local Open Scope nat_scope.

Section Exact.
  Context {K : Type} {HA : Arith K} {HD : Dbl K}.
  Variable stop : Z.

  (** The flag is raised exactly if the last of all starts and cancellations is a cancellation. *)
  Definition last_is_cancel (es : list (event K)) : Prop :=
    exists es1 u es2, es = es1 ++ ECancel u :: es2 /\ forall e, In e es2 -> ~ is_start e.
  Lemma flag_exact : forall es s, run stop rt_init es = Some s -> (r_flag s <> 0%Z <-> last_is_cancel es).
  Proof.
    apply (run_ind stop (fun es s => r_flag s <> 0%Z <-> last_is_cancel es)).
    - split; [intros F; contradiction F; reflexivity|]. intros (es1 & u & es2 & E & _). destruct es1; discriminate E.
    - intros es e s s' R I S.
      assert (Keep : ~ is_start e -> ~ is_cancel e -> (last_is_cancel (es ++ [e]) <-> last_is_cancel es)).
      { intros N1 N2. split; intros (es1 & u & es2 & E & N).
        - destruct es2 as [|x es2 _] using rev_ind.
          + apply app_inj_tail in E. destruct E as [_ ->]. contradiction N2. exact Logic.I.
          + rewrite app_comm_cons, app_assoc in E. apply app_inj_tail in E. destruct E as [E _].
            exists es1, u, es2. split; [exact E|]. intros y Hy. apply N, in_or_app. left. exact Hy.
        - exists es1, u, (es2 ++ [e]). split; [rewrite E, <- app_assoc; reflexivity|].
          intros y Hy. apply in_app_or in Hy. destruct Hy as [Hy|[<-|[]]]; [exact (N y Hy)|exact N1]. }
      destruct e.
      all: try (rewrite Keep by (exact (fun x => x)); rewrite <- I;
        replace (r_flag s') with (r_flag s); [reflexivity|]; symmetry; RaceProofs.step_cases S; reflexivity).
      + assert (F : r_flag s' = 0%Z) by (RaceProofs.step_cases S; reflexivity). rewrite F. split; [intros N; contradiction N; reflexivity|].
        intros (es1 & u & es2 & E & N). exfalso. destruct es2 as [|x es2 _] using rev_ind.
        * apply app_inj_tail in E. destruct E as [_ E]. discriminate E.
        * rewrite app_comm_cons, app_assoc in E. apply app_inj_tail in E. destruct E as [_ <-].
          apply (N (EStart t g)); [apply in_or_app; right; left; reflexivity|exact Logic.I].
      + assert (F : r_flag s' = 1%Z) by (RaceProofs.step_cases S; reflexivity). rewrite F. split; [|discriminate]. intros _.
        exists es, t, []. split; [reflexivity|intros y []].
  Qed.
  Theorem C69_proof : forall es t s, run stop rt_init (es ++ [EPoll t]) = Some s ->
    ((exists g, r_threads s t = Stopping g) <->
     exists es1 u es2, es = es1 ++ ECancel u :: es2 /\ forall e, In e es2 -> ~ is_start e) /\
    ((exists g, r_threads s t = Solving g) <->
     ~ exists es1 u es2, es = es1 ++ ECancel u :: es2 /\ forall e, In e es2 -> ~ is_start e).
  Proof.
    intros es t s R. destruct (run_snoc _ _ _ _ _ R) as (m & R1 & S).
    assert (F := flag_exact es m R1). fold (last_is_cancel es). unfold step in S.
    destruct (r_threads m t); try discriminate S. injection S as <-. cbn [r_threads moved].
    rewrite set_at_same. destruct (Z.eqb_spec (r_flag m) 0) as [E|E].
    - assert (N : ~ last_is_cancel es) by (intros C; apply F in C; contradiction). split; split.
      + intros [g' E']. discriminate E'.
      + intros C. contradiction.
      + intros _. exact N.
      + intros _. exists g. reflexivity.
    - assert (C : last_is_cancel es) by (apply F, E). split; split.
      + intros _. exact C.
      + intros _. exists g. reflexivity.
      + intros [g' E']. discriminate E'.
      + intros N. contradiction.
  Qed.

  Theorem C47_rate_hb_proof : forall es s, run stop rt_init es = Some s -> ~ data_race es ->
    forall a b, In a (r_log s) -> In b (r_log s) ->
    (dl_thread a = dl_thread b /\ dl_time a = dl_time b) \/
    frame_apart (dl_time a) (dl_time b) \/ frame_apart (dl_time b) (dl_time a).
  Proof. intros es s R N. apply (no_race_iff stop es s R) in N. exact (C47_rate_proof stop es s R N). Qed.
  Theorem C67_partial_proof : forall es s, run stop rt_init es = Some s -> serialised false (fun _ => true) es -> ~ data_race es.
  Proof. intros es s R SE. apply (no_race_iff stop es s R). exact (serialised_proof stop es s SE R). Qed.
  Theorem C68_proof : forall es1 t es2 u now s,
    run stop rt_init (es1 ++ EWrite t :: es2 ++ [ECheck u now]) = Some s ->
    u <> t -> (forall e, In e es2 -> ~ publishes t e) -> data_race (es1 ++ EWrite t :: es2 ++ [ECheck u now]).
  Proof. intros es1 t es2 u now s R D N. apply (race_detected stop _ s R). exact (unavoidable_proof stop es1 t es2 u now s R D N). Qed.
End Exact.

(** Runs without their clocks, to compute with. *)
Section Erased.
  Context {K : Type} {HA : Arith K} {HD : Dbl K}.
  Variable stop : Z.
  Record small : Type := mkSmall { sm_flag : Z; sm_last : option Z; sm_threads : nat -> phase K; sm_log : list (delivery K) }.
  Definition erased (s : rt K) : small := mkSmall (r_flag s) (r_last s) (r_threads s) (r_log s).
  Definition small_init : small := mkSmall 0 None (fun _ => Idle) [].
  Definition small_step (s : small) (e : event K) : option small :=
    match e with
    | EStart t g => match sm_threads s t with
        | Idle | Returned _ => Some (mkSmall 0 (sm_last s) (set_at (sm_threads s) t (Solving g)) (sm_log s)) | _ => None end
    | EIter t t0 env => match sm_threads s t with
        | Solving g => Some (mkSmall (sm_flag s) (match sm_last s with Some z => Some z | None => Some t0 end)
                         (set_at (sm_threads s) t (Entered g env)) (sm_log s)) | _ => None end
    | ECheck t now => match sm_threads s t, sm_last s with
        | Entered g env, Some last => Some (mkSmall (sm_flag s) (sm_last s)
            (set_at (sm_threads s) t (if throttled last now then Polling g else Framing g env now)) (sm_log s)) | _, _ => None end
    | EWrite t => match sm_threads s t with
        | Framing g env now => match ConstructSwerveSolution g env with
            | Ok sol => Some (mkSmall (sm_flag s) (Some now) (set_at (sm_threads s) t (calling g now 0 (g_callbacks g) sol)) (sm_log s))
            | _ => None end | _ => None end
    | ECall t => match sm_threads s t with
        | Calling g now i (cb :: cbs) sol => Some (mkSmall (sm_flag s) (sm_last s)
            (set_at (sm_threads s) t (calling g now (S i) cbs (cb sol (g_handle g)))) (sm_log s ++ [mkDelivery t i sol (g_handle g) now]))
        | _ => None end
    | EPoll t => match sm_threads s t with
        | Polling g => Some (mkSmall (sm_flag s) (sm_last s) (set_at (sm_threads s) t (if (sm_flag s =? 0)%Z then Solving g else Stopping g)) (sm_log s))
        | _ => None end
    | EFinish t code env => match sm_threads s t with
        | Solving g => if (code =? stop)%Z then None
            else Some (mkSmall (sm_flag s) (sm_last s) (set_at (sm_threads s) t (Returned (generate_result stop g code env))) (sm_log s))
        | Stopping g => if (code =? stop)%Z
            then Some (mkSmall (sm_flag s) (sm_last s) (set_at (sm_threads s) t (Returned (generate_result stop g code env))) (sm_log s)) else None
        | _ => None end
    | ECancel t => if in_client (sm_threads s t) then Some (mkSmall 1 (sm_last s) (sm_threads s) (sm_log s)) else None
    | ESync t u => if in_client (sm_threads s t) && in_client (sm_threads s u) && negb (Nat.eqb t u) then Some s else None
    | EThrow t => match sm_threads s t with
        | Calling g now i (cb :: cbs) sol => Some (mkSmall (sm_flag s) (sm_last s)
            (set_at (sm_threads s) t (Returned (Throw CallbackException))) (sm_log s ++ [mkDelivery t i sol (g_handle g) now]))
        | _ => None end
    end.
  Fixpoint small_run (s : small) (es : list (event K)) : option small :=
    match es with [] => Some s | e :: es' => match small_step s e with Some s' => small_run s' es' | None => None end end.
  Lemma small_step_ok : forall (s : rt K) e, option_map erased (step stop s e) = small_step (erased s) e.
  Proof.
    intros s e. destruct e; unfold step, small_step, erased; cbn [sm_flag sm_last sm_threads sm_log].
    - destruct (r_threads s t); reflexivity.
    - destruct (r_threads s t); try reflexivity. destruct (r_last s) eqn:L; cbn [option_map moved r_flag r_last r_threads r_log]; rewrite ?L; reflexivity.
    - destruct (r_threads s t); try reflexivity. destruct (r_last s) eqn:L; cbn [option_map moved r_flag r_last r_threads r_log]; rewrite ?L; reflexivity.
    - destruct (r_threads s t); try reflexivity. destruct (ConstructSwerveSolution g env); reflexivity.
    - destruct (r_threads s t); try reflexivity. destruct cbs; reflexivity.
    - destruct (r_threads s t); reflexivity.
    - destruct (r_threads s t); try reflexivity; destruct (code =? stop)%Z; reflexivity.
    - destruct (in_client _); reflexivity.
    - destruct (_ && _); reflexivity.
    - destruct (r_threads s t); try reflexivity. destruct cbs; reflexivity.
  Qed.
  Lemma small_run_ok : forall es (s : rt K) m, small_run (erased s) es = Some m ->
    exists s', run stop s es = Some s' /\ erased s' = m.
  Proof.
    induction es as [|e es IH]; intros s m H; cbn [small_run run] in *; [injection H as <-; exists s; auto|].
    rewrite <- small_step_ok in H. destruct (step stop s e) as [s1|]; [|discriminate H]. exact (IH s1 m H).
  Qed.
  Lemma computed : forall es m, small_run small_init es = Some m ->
    exists s, run stop rt_init es = Some s /\ r_flag s = sm_flag m /\ r_last s = sm_last m /\ r_threads s = sm_threads m /\ r_log s = sm_log m.
  Proof.
    intros es m H. destruct (small_run_ok es rt_init m H) as (s & R & <-). exists s. repeat split; assumption.
  Qed.
End Erased.

(** [ride], watched by two callbacks; the second overwrites the solution object. *)
Definition look : callback R := fun s _ => s.
Definition wipe : callback R := fun s _ =>
  mkSolution [] (s_x s) (s_y s) (s_thetacos s) (s_thetasin s) (s_vx s) (s_vy s) (s_omega s) (s_ax s) (s_ay s) (s_alpha s)
    (s_moduleFX s) (s_moduleFY s).
Definition watched : list (op R) := ride ++ [OAddIntermediateCallback look; OAddIntermediateCallback wipe].
Lemma watched_generator : forall asserts handle, exists g,
  generator asserts watched handle cart g /\ g_callbacks g = [look; wipe] /\ g_handle g = handle /\ real_generator g.
Proof.
  intros asserts handle. destruct (generator_exists asserts watched handle cart) as [g G];
    [destruct asserts; apply Nat.ltb_lt; reflexivity|reflexivity|].
  exists g. split; [exact G|]. destruct G as [G D].
  destruct (construct_inversion _ _ _ (path_inv asserts watched) G) as (_ & d & p & _ & E & _).
  split; [rewrite E; cbn [g_callbacks]; rewrite path_callbacks; reflexivity|].
  split; [rewrite E; reflexivity|]. exists asserts, watched, handle, cart. split; assumption.
Qed.

Definition at_zero : nat -> R := fun _ => 0%R.
(** A whole frame of thread [t]: 20 ms after the static was initialised at 0. *)
Definition frame (t : nat) (now : Z) : list (event R) := [EIter t 0%Z at_zero; ECheck t now; EWrite t; ECall t; ECall t; EPoll t].
Definition quiet_iteration (t : nat) (now : Z) : list (event R) := [EIter t 0%Z at_zero; ECheck t now; EPoll t].

Section Cases.
  Variable g : gen R.
  Hypothesis G : g_callbacks g = [look; wipe].
  Hypothesis RG : real_generator g.

  Ltac crunch :=
    cbn -[ConstructSwerveSolution look wipe generate_result at_zero Z.eqb];
    repeat (progress (
      repeat first
        [ match goal with C : ConstructSwerveSolution _ _ = Ok _ |- context [ConstructSwerveSolution _ _] => rewrite C end
        | rewrite G
        | progress change (0 =? 0)%Z with true | progress change (1 =? 0)%Z with false | progress change (-1 =? -1)%Z with true
        | match goal with C : (?a =? ?b)%Z = _ |- context [(?a =? ?b)%Z] => rewrite C end ];
      cbn -[ConstructSwerveSolution look wipe generate_result at_zero Z.eqb])); reflexivity.
  Ltac computed_run es :=
    unfold es, frame, quiet_iteration;
    match goal with |- exists s, run ?st rt_init ?l = Some s /\ _ =>
      let H := fresh in
      eassert (H : small_run st small_init l = Some _) by crunch;
      let s := fresh "s" in
      destruct (computed st l _ H) as (s & Rs & Fs & Ls & Ts & Gs); clear H;
      exists s; split; [exact Rs|] end.

  (** One generation, cancelled from another thread. *)
  Definition cancelled_run : list (event R) :=
    [EStart 0 g] ++ quiet_iteration 0 5%Z ++ [EIter 0 0%Z at_zero; ECheck 0 9%Z; ECancel 1] ++ [EPoll 0; EFinish 0 (-1)%Z at_zero].
  Lemma cancelled_runs : exists s, run (-1) rt_init cancelled_run = Some s /\ r_threads s 0 = Returned (Ok (inr (-1)%Z)).
  Proof. computed_run cancelled_run. rewrite Ts. reflexivity. Qed.
  (** A cancellation forgotten because another generation starts. *)
  Definition forgotten_run : list (event R) :=
    [EStart 0 g; EIter 0 0%Z at_zero; ECheck 0 5%Z] ++ ECancel 2 :: [EStart 1 g] ++ [EPoll 0].
  Lemma forgotten_runs : forall stop, exists s, run stop rt_init forgotten_run = Some s /\ r_threads s 0 = Solving g.
  Proof. intros stop. computed_run forgotten_run. rewrite Ts. reflexivity. Qed.
  (** A generation that succeeds after one frame and one throttled iteration. *)
  Definition good_run : list (event R) := EStart 0 g :: frame 0 20000000%Z ++ quiet_iteration 0 30000000%Z.
  Lemma good_runs : forall stop, exists s, run stop rt_init good_run = Some s /\
    r_threads s 0 = Solving g /\ map dl_cb (r_log s) = [0; 1] /\ map dl_time (r_log s) = [20000000; 20000000]%Z.
  Proof.
    intros stop. destruct (real_solution g at_zero RG) as (sol & C & HV).
    computed_run good_run. rewrite Ts, Gs. repeat split.
  Qed.
  (** Two generations draw a frame 1 ns apart: a data race. *)
  Definition racing_run : list (event R) :=
    [EStart 0 g; EStart 1 g; EIter 0 0%Z at_zero; EIter 1 0%Z at_zero; ECheck 0 20000000%Z; ECheck 1 20000001%Z;
     EWrite 0; EWrite 1; ECall 0; ECall 1].
  Lemma racing_runs : forall stop, exists s, run stop rt_init racing_run = Some s /\
    map dl_thread (r_log s) = [0; 1] /\ map dl_time (r_log s) = [20000000; 20000001]%Z.
  Proof.
    intros stop. destruct (real_solution g at_zero RG) as (sol & C & HV).
    computed_run racing_run. rewrite Gs. repeat split.
  Qed.
  (** One thread draws a frame, another iterates: nothing orders the two. *)
  Definition unordered_run : list (event R) :=
    [EStart 0 g; EStart 1 g; EIter 0 0%Z at_zero; EIter 1 0%Z at_zero; ECheck 0 20000000%Z] ++ EWrite 0 :: [ECall 0; ECall 0; EPoll 0] ++ [ECheck 1 20000001%Z].
  Lemma unordered_runs : forall stop, exists s, run stop rt_init unordered_run = Some s /\ map dl_thread (r_log s) = [0; 0].
  Proof.
    intros stop. destruct (real_solution g at_zero RG) as (sol & C & HV).
    computed_run unordered_run. rewrite Gs. repeat split.
  Qed.
  (** Two generations one after the other in different threads, properly joined. *)
  Definition joined_run : list (event R) :=
    (EStart 0 g :: frame 0 20000000%Z ++ [EFinish 0 0%Z at_zero]) ++ [ESync 0 1] ++ (EStart 1 g :: frame 1 40000000%Z).
  Lemma joined_runs : exists s, run (-1) rt_init joined_run = Some s /\
    map dl_time (r_log s) = [20000000; 20000000; 40000000; 40000000]%Z /\ map dl_thread (r_log s) = [0; 0; 1; 1].
  Proof.
    destruct (real_solution g at_zero RG) as (sol & C & HV). assert (Z0 : (0 =? -1)%Z = false) by reflexivity.
    computed_run joined_run. rewrite Gs. repeat split.
  Qed.
  (** The second callback throws; the thread generates again and draws a frame. *)
  Definition thrown_run : list (event R) :=
    [EStart 0 g] ++ [EIter 0 0%Z at_zero] ++ (ECheck 0 20000000%Z :: [EWrite 0; ECall 0] ++ [EThrow 0]) ++ (EStart 0 g :: frame 0 40000000%Z).
  Lemma thrown_runs : forall stop, exists s, run stop rt_init thrown_run = Some s /\
    r_threads s 0 = Solving g /\ map dl_cb (r_log s) = [0; 1; 0; 1] /\ map dl_time (r_log s) = [20000000; 20000000; 40000000; 40000000]%Z.
  Proof.
    intros stop. destruct (real_solution g at_zero RG) as (sol & C & HV).
    computed_run thrown_run. rewrite Ts, Gs. repeat split.
  Qed.
  (** A callback that generates another trajectory, after a cancellation. *)
  Definition nested_run : list (event R) :=
    ([EStart 0 g; EIter 0 0%Z at_zero; ECheck 0 20000000%Z; EWrite 0] ++
    ECancel 2 :: ESync 0 1 :: EStart 1 g :: frame 1 40000000%Z ++ EFinish 1 0%Z at_zero :: ESync 1 0 ::
    [ECall 0; ECall 0] ++ [EPoll 0])%list.
  Lemma nested_runs : forall stop, stop <> 0%Z -> exists s, run stop rt_init nested_run = Some s /\
    r_threads s 0 = Solving g /\ map dl_thread (r_log s) = [1; 1; 0; 0].
  Proof.
    intros stop N. destruct (real_solution g at_zero RG) as (sol & C & HV).
    assert (Z0 : (0 =? stop)%Z = false) by (apply Z.eqb_neq; congruence).
    computed_run nested_run. rewrite Ts, Gs. repeat split.
  Qed.
End Cases.

Lemma real_starts : forall (g : gen R) es, real_generator g -> (forall e, In e es -> match e with EStart _ g' => g' = g | _ => True end) ->
  Forall real_start es.
Proof.
  intros g es RG H. apply Forall_forall. intros e He. specialize (H e He). destruct e; simpl; try exact Logic.I. subst. exact RG.
Qed.
Ltac all_of g := apply (real_starts g); [assumption|]; intros ? He; repeat (destruct He as [<-|He]; [first [reflexivity|exact Logic.I]|]); destruct He.

Theorem C44_refuted_proof : forall stop, ~ (forall es u es1 t (s : rt R),
  Forall real_start (es ++ ECancel u :: es1 ++ [EPoll t]) ->
  run stop rt_init (es ++ ECancel u :: es1 ++ [EPoll t]) = Some s ->
  (forall e, In e es1 -> ~ is_start_of t e /\ ~ is_poll_of t e) -> exists g, r_threads s t = Stopping g).
Proof.
  intros stop H. destruct (watched_generator true 7) as (g & _ & G & _ & RG).
  destruct (forgotten_runs g stop) as (s & R & T).
  destruct (H [EStart 0 g; EIter 0 0%Z at_zero; ECheck 0 5%Z] 2 [EStart 1 g] 0 s) as [g' E].
  - all_of g.
  - exact R.
  - intros e [<-|[]]. split; simpl; [discriminate|exact (fun x => x)].
  - rewrite T in E. discriminate E.
Qed.
Theorem C46_refuted_proof : forall stop, ~ (forall esa t g esb (s : rt R) t0 env es1 s',
  Forall real_start (esa ++ EStart t g :: esb) -> (forall e, In e esb -> ~ is_start_of t e) ->
  run stop rt_init (esa ++ EStart t g :: esb) = Some s ->
  run stop s (EIter t t0 env :: es1 ++ [EPoll t]) = Some s' -> (forall e, In e es1 -> ~ is_poll_of t e) ->
  exists sol now, log_of t s' = log_of t s ++ calls_from t 0 (g_callbacks g) sol (g_handle g) now).
Proof.
  intros stop H. destruct (watched_generator true 7) as (g & _ & G & _ & RG).
  destruct (small_run_ok stop [EStart 0 g] rt_init _ eq_refl) as (s & R & E). cbn in E.
  destruct (small_run_ok stop [EIter 0 0%Z at_zero; ECheck 0 5%Z; EPoll 0] s
    (mkSmall 0 (Some 0%Z) (set_at (set_at (set_at (set_at (fun _ => Idle) 0 (Solving g)) 0 (Entered g at_zero)) 0 (Polling g)) 0 (Solving g)) []))
    as (s' & R' & E'); [rewrite E; reflexivity|].
  destruct (H [] 0 g [] s 0%Z at_zero [ECheck 0 5%Z] s') as (sol & now & L).
  - all_of g.
  - intros e [].
  - exact R.
  - exact R'.
  - intros e [<-|[]]. exact (fun x => x).
  - assert (L0 : r_log s = []) by (apply (f_equal sm_log) in E; exact E).
    assert (L1 : r_log s' = []) by (apply (f_equal sm_log) in E'; exact E').
    unfold log_of in L. rewrite L0, L1, G in L. discriminate L.
Qed.
Theorem C47_refuted_proof : forall stop, ~ (forall es (s : rt R), Forall real_start es -> run stop rt_init es = Some s ->
  forall a b, In a (r_log s) -> In b (r_log s) ->
  (dl_thread a = dl_thread b /\ dl_time a = dl_time b) \/
  frame_apart (dl_time a) (dl_time b) \/ frame_apart (dl_time b) (dl_time a)).
Proof.
  intros stop H. destruct (watched_generator true 7) as (g & _ & G & _ & RG).
  destruct (racing_runs g G RG stop) as (s & R & T & D).
  assert (A : Forall real_start (racing_run g)) by (unfold racing_run; all_of g).
  destruct (r_log s) as [|a [|b [|c l]]] eqn:L; try discriminate T. injection T as T1 T2. injection D as D1 D2.
  destruct (H (racing_run g) s A R a b) as [[E _]|[E|E]]; try (rewrite L; simpl; auto).
  - congruence.
  - unfold frame_apart in E. rewrite D1, D2 in E. lia.
  - unfold frame_apart in E. rewrite D1, D2 in E. lia.
Qed.
Lemma unordered_races : forall stop (g : gen R) s, run stop rt_init (unordered_run g) = Some s -> data_race (unordered_run g).
Proof.
  intros stop g s R. apply (C68_proof stop _ 0 _ 1 20000001%Z s R); [discriminate|].
  intros e [<-|[<-|[<-|[]]]]; exact (fun x => x).
Qed.
Theorem C67_refuted_proof : forall stop, ~ (forall es (s : rt R), Forall real_start es -> run stop rt_init es = Some s -> ~ data_race es).
Proof.
  intros stop H. destruct (watched_generator true 7) as (g & _ & G & _ & RG).
  destruct (unordered_runs g G RG stop) as (s & R & _).
  assert (A : Forall real_start (unordered_run g)) by (unfold unordered_run; all_of g).
  exact (H _ s A R (unordered_races stop g s R)).
Qed.

Theorem C95_again_proof : forall {K} {HA : Arith K} {HD : Dbl K} stop (s s' : rt K) t g,
  step stop s (EThrow t) = Some s' -> exists s1, step stop s' (EStart t g) = Some s1 /\ r_threads s1 t = Solving g.
Proof.
  intros K HA HD stop s s' t g S. unfold step in S. destruct (r_threads s t); try discriminate S. destruct cbs; [discriminate S|].
  injection S as <-. unfold step. cbn [r_threads]. rewrite set_at_same. eexists. split; [reflexivity|]. cbn [r_threads]. apply set_at_same.
Qed.
Theorem C96_partial_proof : forall {K} {HA : Arith K} {HD : Dbl K} stop es (s : rt K),
  run stop rt_init es = Some s -> handed_on (fun _ => true) es -> ~ data_race es.
Proof. intros K HA HD stop es s R HO. apply (no_race_iff stop es s R). exact (handed_proof stop es s HO R). Qed.
Theorem C96_refuted_proof : forall stop, stop <> 0%Z -> ~ (forall es v t u g es1 code env es2 (s : rt R),
  Forall real_start (es ++ ECancel v :: ESync t u :: EStart u g :: es1 ++ EFinish u code env :: ESync u t :: es2 ++ [EPoll t]) ->
  run stop rt_init (es ++ ECancel v :: ESync t u :: EStart u g :: es1 ++ EFinish u code env :: ESync u t :: es2 ++ [EPoll t]) = Some s ->
  (forall e, In e es1 -> thread_of e = u) -> (forall e, In e es2 -> e = ECall t) ->
  exists g, r_threads s t = Stopping g).
Proof.
  intros stop N H. destruct (watched_generator true 7) as (g & _ & G & _ & RG).
  destruct (nested_runs g G RG stop N) as (s & R & T & _).
  destruct (H [EStart 0 g; EIter 0 0%Z at_zero; ECheck 0 20000000%Z; EWrite 0] 2 0 1 g (frame 1 40000000%Z) 0%Z at_zero [ECall 0; ECall 0] s) as [g' E].
  - unfold frame. all_of g.
  - exact R.
  - intros e He. repeat (destruct He as [<-|He]; [reflexivity|]). destruct He.
  - intros e [<-|[<-|[]]]; reflexivity.
  - rewrite T in E. discriminate E.
Qed.
