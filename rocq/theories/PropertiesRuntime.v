(** Properties of Generate, cancellation and progress callbacks over every
    schedule of any number of threads. *)
From Coq Require Import List ZArith Lia Reals.
Import ListNotations.
From Verif Require Import Outcome Num NumR Geometry Expr Constraints Builder Generator Runtime
  SpecBuilder SpecGenerator SpecRuntime GeneratorCases RuntimeProofs RaceProofs HbProofs RuntimeCases.
Local Open Scope nat_scope.

(** C43: when the solver ends, Generate returns the solver's values exactly on
    a nonnegative code other than the stop code, and the message otherwise. *)
Theorem C43_generate_result : forall {K} {HA : Arith K} {HD : Dbl K} stop es (s : rt K) t code env s',
  Forall real_start es -> run stop rt_init es = Some s -> step stop s (EFinish t code env) = Some s' ->
  exists es1 g es2 r, es = es1 ++ EStart t g :: es2 /\ (forall e, In e es2 -> ~ is_start_of t e) /\
    r_threads s' t = Returned r /\
    ((0 <= code)%Z /\ code <> stop -> exists sol, r = Ok (inl sol) /\ holds_values env g sol) /\
    ((code < 0)%Z \/ code = stop -> r = Ok (inr code)).
Proof. exact @C43_proof. Qed.
Print Assumptions C43_generate_result.
(** A generation that draws a frame, throttles the next and then ends with code 0. *)
Example C43_case : forall stop, stop <> 0%Z -> exists g, real_generator g /\
  exists s s', Forall real_start (good_run g) /\ run stop rt_init (good_run g) = Some s /\
    step stop s (EFinish 0 0%Z at_zero) = Some s'.
Proof.
  intros stop N. destruct (watched_generator true 7) as (g & _ & G & _ & RG). exists g. split; [exact RG|].
  destruct (good_runs g G RG stop) as (s & R & T & _). exists s. eexists. split; [unfold good_run; all_of g|]. split; [exact R|].
  unfold step. rewrite T. replace (0 =? stop)%Z with false; [reflexivity|]. symmetry. apply Z.eqb_neq. congruence.
Qed.

(** C44 is false: a Generate call elsewhere clears the flag before it is seen. *)
Theorem C44_cancel_stops_refuted : forall stop, ~ (forall es u es1 t (s : rt R),
  Forall real_start (es ++ ECancel u :: es1 ++ [EPoll t]) ->
  run stop rt_init (es ++ ECancel u :: es1 ++ [EPoll t]) = Some s ->
  (forall e, In e es1 -> ~ is_start_of t e /\ ~ is_poll_of t e) -> exists g, r_threads s t = Stopping g).
Proof. exact C44_refuted_proof. Qed.
Print Assumptions C44_cancel_stops_refuted.
(** It holds when no Generate call starts between the cancellation and the
    iteration: the generation stops and can only return the stop code. *)
Theorem C44_cancel_stops_partial : forall {K} {HA : Arith K} stop es u es1 t es2 (s : rt K),
  run stop rt_init (es ++ ECancel u :: es1 ++ EPoll t :: es2) = Some s ->
  (forall e, In e es1 -> ~ is_start e) -> (forall e, In e es2 -> ~ is_start_of t e) ->
  ((exists g, r_threads s t = Stopping g) \/ r_threads s t = Returned (Ok (inr stop))) /\
  (forall e, In e es2 -> thread_of e = t ->
     (exists env, e = EFinish t stop env) \/ e = ECancel t \/ exists u, e = ESync t u).
Proof. exact @C44_partial_proof. Qed.
Print Assumptions C44_cancel_stops_partial.
Example C44_case : exists g, real_generator g /\
  exists es es1 es2 s, run (-1) rt_init (es ++ ECancel 1 :: es1 ++ EPoll 0 :: es2) = Some s /\
    (forall e, In e es1 -> ~ is_start e) /\ (forall e, In e es2 -> ~ is_start_of 0 e) /\
    r_threads s 0 = Returned (Ok (inr (-1)%Z)).
Proof.
  destruct (watched_generator true 7) as (g & _ & G & _ & RG). exists g. split; [exact RG|].
  destruct (cancelled_runs g) as (s & R & T).
  exists ([EStart 0 g] ++ quiet_iteration 0 5%Z ++ [EIter 0 0%Z at_zero; ECheck 0 9%Z]), [], [EFinish 0 (-1)%Z at_zero], s.
  split; [exact R|]. split; [intros e []|]. split; [intros e [<-|[]]; exact (fun x => x)|exact T].
Qed.

(** C45: only a cancellation after its start stops a generation. *)
Theorem C45_no_stale_cancel : forall {K} {HA : Arith K} stop es (s : rt K) t,
  run stop rt_init es = Some s ->
  (exists g, r_threads s t = Stopping g) \/ r_threads s t = Returned (Ok (inr stop)) ->
  exists es1 g es2, es = es1 ++ EStart t g :: es2 /\
    (forall e, In e es2 -> ~ is_start_of t e) /\ Exists is_cancel es2.
Proof. exact @C45_proof. Qed.
Print Assumptions C45_no_stale_cancel.
Example C45_case : exists g, real_generator g /\ exists s,
  run (-1) rt_init (cancelled_run g) = Some s /\ r_threads s 0 = Returned (Ok (inr (-1)%Z)).
Proof.
  destruct (watched_generator true 7) as (g & _ & G & _ & RG). exists g. split; [exact RG|]. exact (cancelled_runs g).
Qed.

(** C46 is false: an iteration within 1/60 s of the last frame calls nobody. *)
Theorem C46_every_iteration_refuted : forall stop, ~ (forall esa t g esb (s : rt R) t0 env es1 s',
  Forall real_start (esa ++ EStart t g :: esb) -> (forall e, In e esb -> ~ is_start_of t e) ->
  run stop rt_init (esa ++ EStart t g :: esb) = Some s ->
  run stop s (EIter t t0 env :: es1 ++ [EPoll t]) = Some s' -> (forall e, In e es1 -> ~ is_poll_of t e) ->
  exists sol now, log_of t s' = log_of t s ++ calls_from t 0 (g_callbacks g) sol (g_handle g) now).
Proof. exact C46_refuted_proof. Qed.
Print Assumptions C46_every_iteration_refuted.

(** C47, per iteration: if the frame is due, all callbacks run in order, the
    first on the solver's current values, unless one throws (C95); if not, none does.  Other threads'
    events may come anywhere in between. *)
Theorem C47_iteration_partial : forall {K} {HA : Arith K} {HD : Dbl K} stop es (s : rt K) t t0 env es1 s1 last now es2 s2,
  Forall real_start es -> run stop rt_init es = Some s ->
  run stop s (EIter t t0 env :: es1) = Some s1 -> (forall e, In e es1 -> thread_of e <> t) -> r_last s1 = Some last ->
  run stop s1 (ECheck t now :: es2 ++ [EPoll t]) = Some s2 ->
  (forall e, In e es2 -> ~ is_poll_of t e /\ ~ is_throw_of t e) ->
  exists esa g esb sol, es = esa ++ EStart t g :: esb /\ (forall e, In e esb -> ~ is_start_of t e) /\
    holds_values env g sol /\
    (frame_apart last now -> log_of t s2 = log_of t s ++ calls_from t 0 (g_callbacks g) sol (g_handle g) now) /\
    (~ frame_apart last now -> log_of t s2 = log_of t s).
Proof. exact @C47_iteration_proof. Qed.
Print Assumptions C47_iteration_partial.
(** C47, rate: in a run without data races, any two deliveries belong to the
    same frame or are at least 1/60 s apart. *)
Theorem C47_rate_partial : forall {K} {HA : Arith K} stop es (s : rt K),
  run stop rt_init es = Some s -> ~ data_race es ->
  forall a b, In a (r_log s) -> In b (r_log s) ->
  (dl_thread a = dl_thread b /\ dl_time a = dl_time b) \/
  frame_apart (dl_time a) (dl_time b) \/ frame_apart (dl_time b) (dl_time a).
Proof. exact @C47_rate_hb_proof. Qed.
Print Assumptions C47_rate_partial.
(** The rate limit fails when two generations run at once. *)
Theorem C47_rate_refuted : forall stop, ~ (forall es (s : rt R), Forall real_start es -> run stop rt_init es = Some s ->
  forall a b, In a (r_log s) -> In b (r_log s) ->
  (dl_thread a = dl_thread b /\ dl_time a = dl_time b) \/
  frame_apart (dl_time a) (dl_time b) \/ frame_apart (dl_time b) (dl_time a)).
Proof. exact C47_refuted_proof. Qed.
Print Assumptions C47_rate_refuted.
Example C47_case : exists g, real_generator g /\ g_callbacks g = [look; wipe] /\
  exists s, run (-1) rt_init (joined_run g) = Some s /\ ~ data_race (joined_run g) /\
    map dl_time (r_log s) = [20000000; 20000000; 40000000; 40000000]%Z /\ map dl_thread (r_log s) = [0; 0; 1; 1].
Proof.
  destruct (watched_generator true 7) as (g & _ & G & _ & RG). exists g. split; [exact RG|]. split; [exact G|].
  destruct (joined_runs g G RG) as (s & R & T). exists s. split; [exact R|]. split; [|exact T].
  apply (C67_partial_proof (-1)%Z _ s R). repeat split.
Qed.
Example C47_iteration_case : forall stop, exists g, real_generator g /\ exists s s1 s2,
  run stop rt_init [EStart 0 g] = Some s /\ run stop s [EIter 0 0%Z at_zero] = Some s1 /\ r_last s1 = Some 0%Z /\
  run stop s1 (ECheck 0 20000000%Z :: [EWrite 0; ECall 0; ECall 0] ++ [EPoll 0]) = Some s2 /\ frame_apart 0 20000000.
Proof.
  intros stop. destruct (watched_generator true 7) as (g & _ & G & _ & RG). exists g. split; [exact RG|].
  destruct (good_runs g G RG stop) as (s & R & _).
  change (good_run g) with ([EStart 0 g] ++ [EIter 0 0%Z at_zero] ++ (ECheck 0 20000000%Z :: [EWrite 0; ECall 0; ECall 0] ++ [EPoll 0]) ++ quiet_iteration 0 30000000%Z) in R.
  destruct (run_split _ _ _ _ _ R) as (sa & Ra & R'). destruct (run_split _ _ _ _ _ R') as (sb & Rb & R'').
  destruct (run_split _ _ _ _ _ R'') as (sc & Rc & _). exists sa, sb, sc. split; [exact Ra|]. split; [exact Rb|].
  split; [|split; [exact Rc|unfold frame_apart; lia]].
  cbn in Ra. injection Ra as <-. cbn in Rb. injection Rb as <-. reflexivity.
Qed.

(** C67 is false: two generations at once race on the frame clock. *)
Theorem C67_race_free_refuted : forall stop, ~ (forall es (s : rt R),
  Forall real_start es -> run stop rt_init es = Some s -> ~ data_race es).
Proof. exact C67_refuted_proof. Qed.
Print Assumptions C67_race_free_refuted.
(** It holds if each generation starts after the previous one has returned, in
    a thread the client has synchronised with it. *)
Theorem C67_race_free_partial : forall {K} {HA : Arith K} stop es (s : rt K),
  run stop rt_init es = Some s -> serialised false (fun _ => true) es -> ~ data_race es.
Proof. exact @C67_partial_proof. Qed.
Print Assumptions C67_race_free_partial.
Example C67_case : exists g, real_generator g /\ serialised false (fun _ => true) (joined_run g) /\
  exists s, run (-1) rt_init (joined_run g) = Some s.
Proof.
  destruct (watched_generator true 7) as (g & _ & G & _ & RG). exists g. split; [exact RG|]. split; [repeat split|].
  destruct (joined_runs g G RG) as (s & R & _). exists s. exact R.
Qed.

(** C68: a frame drawn by one generation and a later iteration of another race
    unless the drawing thread has since called Generate or cancel_all or
    synchronised with another thread. *)
Theorem C68_frame_race : forall {K} {HA : Arith K} stop es1 t es2 u now (s : rt K),
  run stop rt_init (es1 ++ EWrite t :: es2 ++ [ECheck u now]) = Some s ->
  u <> t -> (forall e, In e es2 -> ~ publishes t e) -> data_race (es1 ++ EWrite t :: es2 ++ [ECheck u now]).
Proof. exact @C68_proof. Qed.
Print Assumptions C68_frame_race.
Example C68_case : forall stop, exists g, real_generator g /\ exists s es1 es2,
  run stop rt_init (es1 ++ EWrite 0 :: es2 ++ [ECheck 1 20000001%Z]) = Some s /\
  (forall e, In e es2 -> ~ publishes 0 e) /\ length es2 = 3.
Proof.
  intros stop. destruct (watched_generator true 7) as (g & _ & G & _ & RG). exists g. split; [exact RG|].
  destruct (unordered_runs g G RG stop) as (s & R & _). exists s. do 2 eexists. split; [exact R|].
  split; [intros e [<-|[<-|[<-|[]]]]; exact (fun x => x)|reflexivity].
Qed.

(** C69: what a generation does at an iteration depends on exactly one thing:
    whether the latest Generate or cancel_all call of the whole process was
    cancel_all. *)
Theorem C69_latest_call_decides : forall {K} {HA : Arith K} stop es t (s : rt K),
  run stop rt_init (es ++ [EPoll t]) = Some s ->
  ((exists g, r_threads s t = Stopping g) <->
   exists es1 u es2, es = es1 ++ ECancel u :: es2 /\ forall e, In e es2 -> ~ is_start e) /\
  ((exists g, r_threads s t = Solving g) <->
   ~ exists es1 u es2, es = es1 ++ ECancel u :: es2 /\ forall e, In e es2 -> ~ is_start e).
Proof. exact @C69_proof. Qed.
Print Assumptions C69_latest_call_decides.
Example C69_case : forall stop, exists g, real_generator g /\ exists es s,
  run stop rt_init (es ++ [EPoll 0]) = Some s /\ r_threads s 0 = Solving g /\ In (ECancel 2) es.
Proof.
  intros stop. destruct (watched_generator true 7) as (g & _ & G & _ & RG). exists g. split; [exact RG|].
  destruct (forgotten_runs g stop) as (s & R & T).
  exists ([EStart 0 g; EIter 0 0%Z at_zero; ECheck 0 5%Z] ++ ECancel 2 :: [EStart 1 g]), s.
  split; [exact R|]. split; [exact T|]. simpl. tauto.
Qed.

(** C95: a user callback that throws is the last one called for its frame; the
    exception leaves Generate. *)
Theorem C95_throwing_callback : forall {K} {HA : Arith K} {HD : Dbl K} stop es (s : rt K) t t0 env es1 s1 last now es2 s2,
  Forall real_start es -> run stop rt_init es = Some s ->
  run stop s (EIter t t0 env :: es1) = Some s1 -> (forall e, In e es1 -> thread_of e <> t) -> r_last s1 = Some last ->
  run stop s1 (ECheck t now :: es2 ++ [EThrow t]) = Some s2 ->
  (forall e, In e es2 -> ~ is_poll_of t e /\ ~ is_throw_of t e) ->
  exists esa g esb sol k, es = esa ++ EStart t g :: esb /\ (forall e, In e esb -> ~ is_start_of t e) /\
    holds_values env g sol /\ frame_apart last now /\ k < length (g_callbacks g) /\
    log_of t s2 = log_of t s ++ firstn (S k) (calls_from t 0 (g_callbacks g) sol (g_handle g) now) /\
    r_threads s2 t = Returned (Throw CallbackException).
Proof. exact @C95_proof. Qed.
Print Assumptions C95_throwing_callback.
(** The thread can call Generate again at once.  C47 and C69 hold across the
    exception: the aborted frame counts for the rate, and the exception neither
    cancels nor revives anything. *)
Theorem C95_generate_again : forall {K} {HA : Arith K} {HD : Dbl K} stop (s s' : rt K) t g,
  step stop s (EThrow t) = Some s' -> exists s1, step stop s' (EStart t g) = Some s1 /\ r_threads s1 t = Solving g.
Proof. exact @C95_again_proof. Qed.
Print Assumptions C95_generate_again.
(** The second of two callbacks throws; the next generation draws its frame. *)
Example C95_case : forall stop, exists g, real_generator g /\ g_callbacks g = [look; wipe] /\ exists s s1 s2 s3,
  run stop rt_init [EStart 0 g] = Some s /\ run stop s [EIter 0 0%Z at_zero] = Some s1 /\ r_last s1 = Some 0%Z /\
  run stop s1 (ECheck 0 20000000%Z :: [EWrite 0; ECall 0] ++ [EThrow 0]) = Some s2 /\
  run stop s2 (EStart 0 g :: frame 0 40000000%Z) = Some s3 /\ map dl_cb (r_log s3) = [0; 1; 0; 1].
Proof.
  intros stop. destruct (watched_generator true 7) as (g & _ & G & _ & RG). exists g. split; [exact RG|]. split; [exact G|].
  destruct (thrown_runs g G RG stop) as (s & R & _ & T & _). unfold thrown_run in R.
  destruct (run_split _ _ _ _ _ R) as (sa & Ra & R'). destruct (run_split _ _ _ _ _ R') as (sb & Rb & R'').
  destruct (run_split _ _ _ _ _ R'') as (sc & Rc & Rd). exists sa, sb, sc, s. split; [exact Ra|]. split; [exact Rb|].
  split; [|split; [exact Rc|split; [exact Rd|exact T]]].
  cbn in Ra. injection Ra as <-. cbn in Rb. injection Rb as <-. reflexivity.
Qed.

(** C96 is false: a callback that calls Generate clears a pending cancellation
    of the generation it was called from. *)
Theorem C96_nested_refuted : forall stop, stop <> 0%Z -> ~ (forall es v t u g es1 code env es2 (s : rt R),
  Forall real_start (es ++ ECancel v :: ESync t u :: EStart u g :: es1 ++ EFinish u code env :: ESync u t :: es2 ++ [EPoll t]) ->
  run stop rt_init (es ++ ECancel v :: ESync t u :: EStart u g :: es1 ++ EFinish u code env :: ESync u t :: es2 ++ [EPoll t]) = Some s ->
  (forall e, In e es1 -> thread_of e = u) -> (forall e, In e es2 -> e = ECall t) ->
  exists g, r_threads s t = Stopping g).
Proof. exact C96_refuted_proof. Qed.
Print Assumptions C96_nested_refuted.
(** But the nested call is free of data races: so is every run in which the
    iterations are handed from thread to thread by synchronisation.  The outer
    frame is completed as C47 says. *)
Theorem C96_nested_partial : forall {K} {HA : Arith K} {HD : Dbl K} stop es (s : rt K),
  run stop rt_init es = Some s -> handed_on (fun _ => true) es -> ~ data_race es.
Proof. exact @C96_partial_proof. Qed.
Print Assumptions C96_nested_partial.
Example C96_case : exists g, real_generator g /\ handed_on (fun _ => true) (nested_run g) /\
  exists s, run (-1) rt_init (nested_run g) = Some s /\ map dl_thread (r_log s) = [1; 1; 0; 0].
Proof.
  destruct (watched_generator true 7) as (g & _ & G & _ & RG). exists g. split; [exact RG|]. split; [repeat split|].
  destruct (nested_runs g G RG (-1)%Z) as (s & R & _ & T); [discriminate|]. exists s. split; assumption.
Qed.

(** The model's race flag is exact for happens-before. *)
Theorem race_flag_exact : forall {K} {HA : Arith K} stop es (s : rt K),
  run stop rt_init es = Some s -> (r_race s = true <-> data_race es).
Proof. exact @race_detected. Qed.
Print Assumptions race_flag_exact.
