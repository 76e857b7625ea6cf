(** The vector clocks of the runtime model decide happens-before, and its race
    flag decides whether a run has a data race. *)
From Coq Require Import List Lia ZArith Bool Relation_Operators Operators_Properties.
Import ListNotations.
From Verif Require Import Outcome Num Geometry Expr Constraints Util Builder Guess Generator Runtime
  SpecBuilder SpecGenerator SpecRuntime RuntimeProofs RaceProofs.
Local Open Scope nat_scope.

Section Hb.
  Context {K : Type} {HA : Arith K} {HD : Dbl K}.
  Variable stop : Z.
  Notation events := (list (event K)).

  Definition count (es : events) (t : nat) : nat := length (filter (fun e => Nat.eqb (thread_of e) t) es).
  Definition epoch (es : events) (k : nat) (t : nat) : nat := count (firstn (S k) es) t.
  Definition upto (es : events) (i j : nat) : Prop := i = j \/ happens_before es i j.

  Lemma count_app : forall (es : events) es' t, count (es ++ es') t = count es t + count es' t.
  Proof. intros. unfold count. rewrite filter_app, app_length. reflexivity. Qed.
  Lemma epoch_old : forall (es : events) e k t, k < length es -> epoch (es ++ [e]) k t = epoch es k t.
  Proof. intros es e k t L. unfold epoch. rewrite firstn_app. replace (S k - length es) with 0 by lia. rewrite firstn_O, app_nil_r. reflexivity. Qed.
  Lemma epoch_new : forall (es : events) e t, epoch (es ++ [e]) (length es) t = count (es ++ [e]) t.
  Proof. intros es e t. unfold epoch. rewrite firstn_all2; [reflexivity|]. rewrite app_length. simpl. lia. Qed.
  Lemma epoch_le : forall (es : events) k t, epoch es k t <= count es t.
  Proof. intros es k t. unfold epoch. rewrite <- (firstn_skipn (S k) es) at 2. rewrite count_app. lia. Qed.
  Lemma count_one : forall e t, count [e] t = if Nat.eqb (thread_of e) t then 1 else 0.
  Proof. intros. unfold count. simpl. destruct (Nat.eqb _ _); reflexivity. Qed.

  Lemma nth_old : forall (es : events) e i, i < length es -> nth_error (es ++ [e]) i = nth_error es i.
  Proof. intros. apply nth_error_app1. assumption. Qed.
  Lemma nth_new : forall (es : events) e, nth_error (es ++ [e]) (length es) = Some e.
  Proof. intros. rewrite nth_error_app2 by lia. rewrite Nat.sub_diag. reflexivity. Qed.
  Lemma nth_lt : forall (es : events) i a, nth_error es i = Some a -> i < length es.
  Proof. intros es i a H. apply nth_error_Some. congruence. Qed.

  Lemma direct_lt : forall (es : events) i j, directly_before es i j -> i < j < length es.
  Proof. intros es i j (L & a & b & _ & Hb & _). split; [exact L|exact (nth_lt _ _ _ Hb)]. Qed.
  Lemma direct_old : forall (es : events) e i j, j < length es -> directly_before (es ++ [e]) i j <-> directly_before es i j.
  Proof.
    intros es e i j L. unfold directly_before. split; intros (Lt & a & b & Ha & Hb & H); (split; [exact Lt|]); exists a, b;
      [rewrite nth_old in Ha, Hb by lia|rewrite (nth_old es e i), (nth_old es e j) by lia]; (split; [exact Ha|]); (split; [exact Hb|]).
    - destruct H as [H|[(H1 & H2 & H3)|[(H1 & H2 & H3)|H]]]; auto.
      + right. left. split; [exact H1|]. split; [exact H2|]. intros k c B Hk. apply (H3 k c B). rewrite nth_old by lia. exact Hk.
      + right. right. left. split; [exact H1|]. split; [exact H2|]. intros k c B Hk. apply (H3 k c B). rewrite nth_old by lia. exact Hk.
    - destruct H as [H|[(H1 & H2 & H3)|[(H1 & H2 & H3)|H]]]; auto.
      + right. left. split; [exact H1|]. split; [exact H2|]. intros k c B Hk. apply (H3 k c B). rewrite nth_old in Hk by lia. exact Hk.
      + right. right. left. split; [exact H1|]. split; [exact H2|]. intros k c B Hk. apply (H3 k c B). rewrite nth_old in Hk by lia. exact Hk.
  Qed.
  Lemma hb_lt : forall (es : events) i j, happens_before es i j -> i < j < length es.
  Proof. intros es i j H. induction H as [i j H|i j k H1 IH1 H2 IH2]; [exact (direct_lt _ _ _ H)|lia]. Qed.
  Lemma hb_old : forall (es : events) e i j, j < length es -> happens_before (es ++ [e]) i j <-> happens_before es i j.
  Proof.
    intros es e i j L. split; intros H.
    - revert L. induction H as [i j H|i j k H1 IH1 H2 IH2]; intros L.
      + apply t_step. apply (direct_old es e); assumption.
      + apply hb_lt in H2 as B. eapply t_trans; [apply IH1; lia|apply IH2; lia].
    - revert L. induction H as [i j H|i j k H1 IH1 H2 IH2]; intros L.
      + apply t_step. apply direct_old; assumption.
      + apply hb_lt in H2 as B. eapply t_trans; [apply IH1; lia|apply IH2; lia].
  Qed.
  Lemma hb_new : forall (es : events) e i, happens_before (es ++ [e]) i (length es) <->
    exists j, directly_before (es ++ [e]) j (length es) /\ upto es i j.
  Proof.
    intros es e i. split.
    - intros H. apply clos_trans_tn1 in H. inversion H as [y H1|j k H1 H2]; subst.
      + exists i. split; [exact H1|left; reflexivity].
      + exists j. split; [exact H1|]. right. apply clos_tn1_trans in H2. apply direct_lt in H1. apply (hb_old es e); [lia|exact H2].
    - intros (j & D & [->|U]); [apply t_step; exact D|]. eapply t_trans; [|apply t_step; exact D].
      apply direct_lt in D. apply hb_old; [lia|exact U].
  Qed.
  Lemma upto_old : forall (es : events) e i j, j < length es -> upto (es ++ [e]) i j <-> upto es i j.
  Proof. intros es e i j L. unfold upto. rewrite hb_old by exact L. reflexivity. Qed.

  (** What a thread, the flag and the initialisation carry. *)
  Definition knows (es : events) (v k : nat) : Prop :=
    exists j b, nth_error es j = Some b /\ upto es k j /\ (thread_of b = v \/ exists t, b = ESync t v).
  Definition flagged (es : events) (k : nat) : Prop :=
    exists j b, nth_error es j = Some b /\ stores b /\ upto es k j /\
      forall k c, j < k -> nth_error es k = Some c -> ~ stores c.
  Definition initial (es : events) (k : nat) : Prop :=
    exists j b, nth_error es j = Some b /\ iterates b /\ upto es k j /\
      forall k c, k < j -> nth_error es k = Some c -> ~ iterates c.

  Lemma upto_new : forall (es : events) e k, upto (es ++ [e]) k (length es) <->
    k = length es \/ knows es (thread_of e) k \/ (loads e /\ flagged es k) \/ (iterates e /\ initial es k).
  Proof.
    intros es e k. unfold upto at 1. rewrite hb_new. split.
    - intros [->|(j & (Lt & a & b & Ha & Hb & H) & U)]; [left; reflexivity|]. right.
      rewrite nth_new in Hb. injection Hb as <-. rewrite nth_old in Ha by exact Lt.
      destruct H as [H|[(H1 & H2 & H3)|[(H1 & H2 & H3)|[t H]]]].
      + left. exists j, a. auto.
      + right. left. split; [exact H2|]. exists j, a. repeat (split; [assumption|]).
        intros i c L Hi. apply (H3 i c); [split; [exact L|exact (nth_lt _ _ _ Hi)]|]. rewrite nth_old; [exact Hi|exact (nth_lt _ _ _ Hi)].
      + right. right. split; [exact H2|]. exists j, a. repeat (split; [assumption|]).
        intros i c L Hi. apply (H3 i c L). rewrite nth_old by lia. exact Hi.
      + left. exists j, a. subst. eauto.
    - assert (D : forall j b, nth_error es j = Some b ->
        (thread_of b = thread_of e \/
         (stores b /\ loads e /\ forall k c, j < k < length es -> nth_error (es ++ [e]) k = Some c -> ~ stores c) \/
         (iterates b /\ iterates e /\ forall k c, k < j -> nth_error (es ++ [e]) k = Some c -> ~ iterates c) \/
         (exists t, b = ESync t (thread_of e))) -> upto es k j ->
        exists j, directly_before (es ++ [e]) j (length es) /\ upto es k j).
      { intros j b Hj H U. exists j. split; [|exact U]. split; [exact (nth_lt _ _ _ Hj)|]. exists b, e.
        rewrite nth_new, nth_old by exact (nth_lt _ _ _ Hj). auto. }
      intros [->|H]; [left; reflexivity|]. right. destruct H as [(j & b & Hj & U & H)|[(Le & j & b & Hj & Sb & U & N)|(Ie & j & b & Hj & Ib & U & N)]].
      + apply (D j b Hj); [|exact U]. destruct H as [H|[t H]]; [left; exact H|right; right; right; exists t; exact H].
      + apply (D j b Hj); [|exact U]. right. left. repeat (split; [assumption|]).
        intros i c [L1 L2] Hi. rewrite nth_old in Hi by exact L2. exact (N i c L1 Hi).
      + apply (D j b Hj); [|exact U]. right. right. left. repeat (split; [assumption|]).
        intros i c L Hi. rewrite nth_old in Hi; [exact (N i c L Hi)|]. apply nth_lt in Hj. lia.
  Qed.

  (** The clock [c] holds exactly the events in [S]. *)
  Definition represents (es : events) (c : vclock) (P : nat -> Prop) : Prop :=
    forall k a, nth_error es k = Some a -> epoch es k (thread_of a) <= c (thread_of a) <-> P k.

  Lemma rep_keep : forall (es : events) e c (P Q : nat -> Prop), represents es c P -> c (thread_of e) <= count es (thread_of e) ->
    (forall k, k < length es -> Q k <-> P k) -> ~ Q (length es) -> represents (es ++ [e]) c Q.
  Proof.
    intros es e c P Q R L H N k a Hk. destruct (lt_dec k (length es)) as [Lk|Lk].
    - rewrite nth_old in Hk by exact Lk. rewrite epoch_old by exact Lk. rewrite H by exact Lk. exact (R k a Hk).
    - assert (k = length es) as ->. { apply nth_lt in Hk. rewrite app_length in Hk. simpl in Hk. lia. }
      rewrite nth_new in Hk. injection Hk as <-. rewrite epoch_new, count_app, count_one, Nat.eqb_refl. split; [lia|contradiction].
  Qed.
  Lemma rep_tick : forall (es : events) e c (P Q : nat -> Prop), represents es c P -> c (thread_of e) = count es (thread_of e) ->
    (forall k, k < length es -> Q k <-> P k) -> Q (length es) -> represents (es ++ [e]) (vc_tick (thread_of e) c) Q.
  Proof.
    intros es e c P Q R L H N k a Hk. destruct (lt_dec k (length es)) as [Lk|Lk].
    - rewrite nth_old in Hk by exact Lk. rewrite epoch_old by exact Lk. rewrite H by exact Lk.
      destruct (Nat.eq_dec (thread_of a) (thread_of e)) as [E|E].
      + rewrite E, tick_same. pose proof (epoch_le es k (thread_of e)). split; [|lia]. intros _. apply (R k a Hk). rewrite E. lia.
      + rewrite tick_other by exact E. exact (R k a Hk).
    - assert (k = length es) as ->. { apply nth_lt in Hk. rewrite app_length in Hk. simpl in Hk. lia. }
      rewrite nth_new in Hk. injection Hk as <-. rewrite epoch_new, count_app, count_one, Nat.eqb_refl, tick_same. split; [auto|lia].
  Qed.
  Lemma rep_join : forall (es : events) c d (P Q T : nat -> Prop), represents es c P -> represents es d Q ->
    (forall k, T k <-> P k \/ Q k) -> represents es (vc_join c d) T.
  Proof.
    intros es c d P Q T R1 R2 H k a Hk. rewrite H, <- (R1 k a Hk), <- (R2 k a Hk). unfold vc_join. lia.
  Qed.
  Lemma rep_ext : forall (es : events) c (P Q : nat -> Prop), represents es c P -> (forall k, k < length es -> Q k <-> P k) -> represents es c Q.
  Proof. intros es c P Q R H k a Hk. rewrite H by exact (nth_lt _ _ _ Hk). exact (R k a Hk). Qed.

  (** How the sets grow. *)
  Lemma last_cases : forall (es : events) e j b, nth_error (es ++ [e]) j = Some b ->
    (j < length es /\ nth_error es j = Some b) \/ (j = length es /\ b = e).
  Proof.
    intros es e j b H. destruct (lt_dec j (length es)) as [L|L].
    - left. rewrite nth_old in H by exact L. auto.
    - right. assert (j = length es) as ->. { apply nth_lt in H. rewrite app_length in H. simpl in H. lia. }
      rewrite nth_new in H. injection H as <-. auto.
  Qed.
  Lemma upto_fresh : forall (es : events) e j, j < length es -> ~ upto (es ++ [e]) (length es) j.
  Proof. intros es e j L [E|E]; [lia|]. apply hb_lt in E. lia. Qed.
  Lemma knows_same : forall (es : events) e k, knows (es ++ [e]) (thread_of e) k <-> knows es (thread_of e) k \/ upto (es ++ [e]) k (length es).
  Proof.
    intros es e k. split.
    - intros (j & b & Hj & U & H). apply last_cases in Hj. destruct Hj as [[L Hj]|[-> ->]]; [|right; exact U].
      left. exists j, b. rewrite upto_old in U by exact L. auto.
    - intros [(j & b & Hj & U & H)|U].
      + exists j, b. rewrite nth_old, upto_old by exact (nth_lt _ _ _ Hj). auto.
      + exists (length es), e. rewrite nth_new. auto.
  Qed.
  Lemma knows_other : forall (es : events) e v k, thread_of e <> v -> (forall t, e <> ESync t v) -> knows (es ++ [e]) v k <-> knows es v k.
  Proof.
    intros es e v k D NS. split.
    - intros (j & b & Hj & U & H). apply last_cases in Hj. destruct Hj as [[L Hj]|[-> ->]].
      + exists j, b. rewrite upto_old in U by exact L. auto.
      + destruct H as [H|[t H]]; [contradiction|destruct (NS t H)].
    - intros (j & b & Hj & U & H). exists j, b. rewrite nth_old, upto_old by exact (nth_lt _ _ _ Hj). auto.
  Qed.
  Lemma knows_sync : forall (es : events) t v k, knows (es ++ [ESync t v]) v k <-> knows es v k \/ upto (es ++ [ESync t v]) k (length es).
  Proof.
    intros es t v k. split.
    - intros (j & b & Hj & U & H). apply last_cases in Hj. destruct Hj as [[L Hj]|[-> ->]]; [|right; exact U].
      left. exists j, b. rewrite upto_old in U by exact L. auto.
    - intros [(j & b & Hj & U & H)|U].
      + exists j, b. rewrite nth_old, upto_old by exact (nth_lt _ _ _ Hj). auto.
      + exists (length es), (ESync t v). rewrite nth_new. eauto.
  Qed.
  Lemma knows_lt : forall (es : events) v k, knows es v k -> k < length es.
  Proof. intros es v k (j & b & Hj & [->|U] & _); [exact (nth_lt _ _ _ Hj)|]. apply hb_lt in U. lia. Qed.
  Lemma flagged_keep : forall (es : events) e k, ~ stores e -> flagged (es ++ [e]) k <-> flagged es k.
  Proof.
    intros es e k NS. split.
    - intros (j & b & Hj & Sb & U & N). apply last_cases in Hj. destruct Hj as [[L Hj]|[-> ->]]; [|contradiction].
      exists j, b. rewrite upto_old in U by exact L. repeat (split; [assumption|]).
      intros i c Li Hi. apply (N i c Li). rewrite nth_old; [exact Hi|exact (nth_lt _ _ _ Hi)].
    - intros (j & b & Hj & Sb & U & N). exists j, b. rewrite nth_old, upto_old by exact (nth_lt _ _ _ Hj). repeat (split; [assumption|]).
      intros i c Li Hi. apply last_cases in Hi. destruct Hi as [[L Hi]|[-> ->]]; [exact (N i c Li Hi)|exact NS].
  Qed.
  Lemma flagged_set : forall (es : events) e k, stores e -> flagged (es ++ [e]) k <-> upto (es ++ [e]) k (length es).
  Proof.
    intros es e k Se. split.
    - intros (j & b & Hj & Sb & U & N). apply last_cases in Hj. destruct Hj as [[L Hj]|[-> ->]]; [|exact U].
      destruct (N (length es) e L (nth_new es e) Se).
    - intros U. exists (length es), e. rewrite nth_new. repeat (split; [auto|]).
      intros i c Li Hi. apply nth_lt in Hi. rewrite app_length in Hi. simpl in Hi. lia.
  Qed.
  Lemma initial_keep : forall (es : events) e k, (~ iterates e \/ exists j b, nth_error es j = Some b /\ iterates b) ->
    initial (es ++ [e]) k <-> initial es k.
  Proof.
    intros es e k NS. split.
    - intros (j & b & Hj & Sb & U & N). apply last_cases in Hj. destruct Hj as [[L Hj]|[-> ->]].
      + exists j, b. rewrite upto_old in U by exact L. repeat (split; [assumption|]).
        intros i c Li Hi. apply (N i c Li). rewrite nth_old by lia. exact Hi.
      + destruct NS as [NS|(i & c & Hi & Ic)]; [contradiction|]. exfalso.
        apply (N i c); [exact (nth_lt _ _ _ Hi)| |exact Ic]. rewrite nth_old; [exact Hi|exact (nth_lt _ _ _ Hi)].
    - intros (j & b & Hj & Sb & U & N). exists j, b. rewrite nth_old, upto_old by exact (nth_lt _ _ _ Hj). repeat (split; [assumption|]).
      intros i c Li Hi. apply (N i c Li). rewrite nth_old in Hi; [exact Hi|]. apply nth_lt in Hj. lia.
  Qed.
  Lemma initial_set : forall (es : events) e k, iterates e -> (forall j b, nth_error es j = Some b -> ~ iterates b) ->
    initial (es ++ [e]) k <-> upto (es ++ [e]) k (length es).
  Proof.
    intros es e k Ie N. split.
    - intros (j & b & Hj & Sb & U & _). apply last_cases in Hj. destruct Hj as [[L Hj]|[-> ->]]; [|exact U].
      destruct (N j b Hj Sb).
    - intros U. exists (length es), e. rewrite nth_new. repeat (split; [auto|]).
      intros i c Li Hi. rewrite nth_old in Hi by exact Li. exact (N i c Hi).
  Qed.

  Definition clocks_inv (es : events) (s : rt K) : Prop :=
    (forall v, r_clocks s v v = count es v) /\
    (forall v, represents es (r_clocks s v) (knows es v)) /\
    represents es (r_flag_clock s) (flagged es) /\
    represents es (r_init_clock s) (initial es) /\
    (r_last s = None -> forall j b, nth_error es j = Some b -> ~ iterates b) /\
    (r_last s <> None -> exists j b, nth_error es j = Some b /\ iterates b) /\
    (forall a, In a (r_accesses s) <-> exists k e w, nth_error es k = Some e /\ touches e w /\
       a = mkAccess (thread_of e) (epoch es k (thread_of e)) w) /\
    (r_race s = true <-> data_race es).

  Lemma race_grows : forall (es : events) e, data_race (es ++ [e]) <-> data_race es \/
    exists i a wa w, nth_error es i = Some a /\ thread_of a <> thread_of e /\ touches a wa /\ touches e w /\
      (wa = true \/ w = true) /\ ~ upto (es ++ [e]) i (length es).
  Proof.
    intros es e. split.
    - intros (i & j & a & b & wa & wb & L & Hi & Hj & D & Ta & Tb & W & N).
      apply last_cases in Hj. destruct Hj as [[Lj Hj]|[-> ->]].
      + left. exists i, j, a, b, wa, wb. rewrite nth_old in Hi by lia. rewrite hb_old in N by exact Lj. tauto.
      + right. exists i, a, wa, wb. rewrite nth_old in Hi by lia. repeat (split; [assumption|]). intros [E|E]; [lia|contradiction].
    - intros [(i & j & a & b & wa & wb & L & Hi & Hj & D & Ta & Tb & W & N)|(i & a & wa & w & Hi & D & Ta & Tb & W & N)].
      + exists i, j, a, b, wa, wb. rewrite !nth_old by first [exact (nth_lt _ _ _ Hi)|exact (nth_lt _ _ _ Hj)].
        rewrite hb_old by exact (nth_lt _ _ _ Hj). tauto.
      + exists i, (length es), a, e, wa, w. rewrite nth_old by exact (nth_lt _ _ _ Hi). rewrite nth_new.
        split; [exact (nth_lt _ _ _ Hi)|]. split; [exact Hi|]. split; [reflexivity|]. split; [exact D|]. split; [exact Ta|]. split; [exact Tb|]. split; [exact W|]. intros H. apply N. right. exact H.
  Qed.

  (** What a step does to clocks, given the sets its event adds. *)
  Lemma clocks_step : forall (s s' : rt K) es e, run stop rt_init es = Some s -> step stop s e = Some s' ->
    clocks_inv es s -> clocks_inv (es ++ [e]) s'.
  Proof.
    intros s s' es e R S (I1 & I2 & I3 & I4 & I5 & I6 & I7 & I8).
    destruct (run_known stop es s R) as (Kc & Kf & Ki & _).
    set (n := length es) in *. set (t := thread_of e).
    assert (Kt : forall c, (forall v, c v <= r_clocks s v v) -> c t <= count es t) by (intros c B; rewrite <- I1; apply B).
    (* the thread's own clock, ticked: everything up to the new event *)
    assert (Own : forall Q, (forall k, k < n -> Q k <-> knows es t k) -> Q n -> represents (es ++ [e]) (vc_tick t (r_clocks s t)) Q).
    { intros Q HQ Qn. apply (rep_tick es e (r_clocks s t) (knows es t) Q); auto. }
    assert (Tick : ~ loads e -> ~ iterates e \/ r_last s = None ->
              represents (es ++ [e]) (vc_tick t (r_clocks s t)) (fun k => upto (es ++ [e]) k n)).
    { intros NL NI. apply Own; [|left; reflexivity]. intros k Lk. unfold n. rewrite upto_new. split; [|auto].
      intros [E|[E|[[E _]|[E F]]]]; [unfold n in Lk; lia|exact E|contradiction|].
      destruct NI as [NI|NI]; [contradiction|]. destruct F as (j & b & Hj & Ib & _). destruct (I5 NI j b Hj Ib). }
    assert (KeepF : ~ stores e -> represents (es ++ [e]) (r_flag_clock s) (flagged (es ++ [e]))).
    { intros NS. apply (rep_keep es e _ (flagged es)); [exact I3|exact (Kt _ Kf)|intros; apply flagged_keep; exact NS|].
      rewrite flagged_keep by exact NS. intros (j & b & Hj & _ & [E|E] & _); [apply nth_lt in Hj; lia|apply hb_lt in E; lia]. }
    assert (KeepI : (~ iterates e \/ r_last s <> None) -> represents (es ++ [e]) (r_init_clock s) (initial (es ++ [e]))).
    { intros NS. assert (NS' : ~ iterates e \/ exists j b, nth_error es j = Some b /\ iterates b) by (destruct NS; auto).
      apply (rep_keep es e _ (initial es)); [exact I4|exact (Kt _ Ki)|intros; apply initial_keep; exact NS'|].
      rewrite initial_keep by exact NS'. intros (j & b & Hj & _ & [E|E] & _); [apply nth_lt in Hj; lia|apply hb_lt in E; lia]. }
    assert (KeepC : forall v, v <> t -> (forall u, e <> ESync u v) -> represents (es ++ [e]) (r_clocks s v) (knows (es ++ [e]) v)).
    { intros v D NS. apply (rep_keep es e _ (knows es v)); [apply I2|apply Kt; intros w; apply Kc|intros; apply knows_other; auto|].
      rewrite knows_other by auto. intros N. apply knows_lt in N. unfold n in N. lia. }
    assert (Cn : forall v, count (es ++ [e]) v = if Nat.eqb t v then Datatypes.S (count es v) else count es v).
    { intros v. rewrite count_app, count_one. fold t. destruct (Nat.eqb t v); lia. }
    assert (Up : forall k, knows es t k -> upto (es ++ [e]) k n).
    { intros k H. unfold n. apply upto_new. auto. }
    assert (Mine : forall k, knows (es ++ [e]) t k <-> upto (es ++ [e]) k n).
    { intros k. unfold t, n. rewrite knows_same. fold t n. split; [intros [H|H]; auto|auto]. }
    (* clocks of all threads, when only [t]'s changes *)
    assert (All : forall c, c t = Datatypes.S (r_clocks s t t) -> represents (es ++ [e]) c (fun k => upto (es ++ [e]) k n) ->
              (forall u v, e <> ESync u v) ->
              (forall v, set_at (r_clocks s) t c v v = count (es ++ [e]) v) /\
              (forall v, represents (es ++ [e]) (set_at (r_clocks s) t c v) (knows (es ++ [e]) v))).
    { intros c Ec Rc NS. split; intros v; destruct (set_at_cases (r_clocks s) t v c) as [[-> E]|[D E]]; rewrite E.
      - rewrite Ec, Cn, Nat.eqb_refl, I1. reflexivity.
      - rewrite Cn. replace (Nat.eqb t v) with false by (symmetry; apply Nat.eqb_neq; congruence). apply I1.
      - eapply rep_ext; [exact Rc|]. intros k _. apply Mine.
      - apply KeepC; [exact D|intros u; apply NS]. }
    (* accesses and races, for events that touch nothing *)
    assert (NoAcc : (forall w, ~ touches e w) -> (forall a, In a (r_accesses s) <-> exists k e0 w, nth_error (es ++ [e]) k = Some e0 /\ touches e0 w /\
       a = mkAccess (thread_of e0) (epoch (es ++ [e]) k (thread_of e0)) w) /\ (r_race s = true <-> data_race (es ++ [e]))).
    { intros NT. split.
      - intros a. rewrite I7. split; intros (k & e0 & w & Hk & T & ->).
        + exists k, e0, w. rewrite nth_old, epoch_old by exact (nth_lt _ _ _ Hk). auto.
        + apply last_cases in Hk. destruct Hk as [[L Hk]|[-> ->]]; [|destruct (NT w T)].
          exists k, e0, w. rewrite epoch_old by exact L. auto.
      - rewrite race_grows, I8. split; [auto|]. intros [H|(i & a & wa & w & _ & _ & _ & T & _)]; [exact H|destruct (NT w T)]. }
    (* and for those that do *)
    assert (Acc : forall w, touches e w -> ~ loads e -> ~ iterates e -> let c := vc_tick t (r_clocks s t) in
       (forall a, In a (r_accesses s ++ [mkAccess t (c t) w]) <-> exists k e0 w, nth_error (es ++ [e]) k = Some e0 /\ touches e0 w /\
         a = mkAccess (thread_of e0) (epoch (es ++ [e]) k (thread_of e0)) w) /\
       (r_race s || existsb (races_with c t w) (r_accesses s) = true <-> data_race (es ++ [e]))).
    { intros w T NL NI c. assert (Rc : represents (es ++ [e]) c (fun k => upto (es ++ [e]) k n)) by (apply Tick; auto).
      assert (Uw : forall w', touches e w' -> w' = w) by (destruct e; simpl in *; try contradiction; intros; congruence).
      split.
      - intros a. rewrite in_app_iff, I7. split.
        + intros [(k & e0 & w0 & Hk & T0 & ->)|[<-|[]]].
          * exists k, e0, w0. rewrite nth_old, epoch_old by exact (nth_lt _ _ _ Hk). auto.
          * exists n, e, w. unfold n. rewrite nth_new, epoch_new. repeat (split; [auto|]). fold t. rewrite Cn, Nat.eqb_refl.
            unfold c. rewrite tick_same, I1. reflexivity.
        + intros (k & e0 & w0 & Hk & T0 & ->). apply last_cases in Hk. destruct Hk as [[L Hk]|[-> ->]].
          * left. exists k, e0, w0. rewrite epoch_old by exact L. auto.
          * right. left. rewrite epoch_new. fold t. rewrite Cn, Nat.eqb_refl, (Uw w0 T0). unfold c. rewrite tick_same, I1. reflexivity.
      - rewrite orb_true_iff, I8, race_grows, existsb_exists. split; (intros [H|H]; [left; exact H|right]).
        + destruct H as (a & Ia & Ra). apply I7 in Ia. destruct Ia as (k & e0 & w0 & Hk & T0 & ->).
          unfold races_with in Ra. cbn [ac_thread ac_write ac_epoch] in Ra.
          apply andb_true_iff in Ra. destruct Ra as [Ra Lt]. apply andb_true_iff in Ra. destruct Ra as [D W].
          apply negb_true_iff, Nat.eqb_neq in D. apply Nat.ltb_lt in Lt. apply orb_true_iff in W.
          exists k, e0, w0, w. repeat (split; [assumption|]). split; [tauto|].
          fold n. intros U. apply (Rc k e0) in U; [|rewrite nth_old by exact (nth_lt _ _ _ Hk); exact Hk].
          rewrite epoch_old in U by exact (nth_lt _ _ _ Hk). lia.
        + destruct H as (k & e0 & w0 & w' & Hk & D & T0 & T' & W & N). rewrite (Uw w' T') in W.
          exists (mkAccess (thread_of e0) (epoch es k (thread_of e0)) w0). split; [apply I7; exists k, e0, w0; auto|].
          unfold races_with. cbn [ac_thread ac_write ac_epoch]. fold t in D. apply Nat.eqb_neq in D. rewrite D.
          replace (w || w0) with true by (destruct W as [->| ->]; [rewrite orb_true_r|]; reflexivity). simpl. apply Nat.ltb_lt.
          destruct (lt_dec (c (thread_of e0)) (epoch es k (thread_of e0))) as [L|L]; [exact L|]. exfalso. apply N. fold n.
          apply (Rc k e0); [rewrite nth_old by exact (nth_lt _ _ _ Hk); exact Hk|]. rewrite epoch_old by exact (nth_lt _ _ _ Hk). lia. }
    assert (Last : ~ iterates e -> (r_last s = None -> forall j b, nth_error (es ++ [e]) j = Some b -> ~ iterates b) /\
                   (r_last s <> None -> exists j b, nth_error (es ++ [e]) j = Some b /\ iterates b)).
    { intros NI. split.
      - intros L j b Hj. apply last_cases in Hj. destruct Hj as [[_ Hj]|[-> ->]]; [exact (I5 L j b Hj)|exact NI].
      - intros L. destruct (I6 L) as (j & b & Hj & Ib). exists j, b. rewrite nth_old by exact (nth_lt _ _ _ Hj). auto. }
    unfold clocks_inv. destruct e; cbn [thread_of] in t; subst t.
    - (* start *)
      specialize (All (vc_tick t0 (r_clocks s t0)) (tick_same _ _) (Tick (fun x => x) (or_introl (fun x => x))) ltac:(congruence)).
      step_cases S; cbn [r_clocks r_flag_clock r_init_clock r_last r_accesses r_race];
        (split; [apply All|]); (split; [apply All|]);
        (split; [eapply rep_ext; [apply Tick; simpl; auto|]; intros k _; apply flagged_set; exact I|]);
        (split; [apply KeepI; left; exact (fun x => x)|]);
        (split; [apply Last; exact (fun x => x)|]); (split; [apply Last; exact (fun x => x)|]);
        apply NoAcc; intros w [].
    - (* iteration *)
      unfold step in S. destruct (r_threads s t0); try discriminate S. destruct (r_last s) as [z|] eqn:L; injection S as <-;
        cbn [moved r_clocks r_flag_clock r_init_clock r_last r_accesses r_race].
      + assert (Rc : represents (es ++ [EIter t0 t1 env]) (vc_join (vc_tick t0 (r_clocks s t0)) (r_init_clock s))
                       (fun k => upto (es ++ [EIter t0 t1 env]) k n)).
        { assert (NN : Some z <> None) by discriminate. rewrite <- L in *.
          apply (rep_join _ _ _ (fun k => k = n \/ knows es t0 k) (initial es)).
          - apply Own; [|auto]. intros k Lk. split; [intros [E|E]; [lia|exact E]|auto].
          - eapply rep_ext; [apply KeepI; auto|]. intros k _. symmetry. apply initial_keep. auto.
          - intros k. unfold n. rewrite upto_new. cbn [thread_of loads iterates]. clear. tauto. }
        assert (Ec : vc_join (vc_tick t0 (r_clocks s t0)) (r_init_clock s) t0 = Datatypes.S (r_clocks s t0 t0)).
        { unfold vc_join. rewrite tick_same. specialize (Ki t0). lia. }
        specialize (All _ Ec Rc ltac:(congruence)).
        split; [apply All|]. split; [apply All|]. split; [apply KeepF; exact (fun x => x)|].
        split; [apply KeepI; right; congruence|].
        split; [intros E; congruence|].
        split; [intros _; exists (length es), (EIter t0 t1 env); rewrite nth_new; split; [reflexivity|exact I]|].
        apply NoAcc; intros w [].
      + assert (Rc := Tick (fun x => x) (or_intror eq_refl)).
        specialize (All _ (tick_same _ _) Rc ltac:(congruence)).
        split; [apply All|]. split; [apply All|]. split; [apply KeepF; exact (fun x => x)|].
        split; [eapply rep_ext; [exact Rc|]; intros k _; apply initial_set; [exact I|exact (I5 eq_refl)]|].
        split; [discriminate|].
        split; [intros _; exists (length es), (EIter t0 t1 env); rewrite nth_new; split; [reflexivity|exact I]|].
        apply NoAcc; intros w [].
    - (* check *)
      specialize (All (vc_tick t0 (r_clocks s t0)) (tick_same _ _) (Tick (fun x => x) (or_introl (fun x => x))) ltac:(congruence)).
      unfold step in S. destruct (r_threads s t0); try discriminate S. destruct (r_last s) as [z|] eqn:L; [|discriminate S]. injection S as <-.
      cbn [moved r_clocks r_flag_clock r_init_clock r_last r_accesses r_race].
      split; [apply All|]. split; [apply All|]. split; [apply KeepF; exact (fun x => x)|].
      split; [apply KeepI; left; exact (fun x => x)|].
      split; [apply Last; exact (fun x => x)|]. split; [apply Last; exact (fun x => x)|].
      apply (Acc false); [reflexivity|exact (fun x => x)|exact (fun x => x)].
    - (* write *)
      specialize (All (vc_tick t0 (r_clocks s t0)) (tick_same _ _) (Tick (fun x => x) (or_introl (fun x => x))) ltac:(congruence)).
      assert (NL : r_last s <> None).
      { destruct (frame_facts stop es s R) as (FI & _). unfold step in S. destruct (r_threads s t0) eqn:Ht; try discriminate S.
        apply (FI t0 _ _ _ Ht). }
      unfold step in S. destruct (r_threads s t0); try discriminate S. destruct (ConstructSwerveSolution _ _); try discriminate S. injection S as <-.
      cbn [moved r_clocks r_flag_clock r_init_clock r_last r_accesses r_race].
      split; [apply All|]. split; [apply All|]. split; [apply KeepF; exact (fun x => x)|].
      split; [apply KeepI; left; exact (fun x => x)|].
      split; [discriminate|]. split; [intros _; apply Last; [exact (fun x => x)|exact NL]|].
      apply (Acc true); [reflexivity|exact (fun x => x)|exact (fun x => x)].
    - (* call *)
      specialize (All (vc_tick t0 (r_clocks s t0)) (tick_same _ _) (Tick (fun x => x) (or_introl (fun x => x))) ltac:(congruence)).
      step_cases S; cbn [r_clocks r_flag_clock r_init_clock r_last r_accesses r_race].
      split; [apply All|]. split; [apply All|]. split; [apply KeepF; exact (fun x => x)|].
      split; [apply KeepI; left; exact (fun x => x)|].
      split; [apply Last; exact (fun x => x)|]. split; [apply Last; exact (fun x => x)|]. apply NoAcc; intros w [].
    - (* poll *)
      assert (Rc : represents (es ++ [EPoll t0]) (vc_join (vc_tick t0 (r_clocks s t0)) (r_flag_clock s))
                     (fun k => upto (es ++ [EPoll t0]) k n)).
      { apply (rep_join _ _ _ (fun k => k = n \/ knows es t0 k) (flagged es)).
        - apply Own; [|auto]. intros k Lk. split; [intros [E|E]; [lia|exact E]|auto].
        - eapply rep_ext; [apply KeepF; exact (fun x => x)|]. intros k _. symmetry. apply flagged_keep. exact (fun x => x).
        - intros k. unfold n. rewrite upto_new. cbn [thread_of loads iterates]. clear. tauto. }
      assert (Ec : vc_join (vc_tick t0 (r_clocks s t0)) (r_flag_clock s) t0 = Datatypes.S (r_clocks s t0 t0)).
      { unfold vc_join. rewrite tick_same. specialize (Kf t0). lia. }
      specialize (All _ Ec Rc ltac:(congruence)).
      unfold step in S. destruct (r_threads s t0); try discriminate S. injection S as <-.
      cbn [moved r_clocks r_flag_clock r_init_clock r_last r_accesses r_race].
      split; [apply All|]. split; [apply All|]. split; [apply KeepF; exact (fun x => x)|].
      split; [apply KeepI; left; exact (fun x => x)|].
      split; [apply Last; exact (fun x => x)|]. split; [apply Last; exact (fun x => x)|]. apply NoAcc; intros w [].
    - (* finish *)
      specialize (All (vc_tick t0 (r_clocks s t0)) (tick_same _ _) (Tick (fun x => x) (or_introl (fun x => x))) ltac:(congruence)).
      unfold step in S. destruct (r_threads s t0); try discriminate S; destruct (_ =? _)%Z; try discriminate S; injection S as <-;
      cbn [moved r_clocks r_flag_clock r_init_clock r_last r_accesses r_race];
      (split; [apply All|]); (split; [apply All|]); (split; [apply KeepF; exact (fun x => x)|]);
      (split; [apply KeepI; left; exact (fun x => x)|]);
      (split; [apply Last; exact (fun x => x)|]); (split; [apply Last; exact (fun x => x)|]); apply NoAcc; intros w [].
    - (* cancel *)
      specialize (All (vc_tick t0 (r_clocks s t0)) (tick_same _ _) (Tick (fun x => x) (or_introl (fun x => x))) ltac:(congruence)).
      step_cases S; cbn [r_clocks r_flag_clock r_init_clock r_last r_accesses r_race].
      split; [apply All|]. split; [apply All|].
      split; [eapply rep_ext; [apply Tick; simpl; auto|]; intros k _; apply flagged_set; exact I|].
      split; [apply KeepI; left; exact (fun x => x)|].
      split; [apply Last; exact (fun x => x)|]. split; [apply Last; exact (fun x => x)|]. apply NoAcc; intros w [].
    - (* synchronisation *)
      unfold step in S. match type of S with (if ?b then _ else _) = _ => destruct b eqn:B; [|discriminate S] end. injection S as <-.
      apply andb_true_iff in B. destruct B as [_ B]. apply negb_true_iff, Nat.eqb_neq in B.
      assert (Rc := Tick (fun x => x) (or_introl (fun x => x))).
      cbn [r_clocks r_flag_clock r_init_clock r_last r_accesses r_race].
      split; [|split].
      + intros v. destruct (Nat.eq_dec v u) as [->|Du].
        * rewrite set_at_same, Cn. replace (Nat.eqb t0 u) with false by (symmetry; apply Nat.eqb_neq; exact B).
          unfold vc_join. rewrite tick_other by congruence. rewrite I1. pose proof (Kc u t0). rewrite <- I1. lia.
        * rewrite set_at_other by exact Du. destruct (Nat.eq_dec v t0) as [->|Dt].
          -- rewrite set_at_same, tick_same, Cn, Nat.eqb_refl, I1. reflexivity.
          -- rewrite set_at_other by exact Dt. rewrite Cn. replace (Nat.eqb t0 v) with false by (symmetry; apply Nat.eqb_neq; congruence). apply I1.
      + intros v. destruct (Nat.eq_dec v u) as [->|Du].
        * rewrite set_at_same. apply (rep_join _ _ _ (knows es u) (fun k => upto (es ++ [ESync t0 u]) k n)).
          -- apply (rep_keep es (ESync t0 u) _ (knows es u)); [apply I2|apply Kt; intros w; apply Kc|intros ? _; reflexivity|].
             intros N. apply knows_lt in N. lia.
          -- exact Rc.
          -- intros k. apply knows_sync.
        * rewrite set_at_other by exact Du. destruct (Nat.eq_dec v t0) as [->|Dt].
          -- rewrite set_at_same. eapply rep_ext; [exact Rc|]. intros k _. apply Mine.
          -- rewrite set_at_other by exact Dt. apply KeepC; [exact Dt|congruence].
      + split; [apply KeepF; exact (fun x => x)|].
        split; [apply KeepI; left; exact (fun x => x)|].
        split; [apply Last; exact (fun x => x)|]. split; [apply Last; exact (fun x => x)|]. apply NoAcc; intros w [].
    - (* throw *)
      specialize (All (vc_tick t0 (r_clocks s t0)) (tick_same _ _) (Tick (fun x => x) (or_introl (fun x => x))) ltac:(congruence)).
      step_cases S; cbn [r_clocks r_flag_clock r_init_clock r_last r_accesses r_race].
      split; [apply All|]. split; [apply All|]. split; [apply KeepF; exact (fun x => x)|].
      split; [apply KeepI; left; exact (fun x => x)|].
      split; [apply Last; exact (fun x => x)|]. split; [apply Last; exact (fun x => x)|]. apply NoAcc; intros w [].
  Qed.

  Theorem race_detected : forall (es : events) s, run stop rt_init es = Some s -> (r_race s = true <-> data_race es).
  Proof.
    intros es s R. enough (H : clocks_inv es s) by apply H. revert es s R.
    apply (run_ind stop clocks_inv).
    - assert (E : forall k (a : event K), nth_error [] k = Some a -> False) by (intros [|k] a H; discriminate H).
      split; [reflexivity|].
      split; [intros v k a H; destruct (E _ _ H)|]. split; [intros k a H; destruct (E _ _ H)|]. split; [intros k a H; destruct (E _ _ H)|].
      split; [intros _ j b H; destruct (E _ _ H)|]. split; [intros H; contradiction H; reflexivity|].
      split; [intros a; split; [intros []|intros (k & e & w & H & _); destruct (E _ _ H)]|].
      split; [discriminate|]. intros (i & j & a & b & wa & wb & _ & H & _). destruct (E _ _ H).
    - intros es e s s' R I S. exact (clocks_step s s' es e R S I).
  Qed.
  Corollary no_race_iff : forall (es : events) s, run stop rt_init es = Some s -> (r_race s = false <-> ~ data_race es).
  Proof.
    intros es s R. rewrite <- (race_detected es s R). destruct (r_race s); split; intros; congruence.
  Qed.
End Hb.
