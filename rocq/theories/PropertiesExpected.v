(** The vendored expected, which carries Generate's result (C106 to C109). *)
From Coq Require Import List Bool.
Import ListNotations.
From Verif Require Import Expected ExpectedCalls SpecExpected SpecExpectedCalls ExpectedProofs ExpectedMore ExpectedEnds.

(** *** C106: a result holds what was put in it *)

(** Every statement does what it is for. *)
Theorem C106_meaning : forall T E (t : element T) (e : element E) dflt asserts o s r s' n,
  meant t e dflt o s = Some (r, s') ->
  run t e dflt asserts o (world_of s n []) = (result_of r, world_of s' (leak o + n) []).
Proof. exact (@meaning). Qed.
Print Assumptions C106_meaning.

(** So does every program. *)
Theorem C106_programs : forall T E (t : element T) (e : element E) dflt asserts l s rs s' n,
  meant_all t e dflt l s = Some (rs, s') ->
  run_all t e dflt asserts l (world_of s n []) = (map result_of rs, world_of s' (leaks l + n) []).
Proof. exact (@programs). Qed.
Print Assumptions C106_programs.

(** Anything else is undefined, or is caught by the assertion. *)
Theorem C106_misuse : forall T E (t : element T) (e : element E) dflt asserts o s n,
  meant t e dflt o s = None ->
  exists w, run t e dflt asserts o (world_of s n []) = (Undefined, w) \/
            (checked o = true /\ asserts = true /\ run t e dflt asserts o (world_of s n []) = (Asserted, w)).
Proof. exact (@misuse). Qed.
Print Assumptions C106_misuse.

(** What Generate returns is what the caller reads, whatever memory is left. *)
Theorem C106_returned : forall T E (t : element T) (e : element E) asserts (c : T + E) s n f,
  moves_quietly t -> moves_quietly e ->
  return_and_read t e asserts c (world_of s n f) =
  (Done (match c with inl v => GotValue v | inr y => GotError y end), world_of (s ++ [None]) n f).
Proof. exact (@returned_read). Qed.
Print Assumptions C106_returned.

(** Results that are built, moved, swapped, assigned and read. *)
Example C106_case :
  let l := [NewValue (Temp [1; 2]); NewError [3]; NewMove 0; Swap 0 1; AssignValue 1 (Named [4]); AssignMove 1 2; Has 0; Value 0;
            Deref 1; ValueOr 0 (Temp [9]); NewCopy 1; Emplace 0 (Held 1); Destroy 1] in
  meant_all container container [] l [] =
    Some ([inl Nothing; inl Nothing; inl Nothing; inl Nothing; inl Nothing; inl Nothing; inl (Flag false); inr [3];
           inl (GotValue [1; 2]); inl (GotValue [9]); inl Nothing; inl Nothing; inl Nothing],
          [Some (inl [1; 2]); None; Some (inl []); Some (inl [1; 2])]) /\
  fst (run_all container container [] true l (world_of [] 0 [])) =
    [Done Nothing; Done Nothing; Done Nothing; Done Nothing; Done Nothing; Done Nothing; Done (Flag false); Raised (BadAccess [3]);
     Done (GotValue [1; 2]); Done (GotValue [9]); Done Nothing; Done Nothing; Done Nothing].
Proof. vm_compute. split; reflexivity. Qed.
(** The value of an error; an error read unchecked; a result emplaced with itself. *)
Example C106_misuse_case :
  meant container container [] (@Deref (list nat) (list nat) 0) [Some (inr [3])] = None /\
  fst (run container container [] true (@Deref (list nat) (list nat) 0) (world_of [Some (inr [3])] 0 [])) = Asserted /\
  fst (run container container [] false (@Deref (list nat) (list nat) 0) (world_of [Some (inr [3])] 0 [])) = Undefined /\
  meant container container [] (@Emplace (list nat) (list nat) 0 (Held 0)) [Some (inl [3])] = None /\
  fst (run container container [] true (@Emplace (list nat) (list nat) 0 (Held 0)) (world_of [Some (inl [3])] 0 [])) = Undefined.
Proof. vm_compute. repeat split. Qed.
Example C106_returned_case :
  moves_quietly (@container nat) /\
  fst (return_and_read container container true (inl [5]) (world_of (E := list nat) [] 0 [true; true])) = Done (GotValue [5]) /\
  fst (return_and_read (T := list nat) container container true (inr [6]) (world_of [] 0 [true; true])) = Done (GotError [6]).
Proof. vm_compute. repeat split. Qed.

(** *** C107: when a member's operation throws *)

(** Moves of containers never do: programs that copy nothing do what they are
    for whatever fails. *)
Theorem C107_moves : forall T E (t : element T) (e : element E) dflt asserts l s rs s' n f,
  moves_quietly t -> moves_quietly e -> forallb copies_nothing l = true ->
  meant_all t e dflt l s = Some (rs, s') ->
  run_all t e dflt asserts l (world_of s n f) = (map result_of rs, world_of s' (leaks l + n) f).
Proof. exact (@quiet_programs). Qed.
Print Assumptions C107_moves.

(** The comment at lines 747-749 promises that an assignment that throws leaves
    its target alone.  It may end the process. *)
Theorem C107_strong_guarantee_refuted :
  ~ (forall T E (t : element T) (e : element E) dflt asserts i j s r s' n f,
     meant t e dflt (AssignCopy i j) s = Some (r, s') ->
     exists f', run t e dflt asserts (AssignCopy i j) (world_of s n f) = (Done Nothing, world_of s' n f') \/
                run t e dflt asserts (AssignCopy i j) (world_of s n f) = (Raised MemberThrew, world_of s n f')).
Proof. exact C107_strong_proof. Qed.
Print Assumptions C107_strong_guarantee_refuted.

(** For containers a copy that fails always does. *)
Theorem C107_copies_terminate : forall T E (t : element T) (e : element E) dflt asserts o s r s' n f,
  moves_quietly t -> moves_quietly e -> copying_may_throw t -> copying_may_throw e ->
  (exists j, o = NewCopy j) \/ (exists c, o = NewConvert c) \/ (exists i j, o = AssignCopy i j) ->
  meant t e dflt o s = Some (r, s') ->
  fst (run t e dflt asserts o (world_of s n (true :: f))) = Terminated.
Proof. exact (@copying). Qed.
Print Assumptions C107_copies_terminate.

(** A statement that throws does not always leave whole objects behind ... *)
Theorem C107_failures_refuted :
  ~ (forall T E (t : element T) (e : element E) dflt asserts o s n f,
     meant t e dflt o s <> None -> compiles t e o = true ->
     ends_well t e dflt o s n (run t e dflt asserts o (world_of s n f))).
Proof. exact C107_failures_refuted_proof. Qed.
Print Assumptions C107_failures_refuted.
(** ... but all statements other than the fragile ones do ... *)
Theorem C107_failures_partial : forall T E (t : element T) (e : element E) dflt asserts o s n f,
  meant t e dflt o s <> None -> compiles t e o = true -> fragile t e o s = false ->
  ends_well t e dflt o s n (run t e dflt asserts o (world_of s n f)).
Proof. exact (@C107_failures_proof). Qed.
Print Assumptions C107_failures_partial.
(** ... and every fragile one can go wrong. *)
Theorem C107_fragile : forall T E (t : element T) (e : element E) dflt asserts o s r s' n,
  meant t e dflt o s = Some (r, s') -> compiles t e o = true -> fragile t e o s = true ->
  exists f x w, run t e dflt asserts o (world_of s n f) = (x, w) /\
    (x = Undefined \/ (x = Raised MemberThrew /\ forall s2 m g, w <> world_of s2 m g)).
Proof. exact (@fragile_breaks). Qed.
Print Assumptions C107_fragile.

(** Exactly which statements an exception can leave, and exactly which ones it can
    end the process in. *)
Theorem C107_throws : forall T E (t : element T) (e : element E) dflt asserts o s n,
  meant t e dflt o s <> None -> compiles t e o = true ->
  ((exists f, fst (run t e dflt asserts o (world_of s n f)) = Raised MemberThrew) <-> can_throw t e o s = true) /\
  ((exists f, fst (run t e dflt asserts o (world_of s n f)) = Terminated) <-> can_terminate t e o s = true).
Proof. exact (@C107_throws_proof). Qed.
Print Assumptions C107_throws.

(** The compiler refuses four kinds of statement and no others. *)
Theorem C107_refused : forall T E (t : element T) (e : element E) o, compiles t e o = false <-> refused t e o.
Proof. exact (@C107_refused_proof). Qed.
Print Assumptions C107_refused.

(** Two results that swap, one of them moved from, while nothing can be allocated. *)
Example C107_moves_case :
  let l := [NewValue (Temp [1; 2]); NewError [3]; Swap 0 1; NewMove 1; AssignError 2 [4]; Destroy 0] in
  moves_quietly (@container nat) /\ forallb copies_nothing l = true /\
  meant_all container container [] l [] =
    Some ([inl Nothing; inl Nothing; inl Nothing; inl Nothing; inl Nothing; inl Nothing], [None; Some (inl []); Some (inr [4])]) /\
  fst (run_all container container [] true l (world_of [] 0 [true; true; true])) =
    [Done Nothing; Done Nothing; Done Nothing; Done Nothing; Done Nothing; Done Nothing].
Proof. vm_compute. repeat split. Qed.
(** A result assigned where an error was, with no memory left. *)
Example C107_copies_case :
  copying_may_throw (@container nat) /\
  meant container container [] (AssignCopy 0 1) [Some (inr [3]); Some (inl [1])] =
    Some (inl Nothing, [Some (inl [1]); Some (inl [1])]) /\
  fst (run container container [] true (AssignCopy 0 1) (world_of [Some (inr [3]); Some (inl [1])] 0 [true])) = Terminated.
Proof. vm_compute. repeat split. Qed.
(** A value copied over an error: the handler assigns to an error that is gone.
    A value copied over a value: only the target changes. *)
Example C107_failures_case :
  fragile container container (AssignValue 0 (Named [1])) [Some (inr [3])] = true /\
  compiles container container (@AssignValue (list nat) (list nat) 0 (Named [1])) = true /\
  fst (run container container [] true (AssignValue 0 (Named [1])) (world_of [Some (inr [3])] 0 [true])) = Undefined /\
  fragile container container (AssignValue 0 (Named [1])) [Some (@inl (list nat) (list nat) [2])] = false /\
  run container container [] true (AssignValue 0 (Named [1])) (world_of [Some (@inl _ (list nat) [2])] 0 [true]) =
    (Raised MemberThrew, world_of [Some (inl [2])] 0 []).
Proof. vm_compute. repeat split. Qed.
(** A value emplaced over a value: it is gone, the flag says it is there, and the
    destructor destroys it again. *)
Example C107_fragile_case :
  fragile container container (Emplace 0 (Named [1])) [Some (@inl (list nat) (list nat) [2])] = true /\
  run_all container container [] true [Emplace 0 (Named [1]); Has 0; Destroy 0] (world_of [Some (@inl _ (list nat) [2])] 0 [true]) =
    ([Raised MemberThrew; Done (Flag true); Undefined], mkWorld [Some (mkExpected Raw true)] 0 []).
Proof. vm_compute. repeat split. Qed.

(** A result copied over a result: containers end the process, values whose moves
    allocate as well throw.  One moved over an error of that kind may do either. *)
Example C107_throws_case :
  let s := [Some (@inl (list nat) (list nat) [1]); Some (inl [2])] in
  let s' := [Some (@inr (list nat) (list nat) [1]); Some (inl [2])] in
  meant container container [] (AssignCopy 0 1) s <> None /\
  can_throw container container (AssignCopy 0 1) s = false /\ can_terminate container container (AssignCopy 0 1) s = true /\
  can_throw node node (AssignCopy 0 1) s = true /\ can_terminate node node (AssignCopy 0 1) s = false /\
  can_throw node node (AssignMove 0 1) s' = true /\ can_terminate node node (AssignMove 0 1) s' = true /\
  fst (run node node [] true (AssignMove 0 1) (world_of s' 0 [true])) = Raised MemberThrew /\
  fst (run node node [] true (AssignMove 0 1) (world_of s' 0 [false; true])) = Terminated.
Proof. vm_compute. repeat split; discriminate. Qed.
(** Swaps compile if one of the two moves quietly. *)
Example C107_refused_case :
  compiles container node (@Swap (list nat) (list nat) 0 1) = true /\
  compiles node container (@Swap (list nat) (list nat) 0 1) = true /\
  refused node node (@Swap (list nat) (list nat) 0 1) /\ refused container node (@AssignValue (list nat) (list nat) 0 (Temp [1])) /\
  compiles node node (@AssignMove (list nat) (list nat) 0 1) = true.
Proof.
  repeat split; [right; right; right|left]; do 2 eexists; repeat split.
Qed.

(** *** C108: callbacks on results, and comparisons *)

(** map, and_then, map_error and or_else call the function on the value, resp. the
    error, and pass the other one on. *)
Theorem C108_calls : forall T U E G (t : element T) (e : element E) k (c : T + E) (h : T -> T) (hE : E -> E),
  (forall g : T -> U, map_value e k (returns g h) (kept c) = (Done (kept (fmap g c)), kept (called_on_value e k h c))) /\
  (forall g : T -> U + E, and_then e k (returns (fun v => kept (g v)) h) (kept c) =
     (Done (kept (then_ g c)), kept (called_on_value e k h c))) /\
  (forall g : E -> G, map_error t k (returns g hE) (kept c) = (Done (kept (fmap_error g c)), kept (called_on_error t k hE c))) /\
  (forall g : E -> T + E, or_else t k (returns (fun y => kept (g y)) hE) (kept c) =
     (Done (kept (else_ g c)), kept (called_on_error t k hE c))).
Proof. exact (@C108_calls_proof). Qed.
Print Assumptions C108_calls.

(** An exception of the function goes through; the object stays whole. *)
Theorem C108_throws : forall T U E G (t : element T) (e : element E) k (c : T + E) (h : T -> T) (hE : E -> E),
  (forall v, c = inl v -> map_value (U := U) e k (throws h) (kept c) = (Raised MemberThrew, kept (called_on_value e k h c)) /\
                      and_then (U := U) e k (throws h) (kept c) = (Raised MemberThrew, kept (called_on_value e k h c))) /\
  (forall y, c = inr y -> map_error (G := G) t k (throws hE) (kept c) = (Raised MemberThrew, kept (called_on_error t k hE c)) /\
                      or_else t k (throws hE) (kept c) = (Raised MemberThrew, kept (called_on_error t k hE c)) /\
                      or_else_void t e k (throws hE) (kept c) = (Raised MemberThrew, kept (called_on_error t k hE c))).
Proof. exact (@C108_throws_proof). Qed.
Print Assumptions C108_throws.

(** Calls compose. *)
Theorem C108_laws : forall T U E G (e : element E) k k' (c : T + E) (h : T -> T) (h' : U -> U),
  (forall (f : T -> U) (g : U -> G), exists m, fst (map_value e k (returns f h) (kept c)) = Done m /\
     fst (map_value e k' (returns g h') m) = fst (map_value e k (returns (fun v => g (f v)) h) (kept c))) /\
  (forall (f : T -> U + E) (g : U -> G + E), exists m, fst (and_then e k (returns (fun v => kept (f v)) h) (kept c)) = Done m /\
     fst (and_then e k' (returns (fun w => kept (g w)) h') m) =
     fst (and_then e k (returns (fun v => kept (then_ g (f v))) h) (kept c))) /\
  (forall f : T -> U, fst (map_value e k (returns f h) (kept c)) =
     fst (and_then e k (returns (fun v => kept (inl (f v))) h) (kept c))).
Proof. exact (@C108_laws_proof). Qed.
Print Assumptions C108_laws.

(** or_else with a function that returns nothing does not return the error as it
    was: an rvalue's is what the function left ... *)
Theorem C108_or_else_refuted :
  ~ (forall T E (t : element T) (e : element E) k (y : E) (h : E -> E),
     fst (or_else_void t e k (returns (fun _ => tt) h) (kept (inr y))) = Done (kept (inr y))).
Proof. exact C108_or_else_refuted_proof. Qed.
Print Assumptions C108_or_else_refuted.
(** ... and that is all. *)
Theorem C108_or_else_partial : forall T E (t : element T) (e : element E) k (c : T + E) (h : E -> E),
  (k <> Rvalue -> (forall y, h y = y) -> or_else_void t e k (returns (fun _ => tt) h) (kept c) = (Done (kept c), kept c)) /\
  (forall y, c = inr y -> fst (or_else_void t e Rvalue (returns (fun _ => tt) h) (kept c)) = Done (kept (inr (h y)))) /\
  (forall y, c = inr y -> fst (or_else_void t e Const (returns (fun _ => tt) h) (kept c)) = Done (kept (inr y))).
Proof. exact (@C108_or_else_void_proof). Qed.
Print Assumptions C108_or_else_partial.

(** Results are equal if they hold equal values or equal errors. *)
Theorem C108_equal : forall T U E F (eqT : T -> U -> bool) (eqE : E -> F -> bool) (c : T + E) (d : U + F),
  equal eqT eqE (kept c) (kept d) = Done (same_content eqT eqE c d) /\
  (forall w, equal_value eqT (kept c) w = Done (same_content eqT eqE c (inl w))) /\
  (forall z, equal_error eqE (kept c) z = Done (same_content eqT eqE c (inr z))).
Proof. exact (@C108_equal_proof). Qed.
Print Assumptions C108_equal.

(** != is the contrary of == ... *)
Theorem C108_unequal : forall T U E F (eqT neT : T -> U -> bool) (eqE neE : E -> F -> bool),
  (forall v w, neT v w = negb (eqT v w)) -> (forall y z, neE y z = negb (eqE y z)) ->
  forall (c : T + E) (d : U + F),
  unequal neT neE (kept c) (kept d) = Done (negb (same_content eqT eqE c d)) /\
  (forall w, unequal_value neT (kept c) w = Done (negb (same_content eqT eqE c (inl w)))) /\
  (forall z, unequal_error neE (kept c) z = Done (negb (same_content eqT eqE c (inr z)))).
Proof. exact (@C108_unequal_proof). Qed.
Print Assumptions C108_unequal.
(** ... but not for expected<void, E> ... *)
Theorem C108_unequal_void_refuted :
  ~ (forall E F (eqE : E -> F -> bool) (c : unit + E) (d : unit + F),
     unequal_void eqE (kept c) (kept d) = Done (negb (same_content (fun _ _ => true) eqE c d))).
Proof. exact C108_void_refuted_proof. Qed.
Print Assumptions C108_unequal_void_refuted.
(** ... where two errors are unequal if they are equal. *)
Theorem C108_unequal_void_partial : forall E F (eqE : E -> F -> bool) (c : unit + E) (d : unit + F),
  equal_void eqE (kept c) (kept d) = Done (same_content (fun _ _ => true) eqE c d) /\
  unequal_void eqE (kept c) (kept d) =
    Done (if is_error (Some c) && is_error (Some d) then same_content (fun _ _ => true) eqE c d
          else negb (same_content (fun _ _ => true) eqE c d)).
Proof. exact (@C108_void_proof). Qed.
Print Assumptions C108_unequal_void_partial.

Example C108_case :
  map_value container Rvalue (returns (fun v => length v) (fun _ => [])) (@kept (list nat) (list nat) (inl [1; 2])) =
    (Done (kept (inl 2)), kept (inl [])) /\
  fst (and_then container Const (returns (fun v => kept (if Nat.eqb (length v) 2 then inr [7] else inl true)) (fun v => v))
     (@kept (list nat) (list nat) (inl [1; 2]))) = Done (kept (inr [7])) /\
  or_else_void container container Rvalue (returns (fun _ => tt) (fun _ => [])) (@kept (list nat) (list nat) (inr [1; 2])) =
    (Done (kept (inr [])), kept (inr [])) /\
  unequal_void Nat.eqb (kept (inr 1)) (kept (inr 1)) = Done true /\
  unequal_void Nat.eqb (kept (inr 1)) (kept (inr 2)) = Done false /\
  unequal (fun a b => negb (Nat.eqb a b)) (fun a b => negb (Nat.eqb a b)) (kept (inl 1)) (kept (inr 1)) = Done true.
Proof. vm_compute. repeat split. Qed.

(** *** C109: every member is destroyed once *)

(** Not every member is destroyed: the converting constructor leaves one. *)
Theorem C109_leak_refuted :
  ~ (forall T E (t : element T) (e : element E) dflt asserts l rs s,
     meant_all t e dflt l [] = Some (rs, s) -> (forall c, In c s -> c = None) ->
     lost (snd (run_all t e dflt asserts l (world_of [] 0 []))) = 0).
Proof. exact C109_leak_proof. Qed.
Print Assumptions C109_leak_refuted.

(** That is the only one: one for each time it runs. *)
Theorem C109_leak_partial : forall T E (t : element T) (e : element E) dflt asserts l rs s n,
  meant_all t e dflt l [] = Some (rs, s) ->
  lost (snd (run_all t e dflt asserts l (world_of [] n []))) =
  length (filter (fun o => match o with NewConvert _ => true | _ => false end) l) + n.
Proof. exact (@C109_partial_proof). Qed.
Print Assumptions C109_leak_partial.
(** Nothing is destroyed twice. *)
Theorem C109_twice : forall T E (t : element T) (e : element E) dflt asserts i s n f, held s i = None ->
  fst (run t e dflt asserts (@Destroy T E i) (world_of s n f)) = Undefined /\ meant t e dflt (@Destroy T E i) s = None.
Proof. exact (@C109_twice_proof). Qed.
Print Assumptions C109_twice.

Example C109_case :
  let l := [NewConvert (inl [1]); NewCopy 0; AssignError 1 [2]; NewConvert (inr [3]); Destroy 0; Destroy 1; Destroy 2] in
  meant_all container container [] l [] =
    Some ([inl Nothing; inl Nothing; inl Nothing; inl Nothing; inl Nothing; inl Nothing; inl Nothing], [None; None; None]) /\
  lost (snd (run_all container container [] true l (world_of [] 0 []))) = 2 /\
  held (E := list nat) [Some (inl [1]); None] 1 = None.
Proof. vm_compute. repeat split. Qed.
