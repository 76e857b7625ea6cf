(** What programs that use [expected] may rely on: each object holds a value or
    an error. *)
From Coq Require Import List Bool.
Import ListNotations.
From Verif Require Import Expected.

Section SpecExpected.
  Context {T E : Type}.
  Context (t : element T) (e : element E) (dflt : T).

  (** What an object holds; the objects of a program, [None] once destroyed. *)
  Definition content : Type := (T + E)%type.
  Definition store : Type := list (option content).

  Definition held (s : store) (i : nat) : option content :=
    match nth_error s i with Some c => c | None => None end.
  Fixpoint put (s : store) (i : nat) (c : option content) : store :=
    match s, i with
    | [], _ => []
    | _ :: s', O => c :: s'
    | b :: s', S i' => b :: put s' i' c
    end.
  (** What is left after moving from an object. *)
  Definition gone (c : content) : content := match c with inl v => inl (moved t v) | inr y => inr (moved e y) end.
  Definition given (s : store) (a : @arg T) : option T :=
    match a with
    | Temp v => Some v
    | Named v => Some v
    | Held j => match held s j with Some (inl v) => Some v | _ => None end
    end.
  Definition is_error (c : option content) : bool := match c with Some (inr _) => true | _ => false end.
  Definition is_value (c : option content) : bool := match c with Some (inl _) => true | _ => false end.

  (** What each statement is for: the answer, or the error thrown by value(), and
      the objects afterwards.  [None]: the caller may not do that. *)
  Definition meant (o : @op T E) (s : store) : option ((@answer T E + E) * store) :=
    let done s' := Some (inl Nothing, s') in
    match o with
    | NewDefault => done (s ++ [Some (inl dflt)])
    | NewValue a => match given s a with Some v => done (s ++ [Some (inl v)]) | None => None end
    | NewError y | NewErrorCopy y => done (s ++ [Some (inr y)])
    | NewCopy j => match held s j with Some c => done (s ++ [Some c]) | None => None end
    | NewMove j => match held s j with Some c => done (put s j (Some (gone c)) ++ [Some c]) | None => None end
    | NewConvert c => done (s ++ [Some c])
    | Destroy i => match held s i with Some _ => done (put s i None) | None => None end
    | AssignCopy i j =>
        match held s i, held s j with Some _, Some c => done (put s i (Some c)) | _, _ => None end
    | AssignMove i j =>
        match held s i, held s j with Some _, Some c => done (put (put s i (Some c)) j (Some (gone c))) | _, _ => None end
    | AssignValue i a =>
        match held s i, given s a with Some _, Some v => done (put s i (Some (inl v))) | _, _ => None end
    | AssignError i y | AssignErrorCopy i y =>
        match held s i with Some _ => done (put s i (Some (inr y))) | None => None end
    | Emplace i a =>
        match held s i, given s a with
        | Some _, Some v => match a with
                            | Held j => if Nat.eqb i j then None else done (put s i (Some (inl v)))
                            | _ => done (put s i (Some (inl v)))
                            end
        | _, _ => None
        end
    | EmplaceList i _ v => match held s i with Some _ => done (put s i (Some (inl v))) | None => None end
    | Swap i j =>
        match held s i, held s j with Some c, Some d => done (put (put s i (Some d)) j (Some c)) | _, _ => None end
    | Has i => match held s i with Some c => Some (inl (Flag (is_value (Some c))), s) | None => None end
    | Deref i => match held s i with Some (inl v) => Some (inl (GotValue v), s) | _ => None end
    | Value i =>
        match held s i with
        | Some (inl v) => Some (inl (GotValue v), s) | Some (inr y) => Some (inr y, s) | None => None
        end
    | ValueRvalue i =>
        match held s i with
        | Some (inl v) => Some (inl (GotValue v), s)
        | Some (inr y) => Some (inr y, put s i (Some (gone (inr y))))
        | None => None
        end
    | Error i => match held s i with Some (inr y) => Some (inl (GotError y), s) | _ => None end
    | ValueOr i a =>
        match held s i, given s a with
        | Some (inl v), _ => Some (inl (GotValue v), s)
        | Some (inr _), Some v => Some (inl (GotValue v), s)
        | _, _ => None
        end
    end.

  (** The objects as the header keeps them: the flag says which member is there. *)
  Definition kept (c : content) : expected :=
    match c with inl v => mkExpected (Val v) true | inr y => mkExpected (Err y) false end.
  Definition world_of (s : store) (n : nat) (f : list bool) : @world T E := mkWorld (map (option_map kept) s) n f.
  Definition result_of (r : @answer T E + E) : result E answer :=
    match r with inl a => Done a | inr y => Raised (BadAccess y) end.
  (** A member nobody destroys. *)
  Definition leak (o : @op T E) : nat := match o with NewConvert _ => 1 | _ => 0 end.

  (** Statements that copy nothing. *)
  Definition temporary (a : @arg T) : bool := match a with Temp _ => true | _ => false end.
  Definition copies_nothing (o : @op T E) : bool :=
    match o with
    | NewDefault | NewError _ | NewMove _ | Destroy _ | AssignMove _ _ | AssignError _ _ | Swap _ _
    | Has _ | Deref _ | ValueRvalue _ | Error _ => true
    | NewValue a | AssignValue _ a | Emplace _ a => temporary a
    | _ => false
    end.
  Definition moves_quietly {X} (x : element X) : Prop := nothrow_move x = true /\ nothrow_move_assign x = true.
  Definition copying_may_throw {X} (x : element X) : Prop := nothrow_copy x = false /\ nothrow_copy_assign x = false.

  Definition constructs_quietly (a : @arg T) : bool := if temporary a then nothrow_move t else nothrow_copy t.
  (** Statements that build a value where an error was, or a value where a value
      was, with a constructor that may throw; and swaps of a value and an error
      one of which may throw when moved. *)
  Definition fragile (o : @op T E) (s : store) : bool :=
    match o with
    | AssignValue i a => is_error (held s i) && negb (constructs_quietly a)
    | Emplace i a => negb (constructs_quietly a)
    | EmplaceList i n _ => is_error (held s i) && negb n
    | Swap i j => xorb (is_error (held s i)) (is_error (held s j)) && negb (nothrow_move t && nothrow_move e)
    | _ => false
    end.
  (** Statements through a function marked noexcept. *)
  Definition marked (o : @op T E) : bool :=
    match o with
    | NewCopy _ | NewMove _ | NewConvert _ | AssignCopy _ _ | AssignMove _ _ | AssignError _ _ => true
    | _ => false
    end.
  (** Objects that a statement assigns to. *)
  Definition targets (o : @op T E) : list nat :=
    match o with
    | AssignCopy i _ | AssignMove i _ | AssignValue i _ | AssignErrorCopy i _ | EmplaceList i _ _ | ValueRvalue i => [i]
    | Swap i j => [i; j]
    | _ => []
    end.
  (** Only the objects in [l] may differ, and each holds a value or an error as before. *)
  Definition same_but (l : list nat) (s s' : store) : Prop :=
    length s' = length s /\
    (forall k, ~ In k l -> nth_error s' k = nth_error s k) /\
    (forall k, is_value (held s' k) = is_value (held s k) /\ is_error (held s' k) = is_error (held s k)).

  (** What a statement may end in: what it is for; an exception that leaves the
      objects usable; or termination, if the function is marked noexcept. *)
  Definition ends_well (o : @op T E) (s : store) (n : nat) (x : result E answer * @world T E) : Prop :=
    match x with
    | (Terminated, _) => marked o = true
    | (Raised MemberThrew, w) => exists s' f, w = world_of s' n f /\ same_but (targets o) s s'
    | (Asserted, _) | (Undefined, _) => False
    | (x', w) => exists r s' f, meant o s = Some (r, s') /\ x' = result_of r /\ w = world_of s' (leak o + n) f
    end.

  Definition assigns_quietly (a : @arg T) : bool := if temporary a then nothrow_move_assign t else nothrow_copy_assign t.
  (** A table: what is so for a target that holds a value or an error and a source that does. *)
  Definition by_kind (s : store) (i j : nat) (vv ee ev ve : bool) : bool :=
    match held s i, held s j with
    | Some (inl _), Some (inl _) => vv | Some (inr _), Some (inr _) => ee
    | Some (inr _), Some (inl _) => ev | Some (inl _), Some (inr _) => ve
    | _, _ => false
    end.
  (** Statements from which an exception of a member can reach the caller. *)
  Definition can_throw (o : @op T E) (s : store) : bool :=
    match o with
    | NewValue a => negb (constructs_quietly a)
    | NewError _ => negb (nothrow_move e)
    | NewErrorCopy _ => negb (nothrow_copy e)
    | AssignCopy i j => negb (nothrow_copy t || nothrow_move t) &&
        by_kind s i j (negb (nothrow_copy_assign t)) (negb (nothrow_copy_assign e)) (negb (nothrow_move e)) false
    | AssignMove i j => negb (nothrow_move t) &&
        by_kind s i j (negb (nothrow_move_assign t)) (negb (nothrow_move_assign e)) (negb (nothrow_move e)) false
    | AssignValue i a => is_value (held s i) && negb (assigns_quietly a)
    | AssignErrorCopy i _ => is_error (held s i) && negb (nothrow_copy_assign e)
    | Emplace i a => negb (constructs_quietly a) && (is_value (held s i) || negb (nothrow_move e))
    | EmplaceList i n _ => if is_value (held s i) then negb (n && nothrow_move_assign t) else negb (n || nothrow_move e)
    | Swap i j =>
        by_kind s i j (negb (nothrow_move t && nothrow_move_assign t)) (negb (nothrow_move e && nothrow_move_assign e)) false false
    | Value i => is_error (held s i) && negb (nothrow_copy e && nothrow_move e)
    | ValueRvalue i => is_error (held s i) && negb (nothrow_move e)
    | ValueOr i a => if is_value (held s i) then negb (nothrow_copy t) else negb (constructs_quietly a)
    | _ => false
    end.
  (** Statements that an exception of a member can end the process in. *)
  Definition can_terminate (o : @op T E) (s : store) : bool :=
    match o with
    | NewCopy j => if is_value (held s j) then negb (nothrow_copy t) else negb (nothrow_copy e)
    | NewMove j => if is_value (held s j) then negb (nothrow_move t) else negb (nothrow_move e)
    | NewConvert c => if is_value (Some c) then negb (nothrow_copy t) else negb (nothrow_copy e)
    | AssignCopy i j =>
        let silent := nothrow_copy t || nothrow_move t in
        by_kind s i j (silent && negb (nothrow_copy_assign t)) (silent && negb (nothrow_copy_assign e))
                (negb (nothrow_copy t)) (negb (nothrow_copy e))
    | AssignMove i j =>
        by_kind s i j (nothrow_move t && negb (nothrow_move_assign t)) (nothrow_move t && negb (nothrow_move_assign e))
                (negb (nothrow_move t)) (negb (nothrow_move e))
    | AssignError i _ => is_error (held s i) && negb (nothrow_move_assign e)
    | _ => false
    end.
  (** Statements the compiler refuses. *)
  Definition refused (o : @op T E) : Prop :=
    (exists i a, o = AssignValue i a /\ nothrow_move e = false) \/
    (exists i y, o = AssignError i y /\ nothrow_move e = false) \/
    (exists i y, o = AssignErrorCopy i y /\ nothrow_copy e = false) \/
    (exists i j, o = Swap i j /\ nothrow_move t = false /\ nothrow_move e = false).

  (** What a program of several statements is for.  The program carries on after
      an exception. *)
  Fixpoint meant_all (l : list (@op T E)) (s : store) : option (list (@answer T E + E) * store) :=
    match l with
    | [] => Some ([], s)
    | o :: l' =>
        match meant o s with
        | Some (r, s') => match meant_all l' s' with Some (rs, s2) => Some (r :: rs, s2) | None => None end
        | None => None
        end
    end.
  (** Members nobody destroys in a program. *)
  Definition leaks (l : list (@op T E)) : nat := list_sum (map leak l).
  (** Reads that check. *)
  Definition checked (o : @op T E) : bool := match o with Deref _ | Error _ => true | _ => false end.
End SpecExpected.

(** std::vector and std::string: copies allocate, moves do not and leave nothing
    behind. *)
Definition container {A} : element (list A) := mkElement false true false true (fun _ => []) (fun o _ => o).
(** A type whose moves allocate as well. *)
Definition node {A} : element (list A) := mkElement false false false false (fun _ => []) (fun o _ => o).
(** A number. *)
Definition plain {A} : element A := mkElement true true true true (fun a => a) (fun o _ => o).
