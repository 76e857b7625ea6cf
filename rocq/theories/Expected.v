(** The vendored /repo/include/trajopt/util/expected: objects with a union and a
    flag, whose members are constructed, assigned and destroyed one by one.
    Modelled with exceptions enabled (lines 31-33) and for types [T] that are not
    void; the specialisations for trivial types copy the same bits.  [U] and
    [G] of the converting functions are [T] and [E]. *)
From Coq Require Import List Bool.
Import ListNotations.

(** What is known of a member type: whether its operations are noexcept (the
    traits tested at lines 755-756, 771-773, 790-792, 814, 827, 1110-1111, 1824,
    1994-1997), what a value becomes when moved from, and what an assignment
    leaves behind when it throws.  A constructor that throws leaves its source
    alone. *)
Record element (X : Type) : Type := mkElement {
  nothrow_copy : bool;          (* is_nothrow_copy_constructible *)
  nothrow_move : bool;          (* is_nothrow_move_constructible *)
  nothrow_copy_assign : bool;
  nothrow_move_assign : bool;
  moved : X -> X;
  torn : X -> X -> X            (* target, source *)
}.
Arguments mkElement {X} _ _ _ _ _ _.
Arguments nothrow_copy {X} _.
Arguments nothrow_move {X} _.
Arguments nothrow_copy_assign {X} _.
Arguments nothrow_move_assign {X} _.
Arguments moved {X} _ _.
Arguments torn {X} _ _ _.

(** What leaves a function by exception: an exception of a member's operation, or
    bad_expected_access, lines 1265-1280. *)
Inductive raised (E : Type) : Type := MemberThrew | BadAccess (e : E).
Arguments MemberThrew {E}.
Arguments BadAccess {E} _.

(** How a function ends.  [Terminated] is std::terminate, called when an exception
    meets a noexcept, e.g. line 730; [Asserted] a failed TRAJOPT_ASSERT, lines
    57-65; [Undefined] the use of a member that is not there. *)
Inductive result (E A : Type) : Type :=
| Done (a : A)
| Raised (x : raised E)
| Terminated
| Asserted
| Undefined.
Arguments Done {E A} _.
Arguments Raised {E A} _.
Arguments Terminated {E A}.
Arguments Asserted {E A}.
Arguments Undefined {E A}.

Section Expected.
  Context {T E : Type}.
  Context (t : element T) (e : element E) (dflt : T).
  Context (asserts : bool).

  (** The union, lines 509-513: its live member, if any. *)
  Inductive cell : Type := Raw | Val (v : T) | Err (x : E).
  (** The union and m_has_val, lines 509-514. *)
  Record expected : Type := mkExpected { x_cell : cell; x_has : bool }.

  (** All [expected] objects of a program; [None] is one that is no more.
      [lost] counts members whose storage was reused before they were destroyed.
      [fails] says which of the coming operations that may throw do: it is used up
      from the left; no entry, no exception. *)
  Record world : Type := mkWorld { objects : list (option expected); lost : nat; fails : list bool }.

  (** A statement.  E.g. line 732. *)
  Definition act (A : Type) : Type := world -> result E A * world.
  (** No statement, e.g. lines 1909-1911. *)
  Definition ret {A} (a : A) : act A := fun w => (Done a, w).
  (** Sequencing, e.g. lines 731-732. *)
  Definition bind {A B} (m : act A) (f : A -> act B) : act B :=
    fun w => match m w with
             | (Done a, w') => f a w'
             | (Raised x, w') => (Raised x, w')
             | (Terminated, w') => (Terminated, w')
             | (Asserted, w') => (Asserted, w')
             | (Undefined, w') => (Undefined, w')
             end.
  (** A noexcept function, e.g. lines 730, 736, 742. *)
  Definition noexcept {A} (yes : bool) (m : act A) : act A :=
    fun w => match m w with
             | (Raised x, w') => (if yes then Terminated else Raised x, w')
             | r => r
             end.
  (** try m catch (...) { h; throw; }, e.g. lines 799-804. *)
  Definition try_catch {A} (m : act A) (h : act unit) : act A :=
    fun w => match m w with
             | (Raised x, w') => bind h (fun _ w'' => (Raised x, w'')) w'
             | r => r
             end.
  (** An operation of a member that is noexcept or may throw; the traits above. *)
  Definition may_throw (nothrow : bool) : act unit :=
    fun w => if nothrow then (Done tt, w)
             else match fails w with
                  | true :: l => (Raised MemberThrew, mkWorld (objects w) (lost w) l)
                  | false :: l => (Done tt, mkWorld (objects w) (lost w) l)
                  | [] => (Done tt, w)
                  end.

  (** Object [i], undefined once it is destroyed; any member function, e.g. line 2044. *)
  Definition object (i : nat) : act expected :=
    fun w => match nth_error (objects w) i with
             | Some (Some x) => (Done x, w)
             | _ => (Undefined, w)
             end.
  (** Replacing an element of a list: [write] below, e.g. line 732. *)
  Fixpoint replace {A} (l : list A) (i : nat) (a : A) : list A :=
    match l, i with
    | [], _ => []
    | _ :: l', O => a :: l'
    | b :: l', S i' => b :: replace l' i' a
    end.
  (** Writing object [i]; every assignment to m_has_val, e.g. line 732, and every
      change of the union. *)
  Definition write (i : nat) (x : expected) : act unit :=
    fun w => (Done tt, mkWorld (replace (objects w) i (Some x)) (lost w) (fails w)).
  (** has_value(), line 2044. *)
  Definition has (i : nat) : act bool := bind (object i) (fun x => ret (x_has x)).
  (** this->m_has_val = b, lines 732, 738, 745, 1752. *)
  Definition set_has (i : nat) (b : bool) : act unit := bind (object i) (fun x => write i (mkExpected (x_cell x) b)).
  (** val() and get(), lines 890, 1312, 1322: the value, if it is the live member. *)
  Definition val (i : nat) : act T :=
    bind (object i) (fun x => match x_cell x with Val v => ret v | _ => fun w => (Undefined, w) end).
  (** err() and geterr(), lines 897, 1315, 1324. *)
  Definition err (i : nat) : act E :=
    bind (object i) (fun x => match x_cell x with Err y => ret y | _ => fun w => (Undefined, w) end).
  (** Changing the union, lines 509-513; see [kill_val] to [assign_err]. *)
  Definition set_cell (i : nat) (c : cell) : act unit := bind (object i) (fun x => write i (mkExpected c (x_has x))).
  (** val().~T(), lines 910, 1828: the value must be there. *)
  Definition kill_val (i : nat) : act unit := bind (val i) (fun _ => set_cell i Raw).
  (** err().~unexpected<E>(), lines 761, 1750, 1830. *)
  Definition kill_err (i : nat) : act unit := bind (err i) (fun _ => set_cell i Raw).
  (** One more member that nobody will destroy; see [place], line 731. *)
  Definition lose : act unit := fun w => (Done tt, mkWorld (objects w) (S (lost w)) (fails w)).
  (** Placement new, lines 731, 737, 743, 1751: what lived there is lost. *)
  Definition place (i : nat) (c : cell) : act unit :=
    bind (object i) (fun x => bind (match x_cell x with Raw => ret tt | _ => lose end) (fun _ => set_cell i c)).

  (** T{std::move(val())}: the new value; the old one is moved from.  Lines 818,
      1935, 1972. *)
  Definition move_val (i : nat) : act T :=
    bind (val i) (fun v => bind (may_throw (nothrow_move t)) (fun _ => bind (set_cell i (Val (moved t v))) (fun _ => ret v))).
  (** The same for errors, lines 796, 832, 1937, 1969. *)
  Definition move_err (i : nat) : act E :=
    bind (err i) (fun y => bind (may_throw (nothrow_move e)) (fun _ => bind (set_cell i (Err (moved e y))) (fun _ => ret y))).
  (** T{val()}, lines 731, 737, 776. *)
  Definition copy_val (i : nat) : act T := bind (val i) (fun v => bind (may_throw (nothrow_copy t)) (fun _ => ret v)).
  (** unexpected<E>{geterr()}, line 743. *)
  Definition copy_err (i : nat) : act E := bind (err i) (fun y => bind (may_throw (nothrow_copy e)) (fun _ => ret y)).
  (** val() = v, lines 876, 1748, 1867: the target must be there; if it throws the
      target is torn. *)
  Definition assign_val (nothrow : bool) (i : nat) (v : T) : act unit :=
    bind (val i) (fun o => bind (try_catch (may_throw nothrow) (set_cell i (Val (torn t o v)))) (fun _ => set_cell i (Val v))).
  (** err() = y, lines 802, 883, 1799, 1814. *)
  Definition assign_err (nothrow : bool) (i : nat) (y : E) : act unit :=
    bind (err i) (fun o => bind (try_catch (may_throw nothrow) (set_cell i (Err (torn e o y)))) (fun _ => set_cell i (Err y))).

  (** construct, construct_with, lines 729-739.  noexcept. *)
  Definition construct (i : nat) (m : act T) : act unit :=
    noexcept true (bind m (fun v => bind (place i (Val v)) (fun _ => set_has i true))).
  (** construct_error, lines 741-746.  noexcept. *)
  Definition construct_error (i : nat) (m : act E) : act unit :=
    noexcept true (bind m (fun y => bind (place i (Err y)) (fun _ => set_has i false))).
  (** destroy_val, line 910. *)
  Definition destroy_val (i : nat) : act unit := kill_val i.

  (** assign_common for a const lvalue, lines 871-886. *)
  Definition assign_common_copy (i j : nat) : act unit :=
    bind (has i) (fun hi => bind (has j) (fun hj =>
    if hi then
      if hj then bind (val j) (fun v => assign_val (nothrow_copy_assign t) i v)
      else bind (destroy_val i) (fun _ => construct_error i (copy_err j))
    else
      if hj then ret tt
      else bind (err j) (fun y => assign_err (nothrow_copy_assign e) i y))).
  (** assign_common for an rvalue, lines 871-886. *)
  Definition assign_common_move (i j : nat) : act unit :=
    bind (has i) (fun hi => bind (has j) (fun hj =>
    if hi then
      if hj then bind (val j) (fun v => bind (assign_val (nothrow_move_assign t) i v) (fun _ => set_cell j (Val (moved t v))))
      else bind (destroy_val i) (fun _ => construct_error i (move_err j))
    else
      if hj then ret tt
      else bind (err j) (fun y => bind (assign_err (nothrow_move_assign e) i y) (fun _ => set_cell j (Err (moved e y)))))).

  (** assign(const expected_operations_base&), the three overloads of lines
      752-811; [construct] is noexcept, so the handler of lines 801-804 never runs. *)
  Definition assign_copy (i j : nat) : act unit :=
    if nothrow_copy t then
      noexcept true (bind (has i) (fun hi => bind (has j) (fun hj =>
        if negb hi && hj then bind (kill_err i) (fun _ => construct i (copy_val j)) else assign_common_copy i j)))
    else if nothrow_move t then
      noexcept true (bind (has i) (fun hi => bind (has j) (fun hj =>
        if negb hi && hj then
          bind (copy_val j) (fun tmp => bind (kill_err i) (fun _ => construct i (bind (may_throw (nothrow_move t)) (fun _ => ret tmp))))
        else assign_common_copy i j)))
    else
      bind (has i) (fun hi => bind (has j) (fun hj =>
        if negb hi && hj then
          bind (move_err i) (fun tmp => bind (kill_err i) (fun _ =>
          try_catch (construct i (copy_val j)) (assign_err (nothrow_move_assign e) i tmp)))
        else assign_common_copy i j)).
  (** assign(expected_operations_base&&), the two overloads of lines 813-846. *)
  Definition assign_move (i j : nat) : act unit :=
    if nothrow_move t then
      noexcept true (bind (has i) (fun hi => bind (has j) (fun hj =>
        if negb hi && hj then bind (kill_err i) (fun _ => construct i (move_val j)) else assign_common_move i j)))
    else
      bind (has i) (fun hi => bind (has j) (fun hj =>
        if negb hi && hj then
          bind (move_err i) (fun tmp => bind (kill_err i) (fun _ =>
          try_catch (construct i (move_val j)) (assign_err (nothrow_move_assign e) i tmp)))
        else assign_common_move i j)).

  (** A new object whose constructor runs [body]; if that throws there is no
      object.  [x] is its state before the body, lines 473-500. *)
  Definition create (x : expected) (body : nat -> act unit) : act unit :=
    fun w =>
      let i := length (objects w) in
      match body i (mkWorld (objects w ++ [Some x]) (lost w) (fails w)) with
      | (Raised r, w') => (Raised r, mkWorld (removelast (objects w')) (lost w') (fails w'))
      | r => r
      end.

  (** An argument of type T&& or const T&: a temporary, a variable of the
      caller, or the value of an [expected], lines 1728, 1746, 1826. *)
  Inductive arg : Type := Temp (v : T) | Named (v : T) | Held (j : nat).
  (** is_nothrow_constructible<T, U&&>, lines 1736, 1758, 1824, 1836. *)
  Definition arg_nothrow (a : arg) : bool := match a with Temp _ => nothrow_move t | _ => nothrow_copy t end.
  (** The same for assignment to a T, lines 1748, 1772. *)
  Definition arg_assign_nothrow (a : arg) : bool :=
    match a with Temp _ => nothrow_move_assign t | _ => nothrow_copy_assign t end.
  (** What the argument refers to, e.g. line 1748. *)
  Definition arg_value (a : arg) : act T :=
    match a with Temp v => ret v | Named v => ret v | Held j => val j end.
  (** T(std::forward<U>(v)), lines 1751, 1779, 1833. *)
  Definition arg_make (a : arg) : act T := bind (arg_value a) (fun v => bind (may_throw (arg_nothrow a)) (fun _ => ret v)).

  (** expected(), line 1595; the storage's default constructor, line 473.  T{} is
      taken not to throw. *)
  Definition new_default : act unit := create (mkExpected (Val dflt) true) (fun _ => ret tt).
  (** expected(U&&) and expected(in_place, ...), lines 1601-1614, 1722-1732. *)
  Definition new_value (a : arg) : act unit :=
    bind (arg_make a) (fun v => create (mkExpected (Val v) true) (fun _ => ret tt)).
  (** expected(unexpected<G>&&), lines 1631-1647. *)
  Definition new_error (y : E) : act unit :=
    bind (may_throw (nothrow_move e)) (fun _ => create (mkExpected (Err y) false) (fun _ => ret tt)).
  (** expected(const unexpected<G>&), lines 1616-1629. *)
  Definition new_error_copy (y : E) : act unit :=
    bind (may_throw (nothrow_copy e)) (fun _ => create (mkExpected (Err y) false) (fun _ => ret tt)).
  (** expected(const expected&), lines 990-997. *)
  Definition new_copy (j : nat) : act unit :=
    bind (object j) (fun _ => create (mkExpected Raw false) (fun i =>
      bind (has j) (fun h => if h then construct i (copy_val j) else construct_error i (copy_err j)))).
  (** expected(expected&&), lines 1028-1037. *)
  Definition new_move (j : nat) : act unit :=
    bind (object j) (fun _ => noexcept (nothrow_move t) (create (mkExpected Raw false) (fun i =>
      bind (has j) (fun h => if h then construct i (move_val j) else construct_error i (move_err j))))).
  (** expected(const expected<U, G>&), lines 1665-1692: the storage is first
      constructed with T{}. *)
  Definition new_convert (c : T + E) : act unit :=
    create (mkExpected (Val dflt) true) (fun i =>
      match c with
      | inl v => construct i (bind (may_throw (nothrow_copy t)) (fun _ => ret v))
      | inr y => construct_error i (bind (may_throw (nothrow_copy e)) (fun _ => ret y))
      end).
  (** ~expected(), lines 502-508. *)
  Definition destroy (i : nat) : act unit :=
    bind (has i) (fun h => bind (if h then kill_val i else kill_err i) (fun _ w =>
      (Done tt, mkWorld (replace (objects w) i None) (lost w) (fails w)))).

  (** operator=(const expected&), lines 1064-1067, 1598. *)
  Definition op_assign_copy (i j : nat) : act unit := assign_copy i j.
  (** operator=(expected&&), lines 1108-1114, 1599. *)
  Definition op_assign_move (i j : nat) : act unit := noexcept (nothrow_move t && nothrow_move_assign t) (assign_move i j).
  (** operator=(U&&), lines 1734-1792. *)
  Definition op_assign_value (i : nat) (a : arg) : act unit :=
    bind (has i) (fun h =>
    if h then bind (arg_value a) (fun v => assign_val (arg_assign_nothrow a) i v)
    else if arg_nothrow a then
      bind (kill_err i) (fun _ => bind (arg_make a) (fun v => bind (place i (Val v)) (fun _ => set_has i true)))
    else
      bind (move_err i) (fun tmp => bind (kill_err i) (fun _ =>
      try_catch (bind (arg_make a) (fun v => bind (place i (Val v)) (fun _ => set_has i true)))
                (assign_err (nothrow_move_assign e) i tmp)))).
  (** operator=(const unexpected<G>&), lines 1794-1807; only if E is
      nothrow copy constructible. *)
  Definition op_assign_error_copy (i : nat) (y : E) : act unit :=
    bind (has i) (fun h =>
    if h then
      bind (destroy_val i) (fun _ => bind (may_throw (nothrow_copy e)) (fun _ => bind (place i (Err y)) (fun _ => set_has i false)))
    else assign_err (nothrow_copy_assign e) i y).
  (** operator=(unexpected<G>&&), lines 1809-1822; only if E is nothrow
      move constructible. *)
  Definition op_assign_error (i : nat) (y : E) : act unit :=
    noexcept true (bind (has i) (fun h =>
    if h then
      bind (destroy_val i) (fun _ => bind (may_throw (nothrow_move e)) (fun _ => bind (place i (Err y)) (fun _ => set_has i false)))
    else assign_err (nothrow_move_assign e) i y)).
  (** emplace(args), lines 1824-1860. *)
  Definition op_emplace (i : nat) (a : arg) : act unit :=
    bind (has i) (fun h =>
    if arg_nothrow a then
      bind (if h then kill_val i else bind (kill_err i) (fun _ => set_has i true)) (fun _ =>
      bind (arg_make a) (fun v => place i (Val v)))
    else if h then
      bind (kill_val i) (fun _ => bind (arg_make a) (fun v => place i (Val v)))
    else
      bind (move_err i) (fun tmp => bind (kill_err i) (fun _ =>
      try_catch (bind (arg_make a) (fun v => bind (place i (Val v)) (fun _ => set_has i true)))
                (assign_err (nothrow_move_assign e) i tmp)))).
  (** emplace(initializer_list, args), lines 1862-1897; [nothrow] is
      is_nothrow_constructible<T, initializer_list<U>&, Args...> and [v] what it makes. *)
  Definition op_emplace_list (i : nat) (nothrow : bool) (v : T) : act unit :=
    bind (has i) (fun h =>
    if h then bind (may_throw nothrow) (fun _ => assign_val (nothrow_move_assign t) i v)
    else if nothrow then
      bind (kill_err i) (fun _ => bind (may_throw nothrow) (fun _ => bind (place i (Val v)) (fun _ => set_has i true)))
    else
      bind (move_err i) (fun tmp => bind (kill_err i) (fun _ =>
      try_catch (bind (may_throw nothrow) (fun _ => bind (place i (Val v)) (fun _ => set_has i true)))
                (assign_err (nothrow_move_assign e) i tmp)))).

  (** std::swap(this->m_has_val, rhs.m_has_val), lines 1939, 1953, 1976. *)
  Definition swap_has (i j : nat) : act unit :=
    bind (has i) (fun hi => bind (has j) (fun hj => bind (set_has i hj) (fun _ => set_has j hi))).
  (** std::swap(val(), rhs.val()), lines 1913-1916: one move construction and two
      move assignments. *)
  Definition swap_vals (i j : nat) : act unit :=
    bind (move_val i) (fun tmp =>
    bind (val j) (fun v => bind (assign_val (nothrow_move_assign t) i v) (fun _ => bind (set_cell j (Val (moved t v))) (fun _ =>
    assign_val (nothrow_move_assign t) j tmp)))).
  (** swap(err(), rhs.err()), line 2006. *)
  Definition swap_errs (i j : nat) : act unit :=
    bind (move_err i) (fun tmp =>
    bind (err j) (fun y => bind (assign_err (nothrow_move_assign e) i y) (fun _ => bind (set_cell j (Err (moved e y))) (fun _ =>
    assign_err (nothrow_move_assign e) j tmp)))).
  (** The body that the three overloads of lines 1931-1985 share when the value
      is kept aside: 1935-1939, 1949-1953. *)
  Definition swap_mixed_rest (i j : nat) (temp : T) : act unit :=
    bind (move_err j) (fun y => bind (place i (Err y)) (fun _ =>
    bind (kill_err j) (fun _ => bind (may_throw (nothrow_move t)) (fun _ => bind (place j (Val temp)) (fun _ => swap_has i j))))).
  (** swap_where_only_one_has_value, lines 1925-1985: [i] has the value. *)
  Definition swap_mixed (i j : nat) : act unit :=
    if nothrow_move t then
      if nothrow_move e then
        noexcept true (bind (move_val i) (fun temp => bind (kill_val i) (fun _ => swap_mixed_rest i j temp)))
      else
        bind (move_val i) (fun temp => bind (kill_val i) (fun _ =>
        try_catch (swap_mixed_rest i j temp) (assign_val (nothrow_move_assign t) i temp)))
    else
      bind (move_err j) (fun temp => bind (kill_err j) (fun _ =>
      try_catch (bind (move_val i) (fun v => bind (place j (Val v)) (fun _ => bind (kill_val i) (fun _ =>
                 bind (may_throw (nothrow_move e)) (fun _ => bind (place i (Err temp)) (fun _ => swap_has i j))))))
                (assign_err (nothrow_move_assign e) j temp))).
  (** swap, lines 1988-2008.  A type that moves without throwing is taken to swap
      without throwing. *)
  Definition op_swap (i j : nat) : act unit :=
    noexcept (nothrow_move t && nothrow_move_assign t && nothrow_move e && nothrow_move_assign e)
      (bind (has i) (fun hi => bind (has j) (fun hj =>
       if hi && hj then swap_vals i j
       else if negb hi && hj then swap_mixed j i
       else if hi then swap_mixed i j
       else swap_errs i j))).

  (** What a read gives, lines 2010-2108. *)
  Inductive answer : Type := Nothing | Flag (b : bool) | GotValue (v : T) | GotError (y : E).

  (** TRAJOPT_ASSERT, lines 57-65. *)
  Definition assert_ (b : bool) : act unit := fun w => if asserts && negb b then (Asserted, w) else (Done tt, w).
  (** operator* and operator->, lines 2010-2042. *)
  Definition op_deref (i : nat) : act answer :=
    bind (has i) (fun h => bind (assert_ h) (fun _ => bind (val i) (fun v => ret (GotValue v)))).
  (** value() on an lvalue, lines 2047-2060.  The error is copied into a parameter,
      moved into the exception and moved when thrown, lines 219-222, 1268. *)
  Definition op_value (i : nat) : act answer :=
    bind (has i) (fun h =>
    if h then bind (val i) (fun v => ret (GotValue v))
    else bind (copy_err i) (fun y => bind (may_throw (nothrow_move e)) (fun _ => bind (may_throw (nothrow_move e)) (fun _ w =>
      (Raised (BadAccess y), w))))).
  (** value() on an rvalue, lines 2068-2074: the error is moved from. *)
  Definition op_value_rvalue (i : nat) : act answer :=
    bind (has i) (fun h =>
    if h then bind (val i) (fun v => ret (GotValue v))
    else bind (move_err i) (fun y => bind (may_throw (nothrow_move e)) (fun _ => bind (may_throw (nothrow_move e)) (fun _ w =>
      (Raised (BadAccess y), w))))).
  (** error(), lines 2076-2091. *)
  Definition op_error (i : nat) : act answer :=
    bind (has i) (fun h => bind (assert_ (negb h)) (fun _ => bind (err i) (fun y => ret (GotError y)))).
  (** value_or on an lvalue, lines 2093-2100. *)
  Definition op_value_or (i : nat) (a : arg) : act answer :=
    bind (has i) (fun h =>
    if h then bind (assert_ h) (fun _ => bind (copy_val i) (fun v => ret (GotValue v)))
    else bind (arg_make a) (fun v => ret (GotValue v))).

  (** One statement of a program that uses the header: a call of a function of lines 1595-2108. *)
  Inductive op : Type :=
  | NewDefault | NewValue (a : arg) | NewError (y : E) | NewErrorCopy (y : E) | NewCopy (j : nat) | NewMove (j : nat)
  | NewConvert (c : T + E) | Destroy (i : nat)
  | AssignCopy (i j : nat) | AssignMove (i j : nat) | AssignValue (i : nat) (a : arg)
  | AssignError (i : nat) (y : E) | AssignErrorCopy (i : nat) (y : E)
  | Emplace (i : nat) (a : arg) | EmplaceList (i : nat) (nothrow : bool) (v : T) | Swap (i j : nat)
  | Has (i : nat) | Deref (i : nat) | Value (i : nat) | ValueRvalue (i : nat) | Error (i : nat) | ValueOr (i : nat) (a : arg).

  (** A statement that gives nothing, e.g. line 1734. *)
  Definition quiet (m : act unit) : act answer := bind m (fun _ => ret Nothing).
  (** The member function called, lines 1595-2108. *)
  Definition run (o : op) : act answer :=
    match o with
    | NewDefault => quiet new_default
    | NewValue a => quiet (new_value a)
    | NewError y => quiet (new_error y)
    | NewErrorCopy y => quiet (new_error_copy y)
    | NewCopy j => quiet (new_copy j)
    | NewMove j => quiet (new_move j)
    | NewConvert c => quiet (new_convert c)
    | Destroy i => quiet (destroy i)
    | AssignCopy i j => quiet (op_assign_copy i j)
    | AssignMove i j => quiet (op_assign_move i j)
    | AssignValue i a => quiet (op_assign_value i a)
    | AssignError i y => quiet (op_assign_error i y)
    | AssignErrorCopy i y => quiet (op_assign_error_copy i y)
    | Emplace i a => quiet (op_emplace i a)
    | EmplaceList i n v => quiet (op_emplace_list i n v)
    | Swap i j => quiet (op_swap i j)
    | Has i => bind (has i) (fun h => ret (Flag h))
    | Deref i => op_deref i
    | Value i => op_value i
    | ValueRvalue i => op_value_rvalue i
    | Error i => op_error i
    | ValueOr i a => op_value_or i a
    end.

  (** A program: its statements one by one.  An exception is caught by the caller
      and the program goes on; nothing follows std::terminate, a failed assertion
      or undefined behaviour.  Compare the calls in RustFFI.cpp:180-206. *)
  Fixpoint run_all (l : list op) (w : world) : list (result E answer) * world :=
    match l with
    | [] => ([], w)
    | o :: l' =>
        match run o w with
        | (Done a, w') => let (rs, w2) := run_all l' w' in (Done a :: rs, w2)
        | (Raised x, w') => let (rs, w2) := run_all l' w' in (Raised x :: rs, w2)
        | (r, w') => ([r], w')
        end
    end.

  (** A function that returns an [expected] and a caller that reads it:
      SwerveTrajectoryGenerator.cpp:287-293 and RustFFI.cpp:184-205. *)
  Definition return_and_read (c : T + E) : act answer :=
    fun w =>
      let i := length (objects w) in
      bind (match c with inl v => new_value (Temp v) | inr y => new_error y end) (fun _ =>
      bind (has i) (fun h => bind (if h then op_value i else op_error i) (fun a =>
      bind (destroy i) (fun _ => ret a)))) w.

  (** Whether the statement compiles: the enable_ifs of lines 1742, 1766, 1795,
      1810, 1990-1993. *)
  Definition compiles (o : op) : bool :=
    match o with
    | AssignValue _ _ => nothrow_move e
    | AssignErrorCopy _ _ => nothrow_copy e
    | AssignError _ _ => nothrow_move e
    | Swap _ _ => nothrow_move t || nothrow_move e
    | _ => true
    end.
End Expected.
