(** The vendored /repo/include/trajopt/util/expected: the functions that call the
    caller back, and the comparisons.  Copies and moves of members are taken not
    to throw here; expected<void, E> is [expected] of [unit]. *)
From Coq Require Import List Bool.
From Verif Require Import Expected.

(** The overloads &, && and const & (const && acts as const &), e.g. lines
    1388-1401. *)
Inductive category : Type := Lvalue | Rvalue | Const.
(** What the caller passes: given a value it returns or throws ([None]), and leaves something in
    its argument.  detail::invoke, lines 297-314. *)
Definition callable (A B : Type) : Type := A -> option B * A.
(** What is in the argument afterwards; a const one stays.  E.g. line 2128. *)
Definition after {A} (c : category) (a a' : A) : A := match c with Const => a | _ => a' end.
(** What is left when a member is passed on by std::forward<Exp>(exp), e.g. line 2129. *)
Definition forwarded {A} (el : element A) (c : category) (a : A) : A := match c with Rvalue => moved el a | _ => a end.

Section Calls.
  Context {T U E G : Type}.
  Context (t : element T) (e : element E).

  (** The end of the call of a function that the caller passes, e.g. line 2128. *)
  Definition returned {A B} (r : option A) (wrap : A -> B) : result E B :=
    match r with Some a => Done (wrap a) | None => Raised MemberThrew end.
  (** A value, resp. an error, in a new object: [result(...)] and
      [result(unexpect, ...)], e.g. lines 2175-2177. *)
  Definition with_value {A B} (v : A) : @expected A B := mkExpected (Val v) true.
  Definition with_error {A B} (y : B) : @expected A B := mkExpected (Err y) false.

  (** and_then, lines 2120-2140. *)
  Definition and_then (c : category) (f : callable T (@expected U E)) (x : @expected T E) :
      result E (@expected U E) * @expected T E :=
    if x_has x then
      match x_cell x with
      | Val v => let (r, v') := f v in (returned r (fun y => y), with_value (after c v v'))
      | _ => (Undefined, x)
      end
    else
      match x_cell x with
      | Err y => (Done (with_error y), with_error (forwarded e c y))
      | _ => (Undefined, x)
      end.
  (** map and transform, lines 2168-2216; a function that returns nothing returns
      a [unit]. *)
  Definition map_value (c : category) (f : callable T U) (x : @expected T E) : result E (@expected U E) * @expected T E :=
    if x_has x then
      match x_cell x with
      | Val v => let (r, v') := f v in (returned r with_value, with_value (after c v v'))
      | _ => (Undefined, x)
      end
    else
      match x_cell x with
      | Err y => (Done (with_error y), with_error (forwarded e c y))
      | _ => (Undefined, x)
      end.
  (** map_error and transform_error, lines 2279-2330; a function that returns
      nothing returns a monostate. *)
  Definition map_error (c : category) (f : callable E G) (x : @expected T E) : result E (@expected T G) * @expected T E :=
    if x_has x then
      match x_cell x with
      | Val v => (Done (with_value v), with_value (forwarded t c v))
      | _ => (Undefined, x)
      end
    else
      match x_cell x with
      | Err y => let (r, y') := f y in (returned r with_error, with_error (after c y y'))
      | _ => (Undefined, x)
      end.
  (** or_else, lines 2394-2402. *)
  Definition or_else (c : category) (f : callable E (@expected T E)) (x : @expected T E) :
      result E (@expected T E) * @expected T E :=
    if x_has x then
      match x_cell x with
      | Val v => (Done (with_value v), with_value (forwarded t c v))
      | _ => (Undefined, x)
      end
    else
      match x_cell x with
      | Err y => let (r, y') := f y in (returned r (fun z => z), with_error (after c y y'))
      | _ => (Undefined, x)
      end.
  (** or_else with a function that returns nothing, lines 2404-2414: the object
      is passed on after the call. *)
  Definition or_else_void (c : category) (f : callable E unit) (x : @expected T E) : result E (@expected T E) * @expected T E :=
    if x_has x then
      match x_cell x with
      | Val v => (Done (with_value v), with_value (forwarded t c v))
      | _ => (Undefined, x)
      end
    else
      match x_cell x with
      | Err y =>
          let (r, y') := f y in
          let y1 := after c y y' in
          match r with
          | Some _ => (Done (with_error y1), with_error (forwarded e c y1))
          | None => (Raised MemberThrew, with_error y1)
          end
      | _ => (Undefined, x)
      end.
End Calls.

Section Compare.
  Context {T U E F : Type}.
  (** The members' own operators == and !=, line 2445. *)
  Context (eqT neT : T -> U -> bool) (eqE neE : E -> F -> bool).

  (** Reading *x, e.g. line 2445. *)
  Definition on_value {A B} (x : @expected A B) (k : A -> result unit bool) : result unit bool :=
    match x_cell x with Val v => k v | _ => Undefined end.
  (** Reading x.error(), e.g. line 2445. *)
  Definition on_error {A B} (x : @expected A B) (k : B -> result unit bool) : result unit bool :=
    match x_cell x with Err y => k y | _ => Undefined end.

  (** operator==, lines 2440-2446. *)
  Definition equal (a : @expected T E) (b : @expected U F) : result unit bool :=
    if xorb (x_has a) (x_has b) then Done false
    else if negb (x_has a) then on_error a (fun y => on_error b (fun z => Done (eqE y z)))
    else on_value a (fun v => on_value b (fun w => Done (eqT v w))).
  (** operator!=, lines 2447-2453. *)
  Definition unequal (a : @expected T E) (b : @expected U F) : result unit bool :=
    if xorb (x_has a) (x_has b) then Done true
    else if negb (x_has a) then on_error a (fun y => on_error b (fun z => Done (neE y z)))
    else on_value a (fun v => on_value b (fun w => Done (neT v w))).
  (** operator== of expected<void, E>, lines 2454-2460. *)
  Definition equal_void (a : @expected unit E) (b : @expected unit F) : result unit bool :=
    if xorb (x_has a) (x_has b) then Done false
    else if negb (x_has a) then on_error a (fun y => on_error b (fun z => Done (eqE y z)))
    else Done true.
  (** operator!= of expected<void, E>, lines 2461-2467. *)
  Definition unequal_void (a : @expected unit E) (b : @expected unit F) : result unit bool :=
    if xorb (x_has a) (x_has b) then Done true
    else if negb (x_has a) then on_error a (fun y => on_error b (fun z => Done (eqE y z)))
    else Done false.
  (** operator== with a value, lines 2469-2476. *)
  Definition equal_value (a : @expected T E) (w : U) : result unit bool :=
    if x_has a then on_value a (fun v => Done (eqT v w)) else Done false.
  (** operator!= with a value, lines 2477-2484. *)
  Definition unequal_value (a : @expected T E) (w : U) : result unit bool :=
    if x_has a then on_value a (fun v => Done (neT v w)) else Done true.
  (** operator== with an error, lines 2486-2493. *)
  Definition equal_error (a : @expected T E) (z : F) : result unit bool :=
    if x_has a then Done false else on_error a (fun y => Done (eqE y z)).
  (** operator!= with an error, lines 2494-2501. *)
  Definition unequal_error (a : @expected T E) (z : F) : result unit bool :=
    if x_has a then Done true else on_error a (fun y => Done (neE y z)).
End Compare.
