(** What the functions of ExpectedCalls.v are for: [T + E] as a value that may be
    missing. *)
From Coq Require Import List Bool.
From Verif Require Import Expected ExpectedCalls SpecExpected.

Section SpecCalls.
  Context {T U E G F : Type}.
  (** On values, on errors. *)
  Definition fmap (f : T -> U) (c : T + E) : U + E := match c with inl v => inl (f v) | inr y => inr y end.
  Definition fmap_error (f : E -> G) (c : T + E) : T + G := match c with inl v => inl v | inr y => inr (f y) end.
  Definition then_ (f : T -> U + E) (c : T + E) : U + E := match c with inl v => f v | inr y => inr y end.
  Definition else_ (f : E -> T + E) (c : T + E) : T + E := match c with inl v => inl v | inr y => f y end.

  (** A function of the caller that returns [g a] and leaves [h a]. *)
  Definition returns {A B} (g : A -> B) (h : A -> A) : callable A B := fun a => (Some (g a), h a).
  (** One that throws. *)
  Definition throws {A B} (h : A -> A) : callable A B := fun a => (None, h a).
  (** What such a function leaves, and what passing on leaves. *)
  Definition called_on_value (e : element E) (k : category) (h : T -> T) (c : T + E) : T + E :=
    match c with
    | inl v => inl (match k with Const => v | _ => h v end)
    | inr y => inr (match k with Rvalue => moved e y | _ => y end)
    end.
  Definition called_on_error (t : element T) (k : category) (h : E -> E) (c : T + E) : T + E :=
    match c with
    | inl v => inl (match k with Rvalue => moved t v | _ => v end)
    | inr y => inr (match k with Const => y | _ => h y end)
    end.
  Definition same_content (eqT : T -> U -> bool) (eqE : E -> F -> bool) (c : T + E) (d : U + F) : bool :=
    match c, d with
    | inl v, inl w => eqT v w
    | inr y, inr z => eqE y z
    | _, _ => false
    end.
End SpecCalls.
