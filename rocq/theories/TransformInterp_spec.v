(** What interpolation into a periodic basis should do (C73). *)
From Coq Require Import List Arith Bool.
From Verif Require Import Lib Basis_model Basis_spec Container_model Container_spec Interpolate_props Periodic_props.
Import ListNotations.

(** Vectors for flat indices: vectors of numbers, or of blocks with one number. *)
Definition flat_vector (t : cty) : Prop := t = TDyn TScalar \/ t = TDyn (TArr 1 TScalar).

Section Spec.
Context {E : Type}.
Variables (b : bexpr E) (els : E -> Prop).

(** DOF [d] of the raw basis has index [k] in the basis [pb]: some local DOF has both. *)
Definition renumbered (pb : prebasis E) (d k : nat) : Prop :=
  exists e i, els e /\ Periodic_props.local_index (build b) e i [d] /\ Periodic_props.local_index pb e i [k].

(** A visited element interpolates the value [x] for a raw DOF that has index [k]. *)
Definition offered {V} (path : list nat) (interp : E -> list nat -> list V) (pb : prebasis E) (es : list E) (k : nat) (x : V) : Prop :=
  exists e d, In e es /\ local_value b path interp e [d] x /\ renumbered pb d k.

(** What is interpolated has the same values at related DOFs. *)
Definition periodic_values {V} (path : list nat) (interp : E -> list nat -> list V) (rel : nat -> nat -> Prop) (es : list E) : Prop :=
  forall e e' d d' x x', In e es -> In e' es -> local_value b path interp e [d] x -> local_value b path interp e' [d'] x' -> rel d d' -> x = x'.

End Spec.
