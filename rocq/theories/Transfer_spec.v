(** What interpolation of a discrete function into another basis should do (C73, C74). *)
From Coq Require Import List Arith Bool Reals.
From Verif Require Import Lib Basis_model Basis_spec Container_model Container_spec DiscreteFunction_model DiscreteFunction_spec
  Projection_model.
Import ListNotations.

Section Spec.
Context {E X : Type}.
Variables (els : E -> Prop).
Notation coefs := (mi -> option (list R)).

(** There are basis functions at the leaf [p] of the (sub)basis on [e]. *)
Definition used_leaf (b : bexpr E) (path : list nat) (e : E) (p : list nat) : Prop :=
  exists v n, leaf_of b path e v p n /\ node_size n <> 0.

(** [f] gives the part for the tree path [p] of the discrete function with coefficients [c];
    [d] gives that of its derivative. *)
Section Source.
Variables (b : bexpr E) (path : list nat) (su : setup E X).
Definition part (c : coefs) (e : E) (p : list nat) (f : X -> option (cont R)) : Prop :=
  forall x, exists y, is_value b path su e c x y /\ f x = node_to_range p y.
Definition derivative_part (c : coefs) (e : E) (p : list nat) (d : X -> option (cont R)) : Prop :=
  forall x, exists y, is_derivative b path su e c x y /\ d x = node_to_range p y.

(** The local interpolation of the leaves of [b2] makes [interp] of the discrete function. *)
Definition locally_interpolates (b2 : bexpr E) (path2 : list nat) (asks : list nat -> bool) (interpolation : functional)
  (c : coefs) (interp : E -> list nat -> list R) : Prop :=
  forall e p f d, els e -> used_leaf b2 path2 e p -> part c e p f ->
    (if asks p then exists d', d = Some d' /\ derivative_part c e p d' else d = None) ->
    interpolation e p f d = Some (interp e p).
End Source.

(** The discrete functions with coefficients [c1] over [b1] and [c2] over [b2] are the same
    for the leaves of [b2], as are their derivatives where [asks] says that they are used. *)
Definition same_parts (asks : list nat -> bool) (b1 : bexpr E) (path1 : list nat) (su1 : setup E X) (c1 : coefs)
  (b2 : bexpr E) (path2 : list nat) (su2 : setup E X) (c2 : coefs) : Prop :=
  forall e p x, els e -> used_leaf b2 path2 e p ->
    (forall y1 y2, is_value b1 path1 su1 e c1 x y1 -> is_value b2 path2 su2 e c2 x y2 ->
       option_map scalars (node_to_range p y1) = option_map scalars (node_to_range p y2)) /\
    (asks p = true -> forall y1 y2, is_derivative b1 path1 su1 e c1 x y1 -> is_derivative b2 path2 su2 e c2 x y2 ->
       option_map scalars (node_to_range p y1) = option_map scalars (node_to_range p y2)).
End Spec.
