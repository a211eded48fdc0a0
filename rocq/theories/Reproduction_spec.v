(** Interpolation of functions that belong to the space (C81). *)
From Coq Require Import List Arith Reals.
From Verif Require Import Lib Basis_model Basis_spec DiscreteFunction_model DiscreteFunction_spec.
Import ListNotations.
Local Open Scope R_scope.

(** The local interpolations of two elements give the same coefficient to the basis functions
    that the leaf shares between them. *)
Definition consistent {E V : Type} (els : E -> Prop) (b : bexpr E) (path : list nat) (interp : E -> list nat -> list V) : Prop :=
  forall p l e e' a a' g x x', leaf_at b (path ++ p) = Some l -> els e -> els e' ->
    nth_error (lf_indices l e) a = Some g -> nth_error (lf_indices l e') a' = Some g ->
    nth_error (interp e p) a = Some x -> nth_error (interp e' p) a' = Some x' -> x = x'.
(** On every element the function, whose entry for leaf [p] and component [k] of the shape
    functions is [F p k], is the combination of the shape functions with the coefficients
    that the local interpolation returns. *)
Definition locally_reproduced {E X : Type} (els : E -> Prop) (b : bexpr E) (path : list nat) (su : setup E X)
    (interp : E -> list nat -> list R) (F : list nat -> nat -> E -> X -> R) : Prop :=
  forall p l e x k, leaf_at b (path ++ p) = Some l -> els e -> (k < su_vdim su p)%nat ->
    length (interp e p) = length (lf_indices l e) /\
    F p k e x = rsum (length (interp e p)) (fun i => nth i (interp e p) 0 * shape_of su e p x i k).
