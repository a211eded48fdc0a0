(** Specification for C102: the weak form of the Poisson equation with quadrature. *)
From Coq Require Import List Arith Bool Reals.
From Verif Require Import Lib Basis_model Basis_spec DiscreteFunction_model Assembly_spec LocalAssembler_model.
Import ListNotations.

Section Spec.
Context {E X : Type}.
Variables (b : bexpr E) (dim : nat) (quad quadb : E -> list (X * R)).
Variables (refj jinv : E -> X -> nat -> nat -> R) (ie : E -> X -> R) (shape : E -> X -> nat -> R) (f : E -> X -> R).

Definition nshape (e : E) : nat := length (numbers b e).
(** Value and gradient of the function with the coefficients [u], in an element; the gradient by the chain rule. *)
Definition value (u : nat -> R) (e : E) (x : X) : R := rsum (nshape e) (fun i => (u (at_dof b e i) * shape e x i)%R).
Definition gradient (u : nat -> R) (e : E) (x : X) (k : nat) : R :=
  rsum (nshape e) (fun i => (u (at_dof b e i) * rsum dim (fun l => (refj e x i l * jinv e x l k)%R))%R).
(** Quadrature of a function on an element. *)
Definition integral (rule : E -> list (X * R)) (g : E -> X -> R) (e : E) : R :=
  fold_right Rplus 0%R (map (fun q => (g e (fst q) * snd q * ie e (fst q))%R) (rule e)).
Definition on_elements (g : E -> R) (es : list E) : R := fold_right Rplus 0%R (map g es).
(** The integrals of grad v . grad u and of f v. *)
Definition dirichlet_form (v u : nat -> R) (es : list E) : R :=
  on_elements (integral quad (fun e x => rsum dim (fun k => (gradient v e x k * gradient u e x k)%R))) es.
Definition source (v : nat -> R) (es : list E) : R := on_elements (integral quadb (fun e x => (f e x * value v e x)%R)) es.

(** The element matrices and vectors of the assemblers. *)
Definition element_matrix (e : E) (i j : nat) : R := match local_matrix dim quad refj jinv ie (nshape e) e with Some M => M i j | None => 0%R end.
Definition element_rhs (e : E) (i : nat) : R := match local_rhs quadb ie shape f (nshape e) e with Some y => y i | None => 0%R end.
End Spec.
