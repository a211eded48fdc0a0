(** Specification for C105: the advection-reaction equation on an element. *)
From Coq Require Import List Arith Bool Reals.
From Verif Require Import Lib Basis_model DiscreteFunction_model Assembly_spec LocalAssembler_spec DGLocal_model.
Import ListNotations.

Section Spec.
Context {E X : Type}.
Variables (b : bexpr E) (dim : nat) (quad : E -> list (X * R)) (faces : E -> list (bool * list (X * R * (nat -> R)))).
Variables (refj jinv : E -> X -> nat -> nat -> R) (ie : E -> X -> R) (shape : E -> X -> nat -> R)
  (velocity : E -> X -> nat -> R) (reaction : E -> X -> R).

(** velocity . grad u *)
Definition advection (u : nat -> R) (e : E) (x : X) : R := rsum dim (fun k => (velocity e x k * gradient b dim refj jinv u e x k)%R).
(** velocity . normal, and only its negative part (inflow) at the boundary. *)
Definition flow (e : E) (x : X) (normal : nat -> R) : R := rsum dim (fun k => (velocity e x k * normal k)%R).
Definition face_term (v u : nat -> R) (e : E) (nb : bool) (q : X * R * (nat -> R)) : R :=
  let '(x, w, normal) := q in
  ((if nb then flow e x normal else Rmin (flow e x normal) 0) * value b shape v e x * value b shape u e x * w)%R.
Definition faces_term (v u : nat -> R) (e : E) : R :=
  fold_right Rplus 0%R (map (fun f => fold_right Rplus 0%R (map (face_term v u e (fst f)) (snd f))) (faces e)).

(** The element matrix of the assembler. *)
Definition dg_element (e : E) (i j : nat) : R :=
  match dg_local_matrix dim quad faces refj jinv ie shape velocity reaction (nshape b e) e with Some M => M i j | None => 0%R end.

(** [u] solves the equation reaction u + velocity . grad u = f at the quadrature points, and is zero at the inflow boundary. *)
Definition solves_equation (f : E -> X -> R) (u : nat -> R) (e : E) : Prop :=
  (forall q, In q (quad e) -> (reaction e (fst q) * value b shape u e (fst q) + advection u e (fst q))%R = f e (fst q)) /\
  (forall nb qs x w normal, In (nb, qs) (faces e) -> In (x, w, normal) qs -> (flow e x normal < 0)%R -> value b shape u e x = 0%R).
(** All faces are at the boundary: the element is the whole domain. *)
Definition alone (e : E) : Prop := forall nb qs, In (nb, qs) (faces e) -> nb = false.
End Spec.
