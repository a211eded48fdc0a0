(** Specification for C101: forms with terms on intersections. *)
From Coq Require Import List Arith Bool Reals.
From Verif Require Import Lib Basis_model Basis_spec DiscreteFunction_model Assembly_model Assembly_spec.
Import ListNotations.

Section Spec.
Context {E : Type}.
Variables (b : bexpr E) (inters : E -> list (option E)) (loc : E -> nat -> nat -> R) (off : E -> nat -> nat -> nat -> R).

(** The term of the k-th intersection of an element: the test function from inside, the other one from outside. *)
Definition inter_form (v u : nat -> R) (e : E) (k : nat) (x : option E) : R :=
  match x with
  | Some o => rsum (length (numbers b e)) (fun i => rsum (length (numbers b o)) (fun j => (v (at_dof b e i) * off e k i j * u (at_dof b o j))%R))
  | None => 0%R
  end.
Definition inters_form (v u : nat -> R) (e : E) : R :=
  fold_right Rplus 0%R (map (fun k => inter_form v u e k (nth k (inters e) None)) (seq 0 (length (inters e)))).
Definition dg_form (v u : nat -> R) (es : list E) : R :=
  fold_right Rplus 0%R (map (fun e => (element_form b loc v u e + inters_form v u e)%R) es).
(** [o] is [e] itself or the element on the other side of an intersection. *)
Definition near (e o : E) : Prop := o = e \/ In (Some o) (inters e).
End Spec.
