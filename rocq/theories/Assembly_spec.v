(** Specification for C99: linear systems and weak forms. *)
From Coq Require Import List Arith Bool Reals.
From Verif Require Import Lib Basis_model Basis_spec DiscreteFunction_model Assembly_model.
Import ListNotations.

Section Spec.
Context {E : Type}.
Variables (b : bexpr E) (loc : E -> nat -> nat -> R) (locb : E -> nat -> R).

(** The global numbers of the DOFs of an element, in local order. *)
Definition numbers (e : E) : list nat :=
  match lv_bind (build b) (lv_new (build b)) e with
  | Some v => map (fun i => match lv_index v i with Some [k] => k | _ => 0 end) (seq 0 (lv_size v))
  | None => []
  end.
Definition at_dof (e : E) (i : nat) : nat := nth i (numbers e) 0.

(** The bilinear form and the linear form on the elements, for functions with coefficients
    [v] (test function) and [u]: sum of those of the elements with the local coefficients. *)
Definition element_form (v u : nat -> R) (e : E) : R :=
  rsum (length (numbers e)) (fun i => rsum (length (numbers e)) (fun j => (v (at_dof e i) * loc e i j * u (at_dof e j))%R)).
Definition form (v u : nat -> R) (es : list E) : R := fold_right Rplus 0%R (map (element_form v u) es).
Definition element_load (v : nat -> R) (e : E) : R := rsum (length (numbers e)) (fun i => (v (at_dof e i) * locb e i)%R).
Definition load (v : nat -> R) (es : list E) : R := fold_right Rplus 0%R (map (element_load v) es).

(** A vector with one entry 1. *)
Definition unit_vector (r : nat) : nat -> R := fun k => if k =? r then 1%R else 0%R.
End Spec.

(** [y] solves the linear system. *)
Definition solves (A : spm) (b y : nat -> R) : Prop :=
  forall i, i < sm_n A -> rsum (sm_n A) (fun c => (sm_val A i c * y c)%R) = b i.
