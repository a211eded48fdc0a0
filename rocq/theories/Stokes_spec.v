(** Specification for C100. *)
From Coq Require Import List Arith Bool Reals.
From Verif Require Import Lib Basis_model Basis_spec DiscreteFunction_model Stokes_model.
Import ListNotations.

(** The entry of a matrix for two indices; entries that are not stored are zero. *)
Definition entry (dim : nat) (M : bmat) (row col : mi) : R :=
  match matrix_entry row col with Some a => if stored dim M a then bm_val M a else 0%R | None => 0%R end.

Section Spec.
Context {E : Type}.
Variables (b : bexpr E) (loc : E -> nat -> nat -> R).
(** The indices of an element, in local order. *)
Definition indices (e : E) : list mi :=
  match lv_bind (build b) (lv_new (build b)) e with
  | Some v => map (fun i => match lv_index v i with Some m => m | None => [] end) (seq 0 (lv_size v))
  | None => []
  end.
Definition index_at (e : E) (i : nat) : mi := nth i (indices e) [].
(** The contributions of an element to two indices. *)
Definition contribution (row col : mi) (e : E) : R :=
  rsum (length (indices e)) (fun i => rsum (length (indices e)) (fun j =>
    if addr_eqb (index_at e i) row && addr_eqb (index_at e j) col then loc e i j else 0%R)).
Definition total (row col : mi) (es : list E) : R := fold_right Rplus 0%R (map (contribution row col) es).
(** Both indices belong to an element. *)
Definition coupled (es : list E) (row col : mi) : Prop := exists e, In e es /\ In row (indices e) /\ In col (indices e).
End Spec.

(** [y] solves the linear system with the unknowns [L]. *)
Definition solves_system (dim : nat) (M : bmat) (L : list mi) (rhs y : mi -> R) : Prop :=
  forall row, In row L -> fold_right Rplus 0%R (map (fun col => (entry dim M row col * y col)%R) L) = rhs row.
