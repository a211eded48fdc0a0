(** Model of the coupling matrices of examples/advection-reaction-dg.cc:130-169 (getOffDiagonalLocalMatrix).

    A point of the rule on the intersection is given by its positions in the inside and the outside element, its weight and the
    integrationOuterNormal there; simplifications as in DGLocal_model.v. *)
From Coq Require Import List Arith Bool Reals.
From Verif Require Import Lib Basis_model DiscreteFunction_model LocalAssembler_model.
Import ListNotations.

Section Coupling.
Context {E X : Type}.
Variables (dim : nat) (shape : E -> X -> nat -> R) (velocity : E -> X -> nat -> R).

(** elementMatrix[i][j] += x of the matrix with n rows and m columns (advection-reaction-dg.cc:145-146, 167). *)
Definition rect_add (n m i j : nat) (x : R) (M : nat -> nat -> R) : option (nat -> nat -> R) :=
  if (i <? n) && (j <? m) then Some (fun i' j' => if (i' =? i) && (j' =? j) then (M i' j' + x)%R else M i' j') else None.
(** advection-reaction-dg.cc:152-168 *)
Definition coupling_point (n m : nat) (inside outside : E) (q : X * X * R * (nat -> R)) (M : nat -> nat -> R) : option (nat -> nat -> R) :=
  let '(xi, xo, w, normal) := q in
  forl n 0 (fun i M => forl m 0 (fun j M =>
    rect_add n m i j (row_times_row dim (velocity inside xi) normal * shape inside xi i * shape outside xo j * w)%R M) M) M.
(** advection-reaction-dg.cc:152-168 *)
Fixpoint coupling_points (n m : nat) (inside outside : E) (qs : list (X * X * R * (nat -> R))) (M : nat -> nat -> R) : option (nat -> nat -> R) :=
  match qs with [] => Some M | q :: r => M' <- coupling_point n m inside outside q M ;; coupling_points n m inside outside r M' end.
(** getOffDiagonalLocalMatrix (advection-reaction-dg.cc:130-169) for [n] inside and [m] outside shape functions. *)
Definition coupling_matrix (n m : nat) (inside outside : E) (qs : list (X * X * R * (nat -> R))) : option (nat -> nat -> R) :=
  coupling_points n m inside outside qs (fun _ _ => 0%R).
End Coupling.
