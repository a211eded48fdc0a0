(** Model of the local assemblers of examples/poisson-pq2.cc:36-134: getLocalMatrix and getVolumeTerm.

    Simplifications.  Numbers are real numbers.  Quadrature rules, geometries, shape functions and the source term are
    parameters (they come from dune-geometry, dune-grid, dune-localfunctions and the user); each rule is a list of
    positions and weights.  The element matrix is dense, with bounds checks for writing: [None] outside. *)
From Coq Require Import List Arith Bool Reals.
From Verif Require Import Lib Basis_model DiscreteFunction_model.
Import ListNotations.

Section Local.
Context {E X : Type}.
(** Element::dimension (poisson-pq2.cc:44), the two quadrature rules (lines 55-56 and 110-111). *)
Variables (dim : nat) (quad quadb : E -> list (X * R)).
(** referenceJacobians, jacobianInverse, integrationElement (lines 65-72), shapeFunctionValues and functionValue (lines 122-126). *)
Variables (refj jinv : E -> X -> nat -> nat -> R) (ie : E -> X -> R) (shape : E -> X -> nat -> R) (f : E -> X -> R).

(** jacobians[i] = referenceJacobians[i] * jacobianInverse (poisson-pq2.cc:76-77). *)
Definition jacobian (e : E) (x : X) (i k : nat) : R := rsum dim (fun l => (refj e x i l * jinv e x l k)%R).
(** (a * transpose(b))[0][0] (poisson-pq2.cc:82). *)
Definition row_times_row (g h : nat -> R) : R := rsum dim (fun k => (g k * h k)%R).
(** elementMatrix[i][j] += x (poisson-pq2.cc:82). *)
Definition dense_add (n i j : nat) (x : R) (M : nat -> nat -> R) : option (nat -> nat -> R) :=
  if (i <? n) && (j <? n) then Some (fun i' j' => if (i' =? i) && (j' =? j) then (M i' j' + x)%R else M i' j') else None.
(** poisson-pq2.cc:80-82 *)
Definition point_matrix (n : nat) (e : E) (q : X * R) (M : nat -> nat -> R) : option (nat -> nat -> R) :=
  forl n 0 (fun i M => forl n 0 (fun j M =>
    dense_add n i j (row_times_row (jacobian e (fst q) i) (jacobian e (fst q) j) * snd q * ie e (fst q))%R M) M) M.
(** poisson-pq2.cc:59-84 *)
Fixpoint points_matrix (n : nat) (e : E) (qs : list (X * R)) (M : nat -> nat -> R) : option (nat -> nat -> R) :=
  match qs with [] => Some M | q :: r => M' <- point_matrix n e q M ;; points_matrix n e r M' end.
(** getLocalMatrix (poisson-pq2.cc:36-86) for [n] shape functions. *)
Definition local_matrix (n : nat) (e : E) : option (nat -> nat -> R) := points_matrix n e (quad e) (fun _ _ => 0%R).

(** localRhs[i] += x (poisson-pq2.cc:130). *)
Definition dense_vec_add (n i : nat) (x : R) (y : nat -> R) : option (nat -> R) :=
  if i <? n then Some (fun i' => if i' =? i then (y i' + x)%R else y i') else None.
(** poisson-pq2.cc:129-130 *)
Definition point_rhs (n : nat) (e : E) (q : X * R) (y : nat -> R) : option (nat -> R) :=
  forl n 0 (fun i y => dense_vec_add n i (shape e (fst q) i * f e (fst q) * snd q * ie e (fst q))%R y) y.
(** poisson-pq2.cc:114-132 *)
Fixpoint points_rhs (n : nat) (e : E) (qs : list (X * R)) (y : nat -> R) : option (nat -> R) :=
  match qs with [] => Some y | q :: r => y' <- point_rhs n e q y ;; points_rhs n e r y' end.
(** getVolumeTerm (poisson-pq2.cc:90-134) for [n] shape functions. *)
Definition local_rhs (n : nat) (e : E) : option (nat -> R) := points_rhs n e (quadb e) (fun _ => 0%R).
End Local.
