(** Model of the element matrix of examples/advection-reaction-dg.cc:39-128 (getLocalMatrix).

    Simplifications as in LocalAssembler_model.v.  The intersections of an element are a list: whether there is a neighbor, and for each
    quadrature point its position in the element, its weight and the integrationOuterNormal there.  (getVolumeTerm is that of
    poisson-pq2.cc, see [local_rhs].) *)
From Coq Require Import List Arith Bool Reals.
From Verif Require Import Lib Basis_model DiscreteFunction_model LocalAssembler_model.
Import ListNotations.

Section Local.
Context {E X : Type}.
(** Dimension and quadrature rule (advection-reaction-dg.cc:50, 61-62), intersections with their rules (lines 101-109). *)
Variables (dim : nat) (quad : E -> list (X * R)) (faces : E -> list (bool * list (X * R * (nat -> R)))).
(** referenceJacobians, jacobianInverse, integrationElement, values, localVelocityField, localReactionCoefficient (lines 68-79). *)
Variables (refj jinv : E -> X -> nat -> nat -> R) (ie : E -> X -> R) (shape : E -> X -> nat -> R)
  (velocity : E -> X -> nat -> R) (reaction : E -> X -> R).

(** advection-reaction-dg.cc:87-94 *)
Definition dg_point (n : nat) (e : E) (q : X * R) (M : nat -> nat -> R) : option (nat -> nat -> R) :=
  forl n 0 (fun i M => forl n 0 (fun j M =>
    M1 <- dense_add n i j (reaction e (fst q) * shape e (fst q) i * shape e (fst q) j * snd q * ie e (fst q))%R M ;;
    dense_add n i j (row_times_row dim (velocity e (fst q)) (jacobian dim refj jinv e (fst q) i) * shape e (fst q) j * snd q * ie e (fst q))%R M1) M) M.
(** advection-reaction-dg.cc:65-95 *)
Fixpoint dg_points (n : nat) (e : E) (qs : list (X * R)) (M : nat -> nat -> R) : option (nat -> nat -> R) :=
  match qs with [] => Some M | q :: r => M' <- dg_point n e q M ;; dg_points n e r M' end.
(** factor (advection-reaction-dg.cc:115-119). *)
Definition factor (e : E) (neighbor : bool) (x : X) (normal : nat -> R) : R :=
  let s := row_times_row dim (velocity e x) normal in if neighbor then s else Rmin s 0.
(** advection-reaction-dg.cc:121-123 *)
Definition dg_face_point (n : nat) (e : E) (neighbor : bool) (q : X * R * (nat -> R)) (M : nat -> nat -> R) : option (nat -> nat -> R) :=
  let '(x, w, normal) := q in
  forl n 0 (fun i M => forl n 0 (fun j M =>
    dense_add n i j (-1 * factor e neighbor x normal * shape e x i * shape e x j * w)%R M) M) M.
(** advection-reaction-dg.cc:107-124 *)
Fixpoint dg_face_points (n : nat) (e : E) (neighbor : bool) (qs : list (X * R * (nat -> R))) (M : nat -> nat -> R) : option (nat -> nat -> R) :=
  match qs with [] => Some M | q :: r => M' <- dg_face_point n e neighbor q M ;; dg_face_points n e neighbor r M' end.
(** advection-reaction-dg.cc:101-126 *)
Fixpoint dg_faces (n : nat) (e : E) (fs : list (bool * list (X * R * (nat -> R)))) (M : nat -> nat -> R) : option (nat -> nat -> R) :=
  match fs with [] => Some M | (nb, qs) :: r => M' <- dg_face_points n e nb qs M ;; dg_faces n e r M' end.
(** getLocalMatrix (advection-reaction-dg.cc:39-128) for [n] shape functions. *)
Definition dg_local_matrix (n : nat) (e : E) : option (nat -> nat -> R) :=
  M <- dg_points n e (quad e) (fun _ _ => 0%R) ;; dg_faces n e (faces e) M.
End Local.
