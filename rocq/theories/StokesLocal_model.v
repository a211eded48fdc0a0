(** Model of the local assembler of examples/stokes-taylorhood.cc:49-160 (getLocalMatrix).

    Simplifications as in LocalAssembler_model.v: real numbers; rule, geometry and shape functions are parameters; the element
    matrix is dense with checked access.  The children of the local tree are those of the bound view. *)
From Coq Require Import List Arith Bool Reals.
From Verif Require Import Lib Basis_model DiscreteFunction_model LocalAssembler_model.
Import ListNotations.

Section Local.
Context {E X : Type}.
(** The dimension (stokes-taylorhood.cc:60) and the quadrature rule (lines 81-82). *)
Variables (dim : nat) (quad : E -> list (X * R)).
(** referenceJacobians of the velocity, jacobianInverse, integrationElement, pressureValues (lines 91-95, 104-107, 134-137). *)
Variables (refj jinv : E -> X -> nat -> nat -> R) (ie : E -> X -> R) (psi : E -> X -> nat -> R).

(** localView.tree().child(path).localIndex(i) (stokes-taylorhood.cc:121-122, 146-147). *)
Definition at_child (v : lview E) (path : list nat) (i : nat) : option nat :=
  c <- descendant (lv_tree v) path ;; local_index c i.
(** child(path).finiteElement().size() (stokes-taylorhood.cc:73-76, 117, 143): the size of the leaf. *)
Definition fe_size (v : lview E) (path : list nat) : option nat :=
  c <- descendant (lv_tree v) path ;; Some (node_size c).
(** Velocity-velocity coupling (stokes-taylorhood.cc:117-125). *)
Definition couple_velocity (v : lview E) (e : E) (q : X * R) (nv : nat) (M : nat -> nat -> R) : option (nat -> nat -> R) :=
  forl nv 0 (fun i M => forl nv 0 (fun j M => forl dim 0 (fun k M =>
    row <- at_child v [0; k] i ;; col <- at_child v [0; k] j ;;
    dense_add (lv_size v) row col
      (row_times_row dim (jacobian dim refj jinv e (fst q) i) (jacobian dim refj jinv e (fst q) j) * snd q * ie e (fst q))%R M) M) M) M.
(** Velocity-pressure coupling (stokes-taylorhood.cc:142-155). *)
Definition couple_pressure (v : lview E) (e : E) (q : X * R) (nv np : nat) (M : nat -> nat -> R) : option (nat -> nat -> R) :=
  forl nv 0 (fun i M => forl np 0 (fun j M => forl dim 0 (fun k M =>
    vi <- at_child v [0; k] i ;; pi <- at_child v [1] j ;;
    M1 <- dense_add (lv_size v) vi pi (- (jacobian dim refj jinv e (fst q) i k * psi e (fst q) j * snd q * ie e (fst q)))%R M ;;
    dense_add (lv_size v) pi vi (- (jacobian dim refj jinv e (fst q) i k * psi e (fst q) j * snd q * ie e (fst q)))%R M1) M) M) M.
(** stokes-taylorhood.cc:85-158 *)
Fixpoint stokes_points (v : lview E) (e : E) (nv np : nat) (qs : list (X * R)) (M : nat -> nat -> R) : option (nat -> nat -> R) :=
  match qs with
  | [] => Some M
  | q :: r => M1 <- couple_velocity v e q nv M ;; M2 <- couple_pressure v e q nv np M1 ;; stokes_points v e nv np r M2
  end.
(** getLocalMatrix (stokes-taylorhood.cc:49-160) for a view bound to [e]. *)
Definition stokes_local_matrix (v : lview E) (e : E) : option (nat -> nat -> R) :=
  nv <- fe_size v [0; 0] ;; np <- fe_size v [1] ;; stokes_points v e nv np (quad e) (fun _ _ => 0%R).
End Local.
