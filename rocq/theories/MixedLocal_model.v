(** Model of the local assemblers of examples/poisson-mfem.cc:44-201 (getLocalMatrix and getVolumeTerm).

    Simplifications as in LocalAssembler_model.v: real numbers; rules, geometry, shape functions and source term are parameters; the
    element matrix and vector are dense with checked access.  The children of the local tree are those of the bound view. *)
From Coq Require Import List Arith Bool Reals.
From Verif Require Import Lib Basis_model DiscreteFunction_model LocalAssembler_model StokesLocal_model.
Import ListNotations.

(** poisson-mfem.cc:379-384 (blockedLexicographic is the default of composite). *)
Definition mixed_basis {E} (rt p : leaf E) : bexpr E := BComposite CBlockedLexicographic [BLeaf rt; BLeaf p].

Section Local.
Context {E X : Type}.
(** The dimension (poisson-mfem.cc:53) and the quadrature rules (lines 69 and 177). *)
Variables (dim : nat) (quad quadb : E -> list (X * R)).
(** fluxValues, fluxReferenceJacobians, jacobianInverse, integrationElement, pressureValues, functionValue (lines 78-93, 113-114, 186-192). *)
Variables (flux : E -> X -> nat -> nat -> R) (fluxj : E -> X -> nat -> nat -> nat -> R) (jinv : E -> X -> nat -> nat -> R)
  (ie : E -> X -> R) (psi : E -> X -> nat -> R) (f : E -> X -> R).

(** trace (poisson-mfem.cc:96-101). *)
Definition trace (m : nat -> nat -> R) : R := rsum dim (fun j => m j j).
(** fluxDivergence[i] (poisson-mfem.cc:104-106). *)
Definition flux_divergence (e : E) (x : X) (i : nat) : R :=
  trace (fun k l => rsum dim (fun m => (fluxj e x i k m * jinv e x m l)%R)).
(** Flux-flux coupling (poisson-mfem.cc:120-128). *)
Definition couple_flux (v : lview E) (e : E) (q : X * R) (nf : nat) (M : nat -> nat -> R) : option (nat -> nat -> R) :=
  forl nf 0 (fun i M => row <- at_child v [0] i ;; forl nf 0 (fun j M => col <- at_child v [0] j ;;
    dense_add (lv_size v) row col (row_times_row dim (flux e (fst q) i) (flux e (fst q) j) * snd q * ie e (fst q))%R M) M) M.
(** Flux-pressure coupling (poisson-mfem.cc:134-147). *)
Definition couple_flux_pressure (v : lview E) (e : E) (q : X * R) (nf np : nat) (M : nat -> nat -> R) : option (nat -> nat -> R) :=
  forl nf 0 (fun i M => fi <- at_child v [0] i ;; forl np 0 (fun j M => pi <- at_child v [1] j ;;
    let tmp := (flux_divergence e (fst q) i * psi e (fst q) j * snd q * ie e (fst q))%R in
    M1 <- dense_add (lv_size v) fi pi tmp M ;; dense_add (lv_size v) pi fi tmp M1) M) M.
(** poisson-mfem.cc:72-148 *)
Fixpoint mixed_points (v : lview E) (e : E) (nf np : nat) (qs : list (X * R)) (M : nat -> nat -> R) : option (nat -> nat -> R) :=
  match qs with
  | [] => Some M
  | q :: r => M1 <- couple_flux v e q nf M ;; M2 <- couple_flux_pressure v e q nf np M1 ;; mixed_points v e nf np r M2
  end.
(** getLocalMatrix (poisson-mfem.cc:44-149) for a view bound to [e]. *)
Definition mixed_local_matrix (v : lview E) (e : E) : option (nat -> nat -> R) :=
  nf <- fe_size v [0] ;; np <- fe_size v [1] ;; mixed_points v e nf np (quad e) (fun _ _ => 0%R).

(** poisson-mfem.cc:195-199 *)
Definition mixed_point_rhs (v : lview E) (e : E) (q : X * R) (np : nat) (y : nat -> R) : option (nat -> R) :=
  forl np 0 (fun j y => pi <- at_child v [1] j ;;
    dense_vec_add (lv_size v) pi (- psi e (fst q) j * f e (fst q) * snd q * ie e (fst q))%R y) y.
(** poisson-mfem.cc:180-200 *)
Fixpoint mixed_points_rhs (v : lview E) (e : E) (np : nat) (qs : list (X * R)) (y : nat -> R) : option (nat -> R) :=
  match qs with [] => Some y | q :: r => y' <- mixed_point_rhs v e q np y ;; mixed_points_rhs v e np r y' end.
(** getVolumeTerm (poisson-mfem.cc:152-201) for a view bound to [e]. *)
Definition mixed_local_rhs (v : lview E) (e : E) : option (nat -> R) :=
  np <- fe_size v [1] ;; mixed_points_rhs v e np (quadb e) (fun _ => 0%R).
End Local.
