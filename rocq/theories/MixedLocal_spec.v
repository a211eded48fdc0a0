(** Specification for C104: the mixed weak form of the Poisson equation on an element. *)
From Coq Require Import List Arith Bool Reals.
From Verif Require Import Lib Basis_model DiscreteFunction_model.
Import ListNotations.

Section Spec.
Context {E X : Type}.
Variables (dim : nat) (rt p : leaf E).
Variables (flux : E -> X -> nat -> nat -> R) (fluxj : E -> X -> nat -> nat -> nat -> R) (jinv : E -> X -> nat -> nat -> R)
  (psi : E -> X -> nat -> R) (f : E -> X -> R).

(** Coefficients: [u [0; r]] of the flux at its DOF [r], [u [1; r]] of the pressure at its DOF [r]. *)
(** Component [k] of the flux, its derivative in direction [l] (chain rule), its divergence, and the pressure. *)
Definition flux_value (u : mi -> R) (e : E) (x : X) (k : nat) : R :=
  rsum (lf_fe rt e) (fun i => (u [0; nth i (lf_indices rt e) 0]%nat * flux e x i k)%R).
Definition flux_derivative (u : mi -> R) (e : E) (x : X) (k l : nat) : R :=
  rsum (lf_fe rt e) (fun i => (u [0; nth i (lf_indices rt e) 0]%nat * rsum dim (fun m => fluxj e x i k m * jinv e x m l))%R).
Definition flux_div (u : mi -> R) (e : E) (x : X) : R := rsum dim (fun k => flux_derivative u e x k k).
Definition mixed_pressure (u : mi -> R) (e : E) (x : X) : R :=
  rsum (lf_fe p e) (fun j => (u [1; nth j (lf_indices p e) 0]%nat * psi e x j)%R).
(** sigma(w) . sigma(u) + p(u) div sigma(w) + p(w) div sigma(u), and - f p(w) *)
Definition mixed_integrand (w u : mi -> R) (e : E) (x : X) : R :=
  (rsum dim (fun k => flux_value w e x k * flux_value u e x k) + mixed_pressure u e x * flux_div w e x + mixed_pressure w e x * flux_div u e x)%R.
Definition mixed_source (w : mi -> R) (e : E) (x : X) : R := (- (f e x * mixed_pressure w e x))%R.
End Spec.
