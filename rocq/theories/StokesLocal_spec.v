(** Specification for C103: the weak form of the Stokes equations with quadrature. *)
From Coq Require Import List Arith Bool Reals.
From Verif Require Import Lib Basis_model DiscreteFunction_model LocalAssembler_spec.
Import ListNotations.

Section Spec.
Context {E X : Type}.
Variables (dim : nat) (v p : leaf E) (quad : E -> list (X * R)).
Variables (refj jinv : E -> X -> nat -> nat -> R) (ie : E -> X -> R) (psi : E -> X -> nat -> R).

(** Coefficients: [u [0; r; k]] of component [k] of the velocity at its DOF [r], [u [1; r]] of the pressure at its DOF [r]. *)
(** Derivative of component [k] of the velocity in direction [l] (chain rule), divergence and pressure, on an element. *)
Definition velocity_derivative (u : mi -> R) (e : E) (x : X) (k l : nat) : R :=
  rsum (lf_fe v e) (fun i => (u [0; nth i (lf_indices v e) 0; k]%nat * rsum dim (fun m => refj e x i m * jinv e x m l))%R).
Definition divergence (u : mi -> R) (e : E) (x : X) : R := rsum dim (fun k => velocity_derivative u e x k k).
Definition pressure (u : mi -> R) (e : E) (x : X) : R := rsum (lf_fe p e) (fun j => (u [1; nth j (lf_indices p e) 0]%nat * psi e x j)%R).
(** grad v : grad u - p(u) div v - p(v) div u *)
Definition stokes_integrand (w u : mi -> R) (e : E) (x : X) : R :=
  (rsum dim (fun k => rsum dim (fun l => velocity_derivative w e x k l * velocity_derivative u e x k l))
   - pressure u e x * divergence w e x - pressure w e x * divergence u e x)%R.
Definition stokes_form (w u : mi -> R) (es : list E) : R := on_elements (integral ie quad (stokes_integrand w u)) es.
End Spec.
