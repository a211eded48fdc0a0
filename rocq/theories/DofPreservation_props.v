(** C82: interpolation preserves the degrees of freedom of every element. *)
From Coq Require Import List Arith Lia Bool Reals Lra.
From Verif Require Import Lib Basis_model Basis_spec Basis_proofs Basis_ok Basis_view Basis_props Container_model Container_spec Container_props
  Interpolate_model Interpolate_props FlatVector_model DiscreteFunction_model DiscreteFunction_spec DiscreteFunction_proofs
  Projection_spec Derivative_spec Derivative_props NodalFunctions_proofs Reproduction_spec Reproduction_props DofPreservation_spec.
From Verif Require Import GeometryType_model Mapper_model Mapper_spec Orientation_model Piola_model HDiv_spec.
Import ListNotations.
Local Open Scope R_scope.

(** Whatever the finite elements are: on every visited element the local interpolation of the
    discrete function with the interpolated coefficients returns what the local interpolation
    of the interpolated function returned. *)
Theorem C82_degrees_of_freedom_are_preserved : forall (E X : Type) (b : bexpr E) (path : list nat) (els : E -> Prop) (su : setup E X)
    (t : cty) (inside : E -> X -> Prop) (L : E -> list nat -> (X -> list R) -> list R) (v : E -> list nat -> X -> list R) (interp : E -> list nat -> list R) c es c',
  (forall e p, els e -> interp e p = L e p (v e p)) ->
  setup_ok b path els su -> su_cdim su = 1%nat -> local_interpolation_ok els b path su inside L ->
  consistent els b path interp -> call_ok b els path t interp c es ->
  Interpolate_model.interpolate t (fun _ => true) interp 0 (subspace_of_root (build b) path) es c = Done c' ->
  forall e w p n (y : X -> cont R), In e es -> leaf_of b path e w p n -> node_size n <> 0%nat ->
  (forall x, inside e x -> is_value b path su e (contents t c') x (y x)) ->
  L e p (fun x => map (range_entry p (y x)) (seq 0 (su_vdim su p))) = L e p (v e p).
Proof.
  intros E X b path els su t inside L v interp c es c' HV OKS Hcd HL HC CO HI e w p n y He Lf NZ V.
  pose proof (call_elements _ _ _ _ _ _ _ CO e He) as Hel. pose proof (call_basis _ _ _ _ _ _ _ CO) as Hwf.
  destruct (leaf_exists b path els e w p n Hwf Hel Lf NZ) as [l Hl].
  pose proof (li_size _ _ _ _ _ _ HL p l e (v e p) Hl Hel) as LE. rewrite <- HV in * by auto.
  destruct (leaf_coefficients b path els su OKS (contents t c') e w p n l Hel Lf NZ Hl) as [Ln CE].
  pose proof (interpolated_coefficients b path els su t interp c es c' e w p n l OKS HC CO HI He Lf NZ Hl LE) as IC.
  etransitivity; [|exact (li_dual _ _ _ _ _ _ HL p l e (interp e p) Hl Hel LE)].
  apply (li_inside _ _ _ _ _ _ HL p l e); auto. intros x Hx. apply map_ext_in. intros k Hk. apply in_seq in Hk.
  pose proof (value_entry b path su e (contents t c') x (y x) w p n 0 k (V x Hx) Lf) as VE. rewrite Hcd in VE. cbn [Nat.mul Nat.add] in VE.
  rewrite VE by (auto; lia). rewrite LE, Ln. apply rsum_ext. intros i Hi. f_equal. rewrite CE by auto. now rewrite IC.
Qed.
Print Assumptions C82_degrees_of_freedom_are_preserved.
