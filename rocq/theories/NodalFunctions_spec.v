(** Discrete functions of Hermite, Morley and Argyris bases, evaluated on elements (C80). *)
From Coq Require Import List Arith Reals.
From Verif Require Import Lib Basis_model DiscreteFunction_model DiscreteFunction_spec Nodal_spec Triangle_spec.
Import ListNotations.
Local Open Scope R_scope.

(** The leaf at [p] uses, on element [e] with the vertices [P], a finite element with the given
    evaluateFunction and evaluateJacobian, and the geometry's jacobianInverse is the inverse of
    its Jacobian: column [l] of the Jacobian is the vector from vertex 0 to vertex l+1. *)
Record leaf_element {E : Type} (su : setup E (list R)) (p : list nat) (d : nat) (P : list (list R)) (e : E)
    (evaluateFunction : list R -> option (list R)) (evaluateJacobian : list R -> nat -> option (list R)) : Prop := {
  le_vdim : su_vdim su p = 1%nat;
  le_dim : su_ldim su = d /\ su_gdim su = d;
  le_shape : forall x phi, is_vec d x -> evaluateFunction x = Some phi -> su_shape su e p x = map (fun r => [r]) phi;
  le_jac : forall x l J i, is_vec d x -> (l < d)%nat -> evaluateJacobian x l = Some J -> jac_of su e p x i 0 l = nth i J 0;
  le_jinv : forall x m g, is_vec d x -> (m < d)%nat -> (g < d)%nat ->
    rsum d (fun l => nth m (vsub (nth (S l) P []) (nth 0 P [])) 0 * su_jinv su e x l g) = if (m =? g)%nat then 1 else 0
}.
(** [z] lies on edge [i] of the triangle. *)
Definition on_edge (P : list (list R)) (i : nat) (z : list R) : Prop :=
  let a := nth (fst (edge_vertices i)) P [] in let b := nth (snd (edge_vertices i)) P [] in
  exists t, z = vadd a (vscale t (vsub b a)).
