(** What it means that derivative(f) is the derivative of a discrete function f (C79). *)
From Coq Require Import List Arith Reals.
From Verif Require Import Lib Basis_model Container_model Container_spec FlatVector_model FlatVector_props
  DiscreteFunction_model DiscreteFunction_spec Nodal_spec.
Import ListNotations.
Local Open Scope R_scope.

(** Number [i] of the scalars in the range entry of the leaf at [p]. *)
Definition range_entry (p : list nat) (y : cont R) (i : nat) : R :=
  match node_to_range p y with Some c => nth i (scalars c) 0 | None => 0 end.

(** [V] is the velocity in global coordinates of a point that starts at the local coordinate
    [x] and moves in the direction [w]. *)
Definition velocity (gdim : nat) (geo : list R -> list R) (x w V : list R) : Prop :=
  is_vec gdim V /\ forall g, (g < gdim)%nat -> derivable_pt_lim (fun t => nth g (geo (vadd x (vscale t w))) 0) 0 (nth g V 0).

(** What finite elements and geometries have to provide: evaluateJacobian() is the derivative
    of evaluateFunction(), and jacobianInverse() takes velocities back to local coordinates. *)
Record derivatives_ok {E : Type} (b : bexpr E) (path : list nat) (els : E -> Prop) (su : setup E (list R))
    (geo : E -> list R -> list R) : Prop := {
  do_shape : forall e v p n x w i k, els e -> leaf_of b path e v p n -> (i < node_size n)%nat -> (k < su_vdim su p)%nat ->
    is_vec (su_ldim su) x -> is_vec (su_ldim su) w ->
    derivable_pt_lim (fun t => shape_of su e p (vadd x (vscale t w)) i k) 0
      (rsum (su_ldim su) (fun l => jac_of su e p x i k l * nth l w 0));
  do_inverse : forall e x w V l, els e -> is_vec (su_ldim su) x -> is_vec (su_ldim su) w -> (l < su_ldim su)%nat ->
    velocity (su_gdim su) (geo e) x w V -> rsum (su_gdim su) (fun g => su_jinv su e x l g * nth g V 0) = nth l w 0
}.

(** [local] is an affine inverse of [geo]. *)
Definition affine_inverse (ldim gdim : nat) (geo local : list R -> list R) : Prop :=
  forall z, is_vec gdim z -> is_vec ldim (local z) /\ geo (local z) = z /\
    forall w, is_vec gdim w -> exists w', is_vec ldim w' /\ forall t, local (vadd z (vscale t w)) = vadd (local z) (vscale t w').
