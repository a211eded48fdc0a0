(** What it means that interpolation of discrete functions reproduces them (C66). *)
From Coq Require Import List Arith Bool Reals.
From Verif Require Import Lib Basis_model Basis_spec Container_model Container_spec DiscreteFunction_model DiscreteFunction_spec Interpolate_props Projection_model.
Import ListNotations.

Section Spec.
Context {E X : Type}.
Variables (b : bexpr E) (path : list nat) (els : E -> Prop) (su : setup E X).

(** [f] is the combination of the [n] shape functions of leaf [p] on [e] with coefficients
    [a]; [d] is the derivative of this combination with respect to global coordinates. *)
Definition combination (e : E) (p : list nat) (n : nat) (a : nat -> R) (f : X -> option (cont R)) : Prop :=
  forall x, exists y, f x = Some y /\ length (scalars y) = su_vdim su p /\
    forall k, k < su_vdim su p -> nth_error (scalars y) k = Some (rsum n (fun i => (a i * shape_of su e p x i k)%R)).
Definition combination_derivative (e : E) (p : list nat) (n : nat) (a : nat -> R) (d : X -> option (cont R)) : Prop :=
  forall x, exists y, d x = Some y /\ length (scalars y) = su_vdim su p * su_gdim su /\
    forall r g, r < su_vdim su p -> g < su_gdim su -> nth_error (scalars y) (r * su_gdim su + g) =
      Some (rsum n (fun i => (a i * rsum (su_ldim su) (fun l => (jac_of su e p x i r l * su_jinv su e x l g)%R))%R)).

(** Contract of finite elements: the degrees of freedom are dual to the shape functions, so
    that the local interpolation of a combination of shape functions gives back its
    coefficients.  [asks]: the leaves whose interpolation uses derivatives. *)
Definition dual (asks : list nat -> bool) (interpolation : functional) : Prop :=
  forall e v p n a f d, els e -> leaf_of b path e v p n -> node_size n <> 0 ->
    combination e p (node_size n) a f ->
    (if asks p then exists d', d = Some d' /\ combination_derivative e p (node_size n) a d' else d = None) ->
    interpolation e p f d = Some (map a (seq 0 (node_size n))).

(** [m] is the index of a degree of freedom of the (sub)basis on [e]. *)
Definition dof_on (e : E) (m : mi) : Prop :=
  exists v p n i k, leaf_of b path e v p n /\ local_index n i = Some k /\ lv_index v k = Some m.
(** All degrees of freedom have a number as coefficient. *)
Definition numbers (c : mi -> option (list R)) (x : mi -> R) : Prop := forall m, global_index els b m -> c m = Some [x m].
End Spec.

(** The coefficients of a discrete function that refers to the vector with content [c]. *)
Definition contents (t : cty) (c : cont R) (m : mi) : option (list R) :=
  match read t c m with Some (CVal r) => Some [r] | _ => None end.
