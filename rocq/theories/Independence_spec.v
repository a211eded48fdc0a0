(** What it means that a discrete function determines its coefficients (C69). *)
From Coq Require Import List Arith Bool Reals.
From Verif Require Import Lib Basis_model Basis_spec Container_model DiscreteFunction_model DiscreteFunction_spec.
Import ListNotations.

Section Spec.
Context {E X : Type}.
Variables (b : bexpr E) (path : list nat) (els : E -> Prop) (pts : E -> X -> Prop) (su : setup E X).

(** [pts e x]: functions on [e] are looked at in the local coordinate [x], for example if [x]
    is in the reference element. *)

(** What a user evaluates: a new local function, bound to [e] and called with [x], while the
    coefficient vector has the content [c]. *)
Definition value (c : mi -> option (list R)) (e : E) (x : X) : option (cont R) :=
  f <- lf_bind su c (lf_new su false) e ;; lf_eval su f x.
Definition same_function (c c' : mi -> option (list R)) : Prop :=
  forall e x, els e -> pts e x -> value c e x = value c' e x.

(** Contract of finite elements: on every element the shape functions of a leaf are
    linearly independent. *)
Definition independent : Prop :=
  forall e v p n a, els e -> leaf_of b path e v p n ->
    (forall x k, pts e x -> k < su_vdim su p -> rsum (node_size n) (fun i => (a i * shape_of su e p x i k)%R) = 0%R) ->
    forall i, i < node_size n -> a i = 0%R.

(** Combinations of shape functions that vanish have a vanishing derivative. *)
Definition derivatives_follow : Prop :=
  forall e v p n a, els e -> leaf_of b path e v p n ->
    (forall x k, k < su_vdim su p -> rsum (node_size n) (fun i => (a i * shape_of su e p x i k)%R) = 0%R) ->
    forall x r g, r < su_vdim su p -> g < su_gdim su ->
      rsum (node_size n) (fun i => (a i * rsum (su_ldim su) (fun l => (jac_of su e p x i r l * su_jinv su e x l g)%R))%R) = 0%R.

(** The Lagrange property: in the node of a shape function it is one and the others are zero. *)
Definition nodal (node : E -> list nat -> nat -> X) : Prop :=
  forall e v p n, els e -> leaf_of b path e v p n -> node_size n <> 0 -> 0 < su_vdim su p /\
    forall i j, i < node_size n -> j < node_size n -> pts e (node e p j) /\
      shape_of su e p (node e p j) i 0 = (if i =? j then 1 else 0)%R.
End Spec.
