(** What it means that interpolation into Lagrange bases is nodal (C67). *)
From Coq Require Import List Arith Bool Reals.
From Verif Require Import Lib GeometryType_model Mapper_model Mapper_spec Lagrange_model Lagrange_spec Basis_model
  DiscreteFunction_model Conforming_spec.
Import ListNotations.

Section Nodal.
Context {E X P : Type}.
Variable els : E -> Prop.
Variable g : grid E X.
Variable ref : E -> refelem.
Variable vid : E -> nat -> nat.
(** weights of the vertices of the element for a local coordinate *)
Variable bary : E -> P -> nat -> R.

(** A conforming grid: the contracts of C28 and C63, and elements can be told apart. *)
Record conforming_grid : Prop := {
  cg_dim : 1 <= g_dim g <= 3;
  cg_grid : grid_ok els g;
  cg_ids : ids_ok els g ref vid;
  cg_faces : faces_ok els g ref vid;
  cg_elements : forall e e' t t', els e -> els e' -> subtype g e 0 0 t -> subtype g e' 0 0 t' -> g_sub g e 0 0 = g_sub g e' 0 0 -> e = e';
  cg_element : forall e s t, els e -> subtype g e s 0 t -> s = 0
}.

(** [node e a]: the local coordinate of the Lagrange point of shape function [a]. Those on the
    boundary are where [key_weights] says. *)
Definition nodes_ok (k : nat) (keys : E -> list localkey) (node : E -> nat -> P) : Prop :=
  forall e a s c i W v, els e -> nth_error (keys e) a = Some (s, c, i) -> 0 < c -> key_weights g ref k e s c i W ->
    bary e (node e a) v = (INR (W v) / (INR k * INR k))%R.

(** [l] is a Lagrange basis of some order on this grid, and [node] are its Lagrange points. *)
Definition lagrange_space (l : leaf E) (node : E -> nat -> P) : Prop :=
  exists mp vertexIndex k types keys,
    types_ok els g types /\ lagrange_ctor g k types = true /\
    mapper_ok els g (fun t => lagrange_layout k t (g_dim g)) mp /\ keys_ok els g (fun t => lagrange_layout k t (g_dim g)) keys /\
    (k = 1 -> mapper_ok els g (fun t => lagrange_layout k t (g_dim g)) (MAP (mp_size mp) vertexIndex)) /\
    nodes_ok k keys node /\ l = lagrange_leaf g mp vertexIndex ref vid k keys.

(** [f e x] is the value at the local coordinate [x] in [e] of a function that has one value
    where elements meet (for example because it is a function of the global coordinate). *)
Definition single_valued {V} (f : E -> P -> V) : Prop :=
  forall c e x s t e' x' s' t', els e -> els e' -> 0 < c -> subtype g e s c t -> subtype g e' s' c t' ->
    same_location g ref vid bary c e x s e' x' s' -> f e x = f e' x'.
End Nodal.

(** The Lagrange property of shape functions: one in their own Lagrange point, zero in the
    others.  [size e] shape functions, [shape e x i] the value of number [i]. *)
Definition kronecker {E P} (els : E -> Prop) (size : E -> nat) (shape : E -> P -> nat -> R) (node : E -> nat -> P) : Prop :=
  forall e i j, els e -> i < size e -> j < size e -> shape e (node e j) i = (if i =? j then 1 else 0)%R.

(** The global coordinates of a point: the corners, which depend on the vertex only, weighted. *)
Definition position {E X P} (g : grid E X) (ref : E -> refelem) (vid : E -> nat -> nat) (bary : E -> P -> nat -> R)
    (corner : nat -> nat -> R) (e : E) (x : P) (i : nat) : R :=
  sum (map (fun v => bary e x v * corner (vid e v) i)%R (vertices g ref e 0 0)).
(** The faces of an element are made of different vertices of it. *)
Definition corners_ok {E X} (els : E -> Prop) (g : grid E X) (ref : E -> refelem) : Prop :=
  forall e, els e -> NoDup (vertices g ref e 0 0) /\
    forall s c t, 0 < c -> subtype g e s c t -> incl (vertices g ref e s c) (vertices g ref e 0 0).
