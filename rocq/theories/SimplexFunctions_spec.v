(** The shape functions of the hierarchical Lagrange elements with and without bubble, of the
    refined Lagrange elements and of the Rannacher-Turek elements (dune-localfunctions), and
    what continuity of discrete functions means (C90).

    Points are given by the weights of the vertices of the element (barycentric coordinates). *)
From Coq Require Import List Arith Bool Reals.
From Verif Require Import Lib Basis_model Basis_spec GeometryType_model Mapper_model Mapper_spec Lagrange_model Lagrange_spec
  DiscreteFunction_model DiscreteFunction_spec Container_model Container_spec FlatVector_model Conforming_spec Conforming_refs.
Import ListNotations.

(** The reference elements, with their dimensions. *)
Definition simplices : list (nat * refelem) := [(1, line1); (2, triangle2); (3, tetrahedron3)].

Section Spec.
Context {E X P : Type}.
Variable g : grid E X.
Variable ref : E -> refelem.
Variable keys : E -> list localkey.
Variable bary : E -> P -> nat -> R.

(** Hierarchical elements: the function of a subentity is a multiple of the product of the
    barycentric coordinates of its vertices.  (One for vertices, four for edges; the bubbles
    have 27 and 256.) *)
Definition hierarchical_shapes (norm : nat -> R) (e : E) (x : P) : list R :=
  map (fun key => let '(s, c, _) := key in
         (norm (length (vertices g ref e s c)) * product (map (bary e x) (vertices g ref e s c)))%R) (keys e).

(** Refined elements: the function of a vertex with weight a, or of the midpoint of an edge
    with weights a and b, that is piecewise linear on the refined triangle; [rest] are the
    weights of the other vertices. *)
Definition hat (own rest : list R) : R :=
  match own with
  | [a] => Rmax 0 (2 * a - 1)
  | [a; b] => Rmax 0 (Rmin (Rmin (2 * a) (2 * b)) (1 - 2 * sum rest))
  | _ => 0
  end%R.
Definition others (vs all : list nat) : list nat := filter (fun v => negb (memb v vs)) all.
Definition refined_shapes (e : E) (x : P) : list R :=
  map (fun key => let '(s, c, _) := key in
         hat (map (bary e x) (vertices g ref e s c))
             (map (bary e x) (others (vertices g ref e s c) (vertices g ref e 0 0)))) (keys e).
(** The refinement of a tetrahedron is a matter of choice, that of its faces is not. *)
Definition refined_on_faces (els : E -> Prop) (shape : E -> P -> list R) : Prop :=
  (forall e x, els e -> length (shape e x) = length (keys e)) /\
  forall e x s c t, els e -> 0 < c -> subtype g e s c t -> on_face g ref bary e x s c -> shape e x = refined_shapes e x.

(** Rannacher-Turek and Crouzeix-Raviart: the function of a facet is one in its center and
    zero in the centers of the other facets. *)
Definition facet_shapes (els : E -> Prop) (center : E -> nat -> P) (shape : E -> P -> list R) : Prop :=
  (forall e x, els e -> length (shape e x) = length (keys e)) /\
  forall e a s c i s', els e -> nth_error (keys e) a = Some (s, c, i) -> s' < length (subtypes (g_type g e) 1) ->
    nth a (shape e (center e s')) 0%R = if s =? s' then 1%R else 0%R.
End Spec.

(** * Continuity of the functions of one leaf of a basis *)

(** Leaf [p] of the basis has the scalar shape functions [shape]. *)
Definition scalar_leaf {E P} (els : E -> Prop) (su : setup E P) (p : list nat) (shape : E -> P -> list R) : Prop :=
  su_vdim su p = 1 /\ forall e x, els e -> su_shape su e p x = map (fun r => [r]) (shape e x).
(** Two evaluations, in [e] at [x] and in [e'] at [x'], give the component [p] the same value,
    whatever the coefficients.  (The leaf is not switched off in [e] or [e'] by a restricted
    basis.) *)
Definition agree {E P} (b : bexpr E) (path : list nat) (su : setup E P) (p : list nat) (e : E) (x : P) (e' : E) (x' : P) : Prop :=
  forall (coefficients : mi -> option (list R)) y y' v n v' n',
  is_value b path su e coefficients x y -> is_value b path su e' coefficients x' y' ->
  leaf_of b path e v p n -> leaf_of b path e' v' p n' -> node_size n <> 0 -> node_size n' <> 0 ->
  exists z z', node_to_range p y = Some z /\ node_to_range p y' = Some z' /\ scalars z = scalars z'.
(** At every point of a shared face the values from both sides agree. *)
Definition continuous {E X P} (els : E -> Prop) (b : bexpr E) (path : list nat) (su : setup E P) (p : list nat)
    (g : grid E X) (ref : E -> refelem) (vid : E -> nat -> nat) (bary : E -> P -> nat -> R) : Prop :=
  forall c e x s t e' x' s' t', els e -> els e' -> 0 < c -> subtype g e s c t -> subtype g e' s' c t' ->
  same_location g ref vid bary c e x s e' x' s' -> agree b path su p e x e' x'.
