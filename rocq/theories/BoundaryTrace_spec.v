(** What users of Dirichlet conditions rely on (C93): the DOFs that forEachBoundaryDOF visits
    are those that decide about the values on the boundary. *)
From Coq Require Import List Arith Bool Reals.
From Verif Require Import Lib Basis_model Basis_spec Container_model Container_spec FlatVector_model GeometryType_model Mapper_model Mapper_spec
  Lagrange_model DiscreteFunction_model DiscreteFunction_spec SubEntityDOFs_model SubEntityDOFs_spec Conforming_spec.
Import ListNotations.

Section Trace.
Context {E P : Type}.
Variables (b : bexpr E) (path : list nat) (su : setup E P) (co : coeffs E).

(** Two values [y1], [y2] of a discrete function have, for the component [p] of the function,
    the same trace: the same sum of the entries with the weights [w].  (One entry and the
    weight one: the value itself; the normal vector: the normal component; a tangential
    vector: a tangential component.)  This for each of the functions if the coefficients are
    vectors. *)
Definition same_trace (p : list nat) (w : nat -> R) (y1 y2 : cont R) : Prop :=
  exists z1 z2, node_to_range p y1 = Some z1 /\ node_to_range p y2 = Some z2 /\ forall j, j < su_cdim su ->
    rsum (su_vdim su p) (fun k => (nth (j * su_vdim su p + k) (scalars z1) 0 * w k)%R) =
    rsum (su_vdim su p) (fun k => (nth (j * su_vdim su p + k) (scalars z2) 0 * w k)%R).

(** Contract of the finite element of component [p], for one element, at a point [x] of facet
    [s]: the shape functions that belong neither to the facet nor to its edges and vertices
    have no trace there. *)
Definition no_trace (e : E) (s : nat) (p : list nat) (x : P) (w : nat -> R) : Prop :=
  forall i j c, nth_error (co_keys co (path ++ p) e) i = Some (j, c) -> co_sub co e s 1 c j = false ->
    rsum (su_vdim su p) (fun k => (shape_of su e p x i k * w k)%R) = 0%R.

(** Two coefficient vectors agree for the DOFs in a list. *)
Definition agree_on (ms : list mi) (c1 c2 : mi -> option (list R)) : Prop := forall m, In m ms -> c1 m = c2 m.

(** Contract of the grid view and of the finite elements for forEachBoundaryDOF. *)
Record boundary_ok (els : E -> Prop) (bg : bgrid E) (prefix : list nat) : Prop := {
  bo_elements : forall e, In e (bg_elements bg) -> els e;
  bo_hasbnd : forall e, In e (bg_elements bg) -> bg_hasbnd bg e = false -> forall x, In x (bg_inters bg e) -> fst x = false;
  bo_keys : forall e v, In e (bg_elements bg) -> lv_bind (build b) (lv_new (build b)) e = Some v -> keys_ok co e (lv_tree v);
  bo_prefix : exists n, descendant (lv_tree (lv_new (build b))) prefix = Some n
}.
(** Facet [s] of [e] is part of the boundary of the domain. *)
Definition boundary_facet (bg : bgrid E) (e : E) (s : nat) : Prop := In e (bg_elements bg) /\ In (true, s) (bg_inters bg e).

(** [f] is the discrete function with coefficients [c]. *)
Definition function_of (els : E -> Prop) (c : mi -> option (list R)) (f : E -> P -> cont R) : Prop :=
  forall e x, els e -> is_value b path su e c x (f e x).
(** The component [p] of two functions has the same traces on the boundary.  [at_facet e s x w]:
    the local coordinate [x] in [e] is a point of facet [s], and [w] are the weights of the
    trace there. *)
Definition same_on_boundary (bg : bgrid E) (at_facet : E -> nat -> P -> (nat -> R) -> Prop) (p : list nat) (f1 f2 : E -> P -> cont R) : Prop :=
  forall e s x w v n, boundary_facet bg e s -> at_facet e s x w -> leaf_of b path e v p n -> same_trace p w (f1 e x) (f2 e x).

(** re.subEntities(s,1,c) contains the subentities of facet [s]; local keys are those of the
    finite element. *)
Definition subs_ok {X} (els : E -> Prop) (g : grid E X) (ref : E -> refelem) : Prop :=
  forall e s t s1 c1 t1, els e -> subtype g e s 1 t -> subtype g e s1 c1 t1 ->
    (co_sub co e s 1 c1 s1 = true <-> part_of g ref e s1 c1 s 1).
Definition keys_of (els : E -> Prop) (p : list nat) (keys : E -> list localkey) : Prop :=
  forall e, els e -> co_keys co (path ++ p) e = map fst (keys e).
End Trace.
