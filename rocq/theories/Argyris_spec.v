(** What the Argyris basis is about. *)
From Coq Require Import Reals List Arith.
From Verif Require Import Nodal_spec Hermite_model Hermite_spec Orientation_model Triangle_spec Argyris_model.
From Verif Require Import GeometryType_model Mapper_model Mapper_spec MeshSize_model.
Import ListNotations.
Local Open Scope R_scope.

(** A finite element bound to the triangle with vertices P, with the (positive) mesh sizes h
    at its vertices and the orientation bits o. *)
Definition bound (P : list (list R)) (h : list R) (o : list bool) (fe : argyris) : Prop :=
  exists G subIndex sizes index orientations, simplex 2 P /\ affine_geometry 2 P G /\
    length h = 3%nat /\ Forall (fun a => 0 < a) h /\ length o = 3%nat /\
    (forall i, (i < 3)%nat -> nth_error sizes (subIndex i) = nth_error h i) /\
    nth_error orientations index = Some o /\
    bind subIndex sizes index orientations G = Some fe.
(** The function u, given on the triangle with vertices P, has the coefficients c. *)
Definition has_coefficients (P : list (list R)) (fe : argyris) (u : list R -> R) (c : list R) : Prop :=
  length c = 21%nat /\
  forall x, is_vec 2 x -> exists phi, evaluateFunction fe x = Some phi /\ u (image 2 P x) = dot c phi.
(** A grid view of triangles in the plane, as in Triangle_spec, with the contracts of
    Mapper_spec for its entities and the mapper of its vertices: the vertices with the same
    number are the same entity. *)
Record triangle_view {E X : Type} (v : view E X) (P : E -> list (list R)) (position : nat -> list R) : Prop := {
  tv_triangles : triangles (v_f v) P position;
  tv_nodup : NoDup (fg_elements (v_f v));
  tv_grid : grid_ok (fun e => In e (fg_elements (v_f v))) (v_grid v);
  tv_dim : g_dim (v_grid v) = 2%nat;
  tv_type : forall e, In e (fg_elements (v_f v)) -> isSimplex (g_type (v_grid v) e) = true;
  tv_mapper : mapper_ok (fun e => In e (fg_elements (v_f v))) (v_grid v) mcmgVertexLayout (v_vertices v);
  tv_volume : forall e, In e (fg_elements (v_f v)) -> 0 < v_volume v e;
  tv_vertices : forall e e' i j, In e (fg_elements (v_f v)) -> In e' (fg_elements (v_f v)) -> (i < 3)%nat -> (j < 3)%nat ->
    fg_vidx (v_f v) e i = fg_vidx (v_f v) e' j -> g_sub (v_grid v) e i 2 = g_sub (v_grid v) e' j 2
}.
