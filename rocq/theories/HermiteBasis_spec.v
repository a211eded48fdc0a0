(** Simplex grids for the cubic Hermite basis (C80). *)
From Coq Require Import Reals List Arith.
From Verif Require Import Lib GeometryType_model Mapper_model Mapper_spec MeshSize_model Nodal_spec Hermite_model Hermite_spec HermiteBasis_model.
Import ListNotations.
Local Open Scope R_scope.

(** A grid view of simplices: [P e] are the positions of the vertices of e.  The contracts of
    Mapper_spec hold for its entities and the mapper of its vertices.  Vertices are the same
    entity if and only if they have the same position; faces of tetrahedra with the same
    vertices are the same entity. *)
Record simplex_view {E X : Type} (v : view E X) (d : nat) (P : E -> list (list R)) : Prop := {
  sv_nodup : NoDup (v_elements v);
  sv_grid : grid_ok (fun e => In e (v_elements v)) (v_grid v);
  sv_dim : g_dim (v_grid v) = d;
  sv_type : forall e, In e (v_elements v) -> isSimplex (g_type (v_grid v) e) = true;
  sv_simplex : forall e, In e (v_elements v) -> simplex d (P e);
  sv_mapper : mapper_ok (fun e => In e (v_elements v)) (v_grid v) mcmgVertexLayout (v_vertices v);
  sv_volume : forall e, In e (v_elements v) -> 0 < v_volume v e;
  sv_vertices : forall e e' i j, In e (v_elements v) -> In e' (v_elements v) -> (i <= d)%nat -> (j <= d)%nat ->
    (g_sub (v_grid v) e i d = g_sub (v_grid v) e' j d <-> nth i (P e) [] = nth j (P e') []);
  sv_faces : d = 3%nat -> forall e e' f f', In e (v_elements v) -> In e' (v_elements v) -> (f < 4)%nat -> (f' < 4)%nat ->
    (forall z, In z (map (fun a => nth a (P e) []) (face_vertices 3 f)) <-> In z (map (fun a => nth a (P e') []) (face_vertices 3 f'))) ->
    g_sub (v_grid v) e f 1 = g_sub (v_grid v) e' f' 1
}.
