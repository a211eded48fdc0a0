(** The pre-basis of the cubic Hermite basis:
    /repo/dune/functions/functionspacebases/cubichermitebasis.hh. *)
From Coq Require Import Reals List Arith.
From Verif Require Import Lib GeometryType_model Mapper_model MeshSize_model Hermite_model.
Import ListNotations.
Local Open Scope R_scope.

(** What the pre-basis reads from a grid view: subentities, the vertex mapper, the elements
    in the order of the iteration, and their volumes. *)
(** The grid view that the constructor gets (cubichermitebasis.hh:760-767) with what is read
    from it. *)
Record view (E X : Type) := View { v_grid : grid E X; v_vertices : mapper X; v_elements : list E; v_volume : E -> R }.
Arguments View {E X}. Arguments v_grid {E X}. Arguments v_vertices {E X}. Arguments v_elements {E X}. Arguments v_volume {E X}.
(** cubichermitebasis.hh 787-788, the data members; the mapper holds the grid view it belongs to *)
Record prebasis (E X : Type) := PB { pb_vertexMapper : view E X; pb_averageVertexMeshSize : list R }.
Arguments PB {E X}. Arguments pb_vertexMapper {E X}. Arguments pb_averageVertexMeshSize {E X}.
(** cubichermitebasis.hh:766 and 774. *)
Definition averageVertexMeshSizes {E X} (v : view E X) : option (list R) :=
  computeAverageSubEntityMeshSize (v_grid v) (v_vertices v) mcmgVertexLayout (v_elements v) (v_volume v).
(** cubichermitebasis.hh 760-767, the constructor *)
Definition construct {E X} (gv : view E X) : option (prebasis E X) :=
  h <- averageVertexMeshSizes gv ;; Some (PB gv h).
(** cubichermitebasis.hh 770-775, update *)
Definition update {E X} (pb : prebasis E X) (gv : view E X) : option (prebasis E X) :=
  let vertexMapper := gv in h <- averageVertexMeshSizes vertexMapper ;; Some (PB vertexMapper h).
(** cubichermitebasis.hh 695-700, CubicHermiteNode::bind with 780-783, makeNode: the finite element of the node *)
Definition node_bind {E X} (pb : prebasis E X) (e : E) (G : geometry) : option hermite :=
  let g := v_grid (pb_vertexMapper pb) in
  bind (g_dim g) (fun i => subIndex g (v_vertices (pb_vertexMapper pb)) e i (g_dim g)) (pb_averageVertexMeshSize pb) G.
