(** The Argyris finite element.
    Sources: /repo/dune/functions/functionspacebases/argyrisbasis.hh,
    transformedfiniteelementmixin.hh.
    Simplifications: see Table2_model.v; the decimal -8 * 1.414213562373095 (line 143) is
    -8 sqrt(2); FunctionalDescriptors are in Descriptor_model.v; the pointer averageVertexMeshSize_ of
    the interpolation refers to the member of the same element. *)
From Coq Require Import Reals List Arith Bool.
From Verif Require Import Lib GeometryType_model Hermite_model Table2_model Orientation_model.
From Verif Require Import Mapper_model MeshSize_model.
Import ListNotations.
Local Open Scope R_scope.

(** argyrisbasis.hh 139-310, getArgyrisCoefficients *)
Definition coefficients : list (list R) :=
  let sqrt2 := -8 * sqrt 2 in
  [[1; 0; 0; 0; 0; 0; -10; 0; 0; -10; 15; 0; -30; 0; 15; -6; 0; 30; 30; 0; -6];
   [0; 1; 0; 0; 0; 0; -6; 0; -11; 0; 8; 0; 10; 18; 0; -3; 0; 1; -10; -8; 0];
   [0; 0; 1; 0; 0; 0; 0; -11; 0; -6; 0; 18; 10; 0; 8; 0; -8; -10; 1; 0; -3];
   [0; 0; 0; 1/2; 0; 0; -3/2; 0; 0; 0; 3/2; 0; -3/2; 0; 0; -1/2; 0; 3/2; 1; 0; 0];
   [0; 0; 0; 0; 1; 0; 0; -4; -4; 0; 0; 5; 10; 5; 0; 0; -2; -6; -6; -2; 0];
   [0; 0; 0; 0; 0; 1/2; 0; 0; 0; -3/2; 0; 0; -3/2; 0; 3/2; 0; 0; 1; 3/2; 0; -1/2];
   [0; 0; 0; 0; 0; 0; 10; 0; 0; 0; -15; 0; 15; 0; 0; 6; 0; -15; -15; 0; 0];
   [0; 0; 0; 0; 0; 0; -4; 0; 0; 0; 7; 0; -7/2; 0; 0; -3; 0; 7/2; 7/2; 0; 0];
   [0; 0; 0; 0; 0; 0; 0; -5; 0; 0; 0; 14; 37/2; 0; 0; 0; -8; -37/2; -27/2; 0; 0];
   [0; 0; 0; 0; 0; 0; 1/2; 0; 0; 0; -1; 0; 1/4; 0; 0; 1/2; 0; -1/4; -1/4; 0; 0];
   [0; 0; 0; 0; 0; 0; 0; 1; 0; 0; 0; -3; -7/2; 0; 0; 0; 2; 7/2; 5/2; 0; 0];
   [0; 0; 0; 0; 0; 0; 0; 0; 0; 0; 0; 0; 5/4; 0; 0; 0; 0; -3/4; -5/4; 0; 0];
   [0; 0; 0; 0; 0; 0; 0; 0; 0; 10; 0; 0; 15; 0; -15; 0; 0; -15; -15; 0; 6];
   [0; 0; 0; 0; 0; 0; 0; 0; -5; 0; 0; 0; 37/2; 14; 0; 0; 0; -27/2; -37/2; -8; 0];
   [0; 0; 0; 0; 0; 0; 0; 0; 0; -4; 0; 0; -7/2; 0; 7; 0; 0; 7/2; 7/2; 0; -3];
   [0; 0; 0; 0; 0; 0; 0; 0; 0; 0; 0; 0; 5/4; 0; 0; 0; 0; -5/4; -3/4; 0; 0];
   [0; 0; 0; 0; 0; 0; 0; 0; 1; 0; 0; 0; -7/2; -3; 0; 0; 0; 5/2; 7/2; 2; 0];
   [0; 0; 0; 0; 0; 0; 0; 0; 0; 1/2; 0; 0; 1/4; 0; -1; 0; 0; -1/4; -1/4; 0; 1/2];
   [0; 0; 0; 0; 0; 0; 0; 16; 0; 0; 0; -32; -32; 0; 0; 0; 16; 32; 16; 0; 0];
   [0; 0; 0; 0; 0; 0; 0; 0; -16; 0; 0; 0; 32; 32; 0; 0; 0; -16; -32; -16; 0];
   [0; 0; 0; 0; 0; 0; 0; 0; 0; 0; 0; 0; -1 * sqrt2; 0; 0; 0; 0; sqrt2; sqrt2; 0; 0]].
(** argyrisbasis.hh 96-99 *)
Definition size : nat := 21.
(** argyrisbasis.hh 82-92: local keys (subentity, codim, index) *)
Definition localKeys : list (nat * nat * nat) :=
  concat (map (fun i => map (fun k => (i, 2, k)%nat) (seq 0 6)) (seq 0 3)) ++ map (fun i => (i, 1, 0)%nat) (seq 0 3).

(** The state of an ArgyrisLocalFiniteElement (742-768) and of its interpolation (540-545). *)
Record argyris := Argyris {
  vertexJacobians : list (list (list R)); theta : list (list (list R)); len : list R;
  globalTangents : list (list R); tau : list (list R); bmat : list (list (list R));
  averageVertexMeshSize : list R; edgeOrientation : list bool;
  globalNormals : list (list R); localMidpoints : list (list R); localVertices : list (list R) }.

(** FieldMatrix<R,2,2>: products and entries *)
Definition entry (m : list (list R)) (i j : nat) : R := nth j (nth i m []) 0.
(** FieldMatrix<R,2,2> times FieldMatrix<R,2,2> (dune-common), used in argyrisbasis.hh 676 *)
Definition mul2 (a c : list (list R)) : list (list R) :=
  map (fun i => map (fun j => entry a i 0 * entry c 0 j + entry a i 1 * entry c 1 j) (seq 0 2)) (seq 0 2).
(** argyrisbasis.hh 649-655: l[i], globalTangents[i] *)
Definition edge_length (G : geometry) (i : nat) : R := two_norm (global_edge G i).
(** argyrisbasis.hh 655: globalTangents[i] *)
Definition globalTangent (G : geometry) (i : nat) : list R := div2 (global_edge G i) (edge_length G i).
(** argyrisbasis.hh 657-661: tau[i] *)
Definition tau_of (G : geometry) (i : nat) : list R :=
  let t := globalTangent G i in
  [nth 0 t 0 * nth 0 t 0; 2 * nth 0 t 0 * nth 1 t 0; nth 1 t 0 * nth 1 t 0].
(** argyrisbasis.hh 663-676: b[i] *)
Definition G_of (t : list R) : list (list R) := [[- nth 1 t 0; nth 0 t 0]; [nth 0 t 0; nth 1 t 0]].
(** argyrisbasis.hh 676: b[i] = globalG * geometry.jacobian(position(i, 2)) * referenceG *)
Definition b_of (G : geometry) (i : nat) : list (list R) :=
  mul2 (mul2 (G_of (globalTangent G i)) (geo_jacobian G (vertex_position 2 i))) (G_of (referenceTangent i)).
(** argyrisbasis.hh 678-688: theta[i], from the Jacobian of vertex i *)
Definition theta_of (J : list (list R)) : list (list R) :=
  let J := entry J in
  [[J 0%nat 0%nat * J 0%nat 0%nat; J 0%nat 0%nat * J 0%nat 1%nat; J 0%nat 1%nat * J 0%nat 1%nat];
   [2 * J 0%nat 0%nat * J 1%nat 0%nat; J 0%nat 0%nat * J 1%nat 1%nat + J 0%nat 1%nat * J 1%nat 0%nat; 2 * J 0%nat 1%nat * J 1%nat 1%nat];
   [J 1%nat 0%nat * J 1%nat 0%nat; J 1%nat 0%nat * J 1%nat 1%nat; J 1%nat 1%nat * J 1%nat 1%nat]].
(** argyrisbasis.hh 614-690, bind, with 470-495, bind of the interpolation; every member is overwritten, so
    the former state does not matter.  [subIndex i] is vertexMapper.subIndex(e, i, dim) and
    [index] is elementMapper.index(e). *)
Definition bind (subIndex : nat -> nat) (globalAverageVertexMeshSize : list R) (index : nat) (edgeOrientations : list (list bool)) (G : geometry) : option argyris :=
  hs <- all_of (map (fun i => nth_error globalAverageVertexMeshSize (subIndex i)) (seq 0 3)) ;;
  o <- nth_error edgeOrientations index ;;
  let Js := map (fun i => geo_jacobian G (vertex_position 2 i)) (seq 0 3) in
  Some (Argyris Js (map theta_of Js) (map (edge_length G) (seq 0 3)) (map (globalTangent G) (seq 0 3)) (map (tau_of G) (seq 0 3)) (map (b_of G) (seq 0 3))
          hs o (map (globalNormal G o) (seq 0 3)) (map midpoint_position (seq 0 3)) (map (vertex_position 2) (seq 0 3))).

(** argyrisbasis.hh 706-740, transform, as applied to numbers *)
Definition transform (fe : argyris) (inValues : list R) : option (list R) :=
  if (length inValues =? size)%nat then
    let b i := entry (nth i (bmat fe) []) in
    let J i := entry (nth i (vertexJacobians fe) []) in
    let th i := entry (nth i (theta fe) []) in
    let h i := nth i (averageVertexMeshSize fe) 0 in
    let o i := if nth i (edgeOrientation fe) false then -1 else 1 in
    let t i j := nth j (nth i (globalTangents fe) []) 0 in
    let ta i j := nth j (nth i (tau fe) []) 0 in
    let l i := nth i (len fe) 0 in
    let v i := nth i inValues 0 in
    Some [
      -15/8 * (b 0%nat 1%nat 0%nat) * (v 18%nat)/(l 0%nat) - 15/8 * (b 1%nat 1%nat 0%nat) * (v 19%nat)/(l 1%nat) + (v 0%nat);
      ((J 0%nat 0%nat 0%nat) * (v 1%nat) + (J 0%nat 0%nat 1%nat) * (v 2%nat) - 7/16 * (b 0%nat 1%nat 0%nat) * (v 18%nat) * (t 0%nat 0%nat) - 7/16 * (b 1%nat 1%nat 0%nat) * (v 19%nat) * (t 1%nat 0%nat))/(h 0%nat);
      ((J 0%nat 1%nat 0%nat) * (v 1%nat) + (J 0%nat 1%nat 1%nat) * (v 2%nat) - 7/16 * (b 0%nat 1%nat 0%nat) * (v 18%nat) * (t 0%nat 1%nat) - 7/16 * (b 1%nat 1%nat 0%nat) * (v 19%nat) * (t 1%nat 1%nat))/(h 0%nat);
      (-1/32 * (b 0%nat 1%nat 0%nat) * (v 18%nat) * (l 0%nat) * (ta 0%nat 0%nat) - 1/32 * (b 1%nat 1%nat 0%nat) * (v 19%nat) * (l 1%nat) * (ta 1%nat 0%nat) + (v 3%nat) * (th 0%nat 0%nat 0%nat) + (v 4%nat) * (th 0%nat 0%nat 1%nat) + (v 5%nat) * (th 0%nat 0%nat 2%nat))/(h 0%nat) /(h 0%nat);
      (-1/32 * (b 0%nat 1%nat 0%nat) * (v 18%nat) * (l 0%nat) * (ta 0%nat 1%nat) - 1/32 * (b 1%nat 1%nat 0%nat) * (v 19%nat) * (l 1%nat) * (ta 1%nat 1%nat) + (v 3%nat) * (th 0%nat 1%nat 0%nat) + (v 4%nat) * (th 0%nat 1%nat 1%nat) + (v 5%nat) * (th 0%nat 1%nat 2%nat))/(h 0%nat) /(h 0%nat);
      (-1/32 * (b 0%nat 1%nat 0%nat) * (v 18%nat) * (l 0%nat) * (ta 0%nat 2%nat) - 1/32 * (b 1%nat 1%nat 0%nat) * (v 19%nat) * (l 1%nat) * (ta 1%nat 2%nat) + (v 3%nat) * (th 0%nat 2%nat 0%nat) + (v 4%nat) * (th 0%nat 2%nat 1%nat) + (v 5%nat) * (th 0%nat 2%nat 2%nat))/(h 0%nat) /(h 0%nat);
      (15/8) * (b 0%nat 1%nat 0%nat) * (v 18%nat)/(l 0%nat) - 15/8 * (b 2%nat 1%nat 0%nat) * (v 20%nat)/(l 2%nat) + (v 6%nat);
      ((J 1%nat 0%nat 0%nat) * (v 7%nat) + (J 1%nat 0%nat 1%nat) * (v 8%nat) - 7/16 * (b 0%nat 1%nat 0%nat) * (v 18%nat) * (t 0%nat 0%nat) - 7/16 * (b 2%nat 1%nat 0%nat) * (v 20%nat) * (t 2%nat 0%nat))/(h 1%nat);
      ((J 1%nat 1%nat 0%nat) * (v 7%nat) + (J 1%nat 1%nat 1%nat) * (v 8%nat) - 7/16 * (b 0%nat 1%nat 0%nat) * (v 18%nat) * (t 0%nat 1%nat) - 7/16 * (b 2%nat 1%nat 0%nat) * (v 20%nat) * (t 2%nat 1%nat))/(h 1%nat);
      ((1/32) * (b 0%nat 1%nat 0%nat) * (v 18%nat) * (l 0%nat) * (ta 0%nat 0%nat) - 1/32 * (b 2%nat 1%nat 0%nat) * (v 20%nat) * (l 2%nat) * (ta 2%nat 0%nat) + (v 9%nat) * (th 1%nat 0%nat 0%nat) + (v 10%nat) * (th 1%nat 0%nat 1%nat) + (v 11%nat) * (th 1%nat 0%nat 2%nat))/(h 1%nat) /(h 1%nat);
      ((1/32) * (b 0%nat 1%nat 0%nat) * (v 18%nat) * (l 0%nat) * (ta 0%nat 1%nat) - 1/32 * (b 2%nat 1%nat 0%nat) * (v 20%nat) * (l 2%nat) * (ta 2%nat 1%nat) + (v 9%nat) * (th 1%nat 1%nat 0%nat) + (v 10%nat) * (th 1%nat 1%nat 1%nat) + (v 11%nat) * (th 1%nat 1%nat 2%nat))/(h 1%nat) /(h 1%nat);
      ((1/32) * (b 0%nat 1%nat 0%nat) * (v 18%nat) * (l 0%nat) * (ta 0%nat 2%nat) - 1/32 * (b 2%nat 1%nat 0%nat) * (v 20%nat) * (l 2%nat) * (ta 2%nat 2%nat) + (v 9%nat) * (th 1%nat 2%nat 0%nat) + (v 10%nat) * (th 1%nat 2%nat 1%nat) + (v 11%nat) * (th 1%nat 2%nat 2%nat))/(h 1%nat) /(h 1%nat);
      (15/8) * (b 1%nat 1%nat 0%nat) * (v 19%nat)/(l 1%nat) + (15/8) * (b 2%nat 1%nat 0%nat) * (v 20%nat)/(l 2%nat) + (v 12%nat);
      ((J 2%nat 0%nat 0%nat) * (v 13%nat) + (J 2%nat 0%nat 1%nat) * (v 14%nat) - 7/16 * (b 1%nat 1%nat 0%nat) * (v 19%nat) * (t 1%nat 0%nat) - 7/16 * (b 2%nat 1%nat 0%nat) * (v 20%nat) * (t 2%nat 0%nat))/(h 2%nat);
      ((J 2%nat 1%nat 0%nat) * (v 13%nat) + (J 2%nat 1%nat 1%nat) * (v 14%nat) - 7/16 * (b 1%nat 1%nat 0%nat) * (v 19%nat) * (t 1%nat 1%nat) - 7/16 * (b 2%nat 1%nat 0%nat) * (v 20%nat) * (t 2%nat 1%nat))/(h 2%nat);
      ((1/32) * (b 1%nat 1%nat 0%nat) * (v 19%nat) * (l 1%nat) * (ta 1%nat 0%nat) + (1/32) * (b 2%nat 1%nat 0%nat) * (v 20%nat) * (l 2%nat) * (ta 2%nat 0%nat) + (v 15%nat) * (th 2%nat 0%nat 0%nat) + (v 16%nat) * (th 2%nat 0%nat 1%nat) + (v 17%nat) * (th 2%nat 0%nat 2%nat))/(h 2%nat) /(h 2%nat);
      ((1/32) * (b 1%nat 1%nat 0%nat) * (v 19%nat) * (l 1%nat) * (ta 1%nat 1%nat) + (1/32) * (b 2%nat 1%nat 0%nat) * (v 20%nat) * (l 2%nat) * (ta 2%nat 1%nat) + (v 15%nat) * (th 2%nat 1%nat 0%nat) + (v 16%nat) * (th 2%nat 1%nat 1%nat) + (v 17%nat) * (th 2%nat 1%nat 2%nat))/(h 2%nat) /(h 2%nat);
      ((1/32) * (b 1%nat 1%nat 0%nat) * (v 19%nat) * (l 1%nat) * (ta 1%nat 2%nat) + (1/32) * (b 2%nat 1%nat 0%nat) * (v 20%nat) * (l 2%nat) * (ta 2%nat 2%nat) + (v 15%nat) * (th 2%nat 2%nat 0%nat) + (v 16%nat) * (th 2%nat 2%nat 1%nat) + (v 17%nat) * (th 2%nat 2%nat 2%nat))/(h 2%nat) /(h 2%nat);
      (b 0%nat 0%nat 0%nat) * (v 18%nat) * (o 0%nat);
      (b 1%nat 0%nat 0%nat) * (v 19%nat) * (o 1%nat);
      (b 2%nat 0%nat 0%nat) * (v 20%nat) * (o 2%nat)]
  else None.
(** transformedfiniteelementmixin.hh 45-51, 59-65, 79-85, 94-101 *)
Definition evaluateFunction (fe : argyris) (x : list R) : option (list R) :=
  v <- ref_evaluateFunction 5 coefficients x ;; transform fe v.
(** transformedfiniteelementmixin.hh 59-65 with argyrisbasis.hh 337-343; derivative in direction
    [k] *)
Definition evaluateJacobian (fe : argyris) (x : list R) (k : nat) : option (list R) :=
  v <- ref_evaluateJacobian 5 coefficients x k ;; transform fe v.
(** transformedfiniteelementmixin.hh 79-85 with argyrisbasis.hh 350-356; directions [k] and [l] *)
Definition evaluateHessian (fe : argyris) (x : list R) (k l : nat) : option (list R) :=
  v <- ref_evaluateHessian 5 coefficients x k l ;; transform fe v.
(** transformedfiniteelementmixin.hh 94-101 with argyrisbasis.hh 364-407 *)
Definition partial_of (fe : argyris) (order : list nat) (x : list R) : option (list R) :=
  v <- ref_partial 5 coefficients order x ;; transform fe v.

(** argyrisbasis.hh 504-531, interpolate: [f] takes local coordinates, [df] and [Hf] are its derivatives
    with respect to global coordinates, at local coordinates *)
Definition interpolate (fe : argyris) (f : list R -> R) (df : list R -> list R) (Hf : list R -> list (list R)) : list R :=
  concat (map (fun i =>
    let x := nth i (localVertices fe) [] in let h := nth i (averageVertexMeshSize fe) 0 in
    [f x; nth 0 (df x) 0 * h; nth 1 (df x) 0 * h;
     entry (Hf x) 0 0 * h * h; entry (Hf x) 0 1 * h * h; entry (Hf x) 1 1 * h * h]) (seq 0 3)) ++
  map (fun i => dot2 (df (nth i (localMidpoints fe) [])) (nth i (globalNormals fe) [])) (seq 0 3).

(** argyrisbasis.hh 864-876, ArgyrisMapperLayout *)
Definition ArgyrisMapperLayout (type : gt) (gridDim : nat) : option nat :=
  if negb (gridDim =? 2)%nat then None
  else if (gt_dim type =? 0)%nat then Some 6%nat
  else if (gt_dim type =? 1)%nat then Some 1%nat
  else if isTriangle type then Some 0%nat
  else None.

(** What the pre-basis reads from a grid view and its mappers: for computeEdgeOrientations
    (with the element mapper fg_idx), for the vertex mapper, and the volumes. *)
Record view (E X : Type) := View { v_f : fgrid E; v_grid : grid E X; v_vertices : mapper X; v_volume : E -> R }.
Arguments View {E X}. Arguments v_f {E X}. Arguments v_grid {E X}. Arguments v_vertices {E X}. Arguments v_volume {E X}.
(** argyrisbasis.hh 854-923, ArgyrisPreBasis: the mappers hold the grid view they belong to *)
Record prebasis (E X : Type) := PB { pb_gridView : view E X; pb_vertexMapper : view E X; pb_averageVertexMeshSize : list R; pb_elementMapper : view E X; pb_edgeOrientations : list (list bool) }.
Arguments PB {E X}. Arguments pb_gridView {E X}. Arguments pb_vertexMapper {E X}. Arguments pb_averageVertexMeshSize {E X}. Arguments pb_elementMapper {E X}. Arguments pb_edgeOrientations {E X}.
(** argyrisbasis.hh 896: Impl::computeAverageSubEntityMeshSize<D>(vertexMapper_) *)
Definition averageVertexMeshSizes {E X} (v : view E X) : option (list R) :=
  computeAverageSubEntityMeshSize (v_grid v) (v_vertices v) mcmgVertexLayout (fg_elements (v_f v)) (v_volume v).
(** argyrisbasis.hh 891-898, the constructor *)
Definition construct {E X} (gv : view E X) : option (prebasis E X) :=
  h <- averageVertexMeshSizes gv ;; o <- compute_edge_orientations (v_f gv) ;; Some (PB gv gv h gv o).
(** argyrisbasis.hh 901-908, update *)
Definition update {E X} (pb : prebasis E X) (gv : view E X) : option (prebasis E X) :=
  let vertexMapper := gv in let elementMapper := gv in
  h <- averageVertexMeshSizes vertexMapper ;; o <- compute_edge_orientations (v_f elementMapper) ;; Some (PB gv vertexMapper h elementMapper o).
(** argyrisbasis.hh 821-829, ArgyrisNode::bind with 911-914, makeNode: the finite element of the node *)
Definition node_bind {E X} (pb : prebasis E X) (e : E) (G : geometry) : option argyris :=
  bind (fun i => subIndex (v_grid (pb_vertexMapper pb)) (v_vertices (pb_vertexMapper pb)) e i 2) (pb_averageVertexMeshSize pb)
    (fg_idx (v_f (pb_elementMapper pb)) e) (pb_edgeOrientations pb) G.
