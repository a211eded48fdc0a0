(** The Morley finite element.
    Sources: /repo/dune/functions/functionspacebases/morleybasis.hh,
    transformedfiniteelementmixin.hh.
    Simplifications: see Table2_model.v; the decimal 0.5 * 1.414213562373095 (line 114) is
    sqrt(2)/2; FunctionalDescriptors are in Descriptor_model.v. *)
From Coq Require Import Reals List Arith Bool.
From Verif Require Import Lib GeometryType_model Hermite_model Table2_model Orientation_model.
Import ListNotations.
Local Open Scope R_scope.

(** morleybasis.hh 110-122, getMorleyCoefficients *)
Definition coefficients : list (list R) :=
  let sqrt2 := 1/2 * sqrt 2 in
  [[1; -1; -1; 0; 2; 0];
   [0; 1/2; 1/2; 1/2; -1; -1/2];
   [0; 1/2; 1/2; -1/2; -1; 1/2];
   [0; 0; 1; 0; 0; -1];
   [0; -1; 0; 1; 0; 0];
   [0; sqrt2; sqrt2; - sqrt2; -2 * sqrt2; - sqrt2]].
(** morleybasis.hh 131-134, 396-399 *)
Definition size : nat := 6.
(** morleybasis.hh 235-242: local keys (subentity, codim, index) *)
Definition localKeys : list (nat * nat * nat) :=
  map (fun i => (i, 2, 0)%nat) (seq 0 3) ++ map (fun i => (i, 1, 0)%nat) (seq 0 3).

(** The state of a MorleyLocalFiniteElement (510-518) and of its interpolation (337-340). *)
Record morley := Morley { mat : list (list R); edgeOrientation : list bool;
  globalNormals : list (list R); localMidpoints : list (list R); localVertices : list (list R) }.
(** A default constructed element: FieldMatrix and FieldVector are initialised with zeros
    (dune-common). *)
(** The implicit default constructor, morleybasis.hh:510-518. *)
Definition default : morley :=
  Morley (repeat (repeat 0 6) 6) [false; false; false] (repeat [0; 0] 3) (repeat [0; 0] 3) (repeat [0; 0] 3).

(** mat_[i][j] = v *)
(** Used in morleybasis.hh:497-506. *)
Definition set2 (m : list (list R)) (i j : nat) (v : R) : option (list (list R)) :=
  r <- nth_error m i ;; r' <- upd r j v ;; upd m i r'.
(** morleybasis.hh:476, the transpose of jacobian() of the geometry (dune-grid). *)
Definition jacobianTransposed (G : geometry) (x : list R) (i j : nat) : R := nth i (nth j (geo_jacobian G x) []) 0.
(** morleybasis.hh 469-473 *)
Definition l_inv (G : geometry) (i : nat) : R := 1 / two_norm (global_edge G i).
(** morleybasis.hh:473. *)
Definition globalTangent (G : geometry) (i : nat) : list R :=
  let e := global_edge G i in [nth 0 e 0 * l_inv G i; nth 1 e 0 * l_inv G i].
(** morleybasis.hh 476-491; x is the centre of the reference triangle (460) *)
Definition centre : list R := [1/3; 1/3].
(** morleybasis.hh:479-484. *)
Definition B_11 (G : geometry) (i : nat) : R :=
  let rt := referenceTangent i in let t := globalTangent G i in let jt := jacobianTransposed G centre in
  - nth 1 rt 0 * (- nth 1 t 0 * jt 0%nat 0%nat + nth 0 t 0 * jt 0%nat 1%nat)
  + nth 0 rt 0 * (- nth 1 t 0 * jt 1%nat 0%nat + nth 0 t 0 * jt 1%nat 1%nat).
(** morleybasis.hh:485-490. *)
Definition B_12 (G : geometry) (i : nat) : R :=
  let rt := referenceTangent i in let t := globalTangent G i in let jt := jacobianTransposed G centre in
  - nth 1 rt 0 * (nth 0 t 0 * jt 0%nat 0%nat + nth 1 t 0 * jt 0%nat 1%nat)
  + nth 0 rt 0 * (nth 0 t 0 * jt 1%nat 0%nat + nth 1 t 0 * jt 1%nat 1%nat).
(** morleybasis.hh 494-507: the loops over i and j, with the variable sign *)
Definition fill_col (G : geometry) (i : nat) (st : option (list (list R) * R)) (j : nat) : option (list (list R) * R) :=
  '(m, sign) <- st ;;
  if (j =? 2 - i)%nat then Some (m, sign)
  else m' <- set2 m j (3 + i) (sign * B_12 G i * l_inv G i) ;; Some (m', sign * -1).
(** morleybasis.hh:495-507, one iteration over i. *)
Definition fill_edge (G : geometry) (o : list bool) (st : option (list (list R) * R)) (i : nat) : option (list (list R) * R) :=
  '(m, sign) <- st ;;
  m <- set2 m i i 1 ;;
  '(m, sign) <- fold_left (fill_col G i) (seq 0 3) (Some (m, sign)) ;;
  m <- set2 m (3 + i) (3 + i) ((if nth i o false then -1 else 1) * B_11 G i) ;;
  Some (m, sign).
(** morleybasis.hh 446-508, fillMatrix *)
Definition fillMatrix (m : list (list R)) (G : geometry) (o : list bool) : option (list (list R)) :=
  '(m, _) <- fold_left (fill_edge G o) (seq 0 3) (Some (m, -1)) ;; Some m.
(** morleybasis.hh 404-410, bind, with 289-311, bind of the interpolation; [data] is a std::bitset<3> *)
Definition bind (fe : morley) (data : list bool) (G : geometry) : option morley :=
  m <- fillMatrix (mat fe) G data ;;
  Some (Morley m data (map (globalNormal G data) (seq 0 3)) (map midpoint_position (seq 0 3)) (map (vertex_position 2) (seq 0 3))).

(** morleybasis.hh 427-435, transform: FieldMatrix::mv (dune-common) *)
Definition mv (m : list (list R)) (v : list R) : list R := map (fun row => row_times row v) m.
(** morleybasis.hh:427-435; the sizes are those of the matrix, else mv fails. *)
Definition transform (fe : morley) (v : list R) : option (list R) :=
  if (length v =? length (mat fe))%nat then Some (mv (mat fe) v) else None.
(** transformedfiniteelementmixin.hh 45-51, 59-65, 79-85, 94-101 *)
Definition evaluateFunction (fe : morley) (x : list R) : option (list R) :=
  v <- ref_evaluateFunction 2 coefficients x ;; transform fe v.
(** transformedfiniteelementmixin.hh:59-65. *)
Definition evaluateJacobian (fe : morley) (x : list R) (k : nat) : option (list R) :=
  v <- ref_evaluateJacobian 2 coefficients x k ;; transform fe v.
(** transformedfiniteelementmixin.hh:79-85. *)
Definition evaluateHessian (fe : morley) (x : list R) (k l : nat) : option (list R) :=
  v <- ref_evaluateHessian 2 coefficients x k l ;; transform fe v.
(** transformedfiniteelementmixin.hh:94-101. *)
Definition partial_of (fe : morley) (order : list nat) (x : list R) : option (list R) :=
  v <- ref_partial 2 coefficients order x ;; transform fe v.

(** morleybasis.hh 320-330, interpolate: [f] takes local coordinates, [df] is its derivative with respect
    to global coordinates, at local coordinates *)
Definition interpolate (fe : morley) (f : list R -> R) (df : list R -> list R) : list R :=
  map (fun i => f (nth i (localVertices fe) [])) (seq 0 3) ++
  map (fun i => dot2 (df (nth i (localMidpoints fe) [])) (nth i (globalNormals fe) [])) (seq 0 3).

(** morleybasis.hh 609-620, morleyMapperLayout *)
Definition morleyMapperLayout (type : gt) (gridDim : nat) : option nat :=
  if negb (gridDim =? 2)%nat then None
  else if (gt_dim type =? 0)%nat then Some 1%nat
  else if (gt_dim type =? 1)%nat then Some 1%nat
  else Some 0%nat.

(** * The pre-basis and its nodes
    A grid view (as its mapper sees it) is an fgrid of Orientation_model.v. *)
(** morleybasis.hh:655-658, the data members. *)
Record prebasis (E : Type) := PB { pb_gridView : fgrid E; pb_mapper : fgrid E; pb_data : list (list bool) }.
Arguments PB {E}. Arguments pb_gridView {E}. Arguments pb_mapper {E}. Arguments pb_data {E}.
(** morleybasis.hh 633-638, the constructor *)
Definition construct {E} (gv : fgrid E) : option (prebasis E) :=
  d <- compute_edge_orientations gv ;; Some (PB gv gv d).
(** morleybasis.hh 641-645, update: mapper_ keeps the grid view it was constructed with *)
Definition update {E} (pb : prebasis E) (gv : fgrid E) : option (prebasis E) :=
  d <- compute_edge_orientations (pb_mapper pb) ;; Some (PB gv (pb_mapper pb) d).
(** morleybasis.hh 568-573, MorleyNode::bind with 650-653, makeNode: the finite element of the node *)
Definition node_bind {E} (pb : prebasis E) (fe : morley) (e : E) (G : geometry) : option morley :=
  data <- nth_error (pb_data pb) (fg_idx (pb_mapper pb) e) ;; bind fe data G.
