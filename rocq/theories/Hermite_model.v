(** The cubic Hermite finite element in one, two and three dimensions and its reduced
    version in two dimensions.
    Sources: /repo/dune/functions/functionspacebases/cubichermitebasis.hh,
    transformedfiniteelementmixin.hh.
    Simplifications: exact reals; std::size_t = nat.  The C++ templates evaluate scalars,
    Jacobians (FieldMatrix<R,1,dim>) and Hessians (FieldMatrix<R,dim,dim>) with the same
    code, which uses only vector space operations; those act componentwise, so here a
    component of all Jacobians (Hessians) is evaluated at a time.  The buffers of the
    local bases are overwritten by every call and are left out.  Failed asserts,
    exceptions and out-of-range accesses are [None]. *)
From Coq Require Import Reals List Arith Bool.
From Verif Require Import Lib MonomialSet_model GeometryType_model.
Import ListNotations.
Local Open Scope R_scope.

(** Dune::ReferenceElements<D,dim>::simplex().position(i,dim) (dune-geometry): vertex i. *)
(** Used in cubichermitebasis.hh:475 and 588. *)
Definition vertex_position (dim i : nat) : list R :=
  map (fun k => if (k + 1 =? i)%nat then 1 else 0) (seq 0 dim).
(** ...position(i, dim==2 ? 0 : 1): the barycentres of the triangle, and of the facets
    (0,1,2), (0,1,3), (0,2,3), (1,2,3) of the tetrahedron. *)
(** Used in cubichermitebasis.hh:485. *)
Definition inner_position (dim i : nat) : list R :=
  match dim with
  | 2%nat => [1/3; 1/3]
  | 3%nat => match i with
             | 0%nat => [1/3; 1/3; 0]
             | 1%nat => [1/3; 0; 1/3]
             | 2%nat => [0; 1/3; 1/3]
             | _ => [1/3; 1/3; 1/3]
             end
  | _ => []
  end.

(** Element::Geometry: global() and jacobian() (row m, column k). *)
(** Used in cubichermitebasis.hh:584-590. *)
Record geometry := Geo { geo_global : list R -> list R; geo_jacobian : list R -> list (list R) }.

(** cubichermitebasis.hh 109-120, multiplyWithCoefficentMatrix; the containers have the
    sizes of the matrix. *)
Definition row_times (row vals : list R) : R :=
  fold_left (fun acc p => acc + fst p * snd p) (combine row vals) 0.
(** cubichermitebasis.hh:109-120. *)
Definition multiplyWithCoefficentMatrix (C : list (list R)) (vals : list R) : list R :=
  map (fun row => row_times row vals) C.

(** cubichermitebasis.hh 154-165, CubicHermiteLocalCoefficients::size *)
Definition size (dim : nat) (reduced : bool) : nat :=
  match dim with
  | 1 => 4
  | 2 => if reduced then 9 else 10
  | 3 => 20
  | _ => 0
  end%nat.
(** The static_asserts, e.g. 136-137 *)
Definition valid (dim : nat) (reduced : bool) : Prop := (dim = 1 \/ dim = 2 \/ dim = 3)%nat /\ (reduced = true -> dim = 2%nat).
(** cubichermitebasis.hh 133-150, the local keys (subentity, codim, index), written into localKeys_ in order *)
Definition localKeys (dim : nat) (reduced : bool) : list (nat * nat * nat) :=
  concat (map (fun i => map (fun k => (i, dim, k)) (seq 0 (dim + 1))) (seq 0 (dim + 1))) ++
  (if reduced then [] else map (fun i => (i, if (dim =? 2)%nat then 0%nat else 1%nat, 0%nat)) (seq 0 ((dim - 1) * (dim - 1)))).

(** cubichermitebasis.hh 204-271, getCubicHermiteCoefficients *)
Definition coefficients1 : list (list R) :=
  [[1; 0; -3; 2]; [0; 1; -2; 1]; [0; 0; 3; -2]; [0; 0; -1; 1]].
(** cubichermitebasis.hh:213-227, dim==2, reduced. *)
Definition coefficients2r : list (list R) :=
  let w0 := 1 / 3 in let w1 := 1 / 18 in let w2 := 1 / 18 in let w3 := 1 / 3 in let w4 := - (1) / 9 in
  let w5 := 1 / 18 in let w6 := 1 / 3 in let w7 := 1 / 18 in let w8 := - (1) / 9 in
  [[1; 0; 0; -3; -13 + w0 * 27; -3;  2; 13 - w0 * 27; 13 - w0 * 27;  2];
   [0; 1; 0; -2;  -3 + w1 * 27;  0;  1;  3 - w1 * 27;  2 - w1 * 27;  0];
   [0; 0; 1;  0;  -3 + w2 * 27; -2;  0;  2 - w2 * 27;  3 - w2 * 27;  1];
   [0; 0; 0;  3;  -7 + w3 * 27;  0; -2;  7 - w3 * 27;  7 - w3 * 27;  0];
   [0; 0; 0; -1;   2 + w4 * 27;  0;  1; -2 - w4 * 27; -2 - w4 * 27;  0];
   [0; 0; 0;  0;  -1 + w5 * 27;  0;  0;  2 - w5 * 27;  1 - w5 * 27;  0];
   [0; 0; 0;  0;  -7 + w6 * 27;  3;  0;  7 - w6 * 27;  7 - w6 * 27; -2];
   [0; 0; 0;  0;  -1 + w7 * 27;  0;  0;  1 - w7 * 27;  2 - w7 * 27;  0];
   [0; 0; 0;  0;   2 + w8 * 27; -1;  0; -2 - w8 * 27; -2 - w8 * 27;  1]].
(** cubichermitebasis.hh:229-239, dim==2, not reduced. *)
Definition coefficients2 : list (list R) :=
  [[1; 0; 0; -3; -13; -3;  2;  13;  13;  2];
   [0; 1; 0; -2;  -3;  0;  1;   3;   2;  0];
   [0; 0; 1;  0;  -3; -2;  0;   2;   3;  1];
   [0; 0; 0;  3;  -7;  0; -2;   7;   7;  0];
   [0; 0; 0; -1;   2;  0;  1;  -2;  -2;  0];
   [0; 0; 0;  0;  -1;  0;  0;   2;   1;  0];
   [0; 0; 0;  0;  -7;  3;  0;   7;   7; -2];
   [0; 0; 0;  0;  -1;  0;  0;   1;   2;  0];
   [0; 0; 0;  0;   2; -1;  0;  -2;  -2;  1];
   [0; 0; 0;  0;  27;  0;  0; -27; -27;  0]].
(** cubichermitebasis.hh:243-271, dim==3. *)
Definition coefficients3 : list (list R) :=
  [[1; 0;  0;  0; -3; -13; -3; -13; -13; -3; 2; 13; 13; 2; 13; 33;  13; 13;  13;  2];
   [0; 1; 0; 0; -2; -3; 0; -3; 0; 0; 1; 3; 2; 0; 3; 4; 0; 2; 0; 0];
   [0; 0; 1; 0; 0; -3; -2; 0; -3; 0; 0; 2; 3; 1; 0; 4; 3; 0; 2; 0];
   [0; 0; 0; 1; 0; 0; 0; -3; -3; -2; 0; 0; 0; 0; 2; 4; 2; 3; 3; 1];
   [0;  0; 0; 0; 3; -7; 0; -7; 0; 0; -2; 7; 7; 0; 7; 7;  0; 7;  0; 0];
   [0; 0; 0; 0; -1; 2; 0; 2; 0; 0; 1; -2; -2; 0; -2; -2; 0; -2; 0; 0];
   [0; 0; 0; 0; 0; -1; 0; 0; 0; 0; 0; 2; 1; 0; 0; 0; 0; 0; 0; 0];
   [0; 0; 0; 0; 0; 0; 0; -1; 0; 0; 0; 0; 0; 0; 2; 0; 0; 1; 0; 0];
   [0; 0; 0; 0;  0; -7; 3; 0; -7; 0; 0; 7; 7; -2; 0; 7;  7; 0; 7;  0];
   [0; 0; 0; 0; 0; -1; 0; 0; 0; 0; 0; 1; 2; 0; 0; 0; 0; 0; 0; 0];
   [0; 0; 0; 0; 0; 2; -1; 0; 2; 0; 0; -2; -2; 1; 0; -2; -2; 0; -2; 0];
   [0; 0; 0; 0; 0; 0; 0; 0; -1; 0; 0; 0; 0; 0; 0; 0; 2; 0; 1; 0];
   [0; 0; 0; 0; 0; 0; 0; -7; -7; 3; 0; 0; 0; 0; 7; 7; 7; 7;  7;  -2];
   [0; 0; 0; 0; 0; 0; 0; -1; 0; 0; 0; 0; 0; 0; 1; 0; 0; 2; 0; 0];
   [0; 0; 0; 0; 0; 0; 0; 0; -1; 0; 0; 0; 0; 0; 0; 0; 1; 0; 2; 0];
   [0; 0; 0; 0; 0; 0; 0; 2; 2; -1; 0; 0; 0; 0; -2; -2; -2; -2; -2; 1];
   [0; 0;   0;   0; 0; 27;  0; 0; 0; 0; 0; -27; -27; 0; 0; -27; 0; 0; 0; 0];
   [0; 0; 0; 0; 0;   0;   0; 27;  0; 0; 0; 0; 0; 0; -27; -27; 0; -27; 0; 0];
   [0; 0; 0; 0; 0; 0;   0;   0; 27;  0; 0; 0; 0; 0; 0; -27; -27; 0; -27; 0];
   [0; 0; 0; 0; 0; 0;  0; 0; 0; 0; 0; 0; 0; 0; 0; 27; 0; 0; 0; 0]].
(** cubichermitebasis.hh:206-275, getCubicHermiteCoefficients and referenceBasisCoefficients. *)
Definition referenceBasisCoefficients (dim : nat) (reduced : bool) : list (list R) :=
  match dim with
  | 1 => coefficients1
  | 2 => if reduced then coefficients2r else coefficients2
  | 3 => coefficients3
  | _ => []
  end%nat.

(** cubichermitebasis.hh 273-274: MonomialSet<R,dim,3>, its derivative and its second derivative *)
Definition monomials (dim : nat) (x : list R) : option (list R) :=
  match dim with 1 => eval1 3 x | 2 => eval2 3 x | 3 => eval3 3 x | _ => None end%nat.
(** derivative(monomials), used in cubichermitebasis.hh:320. *)
Definition monomials_d (dim : nat) (x : list R) : option (list (list R)) :=
  match dim with 1 => deriv1 3 x | 2 => deriv2 3 x | 3 => deriv3 3 x | _ => None end%nat.
(** derivative(derivative(monomials)), used in cubichermitebasis.hh:333. *)
Definition monomials_dd (dim : nat) (x : list R) : option (list (list (list R))) :=
  match dim with 1 => hess1 3 x | 2 => hess2 3 x | 3 => hess3 3 x | _ => None end%nat.

(** cubichermitebasis.hh 303-309; component k of 316-322; component (k,l) of 329-335, of the reference basis *)
Definition ref_evaluateFunction (dim : nat) (reduced : bool) (x : list R) : option (list R) :=
  v <- monomials dim x ;; Some (multiplyWithCoefficentMatrix (referenceBasisCoefficients dim reduced) v).
(** cubichermitebasis.hh:316-322, component k. *)
Definition ref_evaluateJacobian (dim : nat) (reduced : bool) (x : list R) (k : nat) : option (list R) :=
  v <- monomials_d dim x ;;
  Some (multiplyWithCoefficentMatrix (referenceBasisCoefficients dim reduced) (map (fun r => nth k r 0) v)).
(** cubichermitebasis.hh:329-335, component (k,l). *)
Definition ref_evaluateHessian (dim : nat) (reduced : bool) (x : list R) (k l : nat) : option (list R) :=
  v <- monomials_dd dim x ;;
  Some (multiplyWithCoefficentMatrix (referenceBasisCoefficients dim reduced) (map (fun m => nth l (nth k m []) 0) v)).
(** std::max_element(order.begin(), order.end()) - order.begin(): the first largest entry *)
(** Used in cubichermitebasis.hh:353, 361, 367. *)
Fixpoint max_element (l : list nat) : nat :=
  match l with
  | [] => 0
  | a :: r => if forallb (fun b => b <=? a) r then 0 else S (max_element r)
  end%nat.
(** cubichermitebasis.hh:366, the assignment order[first] = 0. *)
Fixpoint set_nth (l : list nat) (i v : nat) : list nat :=
  match l, i with
  | [], _ => []
  | _ :: r, 0%nat => v :: r
  | a :: r, S j => a :: set_nth r j v
  end.
(** cubichermitebasis.hh 343-375, partial of the reference basis *)
Definition ref_partial (dim : nat) (reduced : bool) (order : list nat) (x : list R) : option (list R) :=
  match fold_left Nat.add order 0%nat with
  | 0%nat => ref_evaluateFunction dim reduced x
  | 1%nat => ref_evaluateJacobian dim reduced x (max_element order)
  | 2%nat =>
      let first := max_element order in
      let second := if (nth first order 0 =? 2)%nat then first else max_element (set_nth order first 0%nat) in
      ref_evaluateHessian dim reduced x first second
  | _ => None
  end.

(** The state of a CubicHermiteLocalFiniteElement (635-643); interpolation_ refers to
    averageVertexMeshSize_ by a pointer, see NodalCopies_model for what that means for
    copies. *)
Record hermite := Hermite { scaledVertexJacobians : list (list (list R)); averageVertexMeshSize : list R }.

(** Loops that fill std::arrays entry by entry *)
(** The loops of cubichermitebasis.hh:576-577 and 586-590. *)
Fixpoint all_of {A} (l : list (option A)) : option (list A) :=
  match l with [] => Some [] | o :: r => a <- o ;; s <- all_of r ;; Some (a :: s) end.
(** cubichermitebasis.hh 572-592, bind; [subIndex i] is vertexMapper.subIndex(e, i, dim) *)
Definition bind (dim : nat) (subIndex : nat -> nat) (globalAverageVertexMeshSize : list R) (G : geometry) : option hermite :=
  hs <- all_of (map (fun i => nth_error globalAverageVertexMeshSize (subIndex i)) (seq 0 (dim + 1))) ;;
  Some (Hermite (map (fun i => map (map (fun a => a / nth i hs 0)) (geo_jacobian G (vertex_position dim i))) (seq 0 (dim + 1))) hs).

(** cubichermitebasis.hh 605-631, transform, as applied to numbers *)
Definition transform (dim : nat) (reduced : bool) (fe : hermite) (inValues : list R) : option (list R) :=
  if (length inValues =? size dim reduced)%nat then
    Some (concat (map (fun v =>
            let it := (v * (dim + 1))%nat in
            nth it inValues 0 ::
            map (fun row => fold_left (fun acc p => acc + fst p * nth (it + 1 + snd p) inValues 0)
                              (combine row (seq 0 (length row))) 0)
                (nth v (scaledVertexJacobians fe) [])) (seq 0 (dim + 1)))
          ++ (if (1 <? dim)%nat && negb reduced then skipn ((dim + 1) * (dim + 1)) inValues else []))
  else None.

(** TransformedLocalBasis: transformedfiniteelementmixin.hh 45-51, 59-65, 79-85, 94-101 *)
Definition evaluateFunction (dim : nat) (reduced : bool) (fe : hermite) (x : list R) : option (list R) :=
  v <- ref_evaluateFunction dim reduced x ;; transform dim reduced fe v.
(** transformedfiniteelementmixin.hh:59-65. *)
Definition evaluateJacobian (dim : nat) (reduced : bool) (fe : hermite) (x : list R) (k : nat) : option (list R) :=
  v <- ref_evaluateJacobian dim reduced x k ;; transform dim reduced fe v.
(** transformedfiniteelementmixin.hh:79-85. *)
Definition evaluateHessian (dim : nat) (reduced : bool) (fe : hermite) (x : list R) (k l : nat) : option (list R) :=
  v <- ref_evaluateHessian dim reduced x k l ;; transform dim reduced fe v.
(** transformedfiniteelementmixin.hh:94-101. *)
Definition partial_of (dim : nat) (reduced : bool) (fe : hermite) (order : list nat) (x : list R) : option (list R) :=
  v <- ref_partial dim reduced order x ;; transform dim reduced fe v.

(** cubichermitebasis.hh 466-488, interpolate: [f] takes local coordinates, and [df] is derivative(f), the
    (squeezed) derivative with respect to global coordinates, at local coordinates. *)
Definition interpolate (dim : nat) (reduced : bool) (fe : hermite) (f : list R -> R) (df : list R -> list R) : list R :=
  concat (map (fun i =>
    let x := vertex_position dim i in
    f x :: map (fun d => nth d (df x) 0 * nth i (averageVertexMeshSize fe) 0) (seq 0 dim)) (seq 0 (dim + 1)))
  ++ (if reduced then [] else map (fun i => f (inner_position dim i)) (seq 0 ((dim - 1) * (dim - 1)))).

(** cubichermitebasis.hh 733-746, cubicHermiteMapperLayout *)
Definition cubicHermiteMapperLayout (reduced : bool) (type : gt) (gridDim : nat) : nat :=
  if (gt_dim type =? 0)%nat then (1 + gridDim)%nat
  else if (gridDim =? 1)%nat then 0%nat
  else if isTriangle type && negb reduced then 1%nat else 0%nat.
