(** Continuous Lagrange bases (lagrangebasis.hh): face orientations, face DOF
    permutation and the global indices.

    Global vertex ids are natural numbers here; the code uses any totally ordered
    id type.  [None] is undefined behaviour (an access outside of a range). *)
From Coq Require Import List Arith Lia Bool NArith.
From Verif Require Import Lib Basis_model GeometryType_model Mapper_model.
Import ListNotations.

(** * FaceOrientations *)

(** Dune::ReferenceElement (dune-geometry): the type of the element and the
    numbers of the codim-[cc] subentities of its [i]-th codim-[c] subentity.
    size(c) and type(i,c) are those of [subtypes]. *)
(** Used in lagrangebasis.hh:265, 312 and 368-397. *)
Record refelem := RE {
  re_type : gt;
  re_subs : nat -> nat -> nat -> list nat
}.
(** re.size(c), used in lagrangebasis.hh:373, 385, 390. *)
Definition re_size (re : refelem) (c : nat) : nat := length (subtypes (re_type re) c).
(** re.subEntity(i,c,k,cc), used in lagrangebasis.hh:265-267 and 312-315. *)
Definition re_subEntity (re : refelem) (i c k cc : nat) : option nat := nth_error (re_subs re i c cc) k.

(** std::bitset<36> (lagrangebasis.hh:210-214), and the operations used *)
Definition bits := nat -> bool.
(** The width of Data (lagrangebasis.hh:214). *)
Definition nbits : nat := 36.
(** std::bitset from a number, used in lagrangebasis.hh:216, 270, 340, 362. *)
Definition bs_of (n : nat) : bits := fun i => (i <? nbits) && Nat.testbit n i.
(** std::bitset::operator[] on the left of an assignment, lagrangebasis.hh:242. *)
Definition bs_set (d : bits) (i : nat) (b : bool) : bits := fun j => if j =? i then b else d j.
(** operator<<, lagrangebasis.hh:270 and 340. *)
Definition bs_shl (d : bits) (k : nat) : bits := fun i => (i <? nbits) && (k <=? i) && d (i - k).
(** operator>>, lagrangebasis.hh:408. *)
Definition bs_shr (d : bits) (k : nat) : bits := fun i => (i + k <? nbits) && d (i + k).
(** operator&, lagrangebasis.hh:408. *)
Definition bs_and (d d' : bits) : bits := fun i => d i && d' i.
(** operator|=, lagrangebasis.hh:270 and 340. *)
Definition bs_or (d d' : bits) : bits := fun i => d i || d' i.
(** No counterpart of its own; the value of the lowest n bits. *)
Fixpoint to_ulong_aux (n : nat) (d : bits) : nat :=
  match n with 0 => 0 | S n' => Nat.b2n (d 0) + 2 * to_ulong_aux n' (fun i => d (S i)) end.
(** std::bitset::to_ulong, lagrangebasis.hh:408. *)
Definition bs_to_ulong (d : bits) : nat := to_ulong_aux nbits d.

(** lagrangebasis.hh:210-222: maxEdges, bitsPerFacet, singleFacetMask, facetBitOffset *)
Definition maxEdges : nat := 12.
(** lagrangebasis.hh:212. *)
Definition bitsPerFacet : nat := 4.
(** lagrangebasis.hh:216. *)
Definition singleFacetMask : bits := bs_of 15.
(** lagrangebasis.hh:219-222. *)
Definition facetBitOffset (subEntity : nat) : nat := maxEdges + bitsPerFacet * subEntity.

(** lagrangebasis.hh:224-229 (getBitBlock) *)
Definition getBitBlock (blockSize : N) (b : N) (i : nat) : N :=
  N.land (N.shiftr b (blockSize * N.of_nat i)) (N.ones blockSize).

(** lagrangebasis.hh:240-243 (computeEdgeOrientation) *)
Definition computeEdgeOrientation (v : list nat) (e : nat) (d : bits) : option bits :=
  v0 <- nth_error v 0 ;; v1 <- nth_error v 1 ;; Some (bs_set d e (v1 <? v0)).

(** the table of lagrangebasis.hh:264, 0b0101'0001'0011'0100'0010'0011'0110'0000 *)
Definition triangleTable : N := 0x51342360.

(** lagrangebasis.hh:257-271 (computeTriangleOrientation) *)
Definition computeTriangleOrientation (re : refelem) (f : nat) (d : bits) : option bits :=
  e0 <- re_subEntity re f 1 0 2 ;;
  e1 <- re_subEntity re f 1 1 2 ;;
  e2 <- re_subEntity re f 1 2 2 ;;
  let eo := Nat.b2n (d e0) + 2 * Nat.b2n (d e1) + 4 * Nat.b2n (d e2) in
  let o := N.to_nat (getBitBlock 4 triangleTable eo) in
  Some (bs_or d (bs_shl (bs_of o) (facetBitOffset f))).

(** the table of lagrangebasis.hh:311, 0b11'11'01'01'11'00'00'00'10'00'00'01'10'00'10'00 *)
Definition quadrilateralTable : N := 0xF5C08188.

(** lagrangebasis.hh:284-341 (computeQuadrilateralOrientation) *)
Definition computeQuadrilateralOrientation (re : refelem) (v : list nat) (f : nat) (d : bits) : option bits :=
  e0 <- re_subEntity re f 1 0 2 ;;
  e1 <- re_subEntity re f 1 1 2 ;;
  e2 <- re_subEntity re f 1 2 2 ;;
  e3 <- re_subEntity re f 1 3 2 ;;
  v0 <- nth_error v 0 ;; v1 <- nth_error v 1 ;; v2 <- nth_error v 2 ;; v3 <- nth_error v 3 ;;
  let eo := Nat.b2n (d e0) + 2 * Nat.b2n (d e1) + 4 * Nat.b2n (d e2) + 8 * Nat.b2n (d e3) in
  let i_min :=
    if eo =? 5 then (if v1 <? v2 then 1 else 2)
    else if eo =? 10 then (if v0 <? v3 then 0 else 3)
    else N.to_nat (getBitBlock 2 quadrilateralTable eo) in
  let o :=
    if i_min =? 0 then 8 + 4 * Nat.b2n (v2 <? v1)
    else if i_min =? 1 then 11 + 4 * Nat.b2n (v0 <? v3)
    else if i_min =? 2 then 9 + 4 * Nat.b2n (v3 <? v0)
    else if i_min =? 3 then 10 + 4 * Nat.b2n (v1 <? v2)
    else 0 in
  Some (bs_or d (bs_shl (bs_of o) (facetBitOffset f))).

(** lagrangebasis.hh:361-398, the constructor.  [ids] are the vertex ids of the
    element, [codims] the requested codimensions. *)
Definition faceVertexIds (dim : nat) (re : refelem) (ids : nat -> nat) (f c : nat) : list nat :=
  map ids (re_subs re f c dim).
(** lagrangebasis.hh:361-398, the constructor. *)
Definition faceOrientations (dim : nat) (re : refelem) (ids : nat -> nat) (codims : list nat) : option bits :=
  if (dim =? 1) || (length codims =? 0) then Some (bs_of 0)
  else
    d <- (if (1 <? dim) && existsb (fun c => c <=? dim - 1) codims
          then forl (re_size re (dim - 1)) 0
                 (fun e d => computeEdgeOrientation (faceVertexIds dim re ids e (dim - 1)) e d) (bs_of 0)
          else Some (bs_of 0)) ;;
    if (dim =? 3) && existsb (fun c => c =? dim - 2) codims
    then forl (re_size re 1) 0
           (fun f d =>
              t <- nth_error (subtypes (re_type re) 1) f ;;
              d <- (if isTriangle t then computeTriangleOrientation re f d else Some d) ;;
              if isQuadrilateral t
              then computeQuadrilateralOrientation re (faceVertexIds dim re ids f 1) f d else Some d) d
    else Some d.

(** lagrangebasis.hh:403-410 (faceOrientationIndex) *)
Definition faceOrientationIndex (dim : nat) (d : bits) (subEntity codim : nat) : nat :=
  if codim =? dim - 1 then Nat.b2n (d subEntity)
  else if codim =? 1 then bs_to_ulong (bs_and (bs_shr d (facetBitOffset subEntity)) singleFacetMask)
  else 0.

(** * LagrangeFaceDOFPermutation *)

(** lagrangebasis.hh:457-510 (globallyOrientedTriangleDOFTable): entry [j][i];
    [None] outside of the table (which is empty for order < 3). *)
Definition barycentricIndices (m : nat) : list (nat * nat * nat) :=
  flat_map (fun i => map (fun j => (m - 1 - (i + j), j, i)) (seq 0 (m - i))) (seq 0 m).
(** lagrangebasis.hh:479; b[2]-1 is multiplied with zero if it would be negative. *)
Definition barycentricToFlat (m : nat) (b : nat * nat * nat) : nat :=
  match b with (_, b1, b2) => b1 + m * b2 - b2 * (b2 - 1) / 2 end.
(** std::swap(b[0], b[1]), lagrangebasis.hh:492 and 501. *)
Definition swap01 (b : nat * nat * nat) : nat * nat * nat := match b with (x, y, z) => (y, x, z) end.
(** std::swap(b[0], b[2]), lagrangebasis.hh:493 and 500. *)
Definition swap02 (b : nat * nat * nat) : nat * nat * nat := match b with (x, y, z) => (z, y, x) end.
(** std::swap(b[1], b[2]), lagrangebasis.hh:505. *)
Definition swap12 (b : nat * nat * nat) : nat * nat * nat := match b with (x, y, z) => (x, z, y) end.
(** lagrangebasis.hh:457-510, entry [j][i]. *)
Definition triangleEntry (order j i : nat) : option nat :=
  if order <? 3 then None
  else
    let m := order - 2 in
    if i <? m * (m + 1) / 2 then
      b <- nth_error (barycentricIndices m) i ;;
      let b := if j mod 4 =? 1 then swap02 (swap01 b) else b in
      let b := if j mod 4 =? 2 then swap01 (swap02 b) else b in
      let b := if Nat.testbit j 2 then swap12 b else b in
      Some (barycentricToFlat m b)
    else None.

(** lagrangebasis.hh:513-556 (globallyOrientedQuadrilateralDOFTable): entry [j][i] *)
Definition quadrilateralEntry (order j i : nat) : option nat :=
  if order <? 2 then None
  else
    let m := order - 1 in
    if i <? m * m then
      let c := (i mod m, i / m) in
      let c := if j mod 4 =? 1 then (m - 1 - snd c, fst c) else c in
      let c := if j mod 4 =? 2 then (m - 1 - fst c, m - 1 - snd c) else c in
      let c := if j mod 4 =? 3 then (snd c, m - 1 - fst c) else c in
      let c := if Nat.testbit j 2 then (snd c, fst c) else c in
      Some (fst c + m * snd c)
    else None.

(** lagrangebasis.hh:585-606: facetFlipTable_, 16 rows and max(0,(order-1)^2)
    columns of unsigned char, zero where no entry is written. *)
Definition facetFlipTable (order row i : nat) : option nat :=
  if (row <? 16) && (i <? (order - 1) * (order - 1)) then
    match (if row <? 8 then triangleEntry order row i else quadrilateralEntry order (row - 8) i) with
    | Some x => Some (x mod 256)
    | None => Some 0
    end
  else None.

(** lagrangebasis.hh:615-633 (computeFaceOrientations) *)
Definition computeFaceOrientations (dim order : nat) (re : refelem) (ids : nat -> nat) : option bits :=
  if (dim =? 1) || (order <? 3) then faceOrientations dim re ids []
  else if (order =? 3) && isTetrahedron (re_type re) then faceOrientations dim re ids [2]
  else faceOrientations dim re ids [2; 1].

(** lagrangebasis.hh:649-674 (permuteFaceDOF) *)
Definition permuteFaceDOF (dim k subEntity codim index : nat) (o : bits) : option nat :=
  if dim =? 1 then Some index
  else if dim =? 2 then
    if (2 <? k) && (codim =? 1) && negb (faceOrientationIndex dim o subEntity codim =? 0)
    then Some (k - 2 - index) else Some index
  else if dim =? 3 then
    if 2 <? k then
      if (codim =? 2) && negb (faceOrientationIndex dim o subEntity codim =? 0) then Some (k - 2 - index)
      else if codim =? 1 then facetFlipTable k (faceOrientationIndex dim o subEntity codim) index
      else Some index
    else Some index
  else None.

(** * LagrangePreBasis *)

Section PreBasis.
Context {E X : Type}.
Variable g : grid E X.
Variable mp : mapper X.
Variable vertexIndex : X -> nat.   (* indexSet().index of a vertex *)
Variable ref : E -> refelem.
Variable vid : E -> nat -> nat.    (* globalIdSet().subId(element, i, dim) *)

(** lagrangebasis.hh:783-797, the checks of the constructor: may the pre-basis be
    built for elements of the types [types]? *)
Definition maxOrder3d : nat := 17.
(** lagrangebasis.hh:791-796. *)
Definition lagrange_ctor (order : nat) (types : list gt) : bool :=
  negb ((2 <? order) && existsb isPyramid types) &&
  negb ((2 <? order) && existsb isPrism types) &&
  negb ((g_dim g =? 3) && (maxOrder3d <? order)).

(** The loop of lagrangebasis.hh:864-871, all of whose iterations must be defined. *)
Fixpoint all_some (l : list (option nat)) : option (list nat) :=
  match l with
  | [] => Some []
  | o :: r => x <- o ;; xs <- all_some r ;; Some (x :: xs)
  end.

(** lagrangebasis.hh:843-873 (indices) *)
Definition lagrange_indices (order : nat) (keys : list localkey) (e : E) : option (list nat) :=
  if order =? 1 then
    Some (map (fun key => match key with (s, c, _) => vertexIndex (g_sub g e s c) end) keys)
  else
    o <- computeFaceOrientations (g_dim g) order (ref e) (vid e) ;;
    all_some (map (fun key => match key with (s, c, i) =>
                     p <- permuteFaceDOF (g_dim g) order s c i o ;;
                     Some (subIndex g mp e s c + p) end) keys).

(** lagrangebasis.hh:829-841 (dimension, maxNodeSize) with [indices] as above *)
Definition lagrange_leaf (order : nat) (keys : E -> list localkey) : leaf E :=
  LF (mp_size mp) (lagrange_maxnode order (g_dim g)) (fun e => length (keys e))
    (fun e => match lagrange_indices order (keys e) e with Some l => l | None => [] end).
End PreBasis.
