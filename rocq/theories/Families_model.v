(** DOF layouts of the leaf bases whose shape functions come from dune-localfunctions:
    Raviart-Thomas, Brezzi-Douglas-Marini, Nedelec, hierarchical Lagrange (with and without
    bubble), refined Lagrange; and the Rannacher-Turek basis.

    The finite elements themselves (their shape functions and local keys) are external; they
    enter the theorems as contracts, see Families_spec. *)
From Coq Require Import List Arith Bool.
From Verif Require Import Lib Basis_model GeometryType_model Mapper_model.
From Verif Require MonomialSet_model.
Import ListNotations.

(** GeometryType::isVertex (dune-geometry) *)
(** GeometryType::isVertex (dune-geometry), used in hierarchicallagrangebasis.hh and other bases (e.g. cubichermitebasis.hh:735). *)
Definition isVertex (t : gt) : bool := gt_dim t =? 0.

(** raviartthomasbasis.hh:267-280 (dofLayout).  [dim] is GV::dimension and [gridDim] what the
    mapper passes, the dimension of the grid.  The code computes in int; [dim - 2] is exact
    for dim >= 2, and there is no finite element in dimension 1. *)
Definition rt_layout (k dim : nat) (t : gt) (gridDim : nat) : nat :=
  if isPyramid t && (k =? 0) then 1
  else if gt_dim t =? gridDim then
    (if isCube t then (if dim =? 2 then k * (k + 1) * dim else k * (k + 1) * (k + 1) * dim) else k * dim)
  else if gt_dim t =? gridDim - 1 then
    (if isCube t then (dim - 2) * 2 * k + k + 1 else (dim - 1) * k + 1)
  else 0.
(** raviartthomasbasis.hh:37-120: there is a finite element (and not the dummy void pointer)
    for exactly these cases.  For k > 0 the constructor (lines 292-304) also rejects grids
    with several element types. *)
Definition rt_finite_element (dim k : nat) (t : gt) : bool :=
  if isSimplex t then existsb (fun p => (dim =? fst p) && (k =? snd p)) [(2, 0); (2, 1); (3, 0)]
  else if isCube t then existsb (fun p => (dim =? fst p) && (k =? snd p)) [(2, 0); (2, 1); (2, 2); (3, 0); (3, 1)]
  else if isPyramid t then (dim =? 3) && (k =? 0)
  else if isPrism t then (dim =? 3) && (k =? 0)
  else false.

(** brezzidouglasmarinibasis.hh:172-181 (dofLayout), k >= 1 *)
Definition bdm_layout (k dim : nat) (t : gt) (gridDim : nat) : nat :=
  if gt_dim t =? gridDim then dim * (k - 1) * 3
  else if gt_dim t =? gridDim - 1 then dim + (k - 1)
  else 0.
(** brezzidouglasmarinibasis.hh:80-87: BDMLocalFiniteElementMap names both the simplex and
    the cube element, so that only the cases with both compile (lines 32-78).  The
    constructor (lines 194-202) also rejects grids with several element types. *)
Definition bdm_finite_element (dim k : nat) : bool := (dim =? 2) && ((k =? 1) || (k =? 2)).

(** nedelecbasis.hh:165-186: mcmgLayout(Dim<1>) of dune-grid is one index per entity of
    dimension 1.  The constructor rejects element types other than simplices and cubes, orders
    above one and dimensions other than 2 and 3. *)
Definition nedelec_layout (t : gt) (gridDim : nat) : nat := if gt_dim t =? 1 then 1 else 0.

(** hierarchicallagrangebasis.hh:51-77 (k = 1, 2) *)
Definition hierarchical_layout (k : nat) (t : gt) (gridDim : nat) : nat :=
  if k =? 1 then (if isVertex t then 1 else 0) else (if isVertex t || isLine t then 1 else 0).
(** hierarchicallagrangewithelementbubblebasis.hh:45-77 (k = 1, 2); [dim] is GV::dimension *)
Definition bubble_layout (k dim : nat) (t : gt) (gridDim : nat) : nat :=
  if k =? 1 then (if isVertex t || (gt_dim t =? dim) then 1 else 0) else (if (gt_dim t <=? 1) || (gt_dim t =? dim) then 1 else 0).
(** the constructors of both, and refinedlagrangebasis.hh:81-89 *)
Definition simplex_constructor (types : list gt) : option unit := if forallb isSimplex types then Some tt else None.

(** refinedlagrangebasis.hh:51-67 (dofLayout), k = 0, 1; [dim] is GV::dimension.
    Dune::binomial is external. *)
Definition refined_layout (k dim : nat) (t : gt) (gridDim : nat) : nat :=
  if k =? 0 then (if gt_dim t =? dim then Nat.shiftl 1 dim else 0) else MonomialSet_model.binomial k (gt_dim t).

(** rannacherturekbasis.hh:72-78 (constructor) *)
Definition rt_turek_constructor (types : list gt) : option unit := if forallb (fun t => isSimplex t || isCube t) types then Some tt else None.
(** rannacherturekbasis.hh:107-133 (dimension, maxNodeSize, indices) and 187-194 (bind).
    [size1] is gridView.size(1), [index1] the number the index set gives an entity of
    codimension one; only the subentity of a local key is used. *)
Definition rannacher_turek_leaf {E X} (g : grid E X) (size1 : nat) (index1 : X -> nat) (keys : E -> list localkey) : leaf E :=
  LF size1 (2 * g_dim g) (fun e => length (keys e))
    (fun e => map (fun key => match key with (s, _, _) => index1 (g_sub g e s 1) end) (keys e)).
