(** Geometry types and their subentities, and the DOF layouts built on them
    (lagrangebasis.hh, lagrangedgbasis.hh).

    A Dune::GeometryType (dune-geometry) of dimension d is a topology id of d
    bits: bit i says whether dimension i+1 is obtained from dimension i by a
    prism (1) or by a cone (0).  Here it is the list of these bits, highest
    first.  The bit of dimension 1 is irrelevant (a line is both). *)
From Coq Require Import List Arith Lia Bool.
From Verif Require Import Lib.
From Verif Require MonomialSet_model.
Import ListNotations.

(** Used in lagrangebasis.hh:585-674 and leafprebasismappermixin.hh:80-92. *)
Definition gt := list bool.

(** Dune::GeometryType::dim (dune-geometry) *)
(** Used in lagrangebasis.hh:585-605. *)
Definition gt_dim (t : gt) : nat := length t.
(** Dune::GeometryType::isSimplex, isCube: all bits but the lowest *)
(** Used in lagrangebasis.hh:752. *)
Definition isSimplex (t : gt) : bool := forallb negb (removelast t).
(** Used in lagrangebasis.hh:754. *)
Definition isCube (t : gt) : bool := forallb (fun b => b) (removelast t).
(** isLine, isTriangle, isQuadrilateral, isTetrahedron, isPyramid, isPrism, isHexahedron *)
(** Used in lagrangedgbasis.hh:61. *)
Definition isLine (t : gt) : bool := gt_dim t =? 1.
(** Used in lagrangebasis.hh:392 and lagrangedgbasis.hh:63. *)
Definition isTriangle (t : gt) : bool := (gt_dim t =? 2) && isSimplex t.
(** Used in lagrangebasis.hh:394 and lagrangedgbasis.hh:65. *)
Definition isQuadrilateral (t : gt) : bool := (gt_dim t =? 2) && isCube t.
(** Used in lagrangebasis.hh:629 and lagrangedgbasis.hh:67. *)
Definition isTetrahedron (t : gt) : bool := (gt_dim t =? 3) && isSimplex t.
(** Used in lagrangebasis.hh:756 and lagrangedgbasis.hh:73. *)
Definition isPyramid (t : gt) : bool :=
  match t with [false; true; _] => true | _ => false end.
(** Used in lagrangebasis.hh:758 and lagrangedgbasis.hh:69. *)
Definition isPrism (t : gt) : bool :=
  match t with [true; false; _] => true | _ => false end.
(** Used in lagrangedgbasis.hh:71. *)
Definition isHexahedron (t : gt) : bool := (gt_dim t =? 3) && isCube t.

(** The types of the codim-[c] subentities of the reference element of type [t]
    (dune-geometry, referenceelementimplementation.hh: the subentities of a prism
    over B are the prisms over those of B and two copies of those of B; the
    subentities of a cone over B are those of B, the cones over those of B and
    the apex). *)
(** Used in leafprebasismappermixin.hh:85-90. *)
Fixpoint subtypes (t : gt) (c : nat) : list gt :=
  match t with
  | [] => if c =? 0 then [[]] else []
  | b :: r =>
    match c with
    | 0 => [t]
    | S c' =>
      if b then map (cons true) (subtypes r c) ++ subtypes r c' ++ subtypes r c'
      else subtypes r c' ++
           (if c <? length t then map (cons false) (subtypes r c)
            else if c =? length t then [[]] else [])
    end
  end.

(** lagrangebasis.hh:747-762 (dofLayout).  [dim] is the grid dimension; unsigned
    arithmetic, overflow not modelled.  Dune::binomial is external. *)
Definition lagrange_layout (order : nat) (type : gt) (dim : nat) : nat :=
  if order =? 0 then (if gt_dim type =? dim then 1 else 0)
  else if isSimplex type then MonomialSet_model.binomial (order - 1) (gt_dim type)
  else if isCube type then (order - 1) ^ gt_dim type
  else if isPyramid type then 0
  else if isPrism type && (1 <? order) then (order - 1) * (order - 1) * (order - 2) / 2
  else 0.

(** lagrangebasis.hh:835-841 (maxNodeSize) *)
Definition lagrange_maxnode (order dim : nat) : nat := (order + 1) ^ dim.

(** lagrangedgbasis.hh:54-79 (dofLayout); [None] = the exception NotImplemented *)
Definition dg_layout (order : nat) (type : gt) (dimGrid : nat) : option nat :=
  if gt_dim type =? dimGrid then
    if isLine type then Some (order + 1)
    else if isTriangle type then Some ((order + 1) * (order + 2) / 2)
    else if isQuadrilateral type then Some ((order + 1) * (order + 1))
    else if isTetrahedron type then Some ((order + 1) * (order + 2) * (order + 3) / 6)
    else if isPrism type then Some ((order + 1) * (order + 1) * (order + 2) / 2)
    else if isHexahedron type then Some ((order + 1) * (order + 1) * (order + 1))
    else if isPyramid type then Some ((order + 1) * (order + 2) * (2 * order + 3) / 6)
    else None
  else Some 0.

(** The sum of a layout over all subentities of the reference element of type [t]:
    the body of the loop leafprebasismappermixin.hh:85-90. *)
Definition layout_total (lay : gt -> nat) (t : gt) : nat :=
  list_sum (flat_map (fun c => map lay (subtypes t c)) (seq 0 (gt_dim t + 1))).
