(** What a DOF layout is supposed to count: the points of the Lagrange lattice.

    The lattice of order [k] on the reference element, in units of 1/k: a prism
    over B repeats the lattice of B in each of the layers 0..k; a cone over B has
    in layer z the lattice of order k-z of B.  One Lagrange shape function
    belongs to each lattice point. *)
From Coq Require Import List Arith Lia Bool.
From Verif Require Import GeometryType_model.
Import ListNotations.

Fixpoint lattice (k : nat) (t : gt) : list (list nat) :=
  match t with
  | [] => [[]]
  | b :: r => flat_map (fun z => map (cons z) (lattice (if b then k else k - z) r)) (seq 0 (k + 1))
  end.

(** The lattice points in the interior of the element: layers 1..k-1 only. *)
Fixpoint interior_lattice (k : nat) (t : gt) : list (list nat) :=
  match t with
  | [] => [[]]
  | b :: r => flat_map (fun z => map (cons z) (interior_lattice (if b then k else k - z) r)) (seq 1 (k - 1))
  end.

(** The element types named in the documentation. *)
Definition simplex_type (t : gt) : Prop := isSimplex t = true.
Definition cube_type (t : gt) : Prop := isCube t = true.
Definition prism_type (t : gt) : Prop := isPrism t = true.
Definition pyramid_type (t : gt) : Prop := isPyramid t = true.

(** All subentities of all codimensions. *)
Definition subentity (t s : gt) : Prop := exists c, In s (subtypes t c).
