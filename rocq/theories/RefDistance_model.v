(** ReferenceElementUtilities of finefunctiononcoarsegridview.hh.
    Source: /repo/dune/functions/gridfunctions/finefunctiononcoarsegridview.hh.
    Simplification: exact reals.  A point has a coordinate for every number; the
    functions read those below dim. *)
From Coq Require Import Reals Arith.
Open Scope R_scope.

(** Dune::Impl::isPyramid and baseTopologyId (dune-geometry): bit dim-1 of the id tells
    a prism from a pyramid, bit 0 does not count. *)
(** Used in finefunctiononcoarsegridview.hh:33-49. *)
Definition is_pyramid (id dim : nat) : bool := negb (Nat.testbit (Nat.clearbit id 0) (dim - 1)).
(** Used in finefunctiononcoarsegridview.hh:33-49. *)
Definition base_topology (id dim : nat) : nat := (id mod 2 ^ (dim - 1))%nat.

(** finefunctiononcoarsegridview.hh 33-49: distance; x[-1] is read for dim 0 *)
Fixpoint distance (id dim : nat) (x : nat -> R) (scale : R) : option R :=
  match dim with
  | 0%nat => None
  | S d =>
      let last := Rmax (Rmax (x d - scale) (- x d)) 0 in
      if (1 <? dim)%nat then
        let scale' := if is_pyramid id dim then scale - Rmax (Rmin (x d) scale) 0 else scale in
        match distance (base_topology id dim) d x scale' with
        | Some r => Some (r + last)
        | None => None
        end
      else Some last
  end.
(** finefunctiononcoarsegridview.hh 57-75: checkInside *)
Fixpoint check_inside (id dim : nat) (x : nat -> R) (tol scale : R) : bool :=
  match dim with
  | 0%nat => true
  | S d =>
      let last := Rmax (x d - scale) (- x d) in
      if Rle_dec last tol then
        let scale' := if is_pyramid id dim then scale - Rmax (Rmin (x d) scale) 0 else scale in
        check_inside (base_topology id dim) d x (tol - Rmax last 0) scale'
      else false
  end.
