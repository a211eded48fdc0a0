(** Where the degrees of freedom of a tensor-product element belong. *)
From Coq Require Import List Arith.
Import ListNotations.
Local Open Scope nat_scope.

(** no two DOFs have the same key *)
Definition unique_keys (keys : list (nat * nat * nat)) : Prop := NoDup keys.
(** the indices of the DOFs of a subentity are 0, 1, ..., without gaps *)
Definition consecutive_keys (keys : list (nat * nat * nat)) : Prop :=
  forall s c k, In (s, c, k) keys -> forall k', k' < k -> In (s, c, k') keys.
(** ... for the subentities of codimension [c] only *)
Definition consecutive_codim (keys : list (nat * nat * nat)) (c : nat) : Prop :=
  forall s k, In (s, c, k) keys -> forall k', k' < k -> In (s, c, k') keys.

(** position of index [i] of [n] in one direction *)
Inductive pos := Low | Mid | High.
Definition pos_of (n i : nat) : pos := if i =? 0 then Low else if i =? n - 1 then High else Mid.

(** DUNE's numbering of the vertices of a line and of the vertices and edges of a
    square: (subentity, codim) *)
Definition line_entity (a : pos) : nat * nat :=
  match a with Low => (0, 1) | High => (1, 1) | Mid => (0, 0) end.
Definition square_entity (a b : pos) : nat * nat :=
  match a, b with
  | Low, Low => (0, 2) | High, Low => (1, 2) | Low, High => (2, 2) | High, High => (3, 2)
  | Low, Mid => (0, 1) | High, Mid => (1, 1) | Mid, Low => (2, 1) | Mid, High => (3, 1)
  | Mid, Mid => (0, 0)
  end.
