(** What orientation bits mean. *)
From Coq Require Import List Arith Bool NArith.
From Verif Require Import Orientation_model.
Import ListNotations.

Section Spec.
Context {E : Type} (g : fgrid E).

(** Contract of the grid view: dimension 2 or 3, admissible element types, distinct
    indices in range, facet numbers in range, neighbours exist. *)
Record fgrid_ok : Prop := {
  go_dim : fg_dim g = 2 \/ fg_dim g = 3;
  go_type : forall e, In e (fg_elements g) -> fg_dim g = 2 -> fg_type g e = Simplex \/ fg_type g e = Cube;
  go_idx : forall e, In e (fg_elements g) -> fg_idx g e < fg_size g;
  go_inj : forall e e', In e (fg_elements g) -> In e' (fg_elements g) -> fg_idx g e = fg_idx g e' -> e = e';
  go_face : forall e x, In e (fg_elements g) -> In x (fg_inters g e) ->
            i_face x < facets (fg_dim g) (fg_type g e);
  go_nb : forall e x, In e (fg_elements g) -> In x (fg_inters g e) -> i_neighbor x = true ->
          exists o, i_outside x = Some o
}.

(** Facet i of e has a neighbour o (that the grid view contains). *)
Definition neighbour_at (e : E) (i : nat) (o : E) : Prop :=
  exists x, In x (fg_inters g e) /\ i_face x = i /\ i_neighbor x = true /\ i_outside x = Some o /\
            fg_contains g o = true.
(** Facet i of e is conforming: it belongs to at most one neighbour. *)
Definition conforming_at (e : E) (i : nat) : Prop :=
  forall o o', neighbour_at e i o -> neighbour_at e i o' -> o = o'.

(** The bits of a variant number. *)
Definition bit (n i : nat) : bool := N.testbit (N.of_nat n) (N.of_nat i).

(** The element types that a grid with [fixed] element type may have. *)
Definition types_match (fixed : option gtype) : Prop :=
  match fixed with
  | None => True
  | Some t => (t = Simplex \/ t = Cube) /\ forall e, In e (fg_elements g) -> fg_type g e = t
  end.

(** The end points (global vertex numbers) of edge i of e, and the direction given
    to it by a bit: from the locally first to the locally second vertex, reversed
    if the bit is set. *)
Definition edge_ends (e : E) (i : nat) : nat * nat :=
  (fg_vidx g e (fg_ev g e i 0), fg_vidx g e (fg_ev g e i 1)).
Definition edge_dir (e : E) (i : nat) (b : bool) : nat * nat :=
  let l0 := fg_ev g e i 0 in let l1 := fg_ev g e i 1 in
  let a := fg_vidx g e (Nat.min l0 l1) in let z := fg_vidx g e (Nat.max l0 l1) in
  if b then (z, a) else (a, z).
(** Contract for edges: two different local vertices, with different numbers. *)
Definition edges_ok : Prop :=
  forall e i, In e (fg_elements g) -> i < edges (fg_dim g) (fg_type g e) ->
  fg_ev g e i 0 <> fg_ev g e i 1 /\ fst (edge_ends e i) <> snd (edge_ends e i).
(** The Nedelec basis only accepts simplices and cubes (nedelecbasis.hh:173-180). *)
Definition nd_types : Prop := forall e, In e (fg_elements g) -> fg_type g e = Simplex \/ fg_type g e = Cube.
(** Reference edges list their vertices in increasing order. *)
Definition local_order : Prop :=
  forall e i, In e (fg_elements g) -> i < edges (fg_dim g) (fg_type g e) -> fg_ev g e i 0 < fg_ev g e i 1.
End Spec.
