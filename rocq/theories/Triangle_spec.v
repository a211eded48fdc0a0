(** Edges of triangles, their midpoints and normals. *)
From Coq Require Import Reals List Arith.
From Verif Require Import Nodal_spec Orientation_model Orientation_spec.
Import ListNotations.
Local Open Scope R_scope.

(** The edges of the triangle, in the order of the reference element. *)
Definition edge_vertices (i : nat) : nat * nat := match i with 0 => (0, 1) | 1 => (0, 2) | _ => (1, 2) end%nat.
Definition between (a b : list R) : list R := vscale (1/2) (vadd a b).
(** The unit vector from a to b, turned by 90 degrees counterclockwise. *)
Definition distance (a b : list R) : R := sqrt (dot (vsub b a) (vsub b a)).
Definition unit_normal (a b : list R) : list R :=
  [- nth 1 (vsub b a) 0 / distance a b; nth 0 (vsub b a) 0 / distance a b].
(** The normal of edge i: the edge points from its locally first to its locally second
    vertex, and the other way round if the bit is set. *)
Definition edge_normal (P : list (list R)) (o : list bool) (i : nat) : list R :=
  let a := nth (fst (edge_vertices i)) P [] in let b := nth (snd (edge_vertices i)) P [] in
  if nth i o false then unit_normal b a else unit_normal a b.
Definition edge_midpoint (P : list (list R)) (i : nat) : list R :=
  between (nth (fst (edge_vertices i)) P []) (nth (snd (edge_vertices i)) P []).

(** A grid view of triangles in the plane: P e are the vertices of e, and the vertex with
    global number n lies at position n. *)
Record triangles {E : Type} (g : fgrid E) (P : E -> list (list R)) (position : nat -> list R) : Prop := {
  tr_grid : fgrid_ok g;
  tr_dim : fg_dim g = 2%nat;
  tr_type : forall e, In e (fg_elements g) -> fg_type g e = Simplex;
  tr_edges : forall e i, In e (fg_elements g) -> (i < 3)%nat -> (fg_ev g e i 0, fg_ev g e i 1) = edge_vertices i;
  tr_simplex : forall e, In e (fg_elements g) -> simplex 2 (P e);
  tr_position : forall e i, In e (fg_elements g) -> (i < 3)%nat -> nth i (P e) [] = position (fg_vidx g e i)
}.
(** Edge i of e is edge j of e'. *)
Definition same_edge {E} (g : fgrid E) (e : E) (i : nat) (e' : E) (j : nat) : Prop :=
  edge_ends g e i = edge_ends g e' j \/ edge_ends g e i = (snd (edge_ends g e' j), fst (edge_ends g e' j)).
