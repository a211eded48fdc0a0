(** Face orientations and Lagrange points of faces, independently of the code. *)
From Coq Require Import List Arith Lia Bool.
From Verif Require Import GeometryType_model Mapper_model Lagrange_model.
Import ListNotations.

(** * Faces *)

(** A face is given by the ids of its vertices in a local numbering: 2 for an
    edge, 3 for a triangle, 4 for a quadrilateral (numbered as in DUNE: 0-1 and
    2-3 are parallel edges, 0-3 and 1-2 are the diagonals). *)
Definition edges_of (n : nat) : list (nat * nat) :=
  match n with
  | 2 => [(0, 1)]
  | 3 => [(0, 1); (0, 2); (1, 2)]
  | 4 => [(0, 1); (0, 2); (1, 3); (2, 3)]
  | _ => []
  end.
Definition face_edge (v : list nat) (a b : nat) : Prop :=
  exists p q, (In (p, q) (edges_of (length v)) \/ In (q, p) (edges_of (length v))) /\
    nth_error v p = Some a /\ nth_error v q = Some b.
(** two numberings of the same face: same vertices, same edges *)
Definition same_face (v w : list nat) : Prop :=
  length v = length w /\ (forall x, In x v <-> In x w) /\ (forall a b, face_edge v a b <-> face_edge w a b).

(** The documented global orientation (lagrangebasis.hh:75-81): P0 is the vertex of
    smallest id, P1 its neighbour of smallest id. *)
Definition global_orientation (v u : list nat) : Prop :=
  same_face v u /\
  exists P0 P1 r, u = P0 :: P1 :: r /\
    (forall x, In x v -> P0 <= x) /\ face_edge v P0 P1 /\ (forall x, face_edge v P0 x -> P1 <= x).

(** The documented encoding (lagrangebasis.hh:98-116): rotate counter-clockwise as
    often as the two lowest bits say, then reflect across the xy-diagonal if
    bit 2 is set; an edge is flipped if its bit is set.  [automorphism n o p] is
    where the vertex with local number [p] ends up. *)
Definition rotate (n p : nat) : nat :=
  match n, p with
  | 3, 0 => 1 | 3, 1 => 2 | 3, 2 => 0
  | 4, 0 => 1 | 4, 1 => 3 | 4, 3 => 2 | 4, 2 => 0
  | _, _ => p
  end.
Definition reflect (p : nat) : nat := match p with 1 => 2 | 2 => 1 | _ => p end.
Definition automorphism (n o p : nat) : nat :=
  if n =? 2 then (if o =? 0 then p else 1 - p)
  else
    let r := Nat.iter (o mod 4) (rotate n) p in
    if Nat.testbit o 2 then reflect r else r.
Definition legal (n o : nat) : Prop :=
  match n with
  | 2 => o = 0 \/ o = 1
  | 3 => In o [0; 1; 2; 4; 5; 6]
  | 4 => 8 <= o < 16
  | _ => False
  end.

(** Reference elements as DUNE numbers them, of dimension 2 or 3: the edges of a
    face are those of its vertices, in the order of the reference triangle and
    square. *)
Record refelem_ok (dim : nat) (re : refelem) : Prop := {
  ro_dim : gt_dim (re_type re) = dim;
  ro_edges : re_size re (dim - 1) <= 12;
  ro_facets3 : dim = 3 -> re_size re 1 <= 6;
  ro_edge : forall e, e < re_size re (dim - 1) -> exists a b, re_subs re e (dim - 1) dim = [a; b];
  ro_triangle : forall f t, dim = 3 -> nth_error (subtypes (re_type re) 1) f = Some t -> isTriangle t = true ->
    exists a b c e0 e1 e2,
      re_subs re f 1 3 = [a; b; c] /\ re_subs re f 1 2 = [e0; e1; e2] /\
      e0 < re_size re 2 /\ e1 < re_size re 2 /\ e2 < re_size re 2 /\
      re_subs re e0 2 3 = [a; b] /\ re_subs re e1 2 3 = [a; c] /\ re_subs re e2 2 3 = [b; c];
  ro_quadrilateral : forall f t, dim = 3 -> nth_error (subtypes (re_type re) 1) f = Some t -> isQuadrilateral t = true ->
    exists a b c d e0 e1 e2 e3,
      re_subs re f 1 3 = [a; b; c; d] /\ re_subs re f 1 2 = [e0; e1; e2; e3] /\
      e0 < re_size re 2 /\ e1 < re_size re 2 /\ e2 < re_size re 2 /\ e3 < re_size re 2 /\
      re_subs re e0 2 3 = [a; c] /\ re_subs re e1 2 3 = [b; d] /\
      re_subs re e2 2 3 = [a; b] /\ re_subs re e3 2 3 = [c; d]
}.

(** * Lagrange points of a face *)

(** The point of order-[k] DOF [i] in the interior of a face with [n] vertices, as
    the weights of the vertices in units of 1/k (edge, triangle) or 1/k^2
    (quadrilateral).  dune-localfunctions numbers the interior points of a face
    along the local x-axis first. *)
Definition dof_weights (n k i : nat) (w : list nat) : Prop :=
  match n with
  | 2 => i + 1 < k /\ w = [k - 1 - i; i + 1]
  | 3 => exists x y, x + y + 2 < k /\ i = x + list_sum (map (fun r => k - 2 - r) (seq 0 y)) /\
           w = [k - (x + 1) - (y + 1); x + 1; y + 1]
  | 4 => exists x y, x + 1 < k /\ y + 1 < k /\ i = x + (k - 1) * y /\
           w = [(k - (x + 1)) * (k - (y + 1)); (x + 1) * (k - (y + 1)); (k - (x + 1)) * (y + 1); (x + 1) * (y + 1)]
  | _ => False
  end.
(** weight of the vertex with id [id] *)
Definition weight (v w : list nat) (id : nat) : nat :=
  list_sum (map (fun p => if fst p =? id then snd p else 0) (combine v w)).
(** two weighted faces denote the same point *)
Definition same_point (v w v' w' : list nat) : Prop := forall id, weight v w id = weight v' w' id.

(** * Grids with vertex ids *)

Section Grid.
Context {E X : Type}.
Variable els : E -> Prop.
Variable g : grid E X.
Variable ref : E -> refelem.
Variable vid : E -> nat -> nat.

(** vertex ids of the [s]-th codim-[c] subentity, in the numbering of [e] *)
Definition face_ids (e : E) (s c : nat) : list nat := map (vid e) (re_subs (ref e) s c (g_dim g)).

(** The contract of the grid: the vertices of a face have different ids, and two
    elements that share a face see the same vertices and edges of it (in any
    order). *)
Record ids_ok : Prop := {
  io_type : forall e, els e -> re_type (ref e) = g_type g e;
  io_refelem : forall e, els e -> 2 <= g_dim g -> refelem_ok (g_dim g) (ref e);
  io_distinct : forall e s c, els e -> 0 < c < g_dim g -> s < length (subtypes (g_type g e) c) -> NoDup (face_ids e s c);
  io_shared : forall e s c e' s', els e -> els e' -> 0 < c < g_dim g ->
    s < length (subtypes (g_type g e) c) -> s' < length (subtypes (g_type g e') c) ->
    g_sub g e s c = g_sub g e' s' c -> same_face (face_ids e s c) (face_ids e' s' c)
}.

(** Do DOF [i] of the [s]-th codim-[c] subentity of [e] and DOF [i'] of the
    [s']-th codim-[c'] subentity of [e'] sit at the same Lagrange point of the same
    entity?  Vertices have one DOF and the interior of an element belongs to one
    element, so there the numbers of the DOFs decide. *)
Definition same_lagrange_point (k : nat) (e : E) (s c i : nat) (e' : E) (s' c' i' : nat) : Prop :=
  g_sub g e s c = g_sub g e' s' c' /\
  (0 < c < g_dim g -> exists w w',
     dof_weights (length (face_ids e s c)) k i w /\
     dof_weights (length (face_ids e' s' c')) k i' w' /\
     same_point (face_ids e s c) w (face_ids e' s' c') w') /\
  (~ 0 < c < g_dim g -> i = i').
End Grid.
