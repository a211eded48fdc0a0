(** What it means that the tangential components of Nedelec functions are continuous (C65),
    and what the grid and the finite elements have to provide for that. *)
From Coq Require Import List Arith Bool Reals.
From Verif Require Import Lib GeometryType_model Mapper_model Mapper_spec Lagrange_model Lagrange_spec DiscreteFunction_model Orientation_model Orientation_spec
  Piola_model Piola_spec Conforming_spec.
Import ListNotations.
Local Open Scope R_scope.

(** The edge function from vertex [a] to vertex [b] of an edge, triangle or quadrilateral [F]
    (vertices numbered as in DUNE), applied to a tangential vector: [mu] are the weights of the
    vertices at the point, [dmu] their derivatives in the direction of the vector.  On a
    quadrilateral it is (mu a + mu b) times the derivative of the coordinate that is 0 at [a]
    and 1 at [b]; this coordinate is 1 also at the vertex opposite to [a]. *)
Definition opposite (F : list nat) (a : nat) : nat :=
  match F with
  | [v0; v1; v2; v3] => if Nat.eqb a v0 then v3 else if Nat.eqb a v1 then v2 else if Nat.eqb a v2 then v1 else v0
  | _ => a
  end.
Definition edge_function (F : list nat) (a b : nat) (mu dmu : nat -> R) : R :=
  match F with
  | [_; _; _; _] => (mu a + mu b) * (dmu b + dmu (opposite F a))
  | _ => mu a * dmu b - mu b * dmu a
  end.

Section HCurl.
Context {E X : Type}.
Variable g : grid E X.
Variable fg : fgrid E.
Variable ref : E -> refelem.
Variable keys : E -> list localkey.
(** the local basis (dune-localfunctions) of a finite element variant *)
Variable basis : fe -> lbasis.
(** weights of the vertices of the element for a local coordinate, and their derivatives at a
    local coordinate in the direction of a vector *)
Variable bary : E -> pt -> nat -> R.
Variable dbary : E -> pt -> list R -> nat -> R.
Local Notation d := (g_dim g).
Local Notation els := (fun e => In e (fg_elements fg)).

(** [w] is tangential to a face. *)
Definition tangential (e : E) (xi : pt) (s c : nat) (w : list R) : Prop :=
  length w = d /\ forall v, ~ In v (vertices g ref e s c) -> dbary e xi w v = 0.

(** Reference elements and grid: an edge has the two vertices that the basis asks for, edges
    of the element in a face are edges of the face, and the weights of the vertices add up to
    one. *)
Record edges_of_faces_ok : Prop := {
  ef_vertices : forall e s t, els e -> subtype g e s (d - 1) t ->
    (s < edges (fg_dim fg) (fg_type fg e))%nat /\ vertices g ref e s (d - 1) = [fg_ev fg e s 0; fg_ev fg e s 1];
  ef_edge : forall e s t s1 t1 c, els e -> (0 < c < d)%nat -> subtype g e s c t -> subtype g e s1 (d - 1) t1 ->
    part_of g ref e s1 (d - 1) s c -> face_edge (vertices g ref e s c) (fg_ev fg e s1 0) (fg_ev fg e s1 1);
  ef_sum : forall e xi s c t w, els e -> (0 < c < d)%nat -> subtype g e s c t -> tangential e xi s c w ->
    sum (map (dbary e xi w) (vertices g ref e s c)) = 0
}.

(** Contract of the finite elements, for one element: the tangential component of a function
    on a face is zero unless its edge is part of the face; then it is the edge function of the
    face, from the locally first to the locally second vertex, reversed if the bit of the edge
    is set. *)
Record edge_functions_ok : Prop := {
  en_size : forall e n xi, els e -> (n < 2 ^ edges (fg_dim fg) (fg_type fg e))%nat ->
    length (lb_eval (basis (FE (fg_type fg e) n)) xi) = length (keys e) /\
    Forall (fun v => length v = d) (lb_eval (basis (FE (fg_type fg e) n)) xi);
  en_trace : forall e n xi s c t w a s1 m, els e -> (n < 2 ^ edges (fg_dim fg) (fg_type fg e))%nat ->
    (0 < c < d)%nat -> subtype g e s c t -> on_face g ref bary e xi s c -> tangential e xi s c w ->
    nth_error (keys e) a = Some (s1, (d - 1)%nat, m) -> part_of g ref e s1 (d - 1) s c ->
    dot d (nth a (lb_eval (basis (FE (fg_type fg e) n)) xi) []) w =
    (if bit n s1 then -1 else 1) *
    edge_function (vertices g ref e s c) (Nat.min (fg_ev fg e s1 0) (fg_ev fg e s1 1)) (Nat.max (fg_ev fg e s1 0) (fg_ev fg e s1 1))
      (bary e xi) (dbary e xi w);
  en_zero : forall e n xi s c t w a s1 m, els e -> (n < 2 ^ edges (fg_dim fg) (fg_type fg e))%nat ->
    (0 < c < d)%nat -> subtype g e s c t -> on_face g ref bary e xi s c -> tangential e xi s c w ->
    nth_error (keys e) a = Some (s1, (d - 1)%nat, m) -> ~ part_of g ref e s1 (d - 1) s c ->
    dot d (nth a (lb_eval (basis (FE (fg_type fg e) n)) xi) []) w = 0
}.

(** [w] at [xi] in [e] and [w'] at [xi'] in [e'] are the same vector, tangential to the face
    that is number [s] in [e] and [s'] in [e'], at the same point of it. *)
Record same_tangent (G : E -> geo) (c : nat) (e : E) (xi : pt) (s : nat) (w : list R) (e' : E) (xi' : pt) (s' : nat) (w' : list R) : Prop := {
  st_location : same_location g ref (fg_vidx fg) bary c e xi s e' xi' s';
  st_tangential : tangential e xi s c w /\ tangential e' xi' s' c w';
  st_direction : forall v v', In v (vertices g ref e s c) -> In v' (vertices g ref e' s' c) -> fg_vidx fg e v = fg_vidx fg e' v' ->
    dbary e xi w v = dbary e' xi' w' v';
  st_geo : geo_ok d (G e) xi /\ geo_ok d (G e') xi';
  st_vector : push d (G e) xi w = push d (G e') xi' w'
}.
End HCurl.
