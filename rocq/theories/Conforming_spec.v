(** What it means that discrete functions are continuous across elements (C63), and what the
    grid and the finite elements have to provide for that. *)
From Coq Require Import List Arith Bool Reals Permutation.
From Verif Require Import Lib GeometryType_model Mapper_model Mapper_spec Lagrange_model Lagrange_spec DiscreteFunction_model.
Import ListNotations.

(** The value of the global basis function with number [n], computed on one element: [idx] are
    the numbers of the local basis functions, [phi] their values. *)
Definition basis_value (size : nat) (idx : list nat) (phi : nat -> R) (n : nat) : R :=
  rsum size (fun a => match nth_error idx a with Some m => if m =? n then phi a else 0%R | None => 0%R end).

(** * Lagrange shape functions on a face *)
Definition product (l : list R) : R := fold_right Rmult 1%R l.
(** The polynomial of degree [a] in [t] that vanishes at 0, 1/k, ..., (a-1)/k and is one at
    a/k. *)
Definition factor (k a : nat) (t : R) : R :=
  product (map (fun j => ((INR k * t - INR j) / (INR a - INR j))%R) (seq 0 a)).
(** The Lagrange shape function of order [k] of a vertex, edge, triangle or quadrilateral with
    the vertices [vs].  [mu]: weights of the vertices for the point where it is evaluated
    (barycentric coordinates; for a quadrilateral the bilinear ones).  [W]: weights, in units
    of 1/k^2, for its Lagrange point. *)
Definition face_shape (k : nat) (vs : list nat) (W : nat -> nat) (mu : nat -> R) : R :=
  match vs with
  | [a; b; c; d] =>
      product (map (fun uv => factor k ((W (fst uv) + W (snd uv)) / k) (mu (fst uv) + mu (snd uv))%R)
                   [(a, b); (a, c); (b, d); (c, d)])
  | _ => product (map (fun v => factor k (W v / k) (mu v)) vs)
  end.

Section Conforming.
Context {E X P : Type}.
Variable els : E -> Prop.
Variable g : grid E X.
Variable ref : E -> refelem.
Variable vid : E -> nat -> nat.
Variable k : nat.
Variable keys : E -> list localkey.
(** weights of the vertices of the element for a local coordinate *)
Variable bary : E -> P -> nat -> R.
(** the values of the shape functions (dune-localfunctions) *)
Variable shape : E -> P -> list R.

(** The vertices of a face, and the points in it. *)
Definition vertices (e : E) (s c : nat) : list nat := re_subs (ref e) s c (g_dim g).
Definition on_face (e : E) (x : P) (s c : nat) : Prop := forall v, ~ In v (vertices e s c) -> bary e x v = 0%R.
(** Subentity (s1,c1) is part of subentity (s,c). *)
Definition part_of (e : E) (s1 c1 s c : nat) : Prop := c <= c1 /\ incl (vertices e s1 c1) (vertices e s c).
(** The Lagrange point of DOF [i] of subentity (s,c), as weights of the vertices of the
    element in units of 1/k^2. *)
Definition key_weights (e : E) (s c i : nat) (W : nat -> nat) : Prop :=
  (c = g_dim g /\ forall v, W v = if in_dec Nat.eq_dec v (vertices e s c) then k * k else 0) \/
  (0 < c < g_dim g /\ exists w, dof_weights (length (vertices e s c)) k i w /\
     forall v, W v = (if length (vertices e s c) =? 4 then 1 else k) * weight (vertices e s c) w v).

(** Contract of the finite elements, for one element: the restriction of a shape function to a
    face is the shape function of the face if it belongs to the face, and zero otherwise. *)
Record shapes_ok : Prop := {
  sh_size : forall e x, els e -> length (shape e x) = length (keys e);
  sh_trace : forall e x s c t a s1 c1 i1 W, els e -> 0 < c -> subtype g e s c t -> on_face e x s c ->
    nth_error (keys e) a = Some (s1, c1, i1) -> part_of e s1 c1 s c -> key_weights e s1 c1 i1 W ->
    nth a (shape e x) 0%R = face_shape k (vertices e s c) W (bary e x);
  sh_zero : forall e x s c t a s1 c1 i1, els e -> 0 < c -> subtype g e s c t -> on_face e x s c ->
    nth_error (keys e) a = Some (s1, c1, i1) -> ~ part_of e s1 c1 s c -> nth a (shape e x) 0%R = 0%R
}.

(** Contract of the grid: the parts of a shared face are shared, vertices have their ids. *)
Record faces_ok : Prop := {
  fo_closed : forall e s c t e' s' t' s1 c1 t1, els e -> els e' -> 0 < c -> subtype g e s c t -> subtype g e' s' c t' ->
    g_sub g e s c = g_sub g e' s' c -> subtype g e s1 c1 t1 -> part_of e s1 c1 s c ->
    exists s1' t1', subtype g e' s1' c1 t1' /\ g_sub g e s1 c1 = g_sub g e' s1' c1 /\ part_of e' s1' c1 s' c;
  fo_vertex : forall e s t, els e -> subtype g e s (g_dim g) t -> vertices e s (g_dim g) = [s];
  fo_id : forall e s t e' s' t', els e -> els e' -> subtype g e s (g_dim g) t -> subtype g e' s' (g_dim g) t' ->
    g_sub g e s (g_dim g) = g_sub g e' s' (g_dim g) -> vid e s = vid e' s'
}.

(** The local coordinates [x] in [e] and [x'] in [e'] are the same point of the face that is
    number [s] in [e] and [s'] in [e']. *)
Definition same_location (c : nat) (e : E) (x : P) (s : nat) (e' : E) (x' : P) (s' : nat) : Prop :=
  g_sub g e s c = g_sub g e' s' c /\ on_face e x s c /\ on_face e' x' s' c /\
  forall v v', In v (vertices e s c) -> In v' (vertices e' s' c) -> vid e v = vid e' v' -> bary e x v = bary e' x' v'.
End Conforming.

(** * Lagrange shape functions of simplices, cubes and prisms *)

(** [sides] are sets of vertices: the single vertices of a simplex; the opposite facets of a
    cube; for a prism the two triangles and the three edges between them.  The weights of the
    vertices of a side add up to a coordinate (barycentric coordinate, x or 1-x). *)
Definition sum (l : list R) : R := fold_right Rplus 0%R l.
(** The shape function that is one where the coordinates are A/k, as a product of factors. *)
Definition shape_function (k : nat) (sides : list (list nat)) (A : list nat -> nat) (mu : nat -> R) : R :=
  product (map (fun S => factor k (A S) (sum (map mu S))) sides).

Section Elements.
Context {E X P : Type}.
Variable els : E -> Prop.
Variable g : grid E X.
Variable ref : E -> refelem.
Variable k : nat.
Variable keys : E -> list localkey.
Variable bary : E -> P -> nat -> R.
Variable sides : E -> list (list nat).
(** the coordinates of the Lagrange points, in units of 1/k *)
Variable coordinate : E -> localkey -> list nat -> nat.
Definition lagrange_shapes (e : E) (x : P) : list R :=
  map (fun key => shape_function k (sides e) (coordinate e key) (bary e x)) (keys e).
(** The Lagrange points on the boundary are where [key_weights] says, those of the interior
    of the element are not on the boundary. *)
Definition coordinates_ok : Prop := forall e s c i S, els e -> In (s, c, i) (keys e) -> In S (sides e) ->
  (forall W, 0 < c -> key_weights g ref k e s c i W -> coordinate e (s, c, i) S = list_sum (map W S) / k) /\
  (c = 0 -> 0 < coordinate e (s, c, i) S).
(** The weights of the vertices add up to one. *)
Definition bary_ok : Prop := forall e x, els e -> sum (map (bary e x) (vertices g ref e 0 0)) = 1%R.

(** What a side can have in common with a face, apart from all and nothing. *)
Definition parts_of_face (F : list nat) : list (list nat) :=
  match F with
  | [a; b] => [[a]; [b]]
  | [a; b; c] => [[a]; [b]; [c]]
  | [a; b; c; d] => [[a; b]; [a; c]; [b; d]; [c; d]]
  | _ => []
  end.
Definition memb (v : nat) (l : list nat) : bool := existsb (Nat.eqb v) l.
Definition meet (F S : list nat) : list nat := filter (fun v => memb v S) F.
(** Reference elements with sides. *)
Record sides_ok (e : E) : Prop := {
  si_nodup : NoDup (vertices g ref e 0 0) /\ forall S, In S (sides e) -> NoDup S /\ incl S (vertices g ref e 0 0);
  si_face : forall s c t, 0 < c -> subtype g e s c t ->
    NoDup (vertices g ref e s c) /\ incl (vertices g ref e s c) (vertices g ref e 0 0) /\
    1 <= length (vertices g ref e s c) <= 4;
  si_parts : forall s c t, 0 < c -> subtype g e s c t ->
    Permutation (parts_of_face (vertices g ref e s c))
      (filter (fun m => (0 <? length m) && (length m <? length (vertices g ref e s c)))
              (map (meet (vertices g ref e s c)) (sides e)));
  si_separate : forall s c t s1 c1 t1, 0 < c -> subtype g e s c t -> subtype g e s1 c1 t1 -> ~ part_of g ref e s1 c1 s c ->
    exists S, In S (sides e) /\ meet (vertices g ref e s c) S = [] /\ (c1 = 0 \/ meet (vertices g ref e s1 c1) S <> [])
}.
End Elements.
