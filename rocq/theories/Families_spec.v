(** How many shape functions the finite elements have, subentity by subentity, and what a
    numbering of the basis functions by a mapper is to satisfy. *)
From Coq Require Import List Arith Bool.
From Verif Require Import Basis_model Basis_spec GeometryType_model GeometryType_spec Mapper_model Mapper_spec.
Import ListNotations.

(** The number of polynomials of degree k (simplices) or of degree k in each direction
    (cubes): as many as Lagrange points. *)
Definition polynomials (k : nat) (t : gt) : nat := length (lattice k t).

(** Raviart-Thomas of order k in dimension d: the normal component on a facet is given by
    its moments against all polynomials of degree k, the rest by moments against vector
    fields: on simplices against all of degree k-1, on cubes against those of degree k-1 in
    the direction of the component and of degree k in the other directions.  In the interior
    of a pyramid (k = 0) there are p functions. *)
Definition rt_functions (p k d : nat) (t : gt) : nat :=
  if gt_dim t =? d then
    if isPyramid t then p
    else if isCube t then d * (k * (k + 1) ^ (d - 1))
    else match k with 0 => 0 | S k' => d * polynomials k' t end
  else if S (gt_dim t) =? d then polynomials k t
  else 0.
(** Brezzi-Douglas-Marini of order k in the plane: k+1 functions per edge; together they are
    all fields of degree k on triangles, and two more on quadrilaterals. *)
Definition bdm_functions (k : nat) (t : gt) : nat :=
  match gt_dim t with
  | 2 => if isSimplex t then (k + 1) * (k + 2) - 3 * (k + 1) else (k + 1) * (k + 2) + 2 - 4 * (k + 1)
  | 1 => k + 1
  | _ => 0
  end.
(** Lowest order edge elements. *)
Definition edge_functions (t : gt) : nat := match gt_dim t with 1 => 1 | _ => 0 end.
(** Lagrange elements of order k, and with one additional function that vanishes on the
    boundary of the element (in one dimension P2 already has one). *)
Definition lagrange_functions (k : nat) (t : gt) : nat := length (interior_lattice k t).
Definition bubble_functions (k d : nat) (t : gt) : nat :=
  lagrange_functions k t + (if (gt_dim t =? d) && negb ((d =? 1) && (k =? 2)) then 1 else 0).
(** The refined element has 2^d subelements; constants on each of them, or continuous
    piecewise linear functions, whose nodes are the Lagrange points of order two. *)
Definition refined_functions (k d : nat) (t : gt) : nat :=
  match k with 0 => if gt_dim t =? d then 2 ^ d else 0 | _ => lagrange_functions 2 t end.

(** One basis function per shape function of each entity: the indices of an element are
    distinct, fill 0,...,dimension()-1, and are equal exactly if they belong to the same
    function of the same entity. *)
Definition numbered {E X} (els : E -> Prop) (g : grid E X) (keys : E -> list localkey) (l : leaf E) : Prop :=
  leaf_ok els l /\
  (forall e, els e -> NoDup (lf_indices l e)) /\
  (forall e a s c i e' a' s' c' i', els e -> els e' ->
     nth_error (keys e) a = Some (s, c, i) -> nth_error (keys e') a' = Some (s', c', i') ->
     exists n n', nth_error (lf_indices l e) a = Some n /\ nth_error (lf_indices l e') a' = Some n' /\
       (n = n' <-> g_sub g e s c = g_sub g e' s' c' /\ i = i')).
(** The same without the demand that every index is used. *)
Definition numbered_with_gaps {E X} (els : E -> Prop) (g : grid E X) (keys : E -> list localkey) (l : leaf E) : Prop :=
  (forall e, els e -> length (lf_indices l e) = lf_fe l e) /\
  (forall e, els e -> lf_fe l e <= lf_maxnode l) /\
  (forall e n, els e -> In n (lf_indices l e) -> n < lf_dim l) /\
  (forall e, els e -> NoDup (lf_indices l e)) /\
  (forall e a s c i e' a' s' c' i', els e -> els e' ->
     nth_error (keys e) a = Some (s, c, i) -> nth_error (keys e') a' = Some (s', c', i') ->
     exists n n', nth_error (lf_indices l e) a = Some n /\ nth_error (lf_indices l e') a' = Some n' /\
       (n = n' <-> g_sub g e s c = g_sub g e' s' c' /\ i = i')).
(** One function per facet. *)
Definition facet_functions (d : nat) (t : gt) : nat := if S (gt_dim t) =? d then 1 else 0.
