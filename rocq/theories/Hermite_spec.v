(** What the cubic Hermite basis is about. *)
From Coq Require Import Reals List Arith.
From Verif Require Import MonomialSet_spec Nodal_spec Hermite_model.
Import ListNotations.
Local Open Scope R_scope.

(** The geometry of the simplex with vertices P (dune-geometry): affine. *)
Definition affine_geometry (d : nat) (P : list (list R)) (G : geometry) : Prop :=
  forall x, is_vec d x -> geo_global G x = image d P x /\
    geo_jacobian G x = map (fun m => map (fun k => nth m (vsub (nth (S k) P []) (nth 0 P [])) 0) (seq 0 d)) (seq 0 d).

(** A finite element bound to the simplex with vertices P and with the (positive) mesh
    sizes h at its vertices. *)
Definition bound (d : nat) (P : list (list R)) (h : list R) (fe : hermite) : Prop :=
  exists G subIndex sizes, simplex d P /\ affine_geometry d P G /\
    length h = S d /\ Forall (fun a => 0 < a) h /\
    (forall i, (i <= d)%nat -> nth_error sizes (subIndex i) = nth_error h i) /\
    bind d subIndex sizes G = Some fe.

(** Polynomials the element must reproduce. *)
Definition full_degree (reduced : bool) : nat := if reduced then 2%nat else 3%nat.

(** The function u, given on the simplex with vertices P, has the coefficients c. *)
Definition has_coefficients (d : nat) (reduced : bool) (P : list (list R)) (fe : hermite) (u : list R -> R) (c : list R) : Prop :=
  length c = size d reduced /\
  forall x, is_vec d x -> exists phi, evaluateFunction d reduced fe x = Some phi /\ u (image d P x) = dot c phi.

(** The vertices of the triangles that carry a degree of freedom: the triangle itself, or
    the faces of the tetrahedron in the order of the reference element. *)
Definition face_vertices (d i : nat) : list nat :=
  match d, i with
  | 2, 0 => [0; 1; 2]
  | 3, 0 => [0; 1; 2]
  | 3, 1 => [0; 1; 3]
  | 3, 2 => [0; 2; 3]
  | 3, 3 => [1; 2; 3]
  | _, _ => []
  end%nat.
Definition barycentre (d : nat) (Q : list (list R)) : list R := vscale (/ INR (length Q)) (fold_right vadd (repeat 0 d) Q).

(** s lists the pairs (i,j) of local numbers of the d vertices of a common facet. *)
Definition common_facet (d : nat) (P P' : list (list R)) (s : list (nat * nat)) : Prop :=
  length s = d /\ NoDup (map fst s) /\ NoDup (map snd s) /\
  forall i j, In (i, j) s -> (i <= d)%nat /\ (j <= d)%nat /\ nth i P [] = nth j P' [].
(** The coefficients of the degrees of freedom at the vertices and, in three dimensions,
    of the face that the elements share are the same, and so are the mesh sizes. *)
Definition same_coefficients (d : nat) (s : list (nat * nat)) (h c h' c' : list R) : Prop :=
  (forall i j, In (i, j) s -> nth i h 0 = nth j h' 0 /\
     forall m, (m <= d)%nat -> nth (i * (d + 1) + m) c 0 = nth (j * (d + 1) + m) c' 0) /\
  (d = 3%nat -> forall f f', (f < 4)%nat -> (f' < 4)%nat ->
     (forall v, In v (face_vertices 3 f) <-> In v (map fst s)) ->
     (forall v, In v (face_vertices 3 f') <-> In v (map snd s)) -> nth (16 + f) c 0 = nth (16 + f') c' 0).
