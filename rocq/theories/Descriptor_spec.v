(** What a descriptor of a degree of freedom says. *)
From Coq Require Import Reals List Arith Bool.
From Verif Require Import Nodal_spec Hermite_spec Triangle_spec Descriptor_model.
Import ListNotations.
Local Open Scope R_scope.

Definition unit_vector (d k : nat) : list R := map (fun j => if (j =? k)%nat then 1 else 0) (seq 0 d).
Definition increase (k : nat) (order : list nat) : list nat := map (fun j => if (j =? k)%nat then S (nth j order 0%nat) else nth j order 0%nat) (seq 0 (length order)).
(** v is the partial derivative of u of the order [order]: differentiate one variable at a time. *)
Inductive iterated (d : nat) (u : list R -> R) : list nat -> (list R -> R) -> Prop :=
| it_value : iterated d u (repeat 0%nat d) u
| it_derivative order v k v' : iterated d u order v -> (k < d)%nat ->
    (forall z, is_vec d z -> derivable_pt_lim (fun t => v (vadd z (vscale t (unit_vector d k)))) 0 (v' z)) ->
    iterated d u (increase k order) v'.
(** The number [c] is what the descriptor says about u at the point z: if it is a normal
    derivative, the (first) derivative in the direction of a unit vector normal to the edge
    from a to b, otherwise the partial derivative in units of the mesh size h there. *)
Definition described (d : nat) (fd : descriptor) (u : list R -> R) (z a b : list R) (h c : R) : Prop :=
  if isNormalDerivative fd
  then normalDerivativeOrder fd = 1%nat /\
       exists n, is_vec d n /\ dot n n = 1 /\ (d = 2%nat -> dot n (vsub b a) = 0) /\
         derivable_pt_lim (fun t => u (vadd z (vscale t n))) 0 c
  else exists v, iterated d u (partialDerivativeOrder fd) v /\ c = h ^ list_sum (partialDerivativeOrder fd) * v z.
(** The vertices of a subentity, and the point of the simplex a local key belongs to. *)
Definition sub_vertices (d i c : nat) : list nat :=
  if (c =? d)%nat then [i]
  else if (d =? 2)%nat && (c =? 1)%nat then [fst (edge_vertices i); snd (edge_vertices i)]
  else face_vertices d i.
Definition key_point (d : nat) (P : list (list R)) (key : nat * nat * nat) : list R :=
  let '(i, c, _) := key in barycentre d (map (fun v => nth v P []) (sub_vertices d i c)).
(** The edge a key belongs to. *)
Definition key_edge (P : list (list R)) (key : nat * nat * nat) : list R * list R :=
  let '(i, _, _) := key in (nth (fst (edge_vertices i)) P [], nth (snd (edge_vertices i)) P []).
(** The values [c] of the dual basis at u are those the descriptors describe, each at the point
    of its local key; h holds the mesh sizes at the vertices. *)
Definition all_described (d : nat) (fds : list descriptor) (keys : list (nat * nat * nat)) (P : list (list R)) (h : list R) (u : list R -> R) (c : list R) : Prop :=
  length fds = length c /\ length keys = length c /\
  forall i, (i < length c)%nat -> exists fd key, nth_error fds i = Some fd /\ nth_error keys i = Some key /\
    described d fd u (key_point d P key) (fst (key_edge P key)) (snd (key_edge P key)) (nth (fst (fst key)) h 1) (nth i c 0).
