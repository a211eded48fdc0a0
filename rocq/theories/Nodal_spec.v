(** Simplices, polynomials, gradients and Hessians of functions on R^d: the vocabulary in
    which the Hermite, Morley and Argyris properties are stated. *)
From Coq Require Import Reals List Arith.
From Verif Require Import MonomialSet_spec.
Import ListNotations.
Local Open Scope R_scope.

(** Vectors of R^d are lists of length d. *)
Definition total (l : list R) : R := fold_right Rplus 0 l.
Definition dot (a b : list R) : R := total (map (fun p => fst p * snd p) (combine a b)).
Definition vadd (a b : list R) : list R := map (fun p => fst p + snd p) (combine a b).
Definition vsub (a b : list R) : list R := map (fun p => fst p - snd p) (combine a b).
Definition vscale (t : R) (a : list R) : list R := map (Rmult t) a.
Definition is_vec (d : nat) (x : list R) : Prop := length x = d.

(** sum_i l_i P_i *)
Definition comb (d : nat) (l : list R) (P : list (list R)) : list R :=
  fold_right vadd (repeat 0 d) (map (fun p => vscale (fst p) (snd p)) (combine l P)).
(** Barycentric coordinates of a point of the reference simplex; the point of the simplex
    with vertices P that belongs to it. *)
Definition bary (x : list R) : list R := (1 - total x) :: x.
Definition image (d : nat) (P : list (list R)) (x : list R) : list R := comb d (bary x) P.

(** P lists the d+1 vertices of a nondegenerate simplex of R^d: no nonzero vector is
    orthogonal to all edges at the first vertex. *)
Definition simplex (d : nat) (P : list (list R)) : Prop :=
  length P = S d /\ Forall (is_vec d) P /\
  forall g, is_vec d g -> (forall i, (i <= d)%nat -> dot g (vsub (nth i P []) (nth 0 P [])) = 0) -> g = repeat 0 d.

(** g is the gradient of u: all directional derivatives of u exist and are given by g. *)
Definition gradient (d : nat) (u : list R -> R) (g : list R -> list R) : Prop :=
  forall z, is_vec d z -> is_vec d (g z) /\
    forall w, is_vec d w -> derivable_pt_lim (fun t => u (vadd z (vscale t w))) 0 (dot (g z) w).
(** H is the derivative of the gradient g: row m belongs to the m-th component. *)
Definition hessian (d : nat) (g : list R -> list R) (H : list R -> list (list R)) : Prop :=
  forall m, (m < d)%nat -> gradient d (fun z => nth m (g z) 0) (fun z => nth m (H z) []).

(** Polynomials: sums of terms coefficient * monomial. *)
Definition poly (p : list (R * list nat)) (x : list R) : R := total (map (fun t => fst t * mono (snd t) x) p).
Definition polynomial (d n : nat) (u : list R -> R) : Prop :=
  exists p, Forall (fun t => length (snd t) = d /\ (degree (snd t) <= n)%nat) p /\
    forall x, is_vec d x -> u x = poly p x.
