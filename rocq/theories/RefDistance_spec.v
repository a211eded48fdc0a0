(** Reference elements and the l1-distance. *)
From Coq Require Import Reals Arith.
Open Scope R_scope.

(** The reference element of a topology: a point; over a base element, the prism
    base x [0,1] if the bit of the top dimension is set, else the pyramid of the base
    with apex (0,...,0,1).  In dimension 1 both are [0,1]. *)
Fixpoint in_reference (id dim : nat) (x : nat -> R) : Prop :=
  match dim with
  | 0%nat => True
  | S d =>
      0 <= x d <= 1 /\
      if Nat.testbit id d then in_reference id d x
      else exists z, in_reference id d z /\ forall i, (i < d)%nat -> x i = (1 - x d) * z i
  end.

Fixpoint l1 (dim : nat) (x y : nat -> R) : R :=
  match dim with 0%nat => 0 | S d => l1 d x y + Rabs (x d - y d) end.

(** [r] is the l1-distance of x to the reference element. *)
Definition l1_distance (id dim : nat) (x : nat -> R) (r : R) : Prop :=
  (exists y, in_reference id dim y /\ l1 dim x y = r) /\
  forall y, in_reference id dim y -> r <= l1 dim x y.

(** Products of a simplex with a cube: in up to three dimensions everything but the
    pyramid over a square. *)
Definition simplex_times_cube (id dim : nat) : Prop :=
  exists k, forall i, (1 <= i < dim)%nat -> Nat.testbit id i = (k <=? i)%nat.
