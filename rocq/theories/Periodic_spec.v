(** What a periodic basis should do, independent of the numbering algorithm. *)
From Coq Require Import List Arith Relations.
Import ListNotations.

(** The user asked for [a] and [b] to be unified. *)
Definition requested (calls : list (nat * nat)) (a b : nat) : Prop :=
  In (a, b) calls \/ In (b, a) calls.

(** The equivalence closure of all requests. *)
Definition unified (calls : list (nat * nat)) : nat -> nat -> Prop :=
  clos_refl_sym_trans nat (requested calls).

(** Only the request with the largest partner below [b] is honoured. *)
Definition largest_partner (calls : list (nat * nat)) (a b : nat) : Prop :=
  a < b /\ requested calls a b /\ forall a', a' < b -> requested calls a' b -> a' <= a.

(** All requests between different DOFs are between existing ones. *)
Definition in_range (dim : nat) (calls : list (nat * nat)) : Prop :=
  forall a b, In (a, b) calls -> a <> b -> a < dim /\ b < dim.

(** Requests of which at most one reaches down from each DOF, or that come with the
    request between the two partners (e.g. all pairs of a set of points). *)
Definition partners_requested (calls : list (nat * nat)) : Prop :=
  forall a a' b, a < a' -> a' < b -> requested calls a b -> requested calls a' b -> requested calls a a'.

(** The equivalence closure of the honoured requests. *)
Definition honoured (calls : list (nat * nat)) : nat -> nat -> Prop :=
  clos_refl_sym_trans nat (fun b a => largest_partner calls a b).

(** [num] is the number of classes of [R] on 0..dim-1: there are [num] distinct
    representatives, and every element is related to exactly one of them. *)
Definition counts_classes (R : nat -> nat -> Prop) (dim num : nat) : Prop :=
  exists reps, NoDup reps /\ length reps = num /\ (forall r, In r reps -> r < dim) /\
    forall x, x < dim -> exists! r, In r reps /\ R x r.
