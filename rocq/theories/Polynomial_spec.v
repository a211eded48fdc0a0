(** Sums of powers and repeated derivatives. *)
From Coq Require Import Reals List Arith.
Import ListNotations.
Open Scope R_scope.

(** sum_i c_i x^i, from the i-th power on *)
Fixpoint power_sum (i : nat) (c : list R) (x : R) : R :=
  match c with [] => 0 | a :: c' => a * x ^ i + power_sum (S i) c' x end.

(** [g] is the k-th derivative of [f]. *)
Fixpoint kth_derivative (k : nat) (f g : R -> R) : Prop :=
  match k with
  | 0%nat => forall x, f x = g x
  | S k' => exists h, (forall x, derivable_pt_lim f x (h x)) /\ kth_derivative k' h g
  end.
