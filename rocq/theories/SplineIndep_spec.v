(** Linear independence of spline functions, independently of the code. *)
From Coq Require Import List Arith Reals.
From Verif Require Import BSpline_model.
Import ListNotations.
Open Scope R_scope.

(** sum_i a_i v_i *)
Definition linear (a : nat -> R) (v : list R) : R :=
  fold_right Rplus 0 (map (fun i => a i * nth i v 0) (seq 0 (length v))).
(** local coordinates in the interior of the unit cube *)
Definition inside (dirs : list dir) (xs : list R) : Prop :=
  length xs = length dirs /\ Forall (fun x => 0 < x < 1) xs.
