(** Smoothness of spline functions, independently of the code. *)
From Coq Require Import List Arith Reals.
From Verif Require Import BSpline_model BSpline_spec.
Import ListNotations.
Open Scope R_scope.

(** The value of sum_i c_{I(i)} v_i: the discrete function with the coefficients [c]
    where the basis functions numbered [idx] have the values [v]. *)
Definition combination (c : nat -> R) (idx : list nat) (v : list R) : R :=
  fold_right Rplus 0 (map (fun iv => c (fst iv) * snd iv) (combine idx v)).

(** no knot in the interior occurs more than [m] times *)
Definition inner_multiplicity (d : dir) (m : nat) : Prop := forall i,
  knot d 0 < knot d i < knot d (length (d_knots d) - 1) -> (i + m < length (d_knots d))%nat ->
  knot d i < knot d (i + m).
(** splines of order [p] whose inner knots occur at most [m] times have p - m
    continuous derivatives *)
Definition smooth (r : nat) (d : dir) : Prop := exists m, (m + r <= d_order d)%nat /\ inner_multiplicity d m.

(** width of the knot span [s_j] of direction [j]: the entries of a derivative with
    respect to the local coordinate j are divided by it to get the derivative in
    global coordinates *)
Definition width (dirs : list dir) (spans : list nat) (j : nat) : R :=
  match nth_error dirs j, nth_error spans j with
  | Some d, Some s => knot d (s + 1) - knot d s
  | _, _ => 0
  end.
(** how often direction [k] occurs among the directions of a derivative *)
Definition times (k : nat) (l : list nat) : nat := count_occ Nat.eq_dec l k.
Definition smooth_enough (dirs : list dir) (l : list nat) : Prop :=
  forall k d, nth_error dirs k = Some d -> smooth (times k l) d.

(** local coordinates of the unit cube *)
Definition in_cube (dirs : list dir) (xs : list R) : Prop :=
  length xs = length dirs /\ Forall (fun x => 0 <= x <= 1) xs.
