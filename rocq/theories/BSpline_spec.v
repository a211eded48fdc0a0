(** B-splines, independently of the code. *)
From Coq Require Import List Arith Reals Sorted.
From Verif Require Import BSpline_model.
Import ListNotations.
Open Scope R_scope.

(** * Numbering *)

(** knot span [s] is non-empty (the code's tolerance) *)
Definition nonempty_span (knots : list R) (s : nat) : Prop :=
  exists a b, nth_error knots s = Some a /\ nth_error knots (s + 1) = Some b /\ a + / 10 ^ 8 <= b.
(** [l] lists the non-empty knot spans from left to right *)
Definition spans_of (knots : list R) (l : list nat) : Prop :=
  StronglySorted lt l /\ forall s, In s l <-> nonempty_span knots s.

(** B-spline [j] of direction [d] is one of the K-p-1 functions and its support
    t_j .. t_{j+p+1} contains knot span [s] *)
Definition active (d : dir) (s j : nat) : Prop :=
  (j + d_order d + 1 < length (d_knots d) /\ j <= s <= j + d_order d)%nat.

(** A direction matching its grid: one element per non-empty knot span, and no
    function with an empty support. *)
Record dir_ok (d : dir) : Prop := {
  do_spans : exists l, spans_of (d_knots d) l /\ length l = d_elements d;
  do_size : (d_order d + 2 <= length (d_knots d))%nat;
  do_support : forall j, (j + d_order d + 1 < length (d_knots d))%nat ->
    exists s, nonempty_span (d_knots d) s /\ active d s j
}.

(** position of a tuple in a box, first coordinate fastest *)
Fixpoint lexi (sizes ijk : list nat) : nat :=
  match sizes, ijk with
  | n :: ns, i :: is => (i + n * lexi ns is)%nat
  | _, _ => 0%nat
  end.

(** element [e] of the grid is the product of the knot spans [spans] *)
Definition element_spans (dirs : list dir) (e : nat) (spans : list nat) : Prop :=
  exists ijk, e = lexi (map d_elements dirs) ijk /\
    Forall2 (fun d i => i < d_elements d)%nat dirs ijk /\
    Forall2 (fun di s => exists l, spans_of (d_knots (fst di)) l /\ nth_error l (snd di) = Some s)
      (combine dirs ijk) spans.

(** * Functions *)

(** The Cox-de Boor recursion; 0/0 is 0. *)
Definition frac (a b : R) : R := if Req_EM_T b 0 then 0 else a / b.
Fixpoint cox_de_boor (t : nat -> R) (r i : nat) (x : R) : R :=
  match r with
  | 0%nat => if Rle_dec (t i) x then (if Rlt_dec x (t (i + 1)%nat) then 1 else 0) else 0
  | S r' => frac (x - t i) (t (i + r)%nat - t i) * cox_de_boor t r' i x +
            frac (t (i + r + 1)%nat - x) (t (i + r + 1)%nat - t (i + 1)%nat) * cox_de_boor t r' (i + 1) x
  end.

Definition knot (d : dir) (i : nat) : R := nth i (d_knots d) 0.
Definition knots_sorted (d : dir) : Prop :=
  forall i, (i + 1 < length (d_knots d))%nat -> knot d i <= knot d (i + 1).

(** product over the directions of the one-dimensional B-splines j_0, j_1, ... *)
Fixpoint tensor_bspline (dirs : list dir) (js : list nat) (x : list R) : R :=
  match dirs, js, x with
  | d :: dirs', j :: js', x0 :: x' =>
      cox_de_boor (knot d) (d_order d) j x0 * tensor_bspline dirs' js' x'
  | _, _, _ => 1
  end.
(** the point of the knot spans with local coordinates [x] *)
Fixpoint global_point (dirs : list dir) (spans : list nat) (x : list R) : list R :=
  match dirs, spans, x with
  | d :: dirs', s :: spans', x0 :: x' =>
      (knot d s + (knot d (s + 1) - knot d s) * x0) :: global_point dirs' spans' x'
  | _, _, _ => []
  end.
(** the first order+1 knots coincide, and so do the last ones *)
Definition open_knots (d : dir) : Prop :=
  forall i, (i <= d_order d)%nat ->
    knot d i = knot d 0 /\ knot d (length (d_knots d) - 1 - i) = knot d (length (d_knots d) - 1).
