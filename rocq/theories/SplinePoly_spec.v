(** Polynomials in several variables, independently of the code. *)
From Coq Require Import List Arith Reals.
From Verif Require Import BSpline_model BSpline_spec.
Import ListNotations.
Open Scope R_scope.

(** x_0^a_0 x_1^a_1 ..., and a polynomial given as a list of coefficients and exponents *)
Fixpoint monomial (a : list nat) (x : list R) : R :=
  match a, x with
  | m :: a', x0 :: x' => x0 ^ m * monomial a' x'
  | _, _ => 1
  end.
Definition polynomial (q : list (R * list nat)) (x : list R) : R :=
  fold_right Rplus 0 (map (fun ra => fst ra * monomial (snd ra) x) q).
(** in each variable the degree is at most the order of the direction *)
Definition degree_ok (dirs : list dir) (q : list (R * list nat)) : Prop :=
  Forall (fun ra => Forall2 (fun d m => m <= d_order d)%nat dirs (snd ra)) q.

(** every element is in the support of order+1 functions of each direction; this is the
    case for open knot vectors *)
Definition full_spans (d : dir) : Prop := forall s, nonempty_span (d_knots d) s ->
  (d_order d <= s /\ s + d_order d + 1 < length (d_knots d))%nat.

(** the mean value of the knots t_{i+1} .. t_{i+p} (Greville abscissa) *)
Definition greville (d : dir) (i : nat) : R :=
  fold_right Rplus 0 (map (knot d) (seq (i + 1) (d_order d))) / INR (d_order d).
