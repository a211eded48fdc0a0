(** Polynomial and TrigonometricFunction.
    Sources: /repo/dune/functions/analyticfunctions/{polynomial,trigonometricfunction}.hh.
    Simplification: exact reals as scalars, and coefficients of every container are
    reals (for integer_sequence and tuples of integral_constants they are integers in
    the code; overflow and integer promotions are not modelled). *)
From Coq Require Import Reals Arith List ZArith.
From Verif Require Import Lib Basis_model.
Import ListNotations.
Open Scope R_scope.

(** polynomial.hh:24-33, 35-49: derivative coefficients of a vector or an array: a new
    container with one entry less, filled by the loop over i = 1, ... *)
Definition derivative_coefficients (c : list R) : option (list R) :=
  match c with
  | [] => Some []
  | _ => forl (length c - 1) 1 (fun i dp => ci <- nth_error c i ;; upd dp (i - 1)%nat (ci * INR i)) (repeat 0 (length c - 1))
  end.
(** polynomial.hh:51-70: for an integer_sequence i0, i... with indices j0, j...: the
    sequence i*j...;  72-93: for a tuple the entries get<i+1> * (i+1) *)
Definition derivative_sequence (c : list R) : list R :=
  match c with [] => [] | _ :: ci => map (fun p => fst p * INR (snd p)) (combine ci (seq 1 (length ci))) end.
(** The arguments of the std::tuple in polynomial.hh:85-86, all of which must be defined. *)
Fixpoint traverse (l : list (option R)) : option (list R) :=
  match l with [] => Some [] | o :: r => x <- o ;; xs <- traverse r ;; Some (x :: xs) end.
(** polynomial.hh:72-89. *)
Definition derivative_tuple (c : list R) : option (list R) :=
  match c with
  | [] => Some []
  | _ => traverse (map (fun i => ci <- nth_error c (i + 1)%nat ;; Some (ci * INR (i + 1))) (seq 0 (length c - 1)))
  end.

(** polynomial.hh:139-149: add(y, c) skips zero *)
Definition add (y c : R) : R := if Req_EM_T c 0 then y else y + c.
(** polynomial.hh:176-199: operator(), the Horner scheme *)
Definition poly_eval (c : list R) (x : R) : option R :=
  let n := length c in
  if Nat.eqb n 0 then Some 0 else
  y <- nth_error c (n - 1) ;;
  forl (n - 1) 0 (fun i y => ci <- nth_error c (n - 2 - i) ;; Some (add (y * x) ci)) y.
(** polynomial.hh:201-208: operator== for containers that are not an integer_sequence
    (for those equal types mean equal coefficients): compares the containers, i.e.
    sizes and entries *)
Fixpoint poly_eqb (c d : list R) : bool :=
  match c, d with
  | [], [] => true
  | a :: c', b :: d' => if Req_EM_T a b then poly_eqb c' d' else false
  | _, _ => false
  end.

(** trigonometricfunction.hh:29-46 *)
Record trig := TF { sin_factor : Z; cos_factor : Z }.
(** trigonometricfunction.hh:34-37. *)
Definition trig_eval (f : trig) (x : R) : R := IZR (sin_factor f) * sin x + IZR (cos_factor f) * cos x.
(** trigonometricfunction.hh:42-46. *)
Definition trig_derivative (f : trig) : trig := TF (- cos_factor f) (sin_factor f).
