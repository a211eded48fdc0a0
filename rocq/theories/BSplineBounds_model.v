(** The one-dimensional evaluation of B-splines with its arrays (bsplinebasis.hh:1012-1211): every
    read and write of BSpline_model.v's tables is an access to an array that may fail.

    [None] is an access out of range, or an unsigned difference below zero: it wraps around to a
    number of the size of the address space and is used as the size of an array or the end of a
    loop over one.  A quotient is an [option R]: [None] is a nonzero number divided by 0, which the
    code computes with (an infinity), and which BSpline_model's functions reject.
    Simplifications: double is R, otherwise size_t and unsigned are nat. *)
From Coq Require Import List Arith Reals Bool.
From Verif Require Import Lib Basis_model BSpline_model.
Import ListNotations.
Local Open Scope nat_scope.

(** Unsigned subtraction, e.g. in bsplinebasis.hh:1021, 1037. *)
Definition usub (a b : nat) : option nat := if b <=? a then Some (a - b) else None.
(** N[r][i] = v, bsplinebasis.hh:1034, 1046. *)
Definition set2 (N : list (list R)) (r i : nat) (v : R) : option (list (list R)) :=
  row <- nth_error N r ;; row' <- upd row i v ;; upd N r row'.
(** N[r][i], bsplinebasis.hh:1045. *)
Definition get2 (N : list (list R)) (r i : nat) : option R := row <- nth_error N r ;; nth_error row i.
(** Copying [n] numbers, bsplinebasis.hh:1053-1055, 1132-1133, 1139-1140, 1147-1148: out[j] = src(j). *)
Definition fill {A} (n : nat) (z : A) (src : nat -> option A) : option (list A) :=
  forl n 0 (fun j out => v <- src j ;; upd out j v) (repeat z n).

Section OneD.
Variable knots : list R.   (* knotVector *)
Variable p : nat.          (* order *)
Variable s : nat.          (* currentKnotSpan *)
Variable x : R.            (* in *)

(** bsplinebasis.hh:1039-1046 = 1092-1099: the entry [i] of row [r]. *)
Definition inner (r i : nat) (N : list (list R)) : option (list (list R)) :=
  a <- nth_error knots (i + r) ;; b <- nth_error knots i ;;
  f1 <- Some (if Rgt_dec (a - b) tol10 then ((x - b) / (a - b))%R else 0%R) ;;
  c <- nth_error knots (i + r + 1) ;; d <- nth_error knots (i + 1) ;;
  f2 <- Some (if Rgt_dec (c - d) tol10 then ((c - x) / (c - d))%R else 0%R) ;;
  u <- get2 N (r - 1) i ;; v <- get2 N (r - 1) (i + 1) ;;
  set2 N r i (f1 * u + f2 * v)%R.
(** bsplinebasis.hh:1025-1047 = 1075-1100 (evaluateFunctionFull). *)
Definition fillTable : option (list (list R)) :=
  cols <- usub (length knots) 1 ;;
  N <- forl cols 0 (fun i N => set2 N 0 i (if i =? s then 1 else 0)%R) (repeat (repeat 0%R cols) (p + 1)) ;;
  forl p 1 (fun r N => m <- usub (length knots) r ;; n <- usub m 1 ;; forl n 0 (inner r) N) N.
(** bsplinebasis.hh:1017-1021 = 1119-1123: the number of functions. *)
Definition limit : option nat :=
  a <- (if s <? p then usub (p + 1) (p - s) else Some (p + 1)) ;;
  k <- usub (length knots) s ;; k <- usub k 2 ;;
  if k <? p then usub a (p - k) else Some a.
(** bsplinebasis.hh:1012-1056 (evaluateFunction). *)
Definition evaluateFunction1 : option (list R) :=
  n <- limit ;; N <- fillTable ;; fill n 0%R (fun i => get2 N p ((s - p) + i)).

(** bsplinebasis.hh:1132-1133, 1139-1140, 1147-1148: row [q] without the entries that are not used. *)
Definition row_of (N : list (list R)) (q : nat) : option (list R) :=
  m <- usub (length knots) q ;; n <- usub m 1 ;; fill n 0%R (get2 N q).
(** bsplinebasis.hh:1171-1180: one derivative. *)
Definition jac_entry (low : list R) (j : nat) : option (option R) :=
  u <- nth_error low j ;; a <- nth_error knots (j + p) ;; b <- nth_error knots j ;;
  v <- nth_error low (j + 1) ;; c <- nth_error knots (j + p + 1) ;; d <- nth_error knots (j + 1) ;;
  Some (a1 <- divnan u (a - b) ;; a2 <- divnan v (c - d) ;; Some (INR p * (a1 - a2))%R).
(** bsplinebasis.hh:1197-1213: one second derivative, with the assertion (1197). *)
Definition hess_entry (low : list R) (j : nat) : option (option R) :=
  if negb (j + 2 <? length low) then None else
  u <- nth_error low j ;; v <- nth_error low (j + 1) ;; w <- nth_error low (j + 2) ;;
  jp <- nth_error knots (j + p) ;; j0 <- nth_error knots j ;; jpm <- nth_error knots (j + p - 1) ;;
  j1 <- nth_error knots (j + 1) ;; jp1 <- nth_error knots (j + p + 1) ;; j2 <- nth_error knots (j + 2) ;;
  j1p <- nth_error knots (j + 1 + p) ;;
  Some (a1 <- divnan2 u (jp - j0) (jpm - j0) ;; a2 <- divnan2 v (jp - j0) (jp - j1) ;;
        a3 <- divnan2 v (jp1 - j1) (jp - j1) ;; a4 <- divnan2 w (jp1 - j1) (j1p - j2) ;;
        Some (INR p * (INR p - 1) * (a1 - a2 - a3 + a4))%R).
(** bsplinebasis.hh:1111-1217 (evaluateAll) with evaluateJacobian true; the code of
    evaluateJacobian, 796-863, is the same with evaluateHessian false.  [hessian]: evaluateHessian.
    The results: out, outJac, outHess. *)
Definition evaluateAll (hessian : bool) : option (list R * list (option R) * list (option R)) :=
  n <- limit ;;
  let offset := s - p in
  N <- fillTable ;;
  out <- row_of N p ;;
  low1 <- (if p =? 0 then Some [] else row_of N (p - 1)) ;;
  low2 <- (if (1 <? p) && hessian then row_of N (p - 2) else Some []) ;;
  jac <- (if p =? 0 then Some (repeat (Some 0%R) n)
          else fill n (Some 0%R) (fun j => jac_entry low1 (offset + j))) ;;
  hess <- (if hessian
           then if p <? 2 then Some (repeat (Some 0%R) n) else fill n (Some 0%R) (fun j => hess_entry low2 (offset + j))
           else Some []) ;;
  Some (out, jac, hess).
(** bsplinebasis.hh:866-875, 943-951: oneDValuesShort, the values on the current knot span *)
Definition valuesShort (out : list R) : option (list R) :=
  n <- limit ;; fill n 0%R (fun j => nth_error out ((s - p) + j)).
End OneD.
