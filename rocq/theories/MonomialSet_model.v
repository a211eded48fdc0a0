(** MonomialSet in one, two and three dimensions.
    Source: /repo/dune/functions/analyticfunctions/monomialset.hh.
    Simplification: exact reals.  Loop variables are int in the code; they are natural
    numbers here, which agrees because differences occur only where they are
    nonnegative, or in tests [d-1 > 0] that are false for d = 0 either way. *)
From Coq Require Import Reals Arith List Bool.
From Verif Require Import Lib Basis_model.
Import ListNotations.
Open Scope R_scope.

(** Dune::binomial (dune-common) *)
(** Used in monomialset.hh:344. *)
Fixpoint binomial (n k : nat) : nat :=
  match n, k with
  | _, 0%nat => 1%nat
  | 0%nat, S _ => 0%nat
  | S n', S k' => (binomial n' k' + binomial n' k)%nat
  end.

(** monomialset.hh 24-34: computePowers<n-1>(x, y) for an array y of [size] zeros; the template
    argument is at least -2, and negative arguments are n = 0. *)
Definition compute_powers (n size : nat) (x : R) : option (list R) :=
  match n with
  | 0%nat => Some (repeat 0 size)
  | S m =>
      y <- upd (repeat 0 size) 0 1 ;;
      forl m 0 (fun k y => yk <- nth_error y k ;; upd y (k + 1)%nat (yk * x)) y
  end.

(** The loops "for degree, for k: ...y[index]...; ++index" (and "for degree, for k, for
    l").  [body]: what an iteration does to the entry y[index]. *)
(** One iteration of the loops in monomialset.hh:234-242, 255-262 etc. *)
Definition visit {A} (body : A -> option A) (st : list A * nat) : option (list A * nat) :=
  let '(y, index) := st in
  a <- nth_error y index ;; a' <- body a ;; y' <- upd y index a' ;; Some (y', index + 1)%nat.
(** The loops in monomialset.hh:234-242, 255-262, 277-287 and 301-321 (dim = 2). *)
Definition loop2 {A} (max : nat) (body : nat -> nat -> A -> option A) (y : list A) : option (list A) :=
  '(y', _) <- forl (max + 1) 0 (fun degree => forl (degree + 1) 0 (fun k => visit (body degree k))) (y, 0%nat) ;; Some y'.
(** The loops in monomialset.hh:346-475 (dim = 3). *)
Definition loop3 {A} (max : nat) (body : nat -> nat -> nat -> A -> option A) (y : list A) : option (list A) :=
  '(y', _) <- forl (max + 1) 0 (fun degree => forl (degree + 1) 0 (fun k =>
                forl (degree - k + 1) 0 (fun l => visit (body degree k l)))) (y, 0%nat) ;; Some y'.

(** x[i] for a vector; y[i] = v; y[i][j] = v *)
Notation "x @ i" := (nth_error x i) (at level 20).
(** The assignments y[i][j] = ..., monomialset.hh:187 etc. *)
Definition set2 (y : list (list R)) (i j : nat) (v : R) : option (list (list R)) :=
  r <- y @ i ;; r' <- upd r j v ;; upd y i r'.
(** The value-initialised FieldMatrix, monomialset.hh:185 etc. *)
Definition zeros (n m : nat) : list (list R) := repeat (repeat 0 m) n.

(** * dim = 1 *)
(** monomialset.hh 159 *)
Definition size1 (max : nat) : nat := (max + 1)%nat.
(** monomialset.hh 161-167 *)
Definition exponents1 (max : nat) : option (list (list nat)) :=
  forl (size1 max) 0 (fun k p => r <- p @ k ;; r' <- upd r 0 k ;; upd p k r') (repeat [0%nat] (size1 max)).
(** monomialset.hh 169-175 *)
Definition eval1 (max : nat) (x : list R) : option (list R) :=
  x0 <- x @ 0 ;; compute_powers (max + 1) (size1 max) x0.
(** monomialset.hh 177-189 *)
Definition deriv1 (max : nat) (x : list R) : option (list (list R)) :=
  x0 <- x @ 0 ;; p <- compute_powers max (size1 max) x0 ;;
  forl max 1 (fun degree y => v <- p @ (degree - 1) ;; set2 y degree 0 (INR degree * v)) (zeros (size1 max) 1).
(** monomialset.hh 191-206 *)
Definition hess1 (max : nat) (x : list R) : option (list (list (list R))) :=
  x0 <- x @ 0 ;; p <- compute_powers (max - 1) (max + 1) x0 ;;
  forl (max + 1) 0 (fun degree y =>
    if (0 <? degree - 1)%nat then
      v <- p @ (degree - 2) ;; m <- y @ degree ;; m' <- set2 m 0 0 (INR (degree * (degree - 1)) * v) ;; upd y degree m'
    else Some y) (repeat (zeros 1 1) (size1 max)).

(** * dim = 2 *)
(** monomialset.hh 228 *)
Definition size2 (max : nat) : nat := ((max + 1) * (max + 2) / 2)%nat.
(** monomialset.hh 230-244 *)
Definition exponents2 (max : nat) : option (list (list nat)) :=
  loop2 max (fun degree k p => p <- upd p 0 (degree - k)%nat ;; upd p 1 k) (repeat [0; 0]%nat (size2 max)).
(** The if statements without else in monomialset.hh:281-284 etc. *)
Definition if_then {A} (b : bool) (f : A -> option A) (y : A) : option A := if b then f y else Some y.
(** monomialset.hh 246-264 *)
Definition eval2 (max : nat) (x : list R) : option (list R) :=
  x0 <- x @ 0 ;; x1 <- x @ 1 ;;
  p0 <- compute_powers (max + 1) (size2 max) x0 ;; p1 <- compute_powers (max + 1) (size2 max) x1 ;;
  loop2 max (fun degree k _ => a <- p0 @ (degree - k) ;; b <- p1 @ k ;; Some (a * b)) (repeat 0 (size2 max)).
(** monomialset.hh 266-289 *)
Definition deriv2 (max : nat) (x : list R) : option (list (list R)) :=
  x0 <- x @ 0 ;; x1 <- x @ 1 ;;
  p0 <- compute_powers max (size2 max) x0 ;; p1 <- compute_powers max (size2 max) x1 ;;
  loop2 max (fun degree k y =>
    y <- if_then (0 <? degree - k)%nat (fun y =>
           a <- p0 @ (degree - k - 1) ;; b <- p1 @ k ;; upd y 0 (INR (degree - k) * a * b)) y ;;
    if_then (0 <? k)%nat (fun y =>
           a <- p0 @ (degree - k) ;; b <- p1 @ (k - 1) ;; upd y 1 (INR k * a * b)) y)
    (zeros (size2 max) 2).
(** monomialset.hh 291-325 *)
Definition hess2 (max : nat) (x : list R) : option (list (list (list R))) :=
  x0 <- x @ 0 ;; x1 <- x @ 1 ;;
  p0 <- compute_powers (max - 1) (max + 1) x0 ;; p1 <- compute_powers (max - 1) (max + 1) x1 ;;
  loop2 max (fun degree k y =>
    y <- if_then (1 <? degree - k)%nat (fun y =>
           a <- p0 @ (degree - k - 2) ;; b <- p1 @ k ;; set2 y 0 0 (INR ((degree - k - 1) * (degree - k)) * a * b)) y ;;
    y <- if_then ((0 <? k)%nat && (0 <? degree - k)%nat) (fun y =>
           a <- p0 @ (degree - k - 1) ;; b <- p1 @ (k - 1) ;;
           let mixed := INR (k * (degree - k)) * a * b in
           y <- set2 y 0 1 mixed ;; set2 y 1 0 mixed) y ;;
    if_then (1 <? k)%nat (fun y =>
           a <- p0 @ (degree - k) ;; b <- p1 @ (k - 2) ;; set2 y 1 1 (INR (k * (k - 1)) * a * b)) y)
    (repeat (zeros 2 2) (size2 max)).

(** * dim = 3 *)
(** monomialset.hh 344 *)
Definition size3 (max : nat) : nat := binomial (max + 3) 3.
(** monomialset.hh 346-365 *)
Definition exponents3 (max : nat) : option (list (list nat)) :=
  loop3 max (fun degree k l p => p <- upd p 0 (degree - k - l)%nat ;; p <- upd p 1 l ;; upd p 2 k) (repeat [0; 0; 0]%nat (size3 max)).
(** monomialset.hh 367-388 *)
Definition eval3 (max : nat) (x : list R) : option (list R) :=
  x0 <- x @ 0 ;; x1 <- x @ 1 ;; x2 <- x @ 2 ;;
  p0 <- compute_powers (max + 1) (max + 1) x0 ;; p1 <- compute_powers (max + 1) (max + 1) x1 ;; p2 <- compute_powers (max + 1) (max + 1) x2 ;;
  loop3 max (fun degree k l _ =>
    a <- p0 @ (degree - k - l) ;; b <- p1 @ l ;; c <- p2 @ k ;; Some (a * b * c)) (repeat 0 (size3 max)).
(** monomialset.hh 390-422; the powers are computed by the same loop as computePowers *)
Definition deriv3 (max : nat) (x : list R) : option (list (list R)) :=
  x0 <- x @ 0 ;; x1 <- x @ 1 ;; x2 <- x @ 2 ;;
  p0 <- compute_powers (max + 1) (max + 1) x0 ;; p1 <- compute_powers (max + 1) (max + 1) x1 ;; p2 <- compute_powers (max + 1) (max + 1) x2 ;;
  loop3 max (fun degree k l y =>
    y <- if_then (0 <? degree - k - l)%nat (fun y =>
           a <- p0 @ (degree - k - l - 1) ;; b <- p1 @ l ;; c <- p2 @ k ;; upd y 0 (INR (degree - k - l) * a * b * c)) y ;;
    y <- if_then (0 <? l)%nat (fun y =>
           a <- p0 @ (degree - k - l) ;; b <- p1 @ (l - 1) ;; c <- p2 @ k ;; upd y 1 (INR l * a * b * c)) y ;;
    if_then (0 <? k)%nat (fun y =>
           a <- p0 @ (degree - k - l) ;; b <- p1 @ l ;; c <- p2 @ (k - 1) ;; upd y 2 (INR k * a * b * c)) y)
    (zeros (size3 max) 3).
(** monomialset.hh 424-475 *)
Definition hess3 (max : nat) (x : list R) : option (list (list (list R))) :=
  x0 <- x @ 0 ;; x1 <- x @ 1 ;; x2 <- x @ 2 ;;
  p0 <- compute_powers (max + 1) (max + 1) x0 ;; p1 <- compute_powers (max + 1) (max + 1) x1 ;; p2 <- compute_powers (max + 1) (max + 1) x2 ;;
  loop3 max (fun degree k l y =>
    y <- if_then (0 <? degree - k - l - 1)%nat (fun y =>
           a <- p0 @ (degree - k - l - 2) ;; b <- p1 @ l ;; c <- p2 @ k ;;
           set2 y 0 0 (INR ((degree - k - l) * (degree - k - l - 1)) * a * b * c)) y ;;
    y <- if_then ((0 <? degree - k - l)%nat && (0 <? l)%nat) (fun y =>
           a <- p0 @ (degree - k - l - 1) ;; b <- p1 @ (l - 1) ;; c <- p2 @ k ;;
           let v := INR ((degree - k - l) * l) * a * b * c in
           y <- set2 y 0 1 v ;; set2 y 1 0 v) y ;;
    y <- if_then (0 <? l - 1)%nat (fun y =>
           a <- p0 @ (degree - k - l) ;; b <- p1 @ (l - 2) ;; c <- p2 @ k ;;
           set2 y 1 1 (INR (l * (l - 1)) * a * b * c)) y ;;
    y <- if_then ((0 <? k)%nat && (0 <? degree - k - l)%nat) (fun y =>
           a <- p0 @ (degree - k - l - 1) ;; b <- p1 @ l ;; c <- p2 @ (k - 1) ;;
           let v := INR ((degree - k - l) * k) * a * b * c in
           y <- set2 y 0 2 v ;; set2 y 2 0 v) y ;;
    y <- if_then ((0 <? l)%nat && (0 <? k)%nat) (fun y =>
           a <- p0 @ (degree - k - l) ;; b <- p1 @ (l - 1) ;; c <- p2 @ (k - 1) ;;
           let v := INR (l * k) * a * b * c in
           y <- set2 y 1 2 v ;; set2 y 2 1 v) y ;;
    if_then (0 <? k - 1)%nat (fun y =>
           a <- p0 @ (degree - k - l) ;; b <- p1 @ l ;; c <- p2 @ (k - 2) ;;
           set2 y 2 2 (INR ((k - 1) * k) * a * b * c)) y)
    (repeat (zeros 3 3) (size3 max)).
