(** Monomials and partial derivatives. *)
From Coq Require Import Reals List Arith.
Import ListNotations.
Open Scope R_scope.

(** x_0^e_0 * ... *)
Definition mono (e : list nat) (x : list R) : R := fold_right Rmult 1 (map (fun p => snd p ^ fst p) (combine e x)).
Definition degree (e : list nat) : nat := fold_right Nat.add 0%nat e.

(** [es] lists the monomials in [dim] variables of degree at most [max] once each, by degree. *)
Definition lists_monomials (dim max : nat) (es : list (list nat)) : Prop :=
  NoDup es /\ (forall e, In e es <-> length e = dim /\ (degree e <= max)%nat) /\
  forall i j e f, (i < j)%nat -> nth_error es i = Some e -> nth_error es j = Some f -> (degree e <= degree f)%nat.

(** x with its j-th coordinate replaced *)
Definition with_coord (x : list R) (j : nat) (t : R) : list R := firstn j x ++ t :: skipn (S j) x.
(** v is the partial derivative of f in direction j at x. *)
Definition partial (f : list R -> R) (j : nat) (x : list R) (v : R) : Prop :=
  derivable_pt_lim (fun t => f (with_coord x j t)) (nth j x 0) v.
(** v is the partial derivative in direction j of the partial derivative of f in direction i. *)
Definition second_partial (f : list R -> R) (i j : nat) (x : list R) (v : R) : Prop :=
  exists g, (forall z, length z = length x -> partial f i z (g z)) /\ partial g j x v.

(** (max+dim)! / (max! dim!) without division: size * dim! = (max+1)...(max+dim) *)
Definition documented_size (dim max size : nat) : Prop :=
  (size * fact dim * fact max = fact (max + dim))%nat.
