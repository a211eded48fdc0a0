(** What functions made of callables are (C62): sequences of callables, the k-th of which is
    the k-th derivative. *)
From Coq Require Import List Arith Bool.
From Verif Require Import Lib Callables_model.
Import ListNotations.

Section Spec.
Context {X V : Type}.
(** An entry: a value, or a reference to a variable of the user. *)
Inductive entry := Fixed (c : callable X V) | Var (k : nat).
(** A program on sequences.  Functions have no state, [None] is not a function. *)
Record sworld := SWorld { s_vars : list (option (callable X V)); s_funs : list (list entry) }.
Definition entry_of (a : arg X V) : entry := match a with ALeft k => Var k | ARight c => Fixed c end.
Definition has (m : list (option (callable X V))) (k : nat) : Prop := exists c, nth_error m k = Some (Some c).
Inductive sstep : sworld -> op X V -> sworld -> Prop :=
  | S_var m l c : sstep (SWorld m l) (OVar c) (SWorld (m ++ [Some c]) l)
  | S_set m l k c m' : has m k -> upd m k (Some c) = Some m' -> sstep (SWorld m l) (OSet k c) (SWorld m' l)
  | S_destroy m l k m' : has m k -> upd m k None = Some m' -> sstep (SWorld m l) (ODestroy k) (SWorld m' l)
  | S_make m l args : args <> [] -> (forall k, In (ALeft k) args -> has m k) ->
      sstep (SWorld m l) (OMake args) (SWorld m (l ++ [map entry_of args]))
  | S_erase m l i s : nth_error l i = Some s -> sstep (SWorld m l) (OErase i) (SWorld m (l ++ [s]))
  | S_plain m l c : sstep (SWorld m l) (OErasePlain (ARight c)) (SWorld m (l ++ [[Fixed c]]))
  | S_plain_var m l k c : nth_error m k = Some (Some c) -> sstep (SWorld m l) (OErasePlain (ALeft k)) (SWorld m (l ++ [[Fixed c]]))
  | S_copy m l i s : nth_error l i = Some s -> sstep (SWorld m l) (OCopy i) (SWorld m (l ++ [s]))
  | S_deriv m l i e e' s : nth_error l i = Some (e :: e' :: s) -> sstep (SWorld m l) (ODeriv i) (SWorld m (l ++ [e' :: s]))
  | S_default m l : sstep (SWorld m l) ODefault (SWorld m (l ++ [[]])).
Inductive srun : sworld -> list (op X V) -> sworld -> Prop :=
  | R_nil s : srun s [] s
  | R_cons s o s' p s'' : sstep s o s' -> srun s' p s'' -> srun s (o :: p) s''.
(** The value of an entry. *)
Definition value (m : list (option (callable X V))) (e : entry) (x : X) : option V :=
  match e with Fixed c => Some (c x) | Var k => match nth_error m k with Some (Some c) => Some (c x) | _ => None end end.
(** The derivative of order k, as seen by the user: k calls of derivative(). *)
Inductive derivative_of_order : nat -> fobj X V -> fobj X V -> Prop :=
  | D_0 f : derivative_of_order 0 f f
  | D_S k f g h : deriv f = Some g -> derivative_of_order k g h -> derivative_of_order (S k) f h.
(** No argument is a variable of the user (it is a temporary, or moved or copied into one). *)
Definition temporary (a : arg X V) : Prop := match a with ARight _ => True | _ => False end.
Definition temporaries (p : list (op X V)) : Prop := forall l, In (OMake l) p -> Forall temporary l.
End Spec.
Arguments entry : clear implicits.
Arguments sworld : clear implicits.

(** Number of entries of a range. *)
Definition entries (R : rtype) : nat := match R with RNum _ => 1 | RVec _ n => n | RMat _ r c => r * c | RInvalid => 0 end.
