(** Finite elements as values: each has the data of its last bind, copies take it over, and
    operations on one finite element do not touch the others. *)
From Coq Require Import List Arith Bool.
From Verif Require Import Lib NodalCopies_model.
Import ListNotations.

Section Spec.
Context {B : Type}.
(** None: destroyed; Some None: never bound. *)
Definition values := list (option (option B)).
Definition value (s : values) (i : nat) : option (option B) := o <- nth_error s i ;; o.
Definition sstep (s : values) (o : fop B) : option values :=
  match o with
  | FNew => Some (s ++ [Some None])
  | FBind i b => _ <- value s i ;; upd s i (Some (Some b))
  | FCopy i => v <- value s i ;; Some (s ++ [Some v])
  | FAssign i j => _ <- value s i ;; v <- value s j ;; upd s i (Some v)
  | FDestroy i => _ <- value s i ;; upd s i None
  end.
Fixpoint srun (s : values) (h : list (fop B)) : option values :=
  match h with [] => Some s | o :: r => s' <- sstep s o ;; srun s' r end.

(** Finite element i has been assigned to in the history. *)
Definition assigned (h : list (fop B)) (i : nat) : bool := existsb (fun o => match o with FAssign i' _ => i' =? i | _ => false end) h.
(** Finite element i was itself bound after it was last assigned to. *)
Fixpoint bound_itself (latest_first : list (fop B)) (i : nat) : bool :=
  match latest_first with
  | [] => false
  | FBind i' _ :: r => (i' =? i) || bound_itself r i
  | FAssign i' _ :: r => if i' =? i then false else bound_itself r i
  | _ :: r => bound_itself r i
  end.
End Spec.
Arguments values : clear implicits.
