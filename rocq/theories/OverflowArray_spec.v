(** Specification: a finite sequence of at most [cap] entries; an entry is
    [None] when resize() exposed a cell that no call has given a value. *)
From Coq Require Import List Arith.
From Verif Require Import Lib OverflowArray_model.
Import ListNotations.

Definition sq_step {T} (cap : nat) (q : list (option T)) (o : oaop T) : option (list (option T)) :=
  match o with
  | OPushBack t => if length q <? cap then Some (q ++ [Some t]) else None
  | OPopBack => match q with [] => None | _ => Some (removelast q) end
  | OResize n => if n <=? cap then Some (firstn n q ++ repeat None (n - length q)) else None
  | OClear => Some []
  | OAssign i t => upd q i (Some t)
  end.
Fixpoint sq_run {T} (cap : nat) (q : list (option T)) (h : list (oaop T)) :=
  match h with [] => Some q | o :: h' => q' <- sq_step cap q o ;; sq_run cap q' h' end.

(** What a client sees of [a] is the sequence [q]. *)
Definition oa_agrees {T} (a : oarray T) (q : list (option T)) : Prop :=
  oa_size a = length q /\
  (forall i x, nth_error q i = Some (Some x) -> oa_get a i = Some x) /\
  (forall i, length q <= i -> oa_get a i = None) /\
  (forall x q', q = Some x :: q' -> oa_front a = Some x) /\
  (forall x q', q = q' ++ [Some x] -> oa_back a = Some x) /\
  length (oa_iterate a) = length q /\
  (forall i x, nth_error q i = Some (Some x) -> nth_error (oa_iterate a) i = Some (Some x)).

(** Converting to the base class (a slice of the object) shows the first
    [baseSize] entries, once there are that many. *)
Definition base_is_prefix {T} (a : oarray T) (q : list (option T)) : Prop :=
  forall i x, i < length (oa_base a) -> nth_error q i = Some (Some x) ->
              nth_error (oa_base a) i = Some x.
