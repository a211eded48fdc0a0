(** Specification of a bounded double-ended queue: a finite sequence.
    An entry is [Some x] when the history determines it, and [None] when
    resize() exposed a cell that no call has given a value. *)
From Coq Require Import List Arith.
From Verif Require Import Lib ReservedDeque_model.
Import ListNotations.

Definition dq T := list (option T).

(** The sequence after one call; [None] when the call breaks the documented
    precondition (capacity exceeded, index out of range). *)
Definition dq_step {T} (n : nat) (q : dq T) (o : rdop T) : option (dq T) :=
  match o with
  | PushBack t => if length q <? n then Some (q ++ [Some t]) else None
  | PushFront t => if length q <? n then Some (Some t :: q) else None
  | PopBack => Some (removelast q)
  | PopFront => Some (tl q)
  | Resize s => if s <=? n then Some (firstn s q ++ repeat None (s - length q)) else None
  | Clear => Some []
  | Assign i t => upd q i (Some t)
  end.

Fixpoint dq_run {T} (n : nat) (q : dq T) (h : list (rdop T)) : option (dq T) :=
  match h with
  | [] => Some q
  | o :: h' => q' <- dq_step n q o ;; dq_run n q' h'
  end.

(** What the client sees of a deque [d] agrees with the sequence [q]: size,
    emptiness, every determined entry, front and back. *)
Definition agrees {T} (n : nat) (d : rdeque T) (q : dq T) : Prop :=
  rd_sz d = length q /\
  rd_empty d = match q with [] => true | _ => false end /\
  (forall i x, nth_error q i = Some (Some x) -> rd_get n d i = Some x) /\
  (forall x q', q = Some x :: q' -> rd_front d = Some x) /\
  (forall x q', q = q' ++ [Some x] -> rd_back n d = Some x) /\
  length (rd_iterate n d) = length q /\
  (forall i x, nth_error q i = Some (Some x) -> nth_error (rd_iterate n d) i = Some (Some x)).

(** How far the history has rotated the front: one step forward per pop_front
    of a nonempty deque, one step back per push_front, reset by clear(). *)
Definition rotation_step {T} (n : nat) (len r : nat) (o : rdop T) : nat :=
  match o with
  | PushFront _ => (r + (n - 1)) mod n
  | PopFront => if len =? 0 then r else (r + 1) mod n
  | Clear => 0
  | _ => r
  end.

(** Every push_back of the history happens while the front is not rotated:
    as many elements were pushed at the front as popped there (modulo the
    capacity) since construction or the last clear(). *)
Fixpoint push_back_unrotated {T} (n : nat) (q : dq T) (r : nat) (h : list (rdop T)) : Prop :=
  match h with
  | [] => True
  | o :: h' =>
      match o with PushBack _ => r = 0 | _ => True end /\
      match dq_step n q o with
      | Some q' => push_back_unrotated n q' (rotation_step n (length q) r o) h'
      | None => True
      end
  end.

(** Histories that never push at the front or pop from the front. *)
Definition back_only {T} (h : list (rdop T)) : Prop :=
  Forall (fun o => match o with PushFront _ | PopFront => False | _ => True end) h.
(** Histories that never push at the back. *)
Definition no_push_back {T} (h : list (rdop T)) : Prop :=
  Forall (fun o => match o with PushBack _ => False | _ => True end) h.
