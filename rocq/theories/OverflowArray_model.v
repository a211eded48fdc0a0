(** Model of dune/functions/common/overflowarray.hh (class OverflowArray<BA,maxSize>). *)
From Coq Require Import List Arith Bool.
From Verif Require Import Lib.
Import ListNotations.

(** overflowarray.hh:46-50, 65, 232-233: the base class sub-object (a statically
    sized array of [baseSize] entries), the member [overflow_]
    (maxSize-baseSize entries) and [size_].  Simplification: entries are values
    with total copy assignment. *)
Record oarray (T : Type) := OA { oa_base : list T; oa_over : list T; oa_size : nat }.
Arguments OA {T}. Arguments oa_base {T}. Arguments oa_over {T}. Arguments oa_size {T}.

(** overflowarray.hh:210-217, capacity() = maxSize = baseSize + size of overflow_. *)
Definition oa_capacity {T} (a : oarray T) : nat := length (oa_base a) + length (oa_over a).

(** overflowarray.hh:69 and 233: default constructor; array contents are
    indeterminate. *)
Definition oa_default {T} (junkb junko : list T) : oarray T := OA junkb junko 0.

(** overflowarray.hh:165-173, operator[] const.  [None]: the assert fails. *)
Definition oa_get {T} (a : oarray T) (i : nat) : option T :=
  if i <? oa_size a then
    if i <? length (oa_base a) then nth_error (oa_base a) i
    else nth_error (oa_over a) (i - length (oa_base a))
  else None.

(** overflowarray.hh:154-162 without its assert (NDEBUG build): writing through
    the reference returned by operator[]. *)
Definition oa_write {T} (a : oarray T) (i : nat) (t : T) : option (oarray T) :=
  if i <? length (oa_base a) then
    b <- upd (oa_base a) i t ;; Some (OA b (oa_over a) (oa_size a))
  else
    o <- upd (oa_over a) (i - length (oa_base a)) t ;; Some (OA (oa_base a) o (oa_size a)).

(** the same for reading in an NDEBUG build. *)
(** overflowarray.hh:165-173, without the assert. *)
Definition oa_read {T} (a : oarray T) (i : nat) : option T :=
  if i <? length (oa_base a) then nth_error (oa_base a) i
  else nth_error (oa_over a) (i - length (oa_base a)).

(** overflowarray.hh:154-162 with the assert. *)
Definition oa_set {T} (a : oarray T) (i : nat) (t : T) : option (oarray T) :=
  if i <? oa_size a then oa_write a i t else None.

(** overflowarray.hh:87-89. *)
Definition oa_clear {T} (a : oarray T) : oarray T := OA (oa_base a) (oa_over a) 0.

(** overflowarray.hh:97-100. *)
Definition oa_resize {T} (a : oarray T) (n : nat) : option (oarray T) :=
  if n <=? oa_capacity a then Some (OA (oa_base a) (oa_over a) n) else None.

(** overflowarray.hh:108-111.  The subscript expression [size_++] increments
    [size_] before operator[] checks its assert, so the new size is the bound. *)
Definition oa_push_back {T} (a : oarray T) (t : T) : option (oarray T) :=
  if oa_size a <? oa_capacity a then
    oa_set (OA (oa_base a) (oa_over a) (S (oa_size a))) (oa_size a) t
  else None.

(** overflowarray.hh:114-118. *)
Definition oa_pop_back {T} (a : oarray T) : option (oarray T) :=
  if 0 <? oa_size a then Some (OA (oa_base a) (oa_over a) (oa_size a - 1)) else None.

(** overflowarray.hh:126-131: the loop [for (i=0; i<size(); i++) this[i+1] = this[i]].
    [checked] says whether asserts are compiled in. [k] counts the remaining
    iterations, [i] is the loop variable. *)
Fixpoint oa_shift_loop {T} (checked : bool) (a : oarray T) (i k : nat) : option (oarray T) :=
  match k with
  | 0 => Some a
  | S k' =>
      x <- (if checked then oa_get a i else oa_read a i) ;;
      a' <- (if checked then oa_set a (i + 1) x else oa_write a (i + 1) x) ;;
      oa_shift_loop checked a' (i + 1) k'
  end.

(** overflowarray.hh:126-131, push_front. *)
Definition oa_push_front {T} (checked : bool) (a : oarray T) (t : T) : option (oarray T) :=
  if checked && negb (oa_size a <? oa_capacity a) then None
  else
    a' <- oa_shift_loop checked a 0 (oa_size a) ;;
    if checked then oa_set a' 0 t else oa_write a' 0 t.

(** overflowarray.hh:71-75: initializer_list constructor: sets [size_], then
    copies element by element through the iterator (operator[]). *)
Fixpoint oa_copy_n {T} (a : oarray T) (i : nat) (l : list T) : option (oarray T) :=
  match l with
  | [] => Some a
  | x :: l' => a' <- oa_set a i x ;; oa_copy_n a' (i + 1) l'
  end.
(** overflowarray.hh:71-75. *)
Definition oa_init_list {T} (junkb junko l : list T) : option (oarray T) :=
  let a := OA junkb junko (length l) in
  if length l <=? oa_capacity a then oa_copy_n a 0 l else None.

(** overflowarray.hh:176-197. *)
Definition oa_front {T} (a : oarray T) : option T := oa_get a 0.
(** overflowarray.hh:188-197. *)
Definition oa_back {T} (a : oarray T) : option T :=
  if 0 <? oa_size a then oa_get a (oa_size a - 1) else None.

(** overflowarray.hh:134-151: iteration begin()..end(). *)
Definition oa_iterate {T} (a : oarray T) : list (option T) := map (oa_get a) (seq 0 (oa_size a)).

(** overflowarray.hh:77-84, operator==; [eqb] is the entries' operator== . *)
Fixpoint oa_eq_loop {T} (eqb : T -> T -> bool) (a b : oarray T) (i k : nat) : option bool :=
  match k with
  | 0 => Some true
  | S k' =>
      x <- oa_get a i ;; y <- oa_get b i ;;
      if eqb x y then oa_eq_loop eqb a b (S i) k' else Some false
  end.
(** overflowarray.hh:77-84. *)
Definition oa_eq {T} (eqb : T -> T -> bool) (a b : oarray T) : option bool :=
  if oa_size a =? oa_size b then oa_eq_loop eqb a b 0 (oa_size a) else Some false.

(** Calls a client can make (push_front is separate: it has no correct use). *)
(** overflowarray.hh:69-163: the calls that change an object. *)
Inductive oaop (T : Type) :=
| OPushBack (t : T) | OPopBack | OResize (n : nat) | OClear | OAssign (i : nat) (t : T).
Arguments OPushBack {T}. Arguments OPopBack {T}. Arguments OResize {T}.
Arguments OClear {T}. Arguments OAssign {T}.

(** One call of a program; each case calls the definition above for it. *)
Definition oa_step {T} (a : oarray T) (o : oaop T) : option (oarray T) :=
  match o with
  | OPushBack t => oa_push_back a t
  | OPopBack => oa_pop_back a
  | OResize n => oa_resize a n
  | OClear => Some (oa_clear a)
  | OAssign i t => oa_set a i t
  end.
(** A sequence of calls; no counterpart in the library. *)
Fixpoint oa_run {T} (a : oarray T) (h : list (oaop T)) : option (oarray T) :=
  match h with [] => Some a | o :: h' => a' <- oa_step a o ;; oa_run a' h' end.
