(** Model of dune/functions/common/reserveddeque.hh (class ReservedDeque<T,n>). *)
From Coq Require Import List Arith.
From Verif Require Import Lib.
Import ListNotations.

(** reserveddeque.hh:239-242, members [data_], [first_], [size_].  [rd_data] is
    the C array [T data_[n]]: its length is the template parameter [n] in every
    state the operations below produce from such a state.  Simplification:
    [T]'s copy assignment is total and has no side effects. *)
Record rdeque (T : Type) := RD { rd_data : list T; rd_first : nat; rd_size : nat }.
Arguments RD {T}. Arguments rd_data {T}. Arguments rd_first {T}. Arguments rd_size {T}.

Section RDeque.
Context {T : Type}.
Variable n : nat. (* the template parameter n *)

(** reserveddeque.hh:76-79, default constructor.  [T data_[n]] is left
    default-initialised; its content [junk] is arbitrary. *)
Definition rd_default (junk : list T) : rdeque T := RD junk 0 0.

(** reserveddeque.hh:81-86, initializer_list constructor: sets [size_], copies
    into [data_], and does not write [first_], whose value is therefore
    indeterminate: the parameter [f].  The assert (l.size() <= n) is the [None]. *)
Definition rd_init_list (junk : list T) (f : nat) (l : list T) : option (rdeque T) :=
  if length l <=? n then Some (RD (l ++ skipn (length l) junk) f (length l)) else None.

(** reserveddeque.hh:93-97. *)
Definition rd_clear (d : rdeque T) : rdeque T := RD (rd_data d) 0 0.

(** reserveddeque.hh:100-104; CHECKSIZE (lines 20-28 of the file) is compiled
    out unless CHECK_RESERVEDDEQUE is defined, so it is not part of the effect. *)
Definition rd_resize (d : rdeque T) (s : nat) : rdeque T := RD (rd_data d) (rd_first d) s.

(** reserveddeque.hh:107-111: [data_[size_++ % n] = t]. *)
Definition rd_push_back (d : rdeque T) (t : T) : option (rdeque T) :=
  dat <- upd (rd_data d) (rd_size d mod n) t ;;
  Some (RD dat (rd_first d) (S (rd_size d))).

(** reserveddeque.hh:114-120. *)
Definition rd_push_front (d : rdeque T) (t : T) : option (rdeque T) :=
  let f := (rd_first d + (n - 1)) mod n in
  dat <- upd (rd_data d) f t ;;
  Some (RD dat f (S (rd_size d))).

(** reserveddeque.hh:123-127. *)
Definition rd_pop_back (d : rdeque T) : rdeque T :=
  if rd_size d =? 0 then d else RD (rd_data d) (rd_first d) (rd_size d - 1).

(** reserveddeque.hh:130-137. *)
Definition rd_pop_front (d : rdeque T) : rdeque T :=
  if rd_size d =? 0 then d
  else RD (rd_data d) ((rd_first d + 1) mod n) (rd_size d - 1).

(** reserveddeque.hh:160-171 (both overloads), reading. *)
Definition rd_get (d : rdeque T) (i : nat) : option T :=
  nth_error (rd_data d) ((rd_first d + i) mod n).

(** reserveddeque.hh:160-164, writing through the returned reference. *)
Definition rd_set (d : rdeque T) (i : nat) (t : T) : option (rdeque T) :=
  dat <- upd (rd_data d) ((rd_first d + i) mod n) t ;;
  Some (RD dat (rd_first d) (rd_size d)).

(** reserveddeque.hh:174-185. *)
Definition rd_front (d : rdeque T) : option T := nth_error (rd_data d) (rd_first d).

(** reserveddeque.hh:188-199. *)
Definition rd_back (d : rdeque T) : option T :=
  nth_error (rd_data d) ((rd_first d + rd_size d - 1) mod n).

(** reserveddeque.hh:206-209 and 212-215. *)
Definition rd_sz (d : rdeque T) : nat := rd_size d.
(** reserveddeque.hh:212-215. *)
Definition rd_empty (d : rdeque T) : bool := rd_size d =? 0.

(** reserveddeque.hh:140-157 and 232-237: iterating from begin() to end() reads
    element i (operator[]) for i = 0 .. size_-1 (Dune::GenericIterator). *)
Definition rd_iterate (d : rdeque T) : list (option T) :=
  map (rd_get d) (seq 0 (rd_size d)).
End RDeque.

(** The mutating calls a client can make. *)
(** The member functions of reserveddeque.hh:93-167 that change an object. *)
Inductive rdop (T : Type) :=
| PushBack (t : T) | PushFront (t : T) | PopBack | PopFront
| Resize (s : nat) | Clear | Assign (i : nat) (t : T).
Arguments PushBack {T}. Arguments PushFront {T}. Arguments PopBack {T}.
Arguments PopFront {T}. Arguments Resize {T}. Arguments Clear {T}. Arguments Assign {T}.

(** One call on the model. *)
(** One call of a program; each case calls the definition above for it. *)
Definition rd_step {T} (n : nat) (d : rdeque T) (o : rdop T) : option (rdeque T) :=
  match o with
  | PushBack t => rd_push_back n d t
  | PushFront t => rd_push_front n d t
  | PopBack => Some (rd_pop_back d)
  | PopFront => Some (rd_pop_front n d)
  | Resize s => Some (rd_resize d s)
  | Clear => Some (rd_clear d)
  | Assign i t => rd_set n d i t
  end.

(** A history of calls. *)
(** A sequence of calls; no counterpart in the library. *)
Fixpoint rd_run {T} (n : nat) (d : rdeque T) (h : list (rdop T)) : option (rdeque T) :=
  match h with
  | [] => Some d
  | o :: h' => d' <- rd_step n d o ;; rd_run n d' h'
  end.
