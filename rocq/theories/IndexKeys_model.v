(** Multi-indices as keys: hash_value of overflowarray.hh and multiindex.hh, the conversion
    to the base class, and the hash tables of the standard library that use them. *)
From Coq Require Import List Arith Bool.
From Verif Require Import Lib OverflowArray_model.
Import ListNotations.

Section Keys.
Context {T V : Type}.
Variable eqb : T -> T -> bool.          (* operator== of the digits *)
Variable combine : nat -> T -> nat.     (* Dune::hash_combine of dune-common *)
Variable nbuckets : nat.                (* bucket_count() *)

(** Dune::hash_range of dune-common, called in overflowarray.hh:220-222 and
    multiindex.hh:35-37, 66-68: combines the entries from begin to end, starting with 0.
    An entry [None] is one whose access fails its assert. *)
Fixpoint hash_range (seed : nat) (l : list (option T)) : option nat :=
  match l with
  | [] => Some seed
  | x :: l' => t <- x ;; hash_range (combine seed t) l'
  end.

(** overflowarray.hh:220-222: hash_value over begin()..end(), i.e. over size() entries *)
Definition oa_hash (a : oarray T) : option nat := hash_range 0 (oa_iterate a).

(** multiindex.hh:24-39, 54-75: StaticMultiIndex<T,n>; [n] entries, equality from
    std::array (entry by entry; both sides have the same [n]) *)
Definition sm_hash (s : list T) : option nat := hash_range 0 (map Some s).
(** multiindex.hh:24-75: operator== is the one of std::array *)
Fixpoint sm_eq (s s' : list T) : bool :=
  match s, s' with
  | [], [] => true
  | x :: r, y :: r' => eqb x y && sm_eq r r'
  | _, _ => false
  end.
(** multiindex.hh:62-64, 70-72: with one digit, conversion to that digit *)
Definition sm_digit (s : list T) : option T := nth_error s 0.

(** overflowarray.hh:46-47, 32-35: an OverflowArray converted to its base class *)
Definition oa_slice (a : oarray T) : list T := oa_base a.

(** std::unordered_map<OverflowArray,V> (external): an array of buckets; a key is searched
    in the bucket given by its hash value, by operator==. *)
Definition table : Type := list (list (oarray T * V)).
Fixpoint bucket_find (k : oarray T) (l : list (oarray T * V)) : option (option V) :=
  match l with
  | [] => Some None
  | (k', v) :: l' => r <- oa_eq eqb k' k ;; if r then Some (Some v) else bucket_find k l'
  end.
Fixpoint bucket_assign (k : oarray T) (v : V) (l : list (oarray T * V)) : option (list (oarray T * V)) :=
  match l with
  | [] => Some [(k, v)]
  | (k', w) :: l' =>
      r <- oa_eq eqb k' k ;;
      if r then Some ((k', v) :: l') else l'' <- bucket_assign k v l' ;; Some ((k', w) :: l'')
  end.
(** table[k] = v *)
Definition table_assign (t : table) (k : oarray T) (v : V) : option table :=
  h <- oa_hash k ;;
  l <- nth_error t (h mod nbuckets) ;;
  l' <- bucket_assign k v l ;;
  upd t (h mod nbuckets) l'.
(** table.find(k) *)
Definition table_find (t : table) (k : oarray T) : option (option V) :=
  h <- oa_hash k ;;
  l <- nth_error t (h mod nbuckets) ;;
  bucket_find k l.
Definition table_empty : table := repeat [] nbuckets.
Fixpoint table_fill (t : table) (l : list (oarray T * V)) : option table :=
  match l with
  | [] => Some t
  | (k, v) :: l' => t' <- table_assign t k v ;; table_fill t' l'
  end.

End Keys.
