(** Model of dune/functions/functionspacebases/periodicbasis.hh. *)
From Coq Require Import List Arith Bool.
From Verif Require Import Lib Basis_model.
Import ListNotations.

(** periodicbasis.hh:42: std::set<std::pair<size_t,size_t>>, kept as the list of its
    elements in iteration order (operator< of std::pair is lexicographic). *)
Definition pair_lt (p q : nat * nat) : bool :=
  (fst p <? fst q) || ((fst p =? fst q) && (snd p <? snd q)).
(** std::set::insert, used in periodicbasis.hh:58. *)
Fixpoint set_insert (p : nat * nat) (s : list (nat * nat)) : list (nat * nat) :=
  match s with
  | [] => [p]
  | q :: r => if pair_lt p q then p :: s else if pair_lt q p then q :: set_insert p r else s
  end.

(** periodicbasis.hh:52-59. *)
Definition unify_index_pair (s : list (nat * nat)) (c : nat * nat) : list (nat * nat) :=
  let '(a, b) := c in
  let '(a, b) := if b <? a then (b, a) else (a, b) in
  if a =? b then s else set_insert (a, b) s.

(** A sequence of unifyIndexPair calls on a default constructed PeriodicIndexSet. *)
(** periodicbasis.hh:52-64. *)
Definition index_pair_set (calls : list (nat * nat)) : list (nat * nat) :=
  fold_left unify_index_pair calls [].

(** periodicbasis.hh:84-102.  mappedIdx_ is a list of optional indices, [None] being
    the value "invalid"; an access outside mappedIdx_ makes the result [None].
    State: (mappedIdx_, numIndices_). *)
Definition number_one (i : nat) (st : list (option nat) * nat) : option (list (option nat) * nat) :=
  let '(m, num) := st in
  x <- nth_error m i ;;
  match x with
  | Some _ => Some (m, num)
  | None => m' <- upd m i (Some num) ;; Some (m', num + 1)
  end.
(** for (; i<limit; ++i) *)
(** periodicbasis.hh:94-96 and 99-101. *)
Definition number_upto (i limit : nat) (st : list (option nat) * nat) :=
  forl (limit - i) i (fun i st => number_one i st) st.
(** periodicbasis.hh:92-98. *)
Fixpoint periodic_loop (pairs : list (nat * nat)) (i : nat) (st : list (option nat) * nat)
  : option (nat * (list (option nat) * nat)) :=
  match pairs with
  | [] => Some (i, st)
  | (a, b) :: rest =>
      '(m, num) <- number_upto i (a + 1) st ;;
      x <- nth_error m a ;;
      m' <- upd m b x ;;
      periodic_loop rest (max i (a + 1)) (m', num)
  end.
(** periodicbasis.hh:84-102. *)
Definition periodic_map (dim : nat) (calls : list (nat * nat)) : option (list (option nat) * nat) :=
  '(i, st) <- periodic_loop (index_pair_set calls) 0 (repeat None dim, 0) ;;
  number_upto i dim st.

(** periodicbasis.hh:104-129: transformIndex, size, dimension, containerDescriptor of
    the transformation holding mappedIdx_ = [m] and numIndices_ = [num]; [raw_desc]
    is the wrapped pre-basis' descriptor, which is returned unchanged (line 127). *)
Definition periodic_transformation (m : list (option nat)) (num : nat) (raw_desc : option desc)
  : transformation := {|
  tr_index := fun cap mu => d <- digit mu 0 ;; x <- nth_error m d ;;
                            if cap <? 1 then None else option_map (fun i => [i]) x;
  tr_size := fun p => Some (if length p =? 1 then 0 else num);
  tr_dim := num;
  tr_desc := raw_desc;
  tr_min := 1; tr_max := 1
|}.

(** periodicbasis.hh:147-183: the periodic pre-basis over a raw pre-basis. *)
Definition periodic_pb {E} (raw : prebasis E) (calls : list (nat * nat)) : option (prebasis E) :=
  dim <- pb_size raw [] ;;
  '(m, num) <- periodic_map dim calls ;;
  Some (transformed_pb (periodic_transformation m num (pb_desc raw)) raw).
