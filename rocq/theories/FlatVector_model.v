(** Model of dune/functions/functionspacebases/flatvectorview.hh. *)
From Coq Require Import List Arith Bool.
From Verif Require Import Lib Container_model.
Import ListNotations.

(** The types a view is made of.  [FVec (Some n) t]: index access and a static size()
    (FieldVector<K,n>); [FVec None t]: index access and a run-time size() (std::vector,
    BlockVector, DynamicVector); [FMat n m t]: FieldMatrix<K,n,m>; [FArr n t]:
    std::array<K,n>.  Types with static index access only (TupleVector) are not
    modelled. *)
(** The specializations of FlatVectorBackend, flatvectorview.hh:27-100. *)
Inductive fty := FScalar | FVec (n : option nat) (t : fty) | FMat (n m : nat) (t : fty) | FArr (n : nat) (t : fty).

Section Flat.
Context {V : Type}.

(** An object of the type. *)
(** Whether an object belongs to a type; the C++ type system does this. *)
Fixpoint has_fty (t : fty) (c : cont V) : Prop :=
  match t, c with
  | FScalar, CVal _ => True
  | FVec n t, CBlk l => (match n with Some n => length l = n | None => True end) /\ Forall (has_fty t) l
  | FMat n m t, CBlk l =>
      length l = n /\ Forall (fun r => match r with CBlk r => length r = m /\ Forall (has_fty t) r | CVal _ => False end) l
  | FArr n t, CBlk l => length l = n /\ Forall (has_fty t) l
  | _, _ => False
  end.

(** flatvectorview.hh:45-57, 73-77, 93-98: size(), as a compile-time constant;
    [None]: the result type has no member value, so lines 89 and 96 do not compile. *)
Fixpoint flat_static_size (t : fty) : option nat :=
  match t with
  | FScalar => Some 1
  | FVec n _ => n
  | FMat n m _ => Some (n * m)
  | FArr n t => inner <- flat_static_size t ;; Some (n * inner)
  end.
(** The value of size(). *)
(** flatvectorview.hh:45-57, 74-78, 93-98 and 114-117: size(). *)
Definition flat_size (t : fty) (c : cont V) : option nat :=
  match t, c with
  | FVec None _, CBlk l => Some (length l)
  | _, _ => flat_static_size t
  end.

(** flatvectorview.hh:31-43, 67-71, 86-91: getEntry(v, i); the result, a reference, is
    the path of the entry. *)
Fixpoint flat_at (t : fty) (c : cont V) (i : nat) : option (list nat) :=
  match t, c with
  | FScalar, CVal _ => Some []
  | FVec _ _, CBlk l => if i <? length l then Some [i] else None
  | FMat n m _, CBlk l =>
      if m =? 0 then None else
      if i / m <? length l then Some [i / m; i mod m] else None
  | FArr n t, CBlk l =>
      inner <- flat_static_size t ;;
      if inner =? 0 then None else
      x <- nth_error l (i / inner) ;;
      p <- flat_at t x (i mod inner) ;;
      Some (i / inner :: p)
  | _, _ => None
  end.
End Flat.
