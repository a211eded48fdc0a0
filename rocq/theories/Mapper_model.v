(** Leaf pre-bases whose indices come from a mapper
    (leafprebasismappermixin.hh, lagrangedgbasis.hh). *)
From Coq Require Import List Arith Lia Bool.
From Verif Require Import Lib Basis_model GeometryType_model.
Import ListNotations.

Section Mapper.
Context {E X : Type}.

(** What the code reads from the grid view (dune-grid): the type of an element
    and its [i]-th subentity of codimension [c]. *)
(** Used in leafprebasismappermixin.hh:85-90 and lagrangedgbasis.hh:123. *)
Record grid := GRID {
  g_dim : nat;
  g_type : E -> gt;
  g_sub : E -> nat -> nat -> X
}.

(** Dune::MultipleCodimMultipleGeomTypeMapper (dune-grid): size() and the first
    index of the block of an entity; subIndex(e,i,c) is the one of the
    subentity, index(e) the one of the element itself. *)
(** The member mapper_, leafprebasismappermixin.hh:133. *)
Record mapper := MAP {
  mp_size : nat;
  mp_off : X -> nat
}.

(** Dune::LocalKey (dune-localfunctions): subEntity, codim, index *)
(** Used in leafprebasismappermixin.hh:36-37. *)
Definition localkey := (nat * nat * nat)%type.

Variable g : grid.
Variable mp : mapper.

(** mapper.subIndex(e,i,c), used in leafprebasismappermixin.hh:37. *)
Definition subIndex (e : E) (i c : nat) : nat := mp_off mp (g_sub g e i c).

(** leafprebasismappermixin.hh:30-39 (subIndexRange) *)
Definition subIndexRange (e : E) (keys : list localkey) : list nat :=
  map (fun key => match key with (s, c, i) => subIndex e s c + i end) keys.

(** leafprebasismappermixin.hh:79-92 (initializeIndices): [types] is
    indexSet().types(0); note that the contributions of the types add up. *)
Definition initializeIndices (lay : gt -> nat) (types : list gt) : nat :=
  fold_left (fun acc t => acc + layout_total lay t) types 0.

(** leafprebasismappermixin.hh:108-129 (dimension, maxNodeSize, indices); the
    finite element of the node has one shape function per local key. *)
Definition mapper_leaf (lay : gt -> nat) (types : list gt) (keys : E -> list localkey) : leaf E :=
  LF (mp_size mp) (initializeIndices lay types) (fun e => length (keys e))
    (fun e => subIndexRange e (keys e)).

(** lagrangedgbasis.hh:123-133 (indices); [n e] is node.size() after bind(e). *)
Definition dg_indices (n : E -> nat) (e : E) : list nat :=
  map (fun i => subIndex e 0 0 + i) (seq 0 (n e)).

(** The layout handed to the mapper; an exception in it is reported by the
    mapper's constructor (see [dg_layout]), 0 stands for it here. *)
(** lagrangedgbasis.hh:56-79. *)
Definition dg_lay (order : nat) (t : gt) : nat :=
  match dg_layout order t (g_dim g) with Some n => n | None => 0 end.

(** lagrangedgbasis.hh:49-133 *)
Definition dg_leaf (order : nat) (types : list gt) (n : E -> nat) : leaf E :=
  LF (mp_size mp) (initializeIndices (dg_lay order) types) n (dg_indices n).
End Mapper.
Arguments grid : clear implicits.
Arguments mapper : clear implicits.
