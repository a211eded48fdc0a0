(** transformedindexbasis.hh:177-322: transformations of indices given by callbacks, and
    the pre-basis factories made from them. *)
From Coq Require Import List Arith Bool Lia.
From Verif Require Import Lib Basis_model.
Import ListNotations.

Section GenericTransform.
Context {E : Type}.

(** transformedindexbasis.hh:227-279: GenericIndexingTransformation holds three callbacks
    and two compile-time bounds.  Each callback gets the wrapped pre-basis as its last
    argument; the first changes the multi-index in place (here: returns the changed index,
    [None] if it runs over the capacity of the buffer). *)
Record callbacks := CB {
  cb_index : nat -> mi -> prebasis E -> option mi;      (* transformedindexbasis.hh:241-245 *)
  cb_size : mi -> prebasis E -> option nat;             (* transformedindexbasis.hh:247-251 *)
  cb_desc : prebasis E -> option desc;                  (* transformedindexbasis.hh:259-263 *)
  cb_min : nat; cb_max : nat                            (* transformedindexbasis.hh:231-232 *)
}.

(** transformedindexbasis.hh:241-263: the members, called with the wrapped pre-basis;
    dimension() (253-257) is always that of the wrapped pre-basis. *)
Definition generic_transformation (c : callbacks) (raw : prebasis E) : transformation := {|
  tr_index := fun cap m => cb_index c cap m raw;
  tr_size := fun p => cb_size c p raw;
  tr_dim := pb_dim raw;
  tr_desc := cb_desc c raw;
  tr_min := cb_min c; tr_max := cb_max c
|}.

(** transformedindexbasis.hh:291-307: indexTransformation with a descriptor callback *)
Definition index_transformation index size descr mn mx : callbacks := CB index size descr mn mx.

(** transformedindexbasis.hh:309-320: without one, the descriptor is Unknown ([None]) *)
Definition index_transformation_fallback index size mn mx : callbacks :=
  index_transformation index size (fun _ => None) mn mx.

(** transformedindexbasis.hh:50-173 with such a transformation *)
Definition generic_pb (c : callbacks) (raw : prebasis E) : prebasis E :=
  transformed_pb (generic_transformation c raw) raw.

(** transformedindexbasis.hh:196-207: a factory that calls the given factory and wraps its
    result.  The lambda is not mutable, so std::move on the captured transformation copies
    it and each call of the factory finds it unchanged. *)
Definition transform_indices {G : Type} (fac : G -> prebasis E) (c : callbacks) : G -> prebasis E :=
  fun gv => generic_pb c (fac gv).

End GenericTransform.
Arguments callbacks : clear implicits.
