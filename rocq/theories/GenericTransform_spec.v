(** What a stack of index transformations should do (C17). *)
From Coq Require Import List Arith Bool Lia.
From Verif Require Import Lib Basis_model Basis_spec GenericTransform_model.
Import ListNotations.

Section Spec.
Context {E : Type}.

(** [stacked els b pb psi]: [pb] is the basis [b] with any number of transformations
    wrapped around it, one after the other, and [psi] is the composition of what the
    callbacks do.  A callback only has to behave on the indices it can meet, and for
    buffers at least as large as the wrapping pre-basis demands. *)
Inductive stacked (els : E -> Prop) (b : bexpr E) : prebasis E -> (mi -> mi) -> Prop :=
| stacked_base : stacked els b (build b) (fun m => m)
| stacked_wrap raw psi c phi :
    stacked els b raw psi ->
    (forall cap m, max (pb_bufmi raw) (cb_max c) <= cap -> global_index els b m ->
       cb_index c cap (psi m) raw = Some (phi (psi m))) ->
    stacked els b (generic_pb c raw) (fun m => phi (psi m)).

(** Multi-index [m] belongs to a local DOF of some element in the pre-basis [pb]. *)
Definition occurs (els : E -> Prop) (pb : prebasis E) (m : mi) : Prop :=
  exists e i v, els e /\ lv_bind pb (lv_new pb) e = Some v /\ i < lv_size v /\ lv_index v i = Some m.

End Spec.
