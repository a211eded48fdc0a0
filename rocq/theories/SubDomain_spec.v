(** What a sub-domain is, independently of the data structure. *)
From Coq Require Import List Arith Bool.
From Verif Require Import SubDomain_model.
Import ListNotations.

Section Spec.
Context {E I : Type} (h : host E I).

(** An entity of the host grid view is its index in the all-entity mapper.  The
    contract of the host: every entity has one geometry type ([ty]), a type has
    one dimension ([tdim]), reference elements report the type of the entity they
    map to, distinct elements have distinct indices, and an element is its only
    subentity of codimension 0. *)
Record host_ok (ty tdim : nat -> nat) : Prop := {
  ho_range : forall e c i, c <= h_dim h -> i < h_nsub h e c -> h_subidx h e i c < h_size h;
  ho_type : forall e c i, c <= h_dim h -> i < h_nsub h e c -> h_rtype h e i c = ty (h_subidx h e i c);
  ho_types : forall x, x < h_size h -> ty x < h_types h;
  ho_codim : forall e c i, c <= h_dim h -> i < h_nsub h e c ->
             tdim (ty (h_subidx h e i c)) + c = h_dim h;
  ho_self : forall e, h_nsub h e 0 = 1 /\ h_subidx h e 0 0 = h_idx h e;
  ho_inj : forall e e', h_idx h e = h_idx h e' -> e = e'
}.

(** x is a (sub)entity of one of the elements es. *)
Definition belongs (es : list E) (x : nat) : Prop :=
  exists e c i, In e es /\ c <= h_dim h /\ i < h_nsub h e c /\ h_subidx h e i c = x.

(** An intersection between neighbouring elements, from a set A to a set B. *)
Definition crosses (A B : E -> Prop) (x : I) : Prop :=
  h_boundary h x = false /\ h_neighbor h x = true /\
  A (h_inside h x) /\ exists o, h_outside h x = Some o /\ B o.
End Spec.

(** [n] things satisfy P. *)
Definition counts {X} (P : X -> Prop) (n : nat) : Prop :=
  exists l, NoDup l /\ length l = n /\ forall x, In x l <-> P x.
