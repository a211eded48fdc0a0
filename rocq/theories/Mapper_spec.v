(** The contracts of the grid, the mapper and the finite elements that
    leafprebasismappermixin.hh builds on. *)
From Coq Require Import List Arith Lia Bool.
From Verif Require Import GeometryType_model Mapper_model.
Import ListNotations.

Section Spec.
Context {E X : Type}.
Variable els : E -> Prop.
Variable g : grid E X.

(** GeometryType::operator==: equal up to the irrelevant lowest bit *)
Definition same_type (t t' : gt) : Prop := removelast t = removelast t' /\ length t = length t'.

(** the [i]-th codim-[c] subentity of [e] has type [t] *)
Definition subtype (e : E) (i c : nat) (t : gt) : Prop := nth_error (subtypes (g_type g e) c) i = Some t.

(** [x] is an entity of the grid view, of type [t] *)
Definition entity (x : X) (t : gt) : Prop :=
  exists e i c, els e /\ subtype e i c t /\ x = g_sub g e i c.

(** elements have the dimension of the grid, an element's subentities are
    pairwise different, and an entity has one codimension and one type *)
Record grid_ok : Prop := {
  go_dim : forall e, els e -> gt_dim (g_type g e) = g_dim g;
  go_inj : forall e i c t i' c' t', els e -> subtype e i c t -> subtype e i' c' t' ->
    g_sub g e i c = g_sub g e i' c' -> i = i' /\ c = c';
  go_type : forall e i c t e' i' c' t', els e -> els e' -> subtype e i c t -> subtype e' i' c' t' ->
    g_sub g e i c = g_sub g e' i' c' -> same_type t t' /\ c = c'
}.

(** a layout only depends on the geometry type *)
Definition layout_ok (lay : gt -> nat) : Prop := forall t t', same_type t t' -> lay t = lay t'.

(** the mapper: every entity of type [t] owns a block of [lay t] indices; the
    blocks are disjoint and fill [0,size()) *)
Record mapper_ok (lay : gt -> nat) (mp : mapper X) : Prop := {
  mo_range : forall x t i, entity x t -> i < lay t -> mp_off mp x + i < mp_size mp;
  mo_disjoint : forall x t i y t' j, entity x t -> entity y t' -> i < lay t -> j < lay t' ->
    mp_off mp x + i = mp_off mp y + j -> x = y;
  mo_cover : forall n, n < mp_size mp -> exists x t i, entity x t /\ i < lay t /\ n = mp_off mp x + i
}.

(** layout and local keys match: the local keys of an element name each DOF of
    each subentity once *)
Definition keys_ok (lay : gt -> nat) (keys : E -> list localkey) : Prop :=
  forall e, els e -> NoDup (keys e) /\
    forall i c n, In (i, c, n) (keys e) <-> exists t, subtype e i c t /\ n < lay t.

(** types(0) lists the types of all elements *)
Definition types_ok (types : list gt) : Prop :=
  forall e, els e -> exists t, In t types /\ same_type t (g_type g e).
End Spec.
