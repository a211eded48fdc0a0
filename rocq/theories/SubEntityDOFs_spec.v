(** Which DOFs are on a subentity. *)
From Coq Require Import List Arith Bool.
From Verif Require Import Lib Basis_model Basis_spec SubEntityDOFs_model.
Import ListNotations.

Section Spec.
Context {E : Type}.

(** Contract of the finite elements on element e: in a tree bound to e, a leaf that
    has basis functions has as many local keys as basis functions. *)
Definition keys_ok (co : coeffs E) (e : E) (t : node E) : Prop :=
  forall q l, descendant t q = Some l -> is_leaf l = true -> node_size l <> 0 ->
  length (co_keys co q e) = node_size l.

(** The local index k belongs, in the part of the tree t below [prefix], to a basis
    function whose local key lies on subentity si of codimension sc of e, or on a
    subentity of that. *)
Definition dof_on (co : coeffs E) (e : E) (t : node E) (prefix : list nat) (si sc k : nat) : Prop :=
  exists q l i j c,
    descendant t (prefix ++ q) = Some l /\ is_leaf l = true /\ local_index l i = Some k /\
    nth_error (co_keys co (prefix ++ q) e) i = Some (j, c) /\ co_sub co e si sc c j = true.
End Spec.
