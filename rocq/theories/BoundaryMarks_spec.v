(** Specification for C98. *)
From Coq Require Import List Arith Bool.
From Verif Require Import Lib Basis_model Basis_spec Container_model Container_spec Interpolate_model Interpolate_props
  SubEntityDOFs_model SubEntityDOFs_spec.
Import ListNotations.

(** All scalars in [c'] are [x], and it has the structure of [c]. *)
Definition filled {V} (x : V) (c c' : cont V) : Prop :=
  shape c' = shape c /\ forall p y, at_path c' p = Some (CVal y) -> y = x.

(** Contract of the assignment operators: scalars can be assigned, and where a container
    type can be assigned a scalar this sets all of its entries (so do BlockVector,
    FieldVector and BitSetVector; std::bitset, where it sets the bits of a binary number, does not). *)
Definition assignment_ok {V} (assignable : cty -> bool) (direct : V -> cont V -> cont V) : Prop :=
  assignable TScalar = true /\
  forall t x c, assignable t = true -> has_ty t c -> filled x c (direct x c).

(** [m] is the index of a DOF on a boundary facet: of a component below [prefix] and, on some
    element, attached to a facet (or a part of it) that is in the boundary. *)
Definition boundary_dof {E} (b : bexpr E) (co : coeffs E) (prefix : list nat) (g : bgrid E) (m : mi) : Prop :=
  exists e s v k, In e (bg_elements g) /\ In (true, s) (bg_inters g e) /\
    lv_bind (build b) (lv_new (build b)) e = Some v /\ dof_on co e (lv_tree v) prefix s 1 k /\ lv_index v k = Some m.

(** The mask a marker container is: interpolate reads its entries through the backend. *)
Definition mask_of (t : cty) (c : cont bool) (m : mi) : bool :=
  match read t c m with Some (CVal x) => x | _ => false end.
