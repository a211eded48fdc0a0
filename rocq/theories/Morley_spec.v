(** What the Morley basis is about. *)
From Coq Require Import Reals List Arith.
From Verif Require Import Nodal_spec Hermite_model Hermite_spec Triangle_spec Morley_model.
Import ListNotations.
Local Open Scope R_scope.

(** The states of a finite element object: it may have been bound to any elements before. *)
Inductive reachable : morley -> Prop :=
| r_default : reachable default
| r_bind fe data G fe' : reachable fe -> bind fe data G = Some fe' -> reachable fe'.
(** A finite element bound to the triangle with vertices P, with the orientation bits o. *)
Definition bound (P : list (list R)) (o : list bool) (fe : morley) : Prop :=
  exists fe0 G, reachable fe0 /\ simplex 2 P /\ affine_geometry 2 P G /\ length o = 3%nat /\ bind fe0 o G = Some fe.
(** The function u, given on the triangle with vertices P, has the coefficients c. *)
Definition has_coefficients (P : list (list R)) (fe : morley) (u : list R -> R) (c : list R) : Prop :=
  length c = 6%nat /\
  forall x, is_vec 2 x -> exists phi, evaluateFunction fe x = Some phi /\ u (image 2 P x) = dot c phi.
