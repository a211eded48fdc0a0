(** Average volumes. *)
From Coq Require Import Reals List Arith.
From Verif Require Import Mapper_model Mapper_spec Nodal_spec.
Import ListNotations.
Local Open Scope R_scope.

(** x is a subentity of the element e. *)
Definition adjacent {E X} (g : grid E X) (e : E) (x : X) : Prop := exists i c t, subtype g e i c t /\ g_sub g e i c = x.
Definition average {E} (volume : E -> R) (l : list E) : R := total (map volume l) / INR (length l).
