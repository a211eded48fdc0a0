(** What a Python user expects of lifetimes. *)
From Coq Require Import List Arith.
From Verif Require Import PyLifetime_model.
Import ListNotations.

Section Spec.
Variable w : world.
Definition alive (x : nat) : Prop := exists o, nth_error w x = Some o /\ o_alive o = true.
(** The program has a variable for [x]. *)
Definition held (x : nat) : Prop := exists o, nth_error w x = Some o /\ 0 < o_vars o.
(** The C++ part of [x] refers to that of [y], directly or through others. *)
Inductive refers_to : nat -> nat -> Prop :=
| refers_direct x o y : nth_error w x = Some o -> In y (o_refers o) -> refers_to x y
| refers_trans x y z : refers_to x y -> refers_to y z -> refers_to x z.
(** [x] can be used: it is there and nothing it refers to has been freed. *)
Definition usable (x : nat) : Prop := alive x /\ forall y, refers_to x y -> alive y.
(** [x] can be reached from a variable of the program through owned references. *)
Inductive reachable : nat -> Prop :=
| reach_var x : held x -> reachable x
| reach_owned x o y : reachable x -> nth_error w x = Some o -> In y (owns o) -> reachable y.
End Spec.

(** Operations whose results keep alive what they refer to *)
Definition kept (o : op) : Prop :=
  match o with
  | TreeOf _ | FiniteElementOf _ | ElementOf _ | GridViewOf _ | SetGridView _ _ | ToGridViewFunction _ => False
  | _ => True
  end.
(** Operations that give back all references *)
Definition tidy (o : op) : Prop := match o with Unbind _ | BasisOf _ => False | _ => True end.
