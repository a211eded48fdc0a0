(** Specification for C106: continuous solutions of the advection-reaction equation on a mesh. *)
From Coq Require Import List Arith Bool Reals.
From Verif Require Import Lib Basis_model DiscreteFunction_model Assembly_spec AssemblyDG_spec LocalAssembler_spec DGLocal_model DGLocal_spec DGConsistency_model.
Import ListNotations.

Section Spec.
Context {E X : Type}.
Variables (b : bexpr E) (dim : nat) (quad : E -> list (X * R)).
(** The intersections of an element, the rule used on the k-th one for the element itself and the one used for the coupling. *)
Variables (inters : E -> list (option E)) (frule : E -> nat -> list (X * R * (nat -> R))) (crule : E -> nat -> list (X * X * R * (nat -> R))).
Variables (refj jinv : E -> X -> nat -> nat -> R) (ie : E -> X -> R) (shape : E -> X -> nat -> R)
  (velocity : E -> X -> nat -> R) (reaction : E -> X -> R).

Definition faces_of (e : E) : list (bool * list (X * R * (nat -> R))) :=
  map (fun k => (match nth k (inters e) None with Some _ => true | None => false end, frule e k)) (seq 0 (length (inters e))).
(** The matrices the two assemblers compute, as parameters of the loop over the mesh (C101). *)
Definition dg_loc (e : E) : nat -> nat -> R := dg_element b dim quad faces_of refj jinv ie shape velocity reaction e.
Definition dg_off (e : E) (k i j : nat) : R :=
  match nth k (inters e) None with
  | Some o => match coupling_matrix dim shape velocity (nshape b e) (nshape b o) e o (crule e k) with Some M => M i j | None => 0%R end
  | None => 0%R
  end.

(** The two rules on interior faces have the same points. *)
Definition same_rules (e : E) : Prop := forall k o, nth k (inters e) None = Some o ->
  frule e k = map (fun q => let '(xi, xo, w, normal) := q in (xi, w, normal)) (crule e k).
(** On interior faces, the rule of the coupling minus the rule of the element matrix, both applied to (velocity . normal) v u. *)
Definition rule_difference (v u : nat -> R) (e : E) (k : nat) : R :=
  match nth k (inters e) None with
  | Some _ => (fold_right Rplus 0 (map (fun q => let '(xi, xo, w, normal) := q in flow dim velocity e xi normal * value b shape v e xi * value b shape u e xi * w) (crule e k))
              - fold_right Rplus 0 (map (fun q => let '(x, w, normal) := q in flow dim velocity e x normal * value b shape v e x * value b shape u e x * w) (frule e k)))%R
  | None => 0%R
  end.
Definition rules_difference (v u : nat -> R) (e : E) : R := fold_right Rplus 0%R (map (rule_difference v u e) (seq 0 (length (inters e)))).
(** [u] has the same value from both sides of interior faces. *)
Definition continuous_at (u : nat -> R) (e : E) : Prop := forall k o xi xo w normal, nth k (inters e) None = Some o ->
  In (xi, xo, w, normal) (crule e k) -> value b shape u e xi = value b shape u o xo.
(** [u] solves the equation at the quadrature points and is zero at inflow points of the boundary. *)
Definition is_solution (f : E -> X -> R) (u : nat -> R) (e : E) : Prop :=
  (forall q, In q (quad e) -> (reaction e (fst q) * value b shape u e (fst q) + advection b dim refj jinv velocity u e (fst q))%R = f e (fst q)) /\
  (forall k x w normal, k < length (inters e) -> nth k (inters e) None = None -> In (x, w, normal) (frule e k) ->
     (flow dim velocity e x normal < 0)%R -> value b shape u e x = 0%R).
End Spec.
