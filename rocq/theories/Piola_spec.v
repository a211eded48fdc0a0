(** What the Piola transforms should do. *)
From Coq Require Import Reals List Arith.
From Verif Require Import DiscreteFunction_model MonomialSet_spec Piola_model.
Import ListNotations.
Local Open Scope R_scope.

Section Spec.
Variables (n : nat) (G : geo).

Definition dot (a b : list R) : R := rsum n (fun i => at_ a i * at_ b i).
(** The Jacobian J = dx/dxi applied to a vector of the reference element. *)
Definition push (xi : pt) (w : list R) : list R :=
  map (fun i => rsum n (fun j => g_JT G xi j i * at_ w j)) (seq 0 n).

(** Contract of the geometry at xi: the two Jacobians are inverse to each other, the
    integration element does not vanish; rows store their nonzero entries once. *)
Definition delta (i j : nat) : R := if Nat.eqb i j then 1 else 0.
Record geo_ok (xi : pt) : Prop := {
  gk_left : forall i j, (i < n)%nat -> (j < n)%nat -> rsum n (fun k => g_JT G xi i k * g_JIT G xi k j) = delta i j;
  gk_right : forall i j, (i < n)%nat -> (j < n)%nat -> rsum n (fun k => g_JIT G xi i k * g_JT G xi k j) = delta i j;
  gk_ie : g_ie G xi <> 0
}.
Definition stored (a : nat -> nat -> R) (cols : nat -> list nat) : Prop :=
  forall i, (i < n)%nat -> NoDup (cols i) /\ (forall j, In j (cols i) -> (j < n)%nat) /\
  forall j, (j < n)%nat -> ~ In j (cols i) -> a i j = 0.
Definition rows_ok : Prop :=
  forall xi, stored (g_JT G xi) (g_JT_cols G) /\ stored (g_JIT G xi) (g_JIT_cols G).
(** Affine geometry: nothing depends on the point. *)
Definition affine : Prop :=
  forall xi xi', (forall i j, g_JT G xi i j = g_JT G xi' i j) /\ (forall i j, g_JIT G xi i j = g_JIT G xi' i j) /\
                 g_ie G xi = g_ie G xi'.

(** N is the image of the reference area vector nu of a facet: the parallelepiped over
    the facet with edge vector w has volume nu.w, its image over N with edge J w has
    the volume scaled by the integration element. *)
Definition image_area_vector (xi : pt) (nu N : list R) : Prop :=
  forall w, length w = n -> dot N (push xi w) = g_ie G xi * dot nu w.

(** An n x n matrix. *)
Definition square (m : list (list R)) : Prop := length m = n /\ forall r, In r m -> length r = n.
Definition entry (m : list (list R)) (i j : nat) : R := at_ (nth i m []) j.
(** D is the Jacobian of phi at x: entry (l,k) is the derivative of component l in direction k. *)
Definition has_jacobian (phi : pt -> list R) (x : pt) (D : list (list R)) : Prop :=
  forall l k, (l < n)%nat -> (k < n)%nat -> partial (fun y => at_ (phi y) l) k x (entry D l k).
(** A derivative multi-index: first order in direction k. *)
Definition is_unit (order : list nat) (k : nat) : Prop :=
  length order = n /\ (k < n)%nat /\ forall i, (i < n)%nat -> nth i order 0%nat = if Nat.eqb i k then 1%nat else 0%nat.
End Spec.
