(** The parts that the Morley and the Argyris finite elements have in common.
    Sources: /repo/dune/functions/functionspacebases/morleybasis.hh, argyrisbasis.hh.
    The two reference bases are copies of each other, apart from the degree [n] of the
    monomials and the coefficient matrix [C].  Simplifications as in Hermite_model: exact
    reals; a component of all Jacobians (Hessians) at a time; the buffers are left out. *)
From Coq Require Import Reals List Arith Bool.
From Verif Require Import Lib MonomialSet_model Hermite_model.
Import ListNotations.
Local Open Scope R_scope.

(** evaluateFunction (morley 148-154, argyris 337-343), component k of evaluateJacobian
    (morley 161-167, argyris 350-356), component (k,l) of evaluateHessian (morley 174-180,
    argyris 363-369); multiplyWithCoefficentMatrix is that of cubichermitebasis.hh. *)
Definition ref_evaluateFunction (n : nat) (C : list (list R)) (x : list R) : option (list R) :=
  v <- eval2 n x ;; Some (multiplyWithCoefficentMatrix C v).
(** morleybasis.hh:161-167. *)
Definition ref_evaluateJacobian (n : nat) (C : list (list R)) (x : list R) (k : nat) : option (list R) :=
  v <- deriv2 n x ;; Some (multiplyWithCoefficentMatrix C (map (fun r => nth k r 0) v)).
(** morleybasis.hh:174-180. *)
Definition ref_evaluateHessian (n : nat) (C : list (list R)) (x : list R) (k l : nat) : option (list R) :=
  v <- hess2 n x ;; Some (multiplyWithCoefficentMatrix C (map (fun m => nth l (nth k m []) 0) v)).
(** partial: morley 188-221, argyris 377-410 *)
Definition ref_partial (n : nat) (C : list (list R)) (order : list nat) (x : list R) : option (list R) :=
  match fold_left Nat.add order 0%nat with
  | 0%nat => ref_evaluateFunction n C x
  | 1%nat => ref_evaluateJacobian n C x (max_element order)
  | 2%nat =>
      let first := max_element order in
      let second := if (nth first order 0 =? 2)%nat then first else max_element (set_nth order first 0%nat) in
      ref_evaluateHessian n C x first second
  | _ => None
  end.

(** FieldVector operations *)
(** Used in morleybasis.hh:303-304. *)
Definition sub2 (a b : list R) : list R := [nth 0 a 0 - nth 0 b 0; nth 1 a 0 - nth 1 b 0].
(** Used in morleybasis.hh:306. *)
Definition two_norm (a : list R) : R := sqrt (nth 0 a 0 * nth 0 a 0 + nth 1 a 0 * nth 1 a 0).
(** Used in morleybasis.hh:306. *)
Definition div2 (a : list R) (t : R) : list R := [nth 0 a 0 / t; nth 1 a 0 / t].

(** refElement.position(i, 1) of the triangle (dune-geometry): edge midpoints *)
(** Used in morleybasis.hh:299. *)
Definition midpoint_position (i : nat) : list R :=
  match i with 0%nat => [1/2; 0] | 1%nat => [0; 1/2] | _ => [1/2; 1/2] end.
(** "lower" and "upper": morley 300-301, 463-464; argyris 484-485, 642-643 *)
Definition lower (i : nat) : nat := if (i =? 2)%nat then 1%nat else 0%nat.
(** morleybasis.hh:301. *)
Definition upper (i : nat) : nat := if (i =? 0)%nat then 1%nat else 2%nat.
(** the loops over the three edges: morley 293-310 (bind of the interpolation), argyris
    478-494; [o] is the std::bitset<3> edgeOrientation *)
Definition global_edge (G : geometry) (i : nat) : list R :=
  sub2 (geo_global G (vertex_position 2 (upper i))) (geo_global G (vertex_position 2 (lower i))).
(** morleybasis.hh:303-308. *)
Definition globalNormal (G : geometry) (o : list bool) (i : nat) : list R :=
  let edge := global_edge G i in
  let edge := div2 edge (two_norm edge * (if nth i o false then -1 else 1)) in
  [- nth 1 edge 0; nth 0 edge 0].
(** referenceTangents[i]: morley 465-467, argyris 644-647 *)
Definition referenceTangent (i : nat) : list R :=
  let edge := sub2 (vertex_position 2 (upper i)) (vertex_position 2 (lower i)) in div2 edge (two_norm edge).
(** squeezeTensor(v).dot(w) *)
(** Used in morleybasis.hh:327. *)
Definition dot2 (v w : list R) : R := nth 0 v 0 * nth 0 w 0 + nth 1 v 0 * nth 1 w 0.
