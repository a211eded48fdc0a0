(** The restriction of the functions of the Argyris space and of their gradients to lines
    through two vertices. *)
From Coq Require Import Reals QArith Qreals Lra Lia List Arith Bool.
From Verif Require Import Lib MonomialSet_spec MonomialSet_props Nodal_spec Nodal_poly Nodal_rat Hermite_model Hermite_spec Hermite_proofs.
From Verif Require Import Triangle_spec Table2_model Table2_proofs Triangle_proofs Argyris_model Argyris_spec Argyris_proofs.
Import ListNotations.
Local Open Scope R_scope.
#[local] Arguments total : simpl never.

(** Hermite interpolation: quintic with values and two derivatives, quartic with values, first
    derivatives and the value at 1/2 *)
Definition q0 (t : R) : R := 1 - 10 * t^3 + 15 * t^4 - 6 * t^5.
Definition q1 (t : R) : R := 10 * t^3 - 15 * t^4 + 6 * t^5.
Definition q2 (t : R) : R := t - 6 * t^3 + 8 * t^4 - 3 * t^5.
Definition q3 (t : R) : R := -4 * t^3 + 7 * t^4 - 3 * t^5.
Definition q4 (t : R) : R := /2 * (t^2 - 3 * t^3 + 3 * t^4 - t^5).
Definition q5 (t : R) : R := /2 * (t^3 - 2 * t^4 + t^5).
Definition quintic_on (t ua ub ga gb ha hb : R) : R := q0 t * ua + q1 t * ub + q2 t * ga + q3 t * gb + q4 t * ha + q5 t * hb.
Definition bub (t : R) : R := 16 * t^2 * (1 - t)^2.
Definition c0 (t : R) : R := 1 - 3 * t^2 + 2 * t^3 - /2 * bub t.
Definition c1 (t : R) : R := 3 * t^2 - 2 * t^3 - /2 * bub t.
Definition c2 (t : R) : R := t - 2 * t^2 + t^3 - /8 * bub t.
Definition c3 (t : R) : R := t^3 - t^2 + /8 * bub t.
Definition quartic_on (t ga gb ha hb gm : R) : R := c0 t * ga + c1 t * gb + c2 t * ha + c3 t * hb + bub t * gm.

(** * On the reference triangle *)
Definition rnode : Type := list (R * list nat * list R).
Lemma dot_total {A B} (row : list R) (ps : list B) (a : B -> R) (f : B -> A -> R) (l : list A) :
  dot row (map (fun e => total (map (fun p => a p * f p e) ps)) l) = total (map (fun p => a p * dot row (map (f p) l)) ps).
Proof.
  induction ps as [|p ps IH]; cbn [map].
  - change (total []) with 0. apply (dot_zero row l).
  - rewrite total_cons, <- IH, <- dot_lin. f_equal.
Qed.
Lemma shapes_by_monomials (N : rnode) ks x v :
  (forall e, In e (texps 5) -> mono_at ks e x = total (map (fun p => fst (fst p) * mono_at (snd (fst p)) e (snd p)) N)) ->
  dot v (sh ks x) = total (map (fun p => fst (fst p) * dot v (sh (snd (fst p)) (snd p))) N).
Proof.
  intros H. unfold sh, shape.
  rewrite <- (dot_total v N (fun p => fst (fst p)) (fun p row => dot row (map (fun e => mono_at (snd (fst p)) e (snd p)) (texps 5))) (map rv qcoeff)).
  f_equal. apply map_ext. intros row.
  rewrite <- (dot_total row N (fun p => fst (fst p)) (fun p e => mono_at (snd (fst p)) e (snd p)) (texps 5)).
  f_equal. apply map_ext_in. exact H.
Qed.
Definition line (a b : list R) (t : R) : list R := vadd a (vscale t (vsub b a)).
Definition V (i : nat) : list R := vertex_position 2 i.
Definition dir (i j k : nat) : R := nth k (V j) 0 - nth k (V i) 0.
Definition value_nodes (i j : nat) (t : R) : rnode :=
  [(q0 t, [], V i); (q1 t, [], V j)] ++
  map (fun k => (q2 t * dir i j k, [k], V i)) [0; 1]%nat ++ map (fun k => (q3 t * dir i j k, [k], V j)) [0; 1]%nat ++
  map (fun p => (q4 t * dir i j (fst p) * dir i j (snd p), [fst p; snd p], V i)) [(0, 0); (0, 1); (1, 0); (1, 1)]%nat ++
  map (fun p => (q5 t * dir i j (fst p) * dir i j (snd p), [fst p; snd p], V j)) [(0, 0); (0, 1); (1, 0); (1, 1)]%nat.
Definition gradient_nodes (i j k : nat) (t : R) : rnode :=
  [(c0 t, [k], V i); (c1 t, [k], V j)] ++
  map (fun l => (c2 t * dir i j l, [k; l], V i)) [0; 1]%nat ++ map (fun l => (c3 t * dir i j l, [k; l], V j)) [0; 1]%nat ++
  [(bub t, [k], line (V i) (V j) (1/2))].
Lemma pairs (Q : nat -> nat -> Prop) : Q 0%nat 1%nat -> Q 1%nat 0%nat -> Q 0%nat 2%nat -> Q 2%nat 0%nat -> Q 1%nat 2%nat -> Q 2%nat 1%nat ->
  forall i j, (i < 3)%nat -> (j < 3)%nat -> i <> j -> Q i j.
Proof. intros. destruct i as [|[|[|i]]], j as [|[|[|j]]]; try lia; assumption. Qed.
Lemma value_on i j t v : (i < 3)%nat -> (j < 3)%nat -> i <> j ->
  dot v (sh [] (line (V i) (V j) t)) = total (map (fun p => fst (fst p) * dot v (sh (snd (fst p)) (snd p))) (value_nodes i j t)).
Proof.
  intros Hi Hj Hn. apply shapes_by_monomials. revert i j Hi Hj Hn. apply (pairs (fun i j => forall e, In e (texps 5) -> mono_at [] e (line (V i) (V j) t) = total (map (fun p => fst (fst p) * mono_at (snd (fst p)) e (snd p)) (value_nodes i j t))));
  intros e He; cbn in He; repeat (destruct He as [<-|He]; [unfold value_nodes, mono_at, derivs, ddmono, dmono, mono, line, dir, V, vertex_position, vadd, vscale, vsub, total; cbn -[Rplus Rmult Rminus Rdiv Ropp Rinv pow q0 q1 q2 q3 q4 q5]; unfold gen, pw, pd, pd2; unfold q0, q1, q2, q3, q4, q5; cbn; try field|]); destruct He.
Qed.
Lemma gradient_on i j k t v : (i < 3)%nat -> (j < 3)%nat -> i <> j -> (k < 2)%nat ->
  dot v (sh [k] (line (V i) (V j) t)) = total (map (fun p => fst (fst p) * dot v (sh (snd (fst p)) (snd p))) (gradient_nodes i j k t)).
Proof.
  intros Hi Hj Hn Hk. apply shapes_by_monomials. revert i j Hi Hj Hn. apply (pairs (fun i j => forall e, In e (texps 5) -> mono_at [k] e (line (V i) (V j) t) = total (map (fun p => fst (fst p) * mono_at (snd (fst p)) e (snd p)) (gradient_nodes i j k t))));
  intros e He; destruct k as [|[|k]]; try lia; cbn in He; repeat (destruct He as [<-|He]; [unfold gradient_nodes, mono_at, derivs, ddmono, dmono, line, dir, V, vertex_position, vadd, vscale, vsub, total; cbn -[Rplus Rmult Rminus Rdiv Ropp Rinv pow c0 c1 c2 c3 bub]; unfold gen, pw, pd, pd2; unfold c0, c1, c2, c3, bub; cbn; try field|]); destruct He.
Qed.
