(** The Hermite functions restricted to a facet depend on the data of that facet only. *)
From Coq Require Import Reals Lra Lia List Arith Bool.
From Verif Require Import Lib MonomialSet_spec MonomialSet_props Nodal_spec Nodal_poly Nodal_rat Hermite_model Hermite_spec Hermite_proofs.
Import ListNotations.
Local Open Scope R_scope.
#[local] Arguments total : simpl never.

(** * Traces on facets *)
Definition weight_of (idx : list nat) (w : list R) (k : nat) : R :=
  total (map (fun p => if (fst p =? k)%nat then snd p else 0) (combine idx w)).
Definition facet_point (d : nat) (idx : list nat) (w : list R) : list R := map (fun k => weight_of idx w (S k)) (seq 0 d).
Ltac three v := destruct v as [|[|[|v]]]; [..|exfalso; lia].
Ltac four v := destruct v as [|[|[|[|v]]]]; [..|exfalso; lia].
(** derivative of the function with reference coefficients b at vertex i towards vertex j *)
Definition towards (d : nat) (b : list R) (i j : nat) : R :=
  (if (j =? 0)%nat then 0 else nth (i * (d + 1) + j) b 0) - (if (i =? 0)%nat then 0 else nth (i * (d + 1) + i) b 0).
Definition trace2 (w0 w1 v0 v1 g01 g10 : R) : R :=
  v0 * (w0 * w0 * (3 - 2 * w0)) + v1 * (w1 * w1 * (3 - 2 * w1)) + g01 * (w0 * w0 * w1) + g10 * (w1 * w1 * w0).
Definition trace3 (w0 w1 w2 v0 v1 v2 g01 g02 g10 g12 g20 g21 f : R) : R :=
  v0 * (w0 * w0 * (3 - 2 * w0) - 7 * (w0 * w1 * w2)) + v1 * (w1 * w1 * (3 - 2 * w1) - 7 * (w0 * w1 * w2)) + v2 * (w2 * w2 * (3 - 2 * w2) - 7 * (w0 * w1 * w2))
  + g01 * (w0 * w0 * w1 - w0 * w1 * w2) + g02 * (w0 * w0 * w2 - w0 * w1 * w2)
  + g10 * (w1 * w1 * w0 - w0 * w1 * w2) + g12 * (w1 * w1 * w2 - w0 * w1 * w2)
  + g20 * (w2 * w2 * w0 - w0 * w1 * w2) + g21 * (w2 * w2 * w1 - w0 * w1 * w2) + 27 * f * (w0 * w1 * w2).
Lemma facet_trace2 r b i j w0 : length b = size 2 r -> (i <= 2)%nat -> (j <= 2)%nat -> i <> j ->
  dot b (phi 2 r (facet_point 2 [i; j] [w0; 1 - w0])) =
  trace2 w0 (1 - w0) (nth (i * 3) b 0) (nth (j * 3) b 0) (towards 2 b i j) (towards 2 b j i).
Proof.
  intros Hb Hi Hj N. destruct r; cbn [size] in Hb; vec_cases; three i; three j; try congruence;
  unfold facet_point, weight_of, trace2, towards, phi, shape, dot, total; cbn -[Rplus Rmult Rdiv Rminus]; unfold mono_at, derivs, mono; cbn -[Rplus Rmult Rdiv Rminus]; field.
Qed.
Lemma facet_trace3 b i j k l w0 w1 : length b = 20%nat -> (i <= 3)%nat -> (j <= 3)%nat -> (k <= 3)%nat -> i <> j -> i <> k -> j <> k -> (i + j + k + l = 6)%nat ->
  dot b (phi 3 false (facet_point 3 [i; j; k] [w0; w1; 1 - w0 - w1])) =
  trace3 w0 w1 (1 - w0 - w1) (nth (i * 4) b 0) (nth (j * 4) b 0) (nth (k * 4) b 0)
    (towards 3 b i j) (towards 3 b i k) (towards 3 b j i) (towards 3 b j k) (towards 3 b k i) (towards 3 b k j) (nth (19 - l) b 0).
Proof.
  intros Hb Hi Hj Hk N1 N2 N3 HS. vec_cases. four i; four j; try congruence; four k; try congruence; cbn in HS;
  first [assert (E : l = 0%nat) by lia|assert (E : l = 1%nat) by lia|assert (E : l = 2%nat) by lia|assert (E : l = 3%nat) by lia]; rewrite E; clear HS E;
  unfold facet_point, weight_of, trace3, towards, phi, shape, dot, total; cbn -[Rplus Rmult Rdiv Rminus]; unfold mono_at, derivs, mono; cbn -[Rplus Rmult Rdiv Rminus]; ring.
Qed.
