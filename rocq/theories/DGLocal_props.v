(** C105: the element matrix of the DG example, and that its volume term is transposed. *)
From Coq Require Import List Arith Lia Bool Reals Lra.
From Verif Require Import Lib Basis_model Basis_spec Basis_ok Basis_props DiscreteFunction_model DiscreteFunction_proofs
  Assembly_model Assembly_spec Assembly_proofs Assembly_props LocalAssembler_model LocalAssembler_spec LocalAssembler_props StokesLocal_props
  DGLocal_model DGLocal_spec.
Import ListNotations.

Section Proofs.
Context {E X : Type}.
Variables (b : bexpr E) (dim : nat) (quad : E -> list (X * R)) (faces : E -> list (bool * list (X * R * (nat -> R)))).
Variables (refj jinv : E -> X -> nat -> nat -> R) (ie : E -> X -> R) (shape : E -> X -> nat -> R)
  (velocity : E -> X -> nat -> R) (reaction : E -> X -> R).
Notation jac := (jacobian dim refj jinv).
Definition pterm (e : E) (q : X * R) (i j : nat) : R :=
  (reaction e (fst q) * shape e (fst q) i * shape e (fst q) j * snd q * ie e (fst q) +
   row_times_row dim (velocity e (fst q)) (jac e (fst q) i) * shape e (fst q) j * snd q * ie e (fst q))%R.
Definition fterm (e : E) (nb : bool) (q : X * R * (nat -> R)) (i j : nat) : R :=
  let '(x, w, normal) := q in (-1 * factor dim velocity e nb x normal * shape e x i * shape e x j * w)%R.

Lemma dg_point_ok n e q M : exists M', dg_point dim refj jinv ie shape velocity reaction n e q M = Some M' /\
  forall t u, bil n t u M' = (bil n t u M + bil n t u (pterm e q))%R.
Proof.
  unfold dg_point, bil at 3.
  refine (forl_bil n n _ (fun t u i => rsum n (fun j => (t i * pterm e q i j * u j)%R)) _ M). intros i M1 Hi.
  refine (forl_bil n n _ (fun t u j => (t i * pterm e q i j * u j)%R) _ M1). intros j M2 Hj.
  match goal with |- context[dense_add n i j ?x M2] => destruct (dense_add_bil n i j x M2 Hi Hj) as (M3 & -> & P3) end. cbn [obind].
  match goal with |- context[dense_add n i j ?x M3] => destruct (dense_add_bil n i j x M3 Hi Hj) as (M4 & -> & P4) end.
  exists M4. split; [reflexivity|]. intros t u. rewrite P4, P3. unfold pterm. ring.
Qed.
Lemma dg_points_ok n e qs : forall M, exists M', dg_points dim refj jinv ie shape velocity reaction n e qs M = Some M' /\
  forall t u, bil n t u M' = (bil n t u M + fold_right Rplus 0 (map (fun q => bil n t u (pterm e q)) qs))%R.
Proof.
  induction qs as [|q qs IH]; intros M; cbn [dg_points map fold_right].
  - exists M. split; [reflexivity|]. intros. lra.
  - destruct (dg_point_ok n e q M) as (M1 & -> & P1). cbn [obind]. destruct (IH M1) as (M2 & -> & P2). exists M2. split; [reflexivity|]. intros t u. rewrite P2, P1. lra.
Qed.
Lemma dg_face_point_ok n e nb q M : exists M', dg_face_point dim shape velocity n e nb q M = Some M' /\
  forall t u, bil n t u M' = (bil n t u M + bil n t u (fterm e nb q))%R.
Proof.
  destruct q as [[x w] normal]. unfold dg_face_point, bil at 3.
  refine (forl_bil n n _ (fun t u i => rsum n (fun j => (t i * fterm e nb (x, w, normal) i j * u j)%R)) _ M). intros i M1 Hi.
  refine (forl_bil n n _ (fun t u j => (t i * fterm e nb (x, w, normal) i j * u j)%R) _ M1). intros j M2 Hj. now apply dense_add_bil.
Qed.
Lemma dg_face_points_ok n e nb qs : forall M, exists M', dg_face_points dim shape velocity n e nb qs M = Some M' /\
  forall t u, bil n t u M' = (bil n t u M + fold_right Rplus 0 (map (fun q => bil n t u (fterm e nb q)) qs))%R.
Proof.
  induction qs as [|q qs IH]; intros M; cbn [dg_face_points map fold_right].
  - exists M. split; [reflexivity|]. intros. lra.
  - destruct (dg_face_point_ok n e nb q M) as (M1 & -> & P1). cbn [obind]. destruct (IH M1) as (M2 & -> & P2). exists M2. split; [reflexivity|]. intros t u. rewrite P2, P1. lra.
Qed.
Lemma dg_faces_ok n e fs : forall M, exists M', dg_faces dim shape velocity n e fs M = Some M' /\
  forall t u, bil n t u M' = (bil n t u M + fold_right Rplus 0 (map (fun f => fold_right Rplus 0 (map (fun q => bil n t u (fterm e (fst f) q)) (snd f))) fs))%R.
Proof.
  induction fs as [|[nb qs] fs IH]; intros M; cbn [dg_faces map fold_right fst snd].
  - exists M. split; [reflexivity|]. intros. lra.
  - destruct (dg_face_points_ok n e nb qs M) as (M1 & -> & P1). cbn [obind]. destruct (IH M1) as (M2 & -> & P2). exists M2. split; [reflexivity|]. intros t u. rewrite P2, P1. lra.
Qed.
Lemma bil_prod n t u (f g : nat -> R) (s : R) : bil n t u (fun i j => (s * f i * g j)%R) = (s * rsum n (fun i => t i * f i) * rsum n (fun j => u j * g j))%R.
Proof.
  unfold bil. rewrite Rmult_assoc, rsum_prod, <- rsum_scal. apply rsum_ext. intros i _. rewrite <- rsum_scal. apply rsum_ext. intros j _. ring.
Qed.

(** What the element matrix is, for all data: the derivative is taken of the test function [v] (the rows). *)
Theorem C105_element_matrix_partial v u e :
  (exists M, dg_local_matrix dim quad faces refj jinv ie shape velocity reaction (nshape b e) e = Some M) /\
  element_form b (dg_element b dim quad faces refj jinv ie shape velocity reaction) v u e =
  (integral ie quad (fun e x => reaction e x * value b shape v e x * value b shape u e x + advection b dim refj jinv velocity v e x * value b shape u e x) e
   - faces_term b dim faces shape velocity v u e)%R.
Proof.
  destruct (dg_points_ok (nshape b e) e (quad e) (fun _ _ => 0%R)) as (M & K & P). destruct (dg_faces_ok (nshape b e) e (faces e) M) as (M' & K' & P').
  assert (Q : dg_local_matrix dim quad faces refj jinv ie shape velocity reaction (nshape b e) e = Some M') by (unfold dg_local_matrix; rewrite K; exact K').
  split; [eauto|]. unfold element_form, dg_element. rewrite Q. specialize (P' (fun i => v (at_dof b e i)) (fun i => u (at_dof b e i))). unfold bil at 1 in P'. unfold nshape at 1 2 in P'. rewrite P', P. clear P P' K K' Q.
  assert (Z : bil (nshape b e) (fun i => v (at_dof b e i)) (fun i => u (at_dof b e i)) (fun _ _ => 0%R) = 0%R) by (apply rsum_zeros; intros; apply rsum_zeros; intros; ring). rewrite Z, Rplus_0_l.
  unfold Rminus. f_equal.
  - unfold integral. apply sum_ext. intros q _. unfold bil.
    rewrite (rsum_ext _ _ (fun i => rsum (nshape b e) (fun j => (v (at_dof b e i) * (snd q * ie e (fst q) * (reaction e (fst q) * shape e (fst q) i + row_times_row dim (velocity e (fst q)) (jac e (fst q) i)) * shape e (fst q) j) * u (at_dof b e j))%R)))
      by (intros; apply rsum_ext; intros; unfold pterm; ring).
    pose proof (bil_prod (nshape b e) (fun i => v (at_dof b e i)) (fun i => u (at_dof b e i)) (fun i => (reaction e (fst q) * shape e (fst q) i + row_times_row dim (velocity e (fst q)) (jac e (fst q) i))%R) (shape e (fst q)) (snd q * ie e (fst q))%R) as BP.
    unfold bil in BP. rewrite BP. fold (value b shape u e (fst q)).
    assert (A : rsum (nshape b e) (fun i => (v (at_dof b e i) * (reaction e (fst q) * shape e (fst q) i + row_times_row dim (velocity e (fst q)) (jac e (fst q) i)))%R) =
      (reaction e (fst q) * value b shape v e (fst q) + advection b dim refj jinv velocity v e (fst q))%R).
    { rewrite (rsum_ext _ _ (fun i => (reaction e (fst q) * (v (at_dof b e i) * shape e (fst q) i) + v (at_dof b e i) * row_times_row dim (velocity e (fst q)) (jac e (fst q) i))%R)) by (intros; ring).
      rewrite rsum_plus, rsum_scal. f_equal. unfold advection, gradient, row_times_row.
      rewrite (rsum_ext dim (fun k => (velocity e (fst q) k * rsum _ _)%R) (fun k => rsum (nshape b e) (fun i => (v (at_dof b e i) * (velocity e (fst q) k * jac e (fst q) i k))%R))).
      - rewrite rsum_swap. apply rsum_ext. intros i _. now rewrite rsum_scal.
      - intros k _. rewrite <- rsum_scal. apply rsum_ext. intros i _. unfold jacobian. ring. }
    rewrite A. ring.
  - unfold faces_term. rewrite <- (Rmult_1_l (fold_right _ _ (map (fun f => fold_right _ _ (map (face_term _ _ _ _ _ _ _ _) _)) _))), <- Ropp_mult_distr_l_reverse, sum_scal. apply sum_ext. intros [nb qs] _. cbn [fst snd].
    rewrite sum_scal. apply sum_ext. intros [[x w] normal] _. unfold fterm, face_term.
    transitivity (bil (nshape b e) (fun i => v (at_dof b e i)) (fun i => u (at_dof b e i)) (fun i j => (-1 * factor dim velocity e nb x normal * w * shape e x i * shape e x j)%R)).
    { unfold bil. apply rsum_ext. intros i _. apply rsum_ext. intros j _. ring. }
    rewrite bil_prod. unfold value, factor, flow, row_times_row. destruct nb; ring.
Qed.

(** On a domain of one element a solution of the equation fulfils the transposed system... *)
Theorem C105_transposed_system_is_consistent f u e : alone faces e ->
  solves_equation b dim quad faces refj jinv shape velocity reaction f u e ->
  forall v, element_form b (dg_element b dim quad faces refj jinv ie shape velocity reaction) u v e = integral ie quad (fun e x => (f e x * value b shape v e x)%R) e.
Proof.
  intros AL [S1 S2] v. rewrite (proj2 (C105_element_matrix_partial u v e)).
  assert (Z : faces_term b dim faces shape velocity u v e = 0%R).
  { unfold faces_term. apply sum_zero. intros [nb qs] H1. apply sum_zero. intros [[x w] normal] H2. cbn [fst snd] in *. unfold face_term. rewrite (AL nb qs H1).
    destruct (Rlt_dec (flow dim velocity e x normal) 0) as [L|L].
    - rewrite (S2 nb qs x w normal H1 H2 L). ring.
    - rewrite Rmin_right by lra. ring. }
  rewrite Z, Rminus_0_r. unfold integral. apply sum_ext. intros q Hq. rewrite <- (S1 q Hq). ring.
Qed.
End Proofs.

(** ... but not the system that is solved: with velocity 1, no reaction, source term 1 on the interval [0,1], the linear function x
    solves the equation with inflow value zero, and is not a solution of the discrete system. *)
Definition ex105_b : bexpr nat := BLeaf ex_p1.
Definition ex105_quad (_ : nat) : list (R * R) := [((1/2)%R, 1%R)].
Definition ex105_faces (_ : nat) : list (bool * list (R * R * (nat -> R))) := [(false, [(0%R, 1%R, fun _ => (-1)%R)]); (false, [(1%R, 1%R, fun _ => 1%R)])].
Definition ex105_refj (_ : nat) (_ : R) (i _ : nat) : R := if i =? 0 then (-1)%R else 1%R.
Definition ex105_shape (_ : nat) (x : R) (i : nat) : R := if i =? 0 then (1 - x)%R else x.
Definition ex105_u (i : nat) : R := if i =? 0 then 0%R else 1%R.
Theorem C105_consistency_refuted : ~ forall (b : bexpr nat) dim quad faces refj jinv ie shape velocity reaction (f : nat -> R -> R) u e,
  alone faces e -> solves_equation b dim quad faces refj jinv shape velocity reaction f u e ->
  forall v, element_form b (dg_element b dim quad faces refj jinv ie shape velocity reaction) v u e = integral ie quad (fun e x => (f e x * value b shape v e x)%R) e.
Proof.
  intros H. specialize (H ex105_b 1 ex105_quad ex105_faces ex105_refj (fun _ _ _ _ => 1%R) (fun _ _ => 1%R) ex105_shape (fun _ _ _ => 1%R) (fun _ _ => 0%R) (fun _ _ => 1%R) ex105_u 0).
  assert (AL : alone ex105_faces 0) by (intros nb qs [[= <- <-]|[[= <- <-]|[]]]; reflexivity).
  assert (SE : solves_equation ex105_b 1 ex105_quad ex105_faces ex105_refj (fun _ _ _ _ => 1%R) ex105_shape (fun _ _ _ => 1%R) (fun _ _ => 0%R) (fun _ _ => 1%R) ex105_u 0).
  { split.
    - intros q [<-|[]]. unfold value, advection, gradient, nshape, at_dof. change (numbers ex105_b 0) with [0; 1]. unfold ex105_u, ex105_shape, ex105_refj, rsum. cbn. lra.
    - intros nb qs x w normal [[= <- <-]|[[= <- <-]|[]]] [[= <- <- <-]|[]]; unfold value, flow, nshape, at_dof; change (numbers ex105_b 0) with [0; 1]; unfold ex105_u, ex105_shape, rsum; cbn; intros; lra. }
  specialize (H AL SE (fun i => if i =? 0 then 1%R else 0%R)).
  rewrite (proj2 (C105_element_matrix_partial ex105_b 1 ex105_quad ex105_faces ex105_refj (fun _ _ _ _ => 1%R) (fun _ _ => 1%R) ex105_shape (fun _ _ _ => 1%R) (fun _ _ => 0%R) _ ex105_u 0)) in H.
  unfold integral, faces_term, face_term, value, advection, gradient, flow, nshape, at_dof in H. change (numbers ex105_b 0) with [0; 1] in H.
  unfold ex105_u, ex105_shape, ex105_refj, ex105_quad, ex105_faces, rsum in H. cbn in H. lra.
Qed.

Print Assumptions C105_element_matrix_partial.
Print Assumptions C105_transposed_system_is_consistent.
Print Assumptions C105_consistency_refuted.
