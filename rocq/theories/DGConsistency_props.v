(** C106: how far solutions of the advection-reaction equation are from solving the discrete system of the DG example. *)
From Coq Require Import List Arith Lia Bool Reals Lra.
From Verif Require Import Lib Basis_model Basis_spec Basis_ok Basis_props DiscreteFunction_model DiscreteFunction_proofs
  PyArrays_model PyArrays_spec PyArrays_props Assembly_model Assembly_spec Assembly_proofs Assembly_props AssemblyDG_model AssemblyDG_spec AssemblyDG_props LocalAssembler_model LocalAssembler_spec LocalAssembler_props StokesLocal_props
  DGLocal_model DGLocal_spec DGLocal_props DGConsistency_model DGConsistency_spec.
Import ListNotations.

Definition rbil (n m : nat) (w u : nat -> R) (M : nat -> nat -> R) : R := rsum n (fun r => rsum m (fun c => (w r * M r c * u c)%R)).
Lemma rect_add_bil n m a c x M : a < n -> c < m -> exists M', rect_add n m a c x M = Some M' /\ forall w u, rbil n m w u M' = (rbil n m w u M + w a * x * u c)%R.
Proof.
  intros Ha Hc. unfold rect_add. rewrite (proj2 (Nat.ltb_lt _ _) Ha), (proj2 (Nat.ltb_lt _ _) Hc). cbn [andb]. eexists. split; [reflexivity|]. intros w u. unfold rbil.
  rewrite <- (rsum_pick1 n a (fun r => (w r * x * u c)%R) Ha), <- rsum_plus. apply rsum_ext. intros r _.
  destruct (Nat.eqb_spec r a) as [->|]; cbn [andb]; [|rewrite Rplus_0_r; reflexivity].
  rewrite <- (rsum_pick1 m c (fun c => (w a * x * u c)%R) Hc), <- rsum_plus. apply rsum_ext. intros c' _. destruct (c' =? c); lra.
Qed.
Lemma forl_rbil N L n (body : nat -> (nat -> nat -> R) -> option (nat -> nat -> R)) (t : (nat -> R) -> (nat -> R) -> nat -> R) :
  (forall i M, i < n -> exists M', body i M = Some M' /\ forall w u, rbil N L w u M' = (rbil N L w u M + t w u i)%R) ->
  forall M, exists M', forl n 0 body M = Some M' /\ forall w u, rbil N L w u M' = (rbil N L w u M + rsum n (t w u))%R.
Proof.
  intros H M. destruct (forl_inv (fun k M' => forall w u, rbil N L w u M' = (rbil N L w u M + rsum k (t w u))%R) n 0 body M) as (M' & Q & P).
  - intros w u. rewrite rsum_0. lra.
  - intros i M1 Hi A. destruct (H i M1 ltac:(lia)) as (M2 & Q & B). exists M2. split; [exact Q|]. intros w u. rewrite B, A, Nat.add_1_r, rsum_S. lra.
  - exists M'. split; [exact Q|exact P].
Qed.
Lemma sum_add {A} (f g : A -> R) l : fold_right Rplus 0%R (map (fun x => (f x + g x)%R) l) = (fold_right Rplus 0 (map f l) + fold_right Rplus 0 (map g l))%R.
Proof. induction l as [|x l IH]; cbn; [lra|]. rewrite IH. lra. Qed.

Section Proofs.
Context {E X : Type}.
Variables (b : bexpr E) (dim : nat) (quad : E -> list (X * R)).
Variables (inters : E -> list (option E)) (frule : E -> nat -> list (X * R * (nat -> R))) (crule : E -> nat -> list (X * X * R * (nat -> R))).
Variables (refj jinv : E -> X -> nat -> nat -> R) (ie : E -> X -> R) (shape : E -> X -> nat -> R)
  (velocity : E -> X -> nat -> R) (reaction : E -> X -> R).

Definition cterm (e o : E) (q : X * X * R * (nat -> R)) (i j : nat) : R :=
  let '(xi, xo, w, normal) := q in (row_times_row dim (velocity e xi) normal * shape e xi i * shape o xo j * w)%R.
Lemma coupling_points_ok n m e o qs : forall M, exists M', coupling_points dim shape velocity n m e o qs M = Some M' /\
  forall t u, rbil n m t u M' = (rbil n m t u M + fold_right Rplus 0 (map (fun q => rbil n m t u (cterm e o q)) qs))%R.
Proof.
  induction qs as [|q qs IH]; intros M; cbn [coupling_points map fold_right].
  - exists M. split; [reflexivity|]. intros. lra.
  - assert (H : exists M', coupling_point dim shape velocity n m e o q M = Some M' /\ forall t u, rbil n m t u M' = (rbil n m t u M + rbil n m t u (cterm e o q))%R).
    { destruct q as [[[xi xo] w] normal]. unfold coupling_point, rbil at 3.
      refine (forl_rbil n m n _ (fun t u i => rsum m (fun j => (t i * cterm e o (xi, xo, w, normal) i j * u j)%R)) _ M). intros i M1 Hi.
      refine (forl_rbil n m m _ (fun t u j => (t i * cterm e o (xi, xo, w, normal) i j * u j)%R) _ M1). intros j M2 Hj. now apply rect_add_bil. }
    destruct H as (M1 & -> & P1). cbn [obind]. destruct (IH M1) as (M2 & -> & P2). exists M2. split; [reflexivity|]. intros t u. rewrite P2, P1. lra.
Qed.

(** The coupling matrix of an interior face: flow times the inside value of the test function times the outside value of the other one. *)
Theorem C106_coupling_matrix v u e k o : nth k (inters e) None = Some o ->
  (exists M, coupling_matrix dim shape velocity (nshape b e) (nshape b o) e o (crule e k) = Some M) /\
  inter_form b (dg_off b dim inters crule shape velocity) v u e k (Some o) =
  fold_right Rplus 0%R (map (fun q => let '(xi, xo, w, normal) := q in
    (flow dim velocity e xi normal * value b shape v e xi * value b shape u o xo * w)%R) (crule e k)).
Proof.
  intros K. destruct (coupling_points_ok (nshape b e) (nshape b o) e o (crule e k) (fun _ _ => 0%R)) as (M & Q & P). fold (coupling_matrix dim shape velocity (nshape b e) (nshape b o) e o (crule e k)) in Q.
  split; [eauto|]. unfold inter_form, dg_off. rewrite K, Q. specialize (P (fun i => v (at_dof b e i)) (fun i => u (at_dof b o i))). unfold rbil at 1 in P. unfold nshape at 1 2 in P. rewrite P.
  assert (Z : rbil (nshape b e) (nshape b o) (fun i => v (at_dof b e i)) (fun i => u (at_dof b o i)) (fun _ _ => 0%R) = 0%R) by (apply rsum_zeros; intros; apply rsum_zeros; intros; ring). rewrite Z, Rplus_0_l.
  apply sum_ext. intros [[[xi xo] w] normal] _. unfold rbil, cterm, value, flow, row_times_row.
  set (s := rsum dim _). transitivity (s * w * (rsum (nshape b e) (fun i => v (at_dof b e i) * shape e xi i) * rsum (nshape b o) (fun j => u (at_dof b o j) * shape o xo j)))%R; [|ring].
  rewrite rsum_prod, <- rsum_scal.
  apply rsum_ext. intros i _. rewrite <- rsum_scal. apply rsum_ext. intros j _. ring.
Qed.

(** On each element the coupling cancels the interior faces of the element matrix for a continuous function, up to the difference of the rules. *)
Lemma faces_cancel v u e : continuous_at b inters crule shape u e ->
  (forall k x w normal, k < length (inters e) -> nth k (inters e) None = None -> In (x, w, normal) (frule e k) ->
     (flow dim velocity e x normal < 0)%R -> value b shape u e x = 0%R) ->
  inters_form b inters (dg_off b dim inters crule shape velocity) v u e =
  (faces_term b dim (faces_of inters frule) shape velocity v u e + rules_difference b dim inters frule crule shape velocity v u e)%R.
Proof.
  intros CO BD. unfold inters_form, faces_term, faces_of, rules_difference. rewrite map_map, <- sum_add. apply sum_ext. intros k Hk. apply in_seq in Hk. cbn [fst snd].
  unfold rule_difference. destruct (nth k (inters e) None) as [o|] eqn:K.
  - rewrite (proj2 (C106_coupling_matrix v u e k o K)).
    rewrite (sum_ext (face_term b dim shape velocity v u e true) (fun q => let '(x, w, normal) := q in (flow dim velocity e x normal * value b shape v e x * value b shape u e x * w)%R) (frule e k)) by (intros [[x w] normal] _; reflexivity).
    rewrite Rplus_minus. apply sum_ext. intros [[[xi xo] w] normal] Hq. now rewrite (CO k o xi xo w normal K Hq).
  - cbn [inter_form]. symmetry. rewrite Rplus_0_r. apply sum_zero. intros [[x w] normal] Hq. unfold face_term.
    destruct (Rlt_dec (flow dim velocity e x normal) 0) as [L|L].
    + rewrite (BD k x w normal ltac:(lia) K Hq L). ring.
    + rewrite Rmin_right by lra. ring.
Qed.

(** The assembled form at a solution is the source term, plus the error by the derivative being on the test function, plus the difference
    of the two rules on interior faces. *)
Theorem C106_consistency_error f u es :
  (forall e, In e es -> continuous_at b inters crule shape u e /\ is_solution b dim quad inters frule refj jinv shape velocity reaction f u e) ->
  forall v, dg_form b inters (dg_loc b dim quad inters frule refj jinv ie shape velocity reaction) (dg_off b dim inters crule shape velocity) v u es =
  (fold_right Rplus 0 (map (integral ie quad (fun e x => f e x * value b shape v e x)) es) +
   (fold_right Rplus 0 (map (integral ie quad (fun e x => advection b dim refj jinv velocity v e x * value b shape u e x
                                                    - advection b dim refj jinv velocity u e x * value b shape v e x)) es) +
    fold_right Rplus 0 (map (rules_difference b dim inters frule crule shape velocity v u) es)))%R.
Proof.
  intros H v. unfold dg_form. rewrite <- !sum_add. apply sum_ext. intros e He. destruct (H e He) as (CO & S1 & BD).
  rewrite (faces_cancel v u e CO BD). unfold dg_loc.
  change (fun e0 : E => dg_element b dim quad (faces_of inters frule) refj jinv ie shape velocity reaction e0) with (dg_element b dim quad (faces_of inters frule) refj jinv ie shape velocity reaction).
  rewrite (proj2 (C105_element_matrix_partial b dim quad (faces_of inters frule) refj jinv ie shape velocity reaction v u e)).
  match goal with |- (?a - _ + _ = ?c + (?d + _))%R => assert (I : a = (c + d)%R) end.
  { unfold integral. rewrite <- sum_add. apply sum_ext. intros q Hq. rewrite <- (S1 q Hq). ring. }
  rewrite I. ring.
Qed.

(** With the same rule for both terms only the first error is left. *)
Theorem C106_same_rules v u e : same_rules inters frule crule e -> rules_difference b dim inters frule crule shape velocity v u e = 0%R.
Proof.
  intros SR. apply sum_zero. intros k _. unfold rule_difference. destruct (nth k (inters e) None) as [o|] eqn:K; [|reflexivity].
  rewrite (SR k o K), map_map. apply Rminus_diag_eq. apply sum_ext. now intros [[[xi xo] w] normal] _.
Qed.
(** The same for the residual of the system the example assembles, with its rule [quadb] for the source term. *)
Theorem C106_residual els n quadb f u es : wf els b -> flat b -> pb_size (build b) [] = Some n ->
  (forall e, In e es -> els e) -> (forall e o, In e es -> In (Some o) (inters e) -> els o) ->
  (forall e, In e es -> continuous_at b inters crule shape u e /\ is_solution b dim quad inters frule refj jinv shape velocity reaction f u e) ->
  exists A rhs, assemble_dg inters (dg_loc b dim quad inters frule refj jinv ie shape velocity reaction) (dg_off b dim inters crule shape velocity)
      (element_rhs b quadb ie shape f) (build b) es = Some (A, rhs) /\ sm_n A = n /\
    forall v, rsum n (fun r => (v r * (rsum n (fun c => sm_val A r c * u c) - rhs r))%R) =
    ((source b quad ie shape f v es - source b quadb ie shape f v es) +
     (fold_right Rplus 0 (map (integral ie quad (fun e x => advection b dim refj jinv velocity v e x * value b shape u e x
                                                    - advection b dim refj jinv velocity u e x * value b shape v e x)) es) +
      fold_right Rplus 0 (map (rules_difference b dim inters frule crule shape velocity v u) es)))%R.
Proof.
  intros Hwf Hf Hn He Ho H.
  destruct (C101_dg_assembly b els n inters (dg_loc b dim quad inters frule refj jinv ie shape velocity reaction) (dg_off b dim inters crule shape velocity)
    (element_rhs b quadb ie shape f) es Hwf Hf Hn He Ho) as (A & rhs & K & S & _ & _ & _ & _ & F & G & _).
  exists A, rhs. split; [exact K|]. split; [exact S|]. intros v.
  rewrite (rsum_ext n _ (fun r => (v r * rsum n (fun c => sm_val A r c * u c) + -1 * (v r * rhs r))%R)) by (intros; ring).
  rewrite rsum_plus, rsum_scal, F, G, load_source, (C106_consistency_error f u es H v). unfold source, on_elements. ring.
Qed.
End Proofs.

(** Two intervals [0,1] and [1,2] with velocity 1, no reaction and source term 1: u = x meets the hypotheses. *)
Definition ex106_inters (e : nat) : list (option nat) := if e =? 0 then [None; Some 1] else [Some 0; None].
Definition ex106_normal (k _ : nat) : R := if k =? 0 then (-1)%R else 1%R.
Definition ex106_frule (_ k : nat) : list (R * R * (nat -> R)) := [((if k =? 0 then 0 else 1)%R, 1%R, ex106_normal k)].
Definition ex106_crule (_ k : nat) : list (R * R * R * (nat -> R)) := [((if k =? 0 then 0 else 1)%R, (if k =? 0 then 1 else 0)%R, 1%R, ex106_normal k)].
Example C106_hypotheses_met : forall e, In e [0; 1] ->
  same_rules ex106_inters ex106_frule ex106_crule e /\ continuous_at ex105_b ex106_inters ex106_crule ex105_shape INR e /\
  is_solution ex105_b 1 ex105_quad ex106_inters ex106_frule ex105_refj (fun _ _ _ _ => 1%R) ex105_shape (fun _ _ _ => 1%R) (fun _ _ => 0%R) (fun _ _ => 1%R) INR e.
Proof.
  intros e [<-|[<-|[]]]; (split; [|split; [|split]]).
  1, 5: intros k o _; reflexivity.
  - intros [|[|[|k]]] o xi xo w normal K; cbn in K; try discriminate K. injection K as <-. intros [[= <- <- <- <-]|[]].
    unfold value, nshape, at_dof. change (numbers ex105_b 0) with [0; 1]. change (numbers ex105_b 1) with [1; 2]. unfold ex105_shape, rsum. cbn. lra.
  - intros q [<-|[]]. unfold value, advection, gradient, nshape, at_dof. change (numbers ex105_b 0) with [0; 1]. unfold ex105_shape, ex105_refj, rsum. cbn. lra.
  - intros [|[|k]] x w normal HK K; cbn in K, HK; try discriminate K; try lia. intros [[= <- <- <-]|[]]. unfold value, flow, nshape, at_dof. change (numbers ex105_b 0) with [0; 1]. unfold ex105_shape, rsum. cbn. intros; lra.
  - intros [|[|[|k]]] o xi xo w normal K; cbn in K; try discriminate K. injection K as <-. intros [[= <- <- <- <-]|[]].
    unfold value, nshape, at_dof. change (numbers ex105_b 0) with [0; 1]. change (numbers ex105_b 1) with [1; 2]. unfold ex105_shape, rsum. cbn. lra.
  - intros q [<-|[]]. unfold value, advection, gradient, nshape, at_dof. change (numbers ex105_b 1) with [1; 2]. unfold ex105_shape, ex105_refj, rsum. cbn. lra.
  - intros [|[|k]] x w normal HK K; cbn in K, HK; try discriminate K; try lia. intros [[= <- <- <-]|[]]. unfold flow, rsum, ex106_normal. cbn. intros; lra.
Qed.
(** The error is not zero there: for the first hat function the form is -1/2, the source term 1/2. *)
Theorem C106_mesh_consistency_refuted : ~ forall (b : bexpr nat) dim quad inters frule crule refj jinv ie (shape : nat -> R -> nat -> R) velocity reaction f u es,
  (forall e, In e es -> same_rules inters frule crule e /\ continuous_at b inters crule shape u e /\
     is_solution b dim quad inters frule refj jinv shape velocity reaction f u e) ->
  forall v, dg_form b inters (dg_loc b dim quad inters frule refj jinv ie shape velocity reaction) (dg_off b dim inters crule shape velocity) v u es =
  fold_right Rplus 0%R (map (integral ie quad (fun e x => (f e x * value b shape v e x)%R)) es).
Proof.
  intros H. specialize (H _ _ _ _ _ _ _ _ (fun _ _ => 1%R) _ _ _ _ _ _ C106_hypotheses_met (fun i => if i =? 0 then 1%R else 0%R)).
  rewrite (C106_consistency_error _ _ _ _ _ _ _ _ _ _ _ _ _ _ _ (fun e He => proj2 (C106_hypotheses_met e He))) in H.
  cbn [map fold_right] in H. rewrite !C106_same_rules in H by (apply C106_hypotheses_met; cbn; auto).
  unfold integral, value, advection, gradient, nshape, at_dof in H. cbn [map fold_right ex105_quad fst snd] in H.
  change (numbers ex105_b 0) with [0; 1] in H. change (numbers ex105_b 1) with [1; 2] in H.
  unfold ex105_shape, ex105_refj, rsum in H. cbn in H. lra.
Qed.
(** The rules of the example differ: for order 2 and 4 these are taken to be the Gauss rules with two and three points (dune-geometry, not part of /repo), and with the
    quadratic function s^2 - s + 1/6 on the face for both v and u they give 0 and 1/180. *)
Example C106_rules_differ : let g := fun s : R => (s * s - s + 1/6)%R in
  (1/2 * (g (1/2 - sqrt 3 / 6) * g (1/2 - sqrt 3 / 6)) + 1/2 * (g (1/2 + sqrt 3 / 6) * g (1/2 + sqrt 3 / 6)) = 0 /\
   5/18 * (g (1/2 - sqrt 15 / 10) * g (1/2 - sqrt 15 / 10)) + 4/9 * (g (1/2) * g (1/2)) + 5/18 * (g (1/2 + sqrt 15 / 10) * g (1/2 + sqrt 15 / 10)) = 1/180)%R.
Proof.
  intros g. assert (A : (sqrt 3 * sqrt 3 = 3)%R) by (apply sqrt_sqrt; lra). assert (B : (sqrt 15 * sqrt 15 = 15)%R) by (apply sqrt_sqrt; lra).
  assert (G1 : forall s, (s * s = 3)%R -> g (1/2 + s / 6)%R = 0%R) by (intros s K; unfold g; replace ((1/2 + s/6) * (1/2 + s/6))%R with (1/4 + s/6 + (s*s)/36)%R by field; rewrite K; field).
  assert (G2 : forall s, (s * s = 15)%R -> g (1/2 + s / 10)%R = (1/15)%R) by (intros s K; unfold g; replace ((1/2 + s/10) * (1/2 + s/10))%R with (1/4 + s/10 + (s*s)/100)%R by field; rewrite K; field).
  replace (1/2 - sqrt 3 / 6)%R with (1/2 + (- sqrt 3) / 6)%R by field. replace (1/2 - sqrt 15 / 10)%R with (1/2 + (- sqrt 15) / 10)%R by field.
  rewrite !G1, !G2 by lra. unfold g. split; field.
Qed.

Print Assumptions C106_coupling_matrix.
Print Assumptions C106_consistency_error.
Print Assumptions C106_same_rules.
Print Assumptions C106_residual.
Print Assumptions C106_mesh_consistency_refuted.
