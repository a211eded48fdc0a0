(** C70: the spline functions of an element are linearly independent. *)
From Coq Require Import List Arith Lia Reals Lra Bool.
From Verif Require Import Lib Basis_model Basis_spec Basis_proofs Basis_ok Basis_view BSpline_model BSpline_spec BSpline_numbering BSpline_oned BSpline_tensor BSpline_props
  MonomialSet_spec Container_model DiscreteFunction_model DiscreteFunction_spec DiscreteFunction_proofs Independence_spec SplineSmooth_spec SplineSmooth_examples SplineIndep_spec SplineIndep_oned.
Import ListNotations.
Local Open Scope R_scope.
#[local] Arguments Nat.ltb : simpl never.
#[local] Arguments Nat.eqb : simpl never.

Lemma Sig_to_0 n a f : Sig a n f = Sig 0 n (fun i => f (a + i)%nat).
Proof.
  revert a f. induction n as [|n IH]; intros a f; [reflexivity|]. rewrite !Sig_S, (IH (S a)), (IH 1%nat).
  replace (a + 0)%nat with a by lia. f_equal. apply Sig_ext. intros i _. f_equal. lia.
Qed.
Lemma Sig_grid n M (f : nat -> R) : Sig 0 (n * M) f = Sig 0 n (fun i => Sig 0 M (fun j => f (i + n * j)%nat)).
Proof.
  induction M as [|M IH].
  - rewrite Nat.mul_0_r. symmetry. apply Sig_zero. reflexivity.
  - replace (n * S M)%nat with (n * M + n)%nat by lia. rewrite Sig_app, IH. cbn [Nat.add]. rewrite (Sig_to_0 n (n * M)), <- Sig_plus.
    apply Sig_ext. intros i _. rewrite Sig_last. cbn [Nat.add]. f_equal. f_equal. lia.
Qed.

Notation sizes ds := (map (fun q : dir * nat => fe_size (fst q) (snd q)) ds).
Lemma tens_independent ds : forall k a, Forall dir_good ds ->
  (forall ys, Forall2 (fun q y => knot (fst q) (snd q) < y < knot (fst q) (snd q + 1)) ds ys ->
    Sig 0 (prod (sizes ds)) (fun i => a i * tens (fun _ => 0%nat) k ds (getIJK i (sizes ds)) ys) = 0) ->
  forall i, (i < prod (sizes ds))%nat -> a i = 0.
Proof.
  induction ds as [|[d s] ds IH]; intros k a G H i Hi.
  - cbn in Hi. assert (i = 0)%nat as -> by (unfold prod in Hi; cbn in Hi; lia). specialize (H [] ltac:(constructor)). unfold Sig in H. cbn in H. lra.
  - inversion G as [|? ? (A & B & C) G']; subst. cbn [map fst snd] in *. rewrite prod_cons in *. set (n := fe_size d s) in *. set (M := prod (sizes ds)) in *.
    assert (Hn : n <> 0%nat) by (intros E; rewrite E in Hi; lia).
    replace i with (i mod n + n * (i / n))%nat by (pose proof (Nat.div_mod i n Hn); lia).
    apply (IH (S k) (fun j => a (i mod n + n * j)%nat) G'); [|apply Nat.div_lt_upper_bound; lia].
    intros ys Hys.
    apply (eval1_independent d s A B (fun i0 => Sig 0 M (fun j => a (i0 + n * j)%nat * tens (fun _ => 0%nat) (S k) ds (getIJK j (sizes ds)) ys)) C).
    2:{ apply Nat.mod_upper_bound. exact Hn. }
    intros x Hx. specialize (H (x :: ys) ltac:(constructor; auto)). rewrite Sig_grid in H. etransitivity; [|exact H]. apply Sig_ext. intros i0 Hi0.
    rewrite Rmult_comm, <- Sig_scal. apply Sig_ext. intros j Hj. cbn [getIJK tens].
    replace ((i0 + n * j) mod n)%nat with i0.
    2:{ rewrite Nat.mul_comm, Nat.mod_add by exact Hn. symmetry. apply Nat.mod_small. lia. }
    replace ((i0 + n * j) / n)%nat with j.
    2:{ rewrite Nat.mul_comm, Nat.div_add by exact Hn. rewrite Nat.div_small by lia. reflexivity. }
    rewrite (eval1_nth d s A B x i0) by (auto; fold n; lia). cbn [FN]. ring.
Qed.

Lemma local_coords dirs : forall spans ys, length dirs = length spans -> Forall dir_good (combine dirs spans) ->
  Forall2 (fun q y => knot (fst q) (snd q) < y < knot (fst q) (snd q + 1)) (combine dirs spans) ys ->
  exists xs, inside dirs xs /\ global_point dirs spans xs = ys.
Proof.
  induction dirs as [|d dirs IH]; intros spans ys L G F; (destruct spans as [|s spans]; try discriminate L).
  - inversion F. exists []. repeat split. constructor.
  - cbn [combine] in *. inversion F as [|? y ? ys' H F']; subst. inversion G; subst. cbn [fst snd] in H.
    destruct (IH spans ys' ltac:(cbn in L; lia) H3 F') as (xs & [X1 X2] & X3).
    exists ((y - knot d s) / (knot d (s + 1) - knot d s) :: xs). split; [split; [cbn; lia|constructor; auto]|].
    + split; [apply Rdiv_lt_0_compat; lra|]. apply (Rmult_lt_reg_r (knot d (s + 1) - knot d s)); [lra|]. unfold Rdiv. rewrite Rmult_assoc, Rinv_l; lra.
    + cbn [global_point]. rewrite X3. f_equal. field. lra.
Qed.

(** A combination of the functions of an element that vanishes inside it is zero. *)
Theorem C70_functions_of_an_element_are_independent : forall dirs e spans a,
  Forall dir_ok dirs -> Forall knots_sorted dirs -> element_spans dirs e spans ->
  (forall xs, inside dirs xs -> linear a (lb_evaluateFunction dirs spans xs) = 0) ->
  forall i, (i < lf_fe (bspline_leaf dirs) e)%nat -> a i = 0.
Proof.
  intros dirs e spans a D S E H i Hi. destruct (elements_good dirs e spans D S E) as (L & G & F).
  cbn [bspline_leaf lf_fe] in Hi. rewrite (bind_spans _ _ _ E) in Hi.
  apply (tens_independent (combine dirs spans) 0%nat a G); [|exact Hi].
  intros ys Hys. destruct (local_coords dirs spans ys L G Hys) as (xs & HX & <-). pose proof HX as [LX _].
  assert (LG : length (global_point dirs spans xs) = length dirs) by (apply global_point_length; assumption).
  rewrite <- (H xs HX). unfold linear, lb_evaluateFunction. rewrite globalIn_point by assumption.
  rewrite evalF_length by assumption. apply Sig_ext. intros j Hj. f_equal. symmetry. apply evalF_nth; [assumption..|]. exact (proj2 Hj).
Qed.

Lemma nth_error_combine {A B} (l1 : list A) : forall (l2 : list B) i a b, nth_error l1 i = Some a -> nth_error l2 i = Some b -> nth_error (combine l1 l2) i = Some (a, b).
Proof.
  induction l1 as [|a1 l1 IH]; intros l2 i a b H1 H2; [destruct i; discriminate|]. destruct l2 as [|b2 l2]; [destruct i; discriminate|].
  destruct i as [|i]; cbn in *; [congruence|]. apply IH; assumption.
Qed.
Lemma combination_linear c idx v : length v = length idx -> combination c idx v = linear (fun i => c (nth i idx 0%nat)) v.
Proof.
  intros L. unfold combination, linear. f_equal. apply nth_error_ext. intros i. rewrite !nth_error_map_eq, nth_error_seq.
  destruct (Nat.ltb_spec i (length v)) as [H|H].
  - rewrite (nth_error_combine idx v i (nth i idx 0%nat) (nth i v 0)) by (apply nth_error_nth'; lia). reflexivity.
  - rewrite (proj2 (nth_error_None _ _)); [reflexivity|]. rewrite combine_length. lia.
Qed.
Lemma linear_minus a b v : linear (fun i => a i - b i) v = linear a v - linear b v.
Proof.
  unfold linear. generalize (seq 0 (length v)) as l. induction l as [|i l IH]; cbn [map fold_right]; [ring|]. rewrite IH. ring.
Qed.

(** Two spline functions that agree inside an element have the same coefficients for the
    functions of this element. *)
Theorem C70_values_determine_the_coefficients : forall dirs e spans c c',
  Forall dir_ok dirs -> Forall knots_sorted dirs -> element_spans dirs e spans ->
  (forall xs, inside dirs xs ->
    combination c (lf_indices (bspline_leaf dirs) e) (lb_evaluateFunction dirs spans xs) =
    combination c' (lf_indices (bspline_leaf dirs) e) (lb_evaluateFunction dirs spans xs)) ->
  forall n, In n (lf_indices (bspline_leaf dirs) e) -> c n = c' n.
Proof.
  intros dirs e spans c c' D S E H n Hn. destruct (elements_good dirs e spans D S E) as (L & G & F).
  cbn [bspline_leaf lf_indices] in *. rewrite (bind_spans _ _ _ E) in *.
  apply In_nth_error in Hn as (i & Hi).
  assert (IL : length (indices dirs spans) = node_size dirs spans) by (unfold indices; rewrite map_length, seq_length; reflexivity).
  assert (Hi' : (i < node_size dirs spans)%nat) by (rewrite <- IL; apply nth_error_Some; congruence).
  enough (Q : c (nth i (indices dirs spans) 0%nat) - c' (nth i (indices dirs spans) 0%nat) = 0).
  { rewrite (nth_error_nth _ _ 0%nat Hi) in Q. lra. }
  apply (C70_functions_of_an_element_are_independent dirs e spans (fun i => c (nth i (indices dirs spans) 0%nat) - c' (nth i (indices dirs spans) 0%nat)) D S E).
  - intros xs HX. pose proof HX as [LX _]. specialize (H xs HX).
    assert (LV : length (lb_evaluateFunction dirs spans xs) = length (indices dirs spans)).
    { rewrite IL. unfold lb_evaluateFunction. rewrite globalIn_point by assumption. apply evalF_length; auto. apply global_point_length; assumption. }
    rewrite !combination_linear in H by exact LV. rewrite linear_minus. lra.
  - cbn [bspline_leaf lf_fe]. rewrite (bind_spans _ _ _ E). exact Hi'.
Qed.

(** Two spline functions that agree on all elements have the same coefficients. *)
Theorem C70_coefficients_are_unique : forall dirs c c',
  Forall dir_ok dirs -> Forall knots_sorted dirs ->
  (forall e spans xs, element_spans dirs e spans -> inside dirs xs ->
    combination c (lf_indices (bspline_leaf dirs) e) (lb_evaluateFunction dirs spans xs) =
    combination c' (lf_indices (bspline_leaf dirs) e) (lb_evaluateFunction dirs spans xs)) ->
  forall n, (n < lf_dim (bspline_leaf dirs))%nat -> c n = c' n.
Proof.
  intros dirs c c' D S H n Hn. 

  destruct (C35_bspline_numbering dirs D) as (LK & _ & _ & _). destruct (lok_cover _ _ LK n Hn) as (e & He & HI).
  destruct (element_exists dirs e D He) as (spans & E).
  apply (C70_values_determine_the_coefficients dirs e spans c c' D S E (fun xs => H e spans xs E) n HI).
Qed.

(** The spline basis meets the hypothesis of C69 on shape functions, with the points inside
    the reference cube. *)
Theorem C70_splines_meet_the_contract : forall dirs (su : setup nat (list R)),
  Forall dir_ok dirs -> Forall knots_sorted dirs -> su_vdim su [] = 1%nat ->
  (forall e spans xs, element_spans dirs e spans -> su_shape su e [] xs = map (fun r => [r]) (lb_evaluateFunction dirs spans xs)) ->
  independent (BLeaf (bspline_leaf dirs)) [] (bs_els dirs) (fun _ xs => inside dirs xs) su.
Proof.
  intros dirs su D S HV HS e v p n a He (L1 & L2 & L3) H0. 
  assert (Hwf : wf (bs_els dirs) (BLeaf (bspline_leaf dirs))) by exact (proj1 (C35_bspline_numbering dirs D)).
  rewrite (bind_new_ok (bs_els dirs) _ _ e (build_ok _ _ Hwf) He) in L1. injection L1 as <-. cbn [lv_tree app] in L2. cbn in L2.
  destruct p as [|p0 p]; [|destruct p0; discriminate]. injection L2 as <-. cbn [Basis_model.node_size].
  destruct (element_exists dirs e D He) as (spans & E).
  destruct (elements_good dirs e spans D S E) as (L & G & F).
  apply (C70_functions_of_an_element_are_independent dirs e spans a D S E).
  intros xs HX. pose proof HX as [LX _]. specialize (H0 xs 0%nat HX ltac:(lia)). etransitivity; [|exact H0].
  unfold linear, rsum.
  assert (LV : length (lb_evaluateFunction dirs spans xs) = node_size dirs spans).
  { unfold lb_evaluateFunction. rewrite globalIn_point by assumption. apply evalF_length; auto. apply global_point_length; assumption. }
  cbn. rewrite (bind_spans _ _ _ E), LV. f_equal. apply map_ext_in. intros i Hi. f_equal. unfold shape_of. rewrite (HS e spans xs E).
  rewrite (nth_indep _ [] [0]) by (rewrite map_length; apply in_seq in Hi; rewrite LV; lia). rewrite (map_nth (fun r => [r])). reflexivity.
Qed.

(** * A two-dimensional example: quadratic in one direction, linear in the other *)
Example C70_example : forall c c',
  (forall e spans xs, element_spans [exd0; exd1] e spans -> inside [exd0; exd1] xs ->
    combination c (lf_indices (bspline_leaf [exd0; exd1]) e) (lb_evaluateFunction [exd0; exd1] spans xs) =
    combination c' (lf_indices (bspline_leaf [exd0; exd1]) e) (lb_evaluateFunction [exd0; exd1] spans xs)) ->
  forall n, (n < 16)%nat -> c n = c' n.
Proof.
  intros c c' H n Hn. apply (C70_coefficients_are_unique [exd0; exd1] c c' (proj1 ex_ok) (proj2 ex_ok) H). exact Hn.
Qed.
Example C70_example_element : element_spans [exd0; exd1] 1 [3; 1]%nat /\ inside [exd0; exd1] [/ 2; / 3] /\
  lf_fe (bspline_leaf [exd0; exd1]) 1%nat = 6%nat.
Proof.
  split; [exact ex_el1|]. split; [split; [reflexivity|repeat constructor; lra]|].
  cbn [bspline_leaf lf_fe]. rewrite (bind_spans _ _ _ ex_el1). reflexivity.
Qed.
Print Assumptions C70_functions_of_an_element_are_independent.
Print Assumptions C70_values_determine_the_coefficients.
Print Assumptions C70_coefficients_are_unique.
Print Assumptions C70_splines_meet_the_contract.
