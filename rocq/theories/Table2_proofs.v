(** Reference bases given by a table of coefficients, in two dimensions, and the geometry
    of triangles. *)
From Coq Require Import Reals QArith Qreals Lra Lia List Arith Bool.
From Verif Require Import Lib MonomialSet_spec MonomialSet_model MonomialSet_props Nodal_spec Nodal_poly Nodal_rat Hermite_model Hermite_spec Hermite_proofs Table2_model.
Import ListNotations.
Local Open Scope R_scope.
#[local] Arguments total : simpl never.

(** * The monomials *)
Definition texps2 : list (list nat) := Eval vm_compute in unopt (exponents2 2).
Definition texps5 : list (list nat) := Eval vm_compute in unopt (exponents2 5).
Definition texps (n : nat) : list (list nat) := match n with 2%nat => texps2 | _ => texps5 end.
Definition degrees (n : nat) : Prop := (n = 2 \/ n = 5)%nat.
Lemma table_function n C x : degrees n -> is_vec 2 x -> Table2_model.ref_evaluateFunction n C x = Some (shape (texps n) C [] x).
Proof.
  intros Hn Hx. vec_cases. unfold Table2_model.ref_evaluateFunction, multiplyWithCoefficentMatrix, shape. rewrite eval2_ok. cbn [obind]. f_equal. apply map_ext. intros row. rewrite row_times_dot. f_equal.
  destruct Hn as [-> | ->]; cbn; unfold mono; cbn; list_ring.
Qed.
Lemma table_jacobian n C x k : degrees n -> is_vec 2 x -> (k < 2)%nat -> Table2_model.ref_evaluateJacobian n C x k = Some (shape (texps n) C [k] x).
Proof.
  intros Hn Hx Hk. vec_cases. unfold Table2_model.ref_evaluateJacobian, multiplyWithCoefficentMatrix, shape. rewrite deriv2_ok. cbn [obind]. f_equal. apply map_ext. intros row. rewrite row_times_dot. f_equal.
  destruct Hn as [-> | ->]; (do 2 (destruct k as [|k]; [cbn; unfold gen, pw; cbn; list_ring|])); lia.
Qed.
Lemma table_hessian n C x k l : degrees n -> is_vec 2 x -> (k < 2)%nat -> (l < 2)%nat -> Table2_model.ref_evaluateHessian n C x k l = Some (shape (texps n) C [k; l] x).
Proof.
  intros Hn Hx Hk Hl. vec_cases. unfold Table2_model.ref_evaluateHessian, multiplyWithCoefficentMatrix, shape. rewrite hess2_ok. cbn [obind]. f_equal. apply map_ext. intros row. rewrite row_times_dot. f_equal.
  destruct Hn as [-> | ->]; (do 2 (destruct k as [|k]; [do 2 (destruct l as [|l]; [cbn; unfold gen, pw, pd, pd2; cbn; list_ring|]); lia|])); lia.
Qed.
Lemma texps_length n e : degrees n -> In e (texps n) -> length e = 2%nat.
Proof. intros [-> | ->] H; vm_compute in H; repeat (destruct H as [<-|H]; [reflexivity|]); destruct H. Qed.
Lemma texps_all n e : degrees n -> length e = 2%nat -> (degree e <= n)%nat -> In e (texps n).
Proof. intros [-> | ->] HL HD; eapply in_list; eauto; vm_compute; reflexivity. Qed.

(** * Derivatives of linear combinations of shape functions *)
Lemma trow_partial n row k x : degrees n -> is_vec 2 x -> (k < 2)%nat ->
  partial (fun z => dot row (map (fun e => mono_at [] e z) (texps n))) k x (dot row (map (fun e => mono_at [k] e x) (texps n))).
Proof.
  intros Hd Hx Hk. eapply partial_ext with (g := fun z => dot row (map (fun f : list R -> R => f z) (map (fun e => mono_at [] e) (texps n)))).
  2: { unfold is_vec in Hx; lia. }
  1: { intros z _. now rewrite <- shape_vals. }
  apply partial_dot; [now rewrite !map_length|]. intros i f v Hf Hv'. rewrite nth_error_map_eq in Hf. rewrite nth_error_map_eq in Hv'.
  destruct (nth_error (texps n) i) as [e|] eqn:He; [|discriminate]. cbn in Hf, Hv'. injection Hf as <-. injection Hv' as <-.
  apply nth_error_In, texps_length in He; auto. unfold is_vec in Hx. apply dmono_partial; lia.
Qed.
Lemma trow_partial2 n row k l x : degrees n -> is_vec 2 x -> (k < 2)%nat -> (l < 2)%nat ->
  partial (fun z => dot row (map (fun e => mono_at [k] e z) (texps n))) l x (dot row (map (fun e => mono_at [k; l] e x) (texps n))).
Proof.
  intros Hd Hx Hk Hl. eapply partial_ext with (g := fun z => dot row (map (fun f : list R -> R => f z) (map (fun e => mono_at [k] e) (texps n)))).
  2: { unfold is_vec in Hx; lia. }
  1: { intros z _. now rewrite <- shape_vals. }
  apply partial_dot; [now rewrite !map_length|]. intros i f v Hf Hv'. rewrite nth_error_map_eq in Hf. rewrite nth_error_map_eq in Hv'.
  destruct (nth_error (texps n) i) as [e|] eqn:He; [|discriminate]. cbn in Hf, Hv'. injection Hf as <-. injection Hv' as <-.
  apply nth_error_In, texps_length in He; auto. unfold is_vec in Hx. apply ddmono_partial; lia.
Qed.
Lemma shape_partial n C c k x : degrees n -> is_vec 2 x -> (k < 2)%nat ->
  partial (fun z => dot c (shape (texps n) C [] z)) k x (dot c (shape (texps n) C [k] x)).
Proof.
  intros Hd Hx Hk. unfold shape.
  eapply partial_ext with (g := fun z => dot c (map (fun f : list R -> R => f z) (map (fun row z => dot row (map (fun e => mono_at [] e z) (texps n))) C))).
  2: { unfold is_vec in Hx; lia. }
  1: { intros z _. now rewrite map_map. }
  apply partial_dot; [now rewrite !map_length|]. intros i f v Hf Hv'. rewrite nth_error_map_eq in Hf. rewrite nth_error_map_eq in Hv'.
  destruct (nth_error C i) as [row|]; [|discriminate]. cbn [option_map] in Hf, Hv'. injection Hf as <-. injection Hv' as <-. now apply trow_partial.
Qed.
Lemma shape_partial2 n C c k l x : degrees n -> is_vec 2 x -> (k < 2)%nat -> (l < 2)%nat ->
  partial (fun z => dot c (shape (texps n) C [k] z)) l x (dot c (shape (texps n) C [k; l] x)).
Proof.
  intros Hd Hx Hk Hl. unfold shape.
  eapply partial_ext with (g := fun z => dot c (map (fun f : list R -> R => f z) (map (fun row z => dot row (map (fun e => mono_at [k] e z) (texps n))) C))).
  2: { unfold is_vec in Hx; lia. }
  1: { intros z _. now rewrite map_map. }
  apply partial_dot; [now rewrite !map_length|]. intros i f v Hf Hv'. rewrite nth_error_map_eq in Hf. rewrite nth_error_map_eq in Hv'.
  destruct (nth_error C i) as [row|]; [|discriminate]. cbn [option_map] in Hf, Hv'. injection Hf as <-. injection Hv' as <-. now apply trow_partial2.
Qed.

(** * Scaled tables: a row of the table is t_i times a rational row *)
Definition scaled (ts : list R) (C : list (list R)) : list (list R) := map (fun p => vscale (fst p) (snd p)) (combine ts C).
Lemma shape_scaled ex ks x : forall ts C, length ts = length C ->
  shape ex (scaled ts C) ks x = map (fun p => fst p * snd p) (combine ts (shape ex C ks x)).
Proof.
  unfold shape, scaled. induction ts as [|t ts IH]; intros [|row C] H; try discriminate; [reflexivity|].
  cbn [combine map fst snd]. rewrite dot_vscale, IH by (cbn in H; lia). reflexivity.
Qed.
(** scaling the shape functions or the columns of the transformation *)
Definition times (ts v : list R) : list R := map (fun p => fst p * snd p) (combine ts v).
Lemma dot_times row : forall ts v, length ts = length v -> length row = length v -> dot row (times ts v) = dot (times ts row) v.
Proof.
  unfold times. induction row as [|a row IH]; intros [|t ts] [|b v] H1 H2; try discriminate; [reflexivity|].
  cbn [combine map fst snd]. rewrite !dot_cons, IH by (cbn in *; lia). ring.
Qed.
Lemma times_length ts v : length ts = length v -> length (times ts v) = length v.
Proof. intros H. unfold times. rewrite map_length, combine_length. lia. Qed.

(** * An element: transformation matrix M, shape functions C *)
Definition elem (n : nat) (C M : list (list R)) (ks : list nat) (x : list R) : list R :=
  map (fun row => dot row (shape (texps n) C ks x)) M.
Lemma nth_elem n C M ks x i : (i < length M)%nat -> nth i (elem n C M ks x) 0 = dot (nth i M []) (shape (texps n) C ks x).
Proof.
  intros Hi. unfold elem. rewrite nth_indep with (d' := dot [] (shape (texps n) C ks x)) by now rewrite map_length.
  exact (map_nth (fun row => dot row (shape (texps n) C ks x)) M [] i).
Qed.
Lemma elem_length n C M ks x : length (elem n C M ks x) = length M. Proof. apply map_length. Qed.
Lemma elem_partial n C M k x i : degrees n -> is_vec 2 x -> (k < 2)%nat -> (i < length M)%nat ->
  partial (fun z => nth i (elem n C M [] z) 0) k x (nth i (elem n C M [k] x) 0).
Proof.
  intros Hd Hx Hk Hi. rewrite nth_elem by auto. eapply partial_ext; [|unfold is_vec in Hx; lia|apply shape_partial; auto].
  intros z _. now apply nth_elem.
Qed.
Lemma elem_partial2 n C M k l x i : degrees n -> is_vec 2 x -> (k < 2)%nat -> (l < 2)%nat -> (i < length M)%nat ->
  partial (fun z => nth i (elem n C M [k] z) 0) l x (nth i (elem n C M [k; l] x) 0).
Proof.
  intros Hd Hx Hk Hl Hi. rewrite nth_elem by auto. eapply partial_ext; [|unfold is_vec in Hx; lia|apply shape_partial2; auto].
  intros z _. now apply nth_elem.
Qed.
Lemma dot_elem n C M ks x c N : Forall (fun r => length r = N) M -> length C = N ->
  dot c (elem n C M ks x) = dot (comb N c M) (shape (texps n) C ks x).
Proof. intros HM HC. unfold elem. apply dot_assoc; auto. now rewrite shape_length. Qed.

(** * Functions with given pull-back *)
(** a pull-back in the span of the shape functions; its derivatives *)
Lemma pulled_d n C P u g v x k : degrees n -> length P = 3%nat -> Forall (is_vec 2) P -> gradient 2 u g ->
  (forall x, is_vec 2 x -> u (image 2 P x) = dot v (shape (texps n) C [] x)) ->
  is_vec 2 x -> (k < 2)%nat -> dot (g (image 2 P x)) (column P k) = dot v (shape (texps n) C [k] x).
Proof.
  intros Hn HP HF Hg H Hx Hk. assert (D : dims 2) by (right; now left).
  apply (partial_unique (fun y => u (image 2 P y)) k x); [now apply (local_gradient 2)|].
  eapply partial_ext; [|unfold is_vec in Hx; lia|apply shape_partial; auto]. intros z Hz. apply H. unfold is_vec in *. lia.
Qed.
(** second derivatives *)
Lemma local_hessian P g H x k l : length P = 3%nat -> Forall (is_vec 2) P -> hessian 2 g H -> (forall z, is_vec 2 z -> is_vec 2 (g z)) -> is_vec 2 x -> (k < 2)%nat -> (l < 2)%nat ->
  partial (fun y => dot (g (image 2 P y)) (column P k)) l x
    (nth 0 (column P k) 0 * dot (nth 0 (H (image 2 P x)) []) (column P l) + nth 1 (column P k) 0 * dot (nth 1 (H (image 2 P x)) []) (column P l)).
Proof.
  intros HP HF HH Hg Hx Hk Hl. assert (D : dims 2) by (right; now left).
  assert (A := local_gradient 2 P _ _ x l D HP HF (HH 0%nat ltac:(lia)) Hx Hl). assert (B := local_gradient 2 P _ _ x l D HP HF (HH 1%nat ltac:(lia)) Hx Hl).
  cbn beta in A, B.
  eapply partial_ext with (g := fun y => dot (column P k) (map (fun f : list R -> R => f y) [fun y => nth 0 (g (image 2 P y)) 0; fun y => nth 1 (g (image 2 P y)) 0])).
  - intros z Hz. assert (V : is_vec 2 (g (image 2 P z))) by (apply Hg, image_vec; auto; unfold is_vec in *; lia).
    assert (W := column_vec 2 P k D HP HF Hk). cbn [map]. destruct (g (image 2 P z)) as [|a [|b [|]]]; try discriminate. destruct (column P k) as [|p [|q [|]]]; try discriminate.
    unfold dot, total. cbn. ring.
  - unfold is_vec in Hx. lia.
  - assert (W := column_vec 2 P k D HP HF Hk). destruct (column P k) as [|p [|q [|]]]; try discriminate. cbn [nth].
    replace (p * dot (nth 0 (H (image 2 P x)) []) (column P l) + q * dot (nth 1 (H (image 2 P x)) []) (column P l))
      with (dot [p; q] [dot (nth 0 (H (image 2 P x)) []) (column P l); dot (nth 1 (H (image 2 P x)) []) (column P l)]) by (unfold dot at 1, total; cbn [combine map fst snd fold_right]; ring).
    apply partial_dot; [reflexivity|]. intros i f v Hf Hv. destruct i as [|[|i]]; cbn in Hf, Hv; try (destruct i; discriminate); injection Hf as <-; injection Hv as <-; assumption.
Qed.
Lemma pulled_dd n C P u g H v x k l : degrees n -> length P = 3%nat -> Forall (is_vec 2) P -> gradient 2 u g -> hessian 2 g H ->
  (forall x, is_vec 2 x -> u (image 2 P x) = dot v (shape (texps n) C [] x)) ->
  is_vec 2 x -> (k < 2)%nat -> (l < 2)%nat ->
  nth 0 (column P k) 0 * dot (nth 0 (H (image 2 P x)) []) (column P l) + nth 1 (column P k) 0 * dot (nth 1 (H (image 2 P x)) []) (column P l)
  = dot v (shape (texps n) C [k; l] x).
Proof.
  intros Hn HP HF Hg HH E Hx Hk Hl.
  apply (partial_unique (fun y => dot (g (image 2 P y)) (column P k)) l x); [apply local_hessian; auto; intros z Hz; now apply Hg|].
  eapply partial_ext; [|unfold is_vec in Hx; lia|apply shape_partial2; auto]. intros z Hz. apply (pulled_d n C P u g v z k); auto. unfold is_vec in *. lia.
Qed.
(** the derivatives of the polynomial that is the pull-back of u *)
Lemma poly_pulled_d P u g p x k : length P = 3%nat -> Forall (is_vec 2) P -> gradient 2 u g -> Forall (fun t => length (snd t) = 2%nat) p ->
  (forall x, is_vec 2 x -> u (image 2 P x) = poly p x) -> is_vec 2 x -> (k < 2)%nat -> dpoly p k x = dot (g (image 2 P x)) (column P k).
Proof.
  intros HP HF Hg Hp E Hx Hk. apply (partial_unique (fun y => u (image 2 P y)) k x); [|apply (local_gradient 2); auto; right; now left].
  eapply partial_ext; [|unfold is_vec in Hx; lia|apply (poly_partial 2); auto]. intros z Hz. apply E. unfold is_vec in *. lia.
Qed.
Lemma dpoly_partial p k l x : Forall (fun t => length (snd t) = 2%nat) p -> is_vec 2 x -> (k < 2)%nat -> (l < 2)%nat ->
  partial (dpoly p k) l x (ddpoly p k l x).
Proof.
  intros Hp Hx Hk Hl. unfold dpoly, ddpoly. apply (partial_sum p (fun t z => fst t * dmono (snd t) k z) (fun t => fst t * ddmono (snd t) k l x)).
  intros t Ht. apply partial_scal. rewrite Forall_forall in Hp. specialize (Hp t Ht). unfold is_vec in Hx. apply ddmono_partial; lia.
Qed.
Lemma poly_pulled_dd P u g H p x k l : length P = 3%nat -> Forall (is_vec 2) P -> gradient 2 u g -> hessian 2 g H -> Forall (fun t => length (snd t) = 2%nat) p ->
  (forall x, is_vec 2 x -> u (image 2 P x) = poly p x) -> is_vec 2 x -> (k < 2)%nat -> (l < 2)%nat ->
  ddpoly p k l x = nth 0 (column P k) 0 * dot (nth 0 (H (image 2 P x)) []) (column P l) + nth 1 (column P k) 0 * dot (nth 1 (H (image 2 P x)) []) (column P l).
Proof.
  intros HP HF Hg HH Hp E Hx Hk Hl. apply (partial_unique (dpoly p k) l x); [now apply dpoly_partial|].
  eapply partial_ext; [|unfold is_vec in Hx; lia|apply (local_hessian P g H); auto; intros z Hz; now apply Hg].
  intros z Hz. apply (poly_pulled_d P u g); auto. unfold is_vec in *. lia.
Qed.

(** * Normal and tangential derivatives at an edge
    e: the edge, L its length, w: the image of the reference normal; T: the derivative in
    the direction of the edge. *)
Lemma edge_solve (e0 e1 w0 w1 L g0 g1 s c T v : R) :
  0 < L -> L * L = e0 * e0 + e1 * e1 -> e0 * w1 - e1 * w0 <> 0 -> s * s = 1 ->
  v = s * ((e0 * w1 - e1 * w0) / L) * c + (e0 * w0 + e1 * w1) / L * T ->
  g0 * e0 + g1 * e1 = L * T ->
  (g0 * w0 + g1 * w1 = v <-> c = s * ((g1 * e0 - g0 * e1) / L)).
Proof.
  intros HL HQ HD Hs Hv HT. assert (T = (g0 * e0 + g1 * e1) / L) by (rewrite HT; field; lra). subst T.
  assert (K : v - (g0 * w0 + g1 * w1) = (e0 * w1 - e1 * w0) / L * (s * c - (g1 * e0 - g0 * e1) / L)).
  { rewrite Hv. assert (Q : g0 * w0 + g1 * w1 = (g0 * w0 + g1 * w1) * (e0 * e0 + e1 * e1) / (L * L)) by (rewrite <- HQ; field; lra). rewrite Q. field. lra. }
  split; intros H.
  - rewrite H in K. assert (Z : s * c - (g1 * e0 - g0 * e1) / L = 0).
    { apply (Rmult_eq_reg_l ((e0 * w1 - e1 * w0) / L)); [rewrite <- K; ring|]. unfold Rdiv. apply Rmult_integral_contrapositive_currified; auto. apply Rinv_neq_0_compat. lra. }
    replace c with (s * (s * c)) by (rewrite <- Rmult_assoc, Hs; ring). f_equal. lra.
  - rewrite H in K. replace (s * (s * ((g1 * e0 - g0 * e1) / L)) - (g1 * e0 - g0 * e1) / L) with ((s * s - 1) * ((g1 * e0 - g0 * e1) / L)) in K by ring. rewrite Hs in K. lra.
Qed.
