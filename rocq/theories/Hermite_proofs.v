(** The Hermite shape functions as linear combinations of monomials; duality and
    interpolation on the reference simplex. *)
From Coq Require Import Reals QArith Qreals Lra Lia List Arith Bool.
From Verif Require Import Lib MonomialSet_spec MonomialSet_model MonomialSet_props GeometryType_model Nodal_spec Nodal_poly Nodal_rat Hermite_model Hermite_spec.
Import ListNotations.
Local Open Scope R_scope.
#[local] Arguments total : simpl never.

(** * The monomials *)
Definition unopt {A} (o : option (list A)) : list A := match o with Some l => l | None => [] end.
Definition exps1 : list (list nat) := Eval vm_compute in unopt (exponents1 3).
Definition exps2 : list (list nat) := Eval vm_compute in unopt (exponents2 3).
Definition exps3 : list (list nat) := Eval vm_compute in unopt (exponents3 3).
Definition exps (d : nat) : list (list nat) :=
  match d with 1%nat => exps1 | 2%nat => exps2 | 3%nat => exps3 | _ => [] end.
Definition mons (d : nat) (x : list R) : list R := map (fun e => mono e x) (exps d).
Definition dmons (d k : nat) (x : list R) : list R := map (fun e => dmono e k x) (exps d).
Definition ddmons (d k l : nat) (x : list R) : list R := map (fun e => ddmono e k l x) (exps d).

Ltac list_ring := repeat (apply cons_eq; [try reflexivity; ring|]); reflexivity.
Lemma monomials_ok d x : dims d -> is_vec d x -> monomials d x = Some (mons d x).
Proof.
  intros [-> | [-> | ->]] Hx; vec_cases; unfold monomials, mons.
  - destruct (row1 3 r) as (v & Hv & HL & HE). rewrite Hv. f_equal. cbn in Hv. injection Hv as <-. cbn. unfold mono. cbn. list_ring.
  - rewrite eval2_ok. f_equal. cbn. unfold mono. cbn. list_ring.
  - rewrite eval3_ok. f_equal. cbn. unfold mono. cbn. list_ring.
Qed.
Lemma monomials_d_ok d x k : dims d -> is_vec d x -> (k < d)%nat ->
  exists D, monomials_d d x = Some D /\ map (fun r => nth k r 0) D = dmons d k x.
Proof.
  intros [-> | [-> | ->]] Hx Hk; vec_cases; unfold monomials_d, dmons.
  - rewrite deriv1_ok. eexists. split; [reflexivity|]. do 3 (destruct k as [|k]; [try lia; cbn; unfold gen; cbn; list_ring|]); lia.
  - rewrite deriv2_ok. eexists. split; [reflexivity|]. do 3 (destruct k as [|k]; [try lia; cbn; unfold gen, pw; cbn; list_ring|]); lia.
  - rewrite deriv3_ok. eexists. split; [reflexivity|]. do 3 (destruct k as [|k]; [try lia; cbn; unfold gen, pw; cbn; list_ring|]); lia.
Qed.
Lemma monomials_dd_ok d x k l : dims d -> is_vec d x -> (k < d)%nat -> (l < d)%nat ->
  exists D, monomials_dd d x = Some D /\ map (fun m => nth l (nth k m []) 0) D = ddmons d k l x.
Proof.
  intros [-> | [-> | ->]] Hx Hk Hl; vec_cases; unfold monomials_dd, ddmons.
  - rewrite hess1_ok. eexists. split; [reflexivity|].
    do 3 (destruct k as [|k]; [try lia; do 3 (destruct l as [|l]; [try lia; cbn; unfold gen, pw, pd2; cbn; list_ring|]); lia|]); lia.
  - rewrite hess2_ok. eexists. split; [reflexivity|].
    do 3 (destruct k as [|k]; [try lia; do 3 (destruct l as [|l]; [try lia; cbn; unfold gen, pw, pd, pd2; cbn; list_ring|]); lia|]); lia.
  - rewrite hess3_ok. eexists. split; [reflexivity|].
    do 3 (destruct k as [|k]; [try lia; do 3 (destruct l as [|l]; [try lia; cbn; unfold gen, pw, pd, pd2; cbn; list_ring|]); lia|]); lia.
Qed.
Lemma exps_length d e : dims d -> In e (exps d) -> length e = d.
Proof. intros [-> | [-> | ->]] H; vm_compute in H; repeat (destruct H as [<-|H]; [reflexivity|]); destruct H. Qed.
(** * row_times is the scalar product *)
Lemma row_times_dot row vals : row_times row vals = dot row vals.
Proof.
  unfold row_times, dot. generalize (combine row vals). intros l.
  assert (H : forall a, fold_left (fun acc p => acc + fst p * snd p) l a = a + total (map (fun p : R * R => fst p * snd p) l)).
  { induction l as [|p l IH]; intros a; cbn [fold_left map]; [unfold total; cbn; ring|]. rewrite IH, total_cons. ring. }
  rewrite H. ring.
Qed.

(** the reference shape functions and their derivatives *)
Definition phi (d : nat) (r : bool) (x : list R) : list R := shape (exps d) (referenceBasisCoefficients d r) [] x.
Definition dphi (d : nat) (r : bool) (k : nat) (x : list R) : list R := shape (exps d) (referenceBasisCoefficients d r) [k] x.
Definition ddphi (d : nat) (r : bool) (k l : nat) (x : list R) : list R := shape (exps d) (referenceBasisCoefficients d r) [k; l] x.
Lemma ref_function d r x : dims d -> is_vec d x -> ref_evaluateFunction d r x = Some (phi d r x).
Proof.
  intros Hd Hx. unfold ref_evaluateFunction. rewrite monomials_ok by auto. cbn [obind].
  unfold multiplyWithCoefficentMatrix, phi. f_equal. apply map_ext. intros. apply row_times_dot.
Qed.
Lemma ref_jacobian d r x k : dims d -> is_vec d x -> (k < d)%nat -> ref_evaluateJacobian d r x k = Some (dphi d r k x).
Proof.
  intros Hd Hx Hk. unfold ref_evaluateJacobian. destruct (monomials_d_ok d x k Hd Hx Hk) as (D & -> & E). cbn [obind]. rewrite E.
  unfold multiplyWithCoefficentMatrix, dphi. f_equal. apply map_ext. intros. apply row_times_dot.
Qed.
Lemma ref_hessian d r x k l : dims d -> is_vec d x -> (k < d)%nat -> (l < d)%nat -> ref_evaluateHessian d r x k l = Some (ddphi d r k l x).
Proof.
  intros Hd Hx Hk Hl. unfold ref_evaluateHessian. destruct (monomials_dd_ok d x k l Hd Hx Hk Hl) as (D & -> & E). cbn [obind]. rewrite E.
  unfold multiplyWithCoefficentMatrix, ddphi. f_equal. apply map_ext. intros. apply row_times_dot.
Qed.

(** * The reference functionals *)
Definition refN (d : nat) (r : bool) (p : list R -> R) (dp : nat -> list R -> R) : list R :=
  concat (map (fun i => p (vertex_position d i) :: map (fun k => dp k (vertex_position d i)) (seq 0 d)) (seq 0 (d + 1)))
  ++ (if r then [] else map (fun i => p (inner_position d i)) (seq 0 ((d - 1) * (d - 1)))).
Lemma valid_dims d r : valid d r -> dims d. Proof. now intros []. Qed.
Lemma valid_cases d r : valid d r -> (d = 1%nat /\ r = false) \/ (d = 2%nat /\ r = false) \/ (d = 2%nat /\ r = true) \/ (d = 3%nat /\ r = false).
Proof. intros [[-> | [-> | ->]] H]; destruct r; auto; specialize (H eq_refl); discriminate. Qed.
Ltac by_valid H := apply valid_cases in H; destruct H as [(-> & ->)|[(-> & ->)|[(-> & ->)|(-> & ->)]]].

(** the coefficients as rational numbers *)
Definition zcoeff1 : list (list Z) :=
  [[1; 0; -3; 2]; [0; 1; -2; 1]; [0; 0; 3; -2]; [0; 0; -1; 1]]%Z.
Definition zcoeff2 : list (list Z) :=
  [[1; 0; 0; -3; -13; -3;  2;  13;  13;  2];
   [0; 1; 0; -2;  -3;  0;  1;   3;   2;  0];
   [0; 0; 1;  0;  -3; -2;  0;   2;   3;  1];
   [0; 0; 0;  3;  -7;  0; -2;   7;   7;  0];
   [0; 0; 0; -1;   2;  0;  1;  -2;  -2;  0];
   [0; 0; 0;  0;  -1;  0;  0;   2;   1;  0];
   [0; 0; 0;  0;  -7;  3;  0;   7;   7; -2];
   [0; 0; 0;  0;  -1;  0;  0;   1;   2;  0];
   [0; 0; 0;  0;   2; -1;  0;  -2;  -2;  1];
   [0; 0; 0;  0;  27;  0;  0; -27; -27;  0]]%Z.
Definition zcoeff3 : list (list Z) :=
  [[1; 0;  0;  0; -3; -13; -3; -13; -13; -3; 2; 13; 13; 2; 13; 33;  13; 13;  13;  2];
   [0; 1; 0; 0; -2; -3; 0; -3; 0; 0; 1; 3; 2; 0; 3; 4; 0; 2; 0; 0];
   [0; 0; 1; 0; 0; -3; -2; 0; -3; 0; 0; 2; 3; 1; 0; 4; 3; 0; 2; 0];
   [0; 0; 0; 1; 0; 0; 0; -3; -3; -2; 0; 0; 0; 0; 2; 4; 2; 3; 3; 1];
   [0;  0; 0; 0; 3; -7; 0; -7; 0; 0; -2; 7; 7; 0; 7; 7;  0; 7;  0; 0];
   [0; 0; 0; 0; -1; 2; 0; 2; 0; 0; 1; -2; -2; 0; -2; -2; 0; -2; 0; 0];
   [0; 0; 0; 0; 0; -1; 0; 0; 0; 0; 0; 2; 1; 0; 0; 0; 0; 0; 0; 0];
   [0; 0; 0; 0; 0; 0; 0; -1; 0; 0; 0; 0; 0; 0; 2; 0; 0; 1; 0; 0];
   [0; 0; 0; 0;  0; -7; 3; 0; -7; 0; 0; 7; 7; -2; 0; 7;  7; 0; 7;  0];
   [0; 0; 0; 0; 0; -1; 0; 0; 0; 0; 0; 1; 2; 0; 0; 0; 0; 0; 0; 0];
   [0; 0; 0; 0; 0; 2; -1; 0; 2; 0; 0; -2; -2; 1; 0; -2; -2; 0; -2; 0];
   [0; 0; 0; 0; 0; 0; 0; 0; -1; 0; 0; 0; 0; 0; 0; 0; 2; 0; 1; 0];
   [0; 0; 0; 0; 0; 0; 0; -7; -7; 3; 0; 0; 0; 0; 7; 7; 7; 7;  7;  -2];
   [0; 0; 0; 0; 0; 0; 0; -1; 0; 0; 0; 0; 0; 0; 1; 0; 0; 2; 0; 0];
   [0; 0; 0; 0; 0; 0; 0; 0; -1; 0; 0; 0; 0; 0; 0; 0; 1; 0; 2; 0];
   [0; 0; 0; 0; 0; 0; 0; 2; 2; -1; 0; 0; 0; 0; -2; -2; -2; -2; -2; 1];
   [0; 0;   0;   0; 0; 27;  0; 0; 0; 0; 0; -27; -27; 0; 0; -27; 0; 0; 0; 0];
   [0; 0; 0; 0; 0;   0;   0; 27;  0; 0; 0; 0; 0; 0; -27; -27; 0; -27; 0; 0];
   [0; 0; 0; 0; 0; 0;   0;   0; 27;  0; 0; 0; 0; 0; 0; -27; -27; 0; -27; 0];
   [0; 0; 0; 0; 0; 0;  0; 0; 0; 0; 0; 0; 0; 0; 0; 27; 0; 0; 0; 0]]%Z.
Definition qcoeff2r : list (list Q) :=
  ([[1; 0; 0; -3; -13 + 9; -3;  2; 13 - 9; 13 - 9;  2];
   [0; 1; 0; -2;  -3 + (3#2);  0;  1;  3 - (3#2);  2 - (3#2);  0];
   [0; 0; 1;  0;  -3 + (3#2); -2;  0;  2 - (3#2);  3 - (3#2);  1];
   [0; 0; 0;  3;  -7 + 9;  0; -2;  7 - 9;  7 - 9;  0];
   [0; 0; 0; -1;   2 + (-3);  0;  1; -2 - (-3); -2 - (-3);  0];
   [0; 0; 0;  0;  -1 + (3#2);  0;  0;  2 - (3#2);  1 - (3#2);  0];
   [0; 0; 0;  0;  -7 + 9;  3;  0;  7 - 9;  7 - 9; -2];
   [0; 0; 0;  0;  -1 + (3#2);  0;  0;  1 - (3#2);  2 - (3#2);  0];
   [0; 0; 0;  0;   2 + (-3); -1;  0; -2 - (-3); -2 - (-3);  1]])%Q.

Definition qcoeff (d : nat) (r : bool) : list (list Q) :=
  match d with
  | 1%nat => map (map inject_Z) zcoeff1
  | 2%nat => if r then qcoeff2r else map (map inject_Z) zcoeff2
  | 3%nat => map (map inject_Z) zcoeff3
  | _ => []
  end.
Lemma rv_inject M : map rv (map (map inject_Z) M) = map (map IZR) M.
Proof.
  rewrite map_map. apply map_ext. intros l. unfold rv. rewrite map_map. apply map_ext. apply Q2R_IZR.
Qed.
Lemma coefficients_rational d r : valid d r -> referenceBasisCoefficients d r = map rv (qcoeff d r).
Proof.
  intros H. by_valid H; cbn [referenceBasisCoefficients qcoeff]; try (rewrite rv_inject; reflexivity).
  unfold coefficients2r, qcoeff2r, rv. cbn [map].
  repeat (apply cons_eq; [repeat (apply cons_eq; [unfold Q2R; cbn; lra|]); reflexivity|]). reflexivity.
Qed.
(** the nodes *)
Definition qvertex (d i : nat) : list Q := map (fun k => if (k + 1 =? i)%nat then 1%Q else 0%Q) (seq 0 d).
Definition qinner (d i : nat) : list Q :=
  match d with
  | 2%nat => [1#3; 1#3]%Q
  | 3%nat => match i with
             | 0%nat => [1#3; 1#3; 0]%Q
             | 1%nat => [1#3; 0; 1#3]%Q
             | 2%nat => [0; 1#3; 1#3]%Q
             | _ => [1#3; 1#3; 1#3]%Q
             end
  | _ => []
  end.
Lemma vertex_rv d i : vertex_position d i = rv (qvertex d i).
Proof. unfold vertex_position, rv, qvertex. rewrite map_map. apply map_ext. intros k. destruct (k + 1 =? i)%nat; unfold Q2R; cbn; lra. Qed.
Lemma inner_rv d i : inner_position d i = rv (qinner d i).
Proof.
  destruct d as [|[|[|[|]]]]; try reflexivity; cbn; destruct i as [|[|[|]]]; cbn; repeat (apply cons_eq; [unfold Q2R; cbn; lra|]); reflexivity.
Qed.
Definition nodes (d : nat) (r : bool) : list node :=
  concat (map (fun i => [(1%Q, [], qvertex d i)] :: map (fun k => [(1%Q, [k], qvertex d i)]) (seq 0 d)) (seq 0 (d + 1)))
  ++ (if r then [] else map (fun i => [(1%Q, [], qinner d i)]) (seq 0 ((d - 1) * (d - 1)))).
Lemma apply_node1 ks x p dp ddp : apply_node [(1%Q, ks, x)] p dp ddp = derivs p dp ddp ks (rv x).
Proof. unfold apply_node, total. cbn. unfold Q2R at 1. cbn. rewrite Rinv_1. fold (rv x). ring. Qed.
Lemma refN_nodes d r p dp ddp : refN d r p dp = map (fun N => apply_node N p dp ddp) (nodes d r).
Proof.
  unfold refN, nodes. rewrite map_app, concat_map, map_map. f_equal.
  - f_equal. apply map_ext. intros i. cbn [map]. rewrite apply_node1, vertex_rv. cbn [derivs]. f_equal.
    rewrite map_map. apply map_ext. intros k. now rewrite apply_node1.
  - destruct r; [reflexivity|]. rewrite map_map. apply map_ext. intros i. now rewrite apply_node1, inner_rv.
Qed.
Lemma size_qcoeff d r : valid d r -> size d r = length (qcoeff d r).
Proof. intros H. by_valid H; reflexivity. Qed.
Lemma ref_dual d r c : valid d r -> length c = size d r ->
  refN d r (fun x => dot c (phi d r x)) (fun k x => dot c (dphi d r k x)) = c.
Proof.
  intros Hv Hc. rewrite (refN_nodes d r _ _ (fun k l x => dot c (ddphi d r k l x))). unfold phi, dphi, ddphi.
  rewrite coefficients_rational by auto. apply dual_ok; [|now rewrite <- size_qcoeff].
  by_valid Hv; vm_compute; reflexivity.
Qed.
Lemma exps_all d e : dims d -> length e = d -> (degree e <= 3)%nat -> In e (exps d).
Proof.
  intros Hd HL HD. apply (in_list d 3); auto. destruct Hd as [-> | [-> | ->]]; vm_compute; reflexivity.
Qed.
Lemma ref_reproduce d r p ks x : valid d r ->
  Forall (fun t => length (snd t) = d /\ (degree (snd t) <= full_degree r)%nat) p ->
  dot (refN d r (poly p) (dpoly p)) (shape (exps d) (referenceBasisCoefficients d r) ks x) = poly_at ks p x.
Proof.
  intros Hv Hp. rewrite (refN_nodes d r _ _ (ddpoly p)), coefficients_rational by auto. apply reproduce_poly; [by_valid Hv; vm_compute; reflexivity|].
  intros t Ht. rewrite Forall_forall in Hp. destruct (Hp t Ht) as [HL HD].
  assert (HI : In (snd t) (exps d)) by (apply exps_all; [eapply valid_dims; eauto|auto|unfold full_degree in HD; destruct r; lia]).
  apply (check_monos_ok _ _ _ (full_degree r)); auto. by_valid Hv; vm_compute; reflexivity.
Qed.

(** * Derivatives of the reference shape functions *)
Lemma shape_length ex C ks x : length (shape ex C ks x) = length C. Proof. apply map_length. Qed.
Lemma coefficients_size d r : valid d r -> length (referenceBasisCoefficients d r) = size d r.
Proof. intros H. by_valid H; reflexivity. Qed.
Lemma shape_vals ex ks x : map (fun e => mono_at ks e x) ex = map (fun f : list R -> R => f x) (map (fun e => mono_at ks e) ex).
Proof. now rewrite map_map. Qed.
Lemma row_partial d row k x : dims d -> is_vec d x -> (k < d)%nat ->
  partial (fun z => dot row (map (fun e => mono_at [] e z) (exps d))) k x (dot row (map (fun e => mono_at [k] e x) (exps d))).
Proof.
  intros Hd Hx Hk. eapply partial_ext with (g := fun z => dot row (map (fun f : list R -> R => f z) (map (fun e => mono_at [] e) (exps d)))).
  2: { unfold is_vec in Hx; lia. }
  1: { intros z _. now rewrite <- shape_vals. }
  apply partial_dot; [now rewrite !map_length|]. intros i f v Hf Hv'. rewrite nth_error_map_eq in Hf. rewrite nth_error_map_eq in Hv'.
  destruct (nth_error (exps d) i) as [e|] eqn:He; [|discriminate]. cbn in Hf, Hv'. injection Hf as <-. injection Hv' as <-.
  apply nth_error_In, exps_length in He; auto. unfold is_vec in Hx. apply dmono_partial; lia.
Qed.
Lemma row_partial2 d row k l x : dims d -> is_vec d x -> (k < d)%nat -> (l < d)%nat ->
  partial (fun z => dot row (map (fun e => mono_at [k] e z) (exps d))) l x (dot row (map (fun e => mono_at [k; l] e x) (exps d))).
Proof.
  intros Hd Hx Hk Hl. eapply partial_ext with (g := fun z => dot row (map (fun f : list R -> R => f z) (map (fun e => mono_at [k] e) (exps d)))).
  2: { unfold is_vec in Hx; lia. }
  1: { intros z _. now rewrite <- shape_vals. }
  apply partial_dot; [now rewrite !map_length|]. intros i f v Hf Hv'. rewrite nth_error_map_eq in Hf. rewrite nth_error_map_eq in Hv'.
  destruct (nth_error (exps d) i) as [e|] eqn:He; [|discriminate]. cbn in Hf, Hv'. injection Hf as <-. injection Hv' as <-.
  apply nth_error_In, exps_length in He; auto. unfold is_vec in Hx. apply ddmono_partial; lia.
Qed.
(** partial derivatives of linear combinations of the shape functions *)
Lemma phi_partial d r c k x : dims d -> is_vec d x -> (k < d)%nat ->
  partial (fun z => dot c (phi d r z)) k x (dot c (dphi d r k x)).
Proof.
  intros Hd Hx Hk. unfold phi, dphi, shape.
  eapply partial_ext with (g := fun z => dot c (map (fun f : list R -> R => f z) (map (fun row z => dot row (map (fun e => mono_at [] e z) (exps d))) (referenceBasisCoefficients d r)))).
  2: { unfold is_vec in Hx; lia. }
  1: { intros z _. now rewrite map_map. }
  apply partial_dot; [now rewrite !map_length|]. intros i f v Hf Hv'. rewrite nth_error_map_eq in Hf. rewrite nth_error_map_eq in Hv'.
  destruct (nth_error (referenceBasisCoefficients d r) i) as [row|]; [|discriminate]. cbn [option_map] in Hf, Hv'. injection Hf as <-. injection Hv' as <-. now apply row_partial.
Qed.
Lemma dphi_partial d r c k l x : dims d -> is_vec d x -> (k < d)%nat -> (l < d)%nat ->
  partial (fun z => dot c (dphi d r k z)) l x (dot c (ddphi d r k l x)).
Proof.
  intros Hd Hx Hk Hl. unfold ddphi, dphi, shape.
  eapply partial_ext with (g := fun z => dot c (map (fun f : list R -> R => f z) (map (fun row z => dot row (map (fun e => mono_at [k] e z) (exps d))) (referenceBasisCoefficients d r)))).
  2: { unfold is_vec in Hx; lia. }
  1: { intros z _. now rewrite map_map. }
  apply partial_dot; [now rewrite !map_length|]. intros i f v Hf Hv'. rewrite nth_error_map_eq in Hf. rewrite nth_error_map_eq in Hv'.
  destruct (nth_error (referenceBasisCoefficients d r) i) as [row|]; [|discriminate]. cbn [option_map] in Hf, Hv'. injection Hf as <-. injection Hv' as <-. now apply row_partial2.
Qed.

(** * The transformation *)
(** its transpose, acting on coefficients *)
Definition tT (d : nat) (r : bool) (fe : hermite) (c : list R) : list R :=
  concat (map (fun v =>
    let it := (v * (d + 1))%nat in
    nth it c 0 :: map (fun k => total (map (fun m => nth (it + 1 + m) c 0 * nth k (nth m (nth v (scaledVertexJacobians fe) []) []) 0) (seq 0 d))) (seq 0 d)) (seq 0 (d + 1)))
  ++ (if (1 <? d)%nat && negb r then skipn ((d + 1) * (d + 1)) c else []).
(** the form of a bound element *)
Definition bound_form (d : nat) (P : list (list R)) (h : list R) : hermite :=
  Hermite (map (fun i => map (fun m => map (fun k => nth m (column P k) 0 / nth i h 0) (seq 0 d)) (seq 0 d)) (seq 0 (d + 1))) h.
Lemma bound_is d P h fe : bound d P h fe -> simplex d P /\ length h = S d /\ Forall (fun a => 0 < a) h /\ fe = bound_form d P h.
Proof.
  intros (G & si & sizes & HP & HG & Hh & Hpos & Hs & Hb). repeat split; auto; try apply HP.
  unfold bind in Hb.
  assert (E : all_of (map (fun i => nth_error sizes (si i)) (seq 0 (d + 1))) = Some h).
  { rewrite (map_ext_in _ (fun i => nth_error h i)) by (intros i Hi; apply in_seq in Hi; apply Hs; lia).
    replace (d + 1)%nat with (length h) by lia. clear.
    induction h as [|a h IH]; [reflexivity|]. cbn [length seq map all_of]. cbn [nth_error obind].
    rewrite <- seq_shift, map_map. cbn [nth_error]. rewrite IH. reflexivity. }
  rewrite E in Hb. cbn [obind] in Hb. injection Hb as <-. unfold bound_form. f_equal.
  apply map_ext_in. intros i Hi. apply in_seq in Hi.
  destruct (HG (vertex_position d i)) as [_ HJ]; [unfold is_vec, vertex_position; now rewrite map_length, seq_length|].
  rewrite HJ, map_map. apply map_ext. intros m. now rewrite map_map.
Qed.
Lemma transform_form d r P h v : valid d r -> length P = S d -> Forall (is_vec d) P -> length h = S d -> length v = size d r ->
  exists w, transform d r (bound_form d P h) v = Some w /\ length w = size d r /\
    forall c, length c = size d r -> dot c w = dot (tT d r (bound_form d P h) c) v.
Proof.
  intros Hv HP HF Hh HL. unfold transform. rewrite HL, Nat.eqb_refl. eexists. split; [reflexivity|].
  by_valid Hv; cbn [size] in HL; vec_cases; (split; [reflexivity|]); intros c Hc; cbn [size] in Hc; vec_cases;
  unfold tT, bound_form; cbn -[Rplus Rmult Rdiv Rminus]; unfold dot, total; cbn -[Rplus Rmult Rdiv Rminus]; unfold Rdiv; ring.
Qed.

(** * Interpolation *)
Lemma vertex_vec d i : is_vec d (vertex_position d i).
Proof. unfold is_vec, vertex_position. now rewrite map_length, seq_length. Qed.
Lemma inner_vec d i : (d = 2 \/ d = 3)%nat -> is_vec d (inner_position d i).
Proof. intros [-> | ->]; [reflexivity|]. destruct i as [|[|[|]]]; reflexivity. Qed.
Definition local_d (P : list (list R)) (g : list R -> list R) (k : nat) (z : list R) : R := dot (g z) (column P k).
Lemma simplex_orth d P g : dims d -> simplex d P -> is_vec d g -> (forall k, (k < d)%nat -> dot g (column P k) = 0) -> g = repeat 0 d.
Proof.
  intros Hd (HP & HF & H) Hg Hk. apply H; auto. intros [|i] Hi; [|apply Hk; lia].
  assert (E : forall v : list R, length v = d -> dot g (vsub v v) = 0).
  { intros v Hv. unfold is_vec in Hg. destruct Hd as [-> | [-> | ->]]; clear - Hg Hv; vec_cases; unfold dot, vsub, total; cbn; ring. }
  apply E. destruct P as [|p P]; [discriminate|]. now inversion HF.
Qed.
Lemma nth_map_seq (f : nat -> R) n k z : (k < n)%nat -> nth k (map f (seq 0 n)) z = f k.
Proof.
  intros H. rewrite nth_indep with (d' := f 0%nat) by (rewrite map_length, seq_length; auto).
  rewrite (map_nth f). now rewrite seq_nth.
Qed.
Lemma vertex_inj d P a b : dims d -> simplex d P -> is_vec d a -> is_vec d b ->
  (forall k, (k < d)%nat -> dot a (column P k) = dot b (column P k)) -> a = b.
Proof.
  intros Hd HS Ha Hb H.
  assert (E : vsub a b = repeat 0 d).
  { apply (simplex_orth d P); auto.
    - unfold is_vec, vsub in *. rewrite map_length, combine_length. lia.
    - intros k Hk. specialize (H k Hk). destruct HS as (HP & HF & _). assert (Hc := column_vec d P k Hd HP HF Hk).
      revert H. generalize dependent (column P k). intros v Hv. destruct Hd as [-> | [-> | ->]]; clear - Ha Hb Hv; vec_cases; unfold dot, vsub, total; cbn; lra. }
  destruct Hd as [-> | [-> | ->]]; clear - Ha Hb E; vec_cases; cbn in E; injection E; intros; repeat (apply cons_eq; [lra|]); reflexivity.
Qed.
Definition slot (d v : nat) (c : list R) : list R := map (fun m => nth (v * (d + 1) + 1 + m) c 0) (seq 0 d).
Ltac upto n x tac := match n with 0%nat => exfalso; lia | S ?m => destruct x as [|x]; [tac|upto m x tac] end.
Lemma tT_value d r P h c v : valid d r -> length c = size d r -> (v <= d)%nat ->
  nth (v * (d + 1)) (tT d r (bound_form d P h) c) 0 = nth (v * (d + 1)) c 0.
Proof. intros Hv Hc Hi. by_valid Hv; upto 4%nat v ltac:(first [exfalso; lia | reflexivity]). Qed.
Lemma tT_inner d r P h c i : valid d r -> length c = size d r -> ((d + 1) * (d + 1) <= i)%nat -> (i < size d r)%nat ->
  nth i (tT d r (bound_form d P h) c) 0 = nth i c 0.
Proof.
  intros Hv Hc Hi Hi'. by_valid Hv; cbn [size] in *; try lia.
  - replace i with 9%nat by (cbn in Hi; lia). vec_cases. reflexivity.
  - assert (E : (i = 16 \/ i = 17 \/ i = 18 \/ i = 19)%nat) by (cbn in Hi; lia). destruct E as [-> | [-> | [-> | ->]]]; vec_cases; reflexivity.
Qed.
Lemma tT_slot d r P h c v k : valid d r -> length c = size d r -> length P = S d -> Forall (is_vec d) P -> length h = S d -> (v <= d)%nat -> (k < d)%nat ->
  nth (v * (d + 1) + 1 + k) (tT d r (bound_form d P h) c) 0 = dot (slot d v c) (column P k) / nth v h 0.
Proof.
  intros Hv Hc HP HF Hh Hi Hk. by_valid Hv; cbn [size] in *; vec_cases; upto 4%nat v ltac:(first [exfalso; lia |
    upto 3%nat k ltac:(first [exfalso; lia | unfold tT, bound_form, slot, dot, column, vsub, total; cbn -[Rplus Rmult Rdiv Rminus]; unfold Rdiv; ring])]).
Qed.
Lemma index_cases d r j : valid d r -> (j < size d r)%nat ->
  (exists v, (v <= d)%nat /\ j = (v * (d + 1))%nat) \/ (exists v k, (v <= d)%nat /\ (k < d)%nat /\ j = (v * (d + 1) + 1 + k)%nat) \/ ((d + 1) * (d + 1) <= j)%nat.
Proof.
  intros Hv Hj. destruct (Nat.le_gt_cases ((d + 1) * (d + 1)) j); auto.
  assert (E := Nat.div_mod_eq j (d + 1)). assert (B := Nat.mod_upper_bound j (d + 1) ltac:(lia)).
  assert (L : (j / (d + 1) < d + 1)%nat) by (apply Nat.div_lt_upper_bound; lia).
  destruct (j mod (d + 1)) as [|k] eqn:M.
  - left. exists (j / (d + 1))%nat. split; lia.
  - right. left. exists (j / (d + 1))%nat, k. repeat split; lia.
Qed.
Lemma tT_injective d r P h c c' : valid d r -> simplex d P -> length h = S d -> Forall (fun a => 0 < a) h ->
  length c = size d r -> length c' = size d r ->
  tT d r (bound_form d P h) c = tT d r (bound_form d P h) c' -> c = c'.
Proof.
  intros Hv HS Hh Hpos Hc Hc' E. assert (HS' := HS). destruct HS' as (HP & HF & _).
  assert (A : forall v, (v <= d)%nat -> slot d v c = slot d v c').
  { intros v Hi. apply (vertex_inj d P); [eapply valid_dims; eauto|auto|unfold is_vec, slot; now rewrite map_length, seq_length..|].
    intros k Hk. assert (F := tT_slot d r P h c v k Hv Hc HP HF Hh Hi Hk). rewrite E, (tT_slot d r P h c' v k) in F by auto.
    assert (0 < nth v h 0). { rewrite Forall_forall in Hpos. apply Hpos, nth_In. lia. }
    unfold Rdiv in F. apply Rmult_eq_reg_r in F; auto. apply Rinv_neq_0_compat. lra. }
  apply (nth_ext _ _ 0 0); [lia|]. intros j Hj. rewrite Hc in Hj.
  destruct (index_cases d r j Hv Hj) as [(v & Hi & ->)|[(v & k & Hi & Hk & ->)|Hi]].
  - rewrite <- (tT_value d r P h c), <- (tT_value d r P h c') by auto. now rewrite E.
  - specialize (A v Hi). apply (f_equal (fun l => nth k l 0)) in A. unfold slot in A.
    now rewrite !nth_map_seq in A by auto.
  - rewrite <- (tT_inner d r P h c), <- (tT_inner d r P h c') by auto. now rewrite E.
Qed.
Lemma interpolate_length d r fe f df : valid d r -> length (interpolate d r fe f df) = size d r.
Proof. intros Hv. by_valid Hv; reflexivity. Qed.
Lemma refN_length d r p dp : valid d r -> length (refN d r p dp) = size d r.
Proof. intros Hv. by_valid Hv; reflexivity. Qed.
Lemma tT_length d r P h c : valid d r -> length c = size d r -> length (tT d r (bound_form d P h) c) = size d r.
Proof. intros Hv Hc. by_valid Hv; cbn [size] in Hc; vec_cases; reflexivity. Qed.
Lemma interpolate_value d r fe f df v : valid d r -> (v <= d)%nat -> nth (v * (d + 1)) (interpolate d r fe f df) 0 = f (vertex_position d v).
Proof. intros Hv Hi. by_valid Hv; upto 4%nat v ltac:(first [exfalso; lia | reflexivity]). Qed.
Lemma refN_value d r p dp v : valid d r -> (v <= d)%nat -> nth (v * (d + 1)) (refN d r p dp) 0 = p (vertex_position d v).
Proof. intros Hv Hi. by_valid Hv; upto 4%nat v ltac:(first [exfalso; lia | reflexivity]). Qed.
Lemma interpolate_slot d r fe f df v k : valid d r -> (v <= d)%nat -> (k < d)%nat ->
  nth (v * (d + 1) + 1 + k) (interpolate d r fe f df) 0 = nth k (df (vertex_position d v)) 0 * nth v (averageVertexMeshSize fe) 0.
Proof. intros Hv Hi Hk. by_valid Hv; upto 4%nat v ltac:(first [exfalso; lia | upto 3%nat k ltac:(first [exfalso; lia | reflexivity])]). Qed.
Lemma refN_slot d r p dp v k : valid d r -> (v <= d)%nat -> (k < d)%nat ->
  nth (v * (d + 1) + 1 + k) (refN d r p dp) 0 = dp k (vertex_position d v).
Proof. intros Hv Hi Hk. by_valid Hv; upto 4%nat v ltac:(first [exfalso; lia | upto 3%nat k ltac:(first [exfalso; lia | reflexivity])]). Qed.
Lemma interpolate_inner d r fe f df i : valid d r -> ((d + 1) * (d + 1) + i < size d r)%nat ->
  nth ((d + 1) * (d + 1) + i) (interpolate d r fe f df) 0 = f (inner_position d i).
Proof. intros Hv Hi. by_valid Hv; cbn in Hi; try lia; upto 4%nat i ltac:(first [exfalso; lia | reflexivity]). Qed.
Lemma refN_inner d r p dp i : valid d r -> ((d + 1) * (d + 1) + i < size d r)%nat ->
  nth ((d + 1) * (d + 1) + i) (refN d r p dp) 0 = p (inner_position d i).
Proof. intros Hv Hi. by_valid Hv; cbn in Hi; try lia; upto 4%nat i ltac:(first [exfalso; lia | reflexivity]). Qed.
Lemma dot_scaled t : forall n (a b : list R), length a = n -> dot (map (fun m => nth m a 0 * t) (seq 0 n)) b = t * dot a b.
Proof.
  induction n as [|n IH]; intros [|x a] b H; try discriminate; cbn [seq map].
  - rewrite !dot_nil_l. ring.
  - destruct b as [|y b]; [rewrite !dot_nil_r; ring|]. rewrite !dot_cons, <- seq_shift, map_map. cbn [nth]. rewrite IH by (cbn in H; lia). ring.
Qed.
Lemma tT_interpolate d r P h f df : valid d r -> length P = S d -> Forall (is_vec d) P -> length h = S d -> Forall (fun a => 0 < a) h ->
  (forall i, is_vec d (df (vertex_position d i))) ->
  tT d r (bound_form d P h) (interpolate d r (bound_form d P h) f df) = refN d r f (fun k x => dot (df x) (column P k)).
Proof.
  intros Hv HP HF Hh Hpos Hdf.
  assert (HL := interpolate_length d r (bound_form d P h) f df Hv).
  apply (nth_ext _ _ 0 0); [now rewrite tT_length, refN_length|]. intros j Hj. rewrite tT_length in Hj by auto.
  destruct (index_cases d r j Hv Hj) as [(v & Hi & ->)|[(v & k & Hi & Hk & ->)|Hi]].
  - now rewrite tT_value, interpolate_value, refN_value.
  - rewrite tT_slot, refN_slot by auto. unfold slot.
    rewrite (map_ext_in _ (fun m => nth m (df (vertex_position d v)) 0 * nth v h 0)) by (intros m Hm; apply in_seq in Hm; rewrite interpolate_slot by (auto; lia); reflexivity).
    rewrite dot_scaled by apply Hdf. field.
    assert (0 < nth v h 0); [|lra]. rewrite Forall_forall in Hpos. apply Hpos, nth_In. lia.
  - rewrite tT_inner by auto. replace j with ((d + 1) * (d + 1) + (j - (d + 1) * (d + 1)))%nat in * by lia. now rewrite interpolate_inner, refN_inner.
Qed.

(** the coefficients in terms of the reference shape functions *)
Lemma coefficients_ref d r P h fe u c : valid d r -> bound d P h fe -> length c = size d r ->
  has_coefficients d r P fe u c <-> (forall x, is_vec d x -> u (image d P x) = dot (tT d r (bound_form d P h) c) (phi d r x)).
Proof.
  intros Hv Hb Hc. apply bound_is in Hb. destruct Hb as ((HP & HF & _) & Hh & Hpos & ->). assert (Hd := valid_dims _ _ Hv). split.
  - intros [_ H] x Hx. destruct (H x Hx) as (w & E & ->). unfold evaluateFunction in E. rewrite ref_function in E by auto. cbn [obind] in E.
    destruct (transform_form d r P h (phi d r x) Hv HP HF Hh) as (w' & E' & _ & T); [unfold phi; now rewrite shape_length, coefficients_size|].
    rewrite E' in E. injection E as <-. now apply T.
  - intros H. split; [auto|]. intros x Hx. unfold evaluateFunction. rewrite ref_function by auto. cbn [obind].
    destruct (transform_form d r P h (phi d r x) Hv HP HF Hh) as (w' & E' & _ & T); [unfold phi; now rewrite shape_length, coefficients_size|].
    exists w'. split; auto. now rewrite T, H.
Qed.
Lemma image_is_vec d P x : valid d false \/ valid d true -> length P = S d -> Forall (is_vec d) P -> is_vec d x -> is_vec d (image d P x).
Proof. intros [H|H]; apply image_vec; eapply valid_dims; eauto. Qed.
(** a function with coefficients c and gradient g: its reference nodal values *)
Lemma nodal_ref d r P h fe u g c : valid d r -> bound d P h fe -> gradient d u g -> has_coefficients d r P fe u c ->
  refN d r (fun x => u (image d P x)) (fun k x => dot (g (image d P x)) (column P k)) = tT d r (bound_form d P h) c.
Proof.
  intros Hv Hb Hg H. assert (Hc : length c = size d r) by apply H. assert (Hd := valid_dims _ _ Hv).
  assert (H' := proj1 (coefficients_ref d r P h fe u c Hv Hb Hc) H). clear H. rename H' into H.
  apply bound_is in Hb. destruct Hb as ((HP & HF & _) & Hh & Hpos & ->).
  rewrite <- (ref_dual d r (tT d r (bound_form d P h) c) Hv) at 1.
  2: now apply tT_length.
  assert (D : forall x k, is_vec d x -> (k < d)%nat -> dot (g (image d P x)) (column P k) = dot (tT d r (bound_form d P h) c) (dphi d r k x)).
  { intros x k Hx Hk. apply (partial_unique (fun y => u (image d P y)) k x); [now apply (local_gradient d)|].
    eapply partial_ext; [|unfold is_vec in Hx; lia|apply phi_partial; auto]. intros z Hz. unfold is_vec in Hx. apply H. unfold is_vec. lia. }
  unfold refN. f_equal.
  - f_equal. apply map_ext_in. intros i Hi. f_equal; [apply H, vertex_vec|]. apply map_ext_in. intros k Hk. apply in_seq in Hk. apply D; [apply vertex_vec|lia].
  - destruct r; auto. destruct Hd as [-> | Hd]; [reflexivity|]. apply map_ext_in. intros i Hi. apply H, inner_vec, Hd.
Qed.
