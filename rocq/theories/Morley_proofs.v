(** The Morley element: closed form of bound elements, duality, interpolation. *)
From Coq Require Import Reals QArith Qreals Lra Lia List Arith Bool.
From Verif Require Import Lib MonomialSet_spec MonomialSet_props Nodal_spec Nodal_poly Nodal_rat Hermite_model Hermite_spec Hermite_proofs.
From Verif Require Import Triangle_spec Table2_model Table2_proofs Triangle_proofs Morley_model Morley_spec.
Import ListNotations.
Local Open Scope R_scope.
#[local] Arguments total : simpl never.

(** * Binding *)
Definition pattern (m : list (list R)) : Prop :=
  exists a b c d e f g h i j k l, m =
   [[a; 0; 0; b; c; 0]; [0; d; 0; e; 0; f]; [0; 0; g; 0; h; i]; [0; 0; 0; j; 0; 0]; [0; 0; 0; 0; k; 0]; [0; 0; 0; 0; 0; l]].
Definition matrix (G : geometry) (o : list bool) : list (list R) :=
  let b i := B_12 G i * l_inv G i in let s i := flip o i * B_11 G i in
  [[1; 0; 0; - b 0%nat; - b 1%nat; 0]; [0; 1; 0; b 0%nat; 0; - b 2%nat]; [0; 0; 1; 0; b 1%nat; b 2%nat];
   [0; 0; 0; s 0%nat; 0; 0]; [0; 0; 0; 0; s 1%nat; 0]; [0; 0; 0; 0; 0; s 2%nat]].
Definition bound_form (G : geometry) (o : list bool) : morley :=
  Morley (matrix G o) o (map (globalNormal G o) (seq 0 3)) (map midpoint_position (seq 0 3)) (map (vertex_position 2) (seq 0 3)).
Lemma fill_pattern m G o : pattern m -> fillMatrix m G o = Some (matrix G o).
Proof.
  intros (a & b & c & d & e & f & g & h & i & j & k & l & ->).
  assert (E : fillMatrix [[a; 0; 0; b; c; 0]; [0; d; 0; e; 0; f]; [0; 0; g; 0; h; i]; [0; 0; 0; j; 0; 0]; [0; 0; 0; 0; k; 0]; [0; 0; 0; 0; 0; l]] G o =
    Some [[1; 0; 0; -1 * B_12 G 0 * l_inv G 0; -1 * -1 * -1 * B_12 G 1 * l_inv G 1; 0];
          [0; 1; 0; -1 * -1 * B_12 G 0 * l_inv G 0; 0; -1 * -1 * -1 * -1 * -1 * B_12 G 2 * l_inv G 2];
          [0; 0; 1; 0; -1 * -1 * -1 * -1 * B_12 G 1 * l_inv G 1; -1 * -1 * -1 * -1 * -1 * -1 * B_12 G 2 * l_inv G 2];
          [0; 0; 0; flip o 0 * B_11 G 0; 0; 0]; [0; 0; 0; 0; flip o 1 * B_11 G 1; 0]; [0; 0; 0; 0; 0; flip o 2 * B_11 G 2]]) by reflexivity.
  rewrite E. unfold matrix. f_equal. repeat (apply cons_eq; [repeat (apply cons_eq; [ring|]); reflexivity|]). reflexivity.
Qed.
Lemma matrix_pattern G o : pattern (matrix G o).
Proof. unfold matrix, pattern. do 12 eexists. reflexivity. Qed.
Lemma bind_pattern fe o G : pattern (mat fe) -> bind fe o G = Some (bound_form G o).
Proof. intros H. unfold bind. now rewrite fill_pattern. Qed.
Lemma reachable_pattern fe : reachable fe -> pattern (mat fe).
Proof.
  induction 1 as [|fe data G fe' H IH E].
  - cbn. do 12 eexists. reflexivity.
  - rewrite bind_pattern in E by auto. injection E as <-. apply matrix_pattern.
Qed.
Lemma bind_reachable fe o G : reachable fe -> bind fe o G = Some (bound_form G o).
Proof. intros H. now apply bind_pattern, reachable_pattern. Qed.
Lemma bound_is P o fe : bound P o fe -> exists G, simplex 2 P /\ affine_geometry 2 P G /\ length o = 3%nat /\ fe = bound_form G o.
Proof. intros (fe0 & G & Hr & HS & HG & Ho & E). exists G. rewrite bind_reachable in E by auto. injection E as <-. auto. Qed.

(** * The reference element *)
Definition qcoeff : list (list Q) :=
  [[1; -1; -1; 0; 2; 0]; [0; 1#2; 1#2; 1#2; -1; -1#2]; [0; 1#2; 1#2; -1#2; -1; 1#2]; [0; 0; 1; 0; 0; -1]; [0; -1; 0; 1; 0; 0]; [0; 1; 1; -1; -2; -1]]%Q.
Definition scales : list R := [1; 1; 1; 1; 1; 1/2 * sqrt 2].
Lemma coefficients_rational : coefficients = scaled scales (map rv qcoeff).
Proof.
  unfold coefficients, scaled, scales, qcoeff, rv, vscale, Q2R. cbn -[Rplus Rmult Rdiv Rminus Ropp sqrt].
  repeat (apply cons_eq; [repeat (apply cons_eq; [field|]); reflexivity|]). reflexivity.
Qed.
Definition qmid (i : nat) : list Q := match i with 0%nat => [1#2; 0] | 1%nat => [0; 1#2] | _ => [1#2; 1#2] end%Q.
Definition nodes : list node :=
  [[(1%Q, [], qvertex 2 0)]; [(1%Q, [], qvertex 2 1)]; [(1%Q, [], qvertex 2 2)];
   [(1%Q, [1%nat], qmid 0)]; [((-1)%Q, [0%nat], qmid 1)]; [((-1#2)%Q, [0%nat], qmid 2); ((-1#2)%Q, [1%nat], qmid 2)]].
Definition sh (ks : list nat) (x : list R) : list R := shape (texps 2) (map rv qcoeff) ks x.
(** the coefficients of the pull-back with respect to the (rational) shape functions *)
Definition pull (G : geometry) (o : list bool) (c : list R) : list R := times scales (comb 6 c (matrix G o)).
Lemma matrix_rows G o : Forall (fun r => length r = 6%nat) (matrix G o).
Proof. repeat constructor. Qed.
Lemma element_values G o ks x c : length c = 6%nat ->
  dot c (elem 2 coefficients (matrix G o) ks x) = dot (pull G o c) (sh ks x).
Proof.
  intros Hc. rewrite (dot_elem 2 coefficients (matrix G o) ks x c 6) by (auto using matrix_rows).
  rewrite coefficients_rational, shape_scaled by reflexivity. unfold pull, sh. apply dot_times; [reflexivity|]. now rewrite comb_length by apply matrix_rows.
Qed.
Lemma eval_function G o x : is_vec 2 x -> evaluateFunction (bound_form G o) x = Some (elem 2 coefficients (matrix G o) [] x).
Proof.
  intros Hx. unfold evaluateFunction. rewrite table_function by (auto; now left). cbn [obind]. unfold transform. rewrite shape_length. cbn [bound_form mat length coefficients matrix Nat.eqb].
  f_equal. unfold mv, elem. apply map_ext. intros row. apply row_times_dot.
Qed.
Lemma eval_jacobian G o x k : is_vec 2 x -> (k < 2)%nat -> evaluateJacobian (bound_form G o) x k = Some (elem 2 coefficients (matrix G o) [k] x).
Proof.
  intros Hx Hk. unfold evaluateJacobian. rewrite table_jacobian by (auto; now left). cbn [obind]. unfold transform. rewrite shape_length. cbn [bound_form mat length coefficients matrix Nat.eqb].
  f_equal. unfold mv, elem. apply map_ext. intros row. apply row_times_dot.
Qed.
Lemma eval_hessian G o x k l : is_vec 2 x -> (k < 2)%nat -> (l < 2)%nat -> evaluateHessian (bound_form G o) x k l = Some (elem 2 coefficients (matrix G o) [k; l] x).
Proof.
  intros Hx Hk Hl. unfold evaluateHessian. rewrite table_hessian by (auto; now left). cbn [obind]. unfold transform. rewrite shape_length. cbn [bound_form mat length coefficients matrix Nat.eqb].
  f_equal. unfold mv, elem. apply map_ext. intros row. apply row_times_dot.
Qed.
Lemma coefficients_ref P G o u c : length c = 6%nat ->
  has_coefficients P (bound_form G o) u c <-> (forall x, is_vec 2 x -> u (image 2 P x) = dot (pull G o c) (sh [] x)).
Proof.
  intros Hc. split.
  - intros [_ H] x Hx. destruct (H x Hx) as (w & E & ->). rewrite eval_function in E by auto. assert (W : elem 2 coefficients (matrix G o) [] x = w) by congruence. rewrite <- W. rewrite element_values by auto. reflexivity.
  - intros H. split; auto. intros x Hx. eexists. split; [now apply eval_function|]. rewrite element_values by auto. auto.
Qed.
Lemma pull_length G o c : length (pull G o c) = 6%nat.
Proof. unfold pull. rewrite times_length; rewrite comb_length by apply matrix_rows; reflexivity. Qed.

(** * Nodal values of the reference element *)
Lemma dual v : length v = 6%nat ->
  map (fun N => apply_node N (fun x => dot v (sh [] x)) (fun k x => dot v (sh [k] x)) (fun k l x => dot v (sh [k; l] x))) nodes = v.
Proof. intros H. apply dual_ok; [vm_compute; reflexivity|exact H]. Qed.
Lemma reproduce p ks x : Forall (fun t => length (snd t) = 2%nat /\ (degree (snd t) <= 2)%nat) p ->
  dot (map (fun N => apply_node N (poly p) (dpoly p) (ddpoly p)) nodes) (sh ks x) = poly_at ks p x.
Proof.
  intros Hp. apply reproduce_poly; [vm_compute; reflexivity|]. intros t Ht. rewrite Forall_forall in Hp. destruct (Hp t Ht) as [HL HD].
  apply (check_monos_ok _ _ _ 2); [vm_compute; reflexivity| |exact HD]. apply texps_all; auto. now left.
Qed.
(** the derivative along an edge, at its midpoint *)
Lemma along v : length v = 6%nat ->
  dot v (sh [0%nat] (midpoint_position 0)) = nth 1 v 0 - nth 0 v 0 /\
  dot v (sh [1%nat] (midpoint_position 1)) = nth 2 v 0 - nth 0 v 0 /\
  dot v (sh [1%nat] (midpoint_position 2)) - dot v (sh [0%nat] (midpoint_position 2)) = nth 2 v 0 - nth 1 v 0.
Proof.
  intros H. do 6 (destruct v as [|? v]; [discriminate|]). destruct v; [|discriminate].
  assert (M : forall i, midpoint_position i = rv (qmid i)).
  { intros [|[|i]]; unfold midpoint_position, qmid, rv, Q2R; cbn -[Rdiv Rmult Rinv]; repeat (apply cons_eq; [field|]); reflexivity. }
  rewrite !M. unfold sh. rewrite !shape_rv.
  split; [|split];
  repeat match goal with |- context [map (fun row => qdot row ?l) qcoeff] => let r := eval vm_compute in (map (fun row => qdot row l) qcoeff) in change (map (fun row => qdot row l) qcoeff) with r end; unfold rv, dot, total, Q2R; cbn -[Rplus Rmult Rminus Rinv]; field.
Qed.

(** * The transformation in terms of the triangle *)
Lemma tangent_is P G i : simplex 2 P -> affine_geometry 2 P G -> (i < 3)%nat ->
  l_inv G i = / plen P i /\ globalTangent G i = [nth 0 (pedge P i) 0 / plen P i; nth 1 (pedge P i) 0 / plen P i].
Proof.
  intros HS HG Hi. assert (HL := plen_pos P i HS). destruct HS as (HP & HF & _).
  assert (E : l_inv G i = / plen P i) by (unfold l_inv; rewrite (edge_is P) by auto; rewrite norm_is by auto; field; lra).
  split; auto. unfold globalTangent. rewrite E, (edge_is P) by auto. reflexivity.
Qed.
Lemma jacobianTransposed_is P G k m : affine_geometry 2 P G -> (k < 2)%nat -> (m < 2)%nat -> jacobianTransposed G centre k m = nth m (column P k) 0.
Proof.
  intros HG Hk Hm. unfold jacobianTransposed. rewrite (proj2 (HG centre eq_refl)). destruct k as [|[|]], m as [|[|]]; try lia; reflexivity.
Qed.
Lemma B_is P G i : simplex 2 P -> affine_geometry 2 P G -> (i < 3)%nat ->
  B_11 G i = cross (pedge P i) (pnormal P i) / plen P i /\ B_12 G i = dot2 (pedge P i) (pnormal P i) / plen P i.
Proof.
  intros HS HG Hi. assert (HL := plen_pos P i HS). destruct (tangent_is P G i HS HG Hi) as [_ T]. destruct HS as (HP & HF & _).
  unfold B_11, B_12. rewrite T. rewrite !(jacobianTransposed_is P) by (auto; lia). clear T.
  assert (Q := sqrt2_pos). destruct reference_tangents as (T0 & T1 & T2).
  revert HL. generalize (plen P i). intros L HL. unfold cross, dot2.
  revert i Hi. apply three_cases; rewrite ?T0, ?T1, ?T2; clear - HP HF HL Q; vec_cases; unfold pnormal, pedge, column, vsub, vadd, vscale; cbn -[Rplus Rmult Rminus Rdiv Ropp sqrt]; split; field; lra.
Qed.
(** the pull-back of the function with coefficients c *)
Lemma pull_form P G o c : simplex 2 P -> affine_geometry 2 P G -> length c = 6%nat ->
  (forall i, (i < 3)%nat -> nth i (pull G o c) 0 = nth i c 0) /\
  forall i, (i < 3)%nat -> nth (3 + i) (pull G o c) 0 = nth (3 + i) scales 0 *
    (flip o i * (cross (pedge P i) (pnormal P i) / plen P i) * nth (3 + i) c 0
     + dot2 (pedge P i) (pnormal P i) / plen P i * ((nth (snd (edge_vertices i)) c 0 - nth (fst (edge_vertices i)) c 0) / plen P i)).
Proof.
  intros HS HG Hc. split.
  - apply three_cases; do 6 (destruct c as [|? c]; [discriminate|]); (destruct c; [|discriminate]);
      unfold pull, times, scales, comb, matrix, vadd, vscale; cbn -[Rplus Rmult Rminus Rdiv Ropp sqrt]; ring.
  - intros i Hi. destruct (B_is P G i HS HG Hi) as [<- <-]. destruct (tangent_is P G i HS HG Hi) as [L _].
    unfold Rdiv at 1. rewrite <- L. clear - Hc Hi. do 6 (destruct c as [|? c]; [discriminate|]). destruct c; [|discriminate].
    revert i Hi. apply three_cases; unfold pull, times, scales, comb, matrix, vadd, vscale; cbn -[Rplus Rmult Rminus Rdiv Ropp sqrt]; ring.
Qed.
(** nodal values of the pull-back of a function with gradient g *)
Definition pvalues (P : list (list R)) (u : list R -> R) (g : list R -> list R) : list R :=
  map (fun i => u (nth i P [])) (seq 0 3) ++ map (fun i => nth (3 + i) scales 0 * dot2 (g (edge_midpoint P i)) (pnormal P i)) (seq 0 3).
Lemma nodes_values P u g (dd : nat -> nat -> list R -> R) : length P = 3%nat -> Forall (is_vec 2) P -> (forall z, is_vec 2 z -> is_vec 2 (g z)) ->
  map (fun N => apply_node N (fun x => u (image 2 P x)) (fun k x => dot (g (image 2 P x)) (column P k)) dd) nodes = pvalues P u g.
Proof.
  intros HP HF Hg. assert (M : forall i, (i < 3)%nat -> rv (qmid i) = midpoint_position i).
  { intros i _. destruct i as [|[|i]]; unfold midpoint_position, qmid, rv, Q2R; cbn -[Rdiv Rmult Rinv]; repeat (apply cons_eq; [field|]); reflexivity. }
  assert (Q := sqrt2_pos). assert (Q2 := sqrt2_sq).
  assert (D : dims 2) by (right; now left).
  assert (VM : forall i, (i < 3)%nat -> is_vec 2 (g (edge_midpoint P i))).
  { intros i Hi. rewrite <- image_midpoint by auto. apply Hg, image_vec; auto. apply midpoint_vec. }
  unfold nodes, pvalues, apply_node. cbn [map seq app fst snd derivs].
  rewrite <- !vertex_rv. rewrite (M 0%nat), (M 1%nat), (M 2%nat) by lia. rewrite !image_vertex2 by (auto; lia). rewrite (image_midpoint P 0), (image_midpoint P 1), (image_midpoint P 2) by (auto; lia).
  assert (V0 := VM 0%nat ltac:(lia)). assert (V1 := VM 1%nat ltac:(lia)). assert (V2 := VM 2%nat ltac:(lia)).
  destruct (g (edge_midpoint P 0)) as [|p0 [|q0 [|]]]; try discriminate. destruct (g (edge_midpoint P 1)) as [|p1 [|q1 [|]]]; try discriminate. destruct (g (edge_midpoint P 2)) as [|p2 [|q2 [|]]]; try discriminate.
  clear - HP HF Q Q2. unfold Q2R. cbn -[Rplus Rmult Rminus Rdiv Ropp sqrt Rinv nth].
  vec_cases. unfold dot, dot2, pnormal, column, vsub, vadd, vscale. unfold total. cbn -[Rplus Rmult Rminus Rdiv Ropp sqrt Rinv].
  repeat (apply cons_eq; [field; lra|]); reflexivity.
Qed.
(** the derivative along an edge of a function whose pull-back is a combination of shape functions *)
Lemma along_edge P u g v i : length P = 3%nat -> Forall (is_vec 2) P -> gradient 2 u g -> length v = 6%nat ->
  (forall x, is_vec 2 x -> u (image 2 P x) = dot v (sh [] x)) -> (i < 3)%nat ->
  dot2 (g (edge_midpoint P i)) (pedge P i) = nth (snd (edge_vertices i)) v 0 - nth (fst (edge_vertices i)) v 0.
Proof.
  intros HP HF Hg Hv H Hi. assert (D : dims 2) by (right; now left).
  destruct (along v Hv) as (A0 & A1 & A2).
  assert (K : forall i k, (i < 3)%nat -> (k < 2)%nat -> dot (g (edge_midpoint P i)) (column P k) = dot v (sh [k] (midpoint_position i))).
  { intros j k Hj Hk. rewrite <- image_midpoint by auto. apply (pulled_d 2 _ P u); auto; [now left|apply midpoint_vec]. }
  assert (V : forall i, (i < 3)%nat -> is_vec 2 (g (edge_midpoint P i))).
  { intros j Hj. rewrite <- image_midpoint by auto. apply Hg, image_vec; auto. apply midpoint_vec. }
  rewrite <- (K 0%nat) in A0 by lia. rewrite <- (K 1%nat) in A1 by lia. rewrite <- !(K 2%nat) in A2 by lia.
  specialize (V i Hi). destruct i as [|[|[|i]]]; [..|lia]; cbn [edge_vertices fst snd];
  [rewrite <- A0|rewrite <- A1|rewrite <- A2]; clear - HP HF V; match goal with |- context [g ?z] => destruct (g z) as [|p [|q [|]]]; try discriminate end;
  vec_cases; unfold dot, dot2, pedge, column, vsub; unfold total; cbn -[Rplus Rmult Rminus]; ring.
Qed.
(** * Interpolation *)
Definition target (P : list (list R)) (o : list bool) (u : list R -> R) (g : list R -> list R) : list R :=
  map (fun i => u (nth i P [])) (seq 0 3) ++ map (fun i => dot2 (g (edge_midpoint P i)) (edge_normal P o i)) (seq 0 3).
Lemma interpolate_is P G o u g : simplex 2 P -> affine_geometry 2 P G ->
  interpolate (bound_form G o) (fun x => u (image 2 P x)) (fun x => g (image 2 P x)) = target P o u g.
Proof.
  intros HS HG. destruct HS as (HP & HF & HO). unfold interpolate, target. cbn [bound_form localVertices localMidpoints globalNormals].
  cbn [map seq nth app]. rewrite !image_vertex2 by (auto; lia). rewrite !image_midpoint by (auto; lia).
  rewrite (proj1 (normal_is P G o 0 (conj HP (conj HF HO)) HG ltac:(lia))), (proj1 (normal_is P G o 1 (conj HP (conj HF HO)) HG ltac:(lia))), (proj1 (normal_is P G o 2 (conj HP (conj HF HO)) HG ltac:(lia))). reflexivity.
Qed.
Lemma nth_target P o u g : (forall i, (i < 3)%nat -> nth i (target P o u g) 0 = u (nth i P [])) /\
  forall i, (i < 3)%nat -> nth (3 + i) (target P o u g) 0 = dot2 (g (edge_midpoint P i)) (edge_normal P o i).
Proof. split; apply three_cases; reflexivity. Qed.
Lemma scales_nz i : (i < 3)%nat -> nth (3 + i) scales 0 <> 0.
Proof. assert (Q := sqrt2_pos). revert i. apply three_cases; cbn; lra. Qed.
Lemma six_ext a b : length a = 6%nat -> length b = 6%nat -> (forall i, (i < 3)%nat -> nth i a 0 = nth i b 0) -> (forall i, (i < 3)%nat -> nth (3 + i) a 0 = nth (3 + i) b 0) -> a = b.
Proof.
  intros Ha Hb H1 H2. apply (nth_ext _ _ 0 0); [lia|]. intros i Hi. destruct (Nat.lt_ge_cases i 3) as [L|L]; [auto|]. replace i with (3 + (i - 3))%nat by lia. apply H2. lia.
Qed.
(** the functional of an edge: equivalence of the reference and the global one *)
Lemma edge_equiv P o (g : list R -> list R) z c d i : simplex 2 P -> (i < 3)%nat -> is_vec 2 (g z) -> dot2 (g z) (pedge P i) = d ->
  (dot2 (g z) (pnormal P i) = flip o i * (cross (pedge P i) (pnormal P i) / plen P i) * c + dot2 (pedge P i) (pnormal P i) / plen P i * (d / plen P i)
   <-> c = dot2 (g z) (edge_normal P o i)).
Proof.
  intros HS Hi Hg Hd. assert (HL := plen_pos P i HS). assert (HQ := plen_sq P i HS). assert (HC := cross_nz P i HS).
  assert (E := edge_solve (nth 0 (pedge P i) 0) (nth 1 (pedge P i) 0) (nth 0 (pnormal P i) 0) (nth 1 (pnormal P i) 0) (plen P i)
    (nth 0 (g z) 0) (nth 1 (g z) 0) (flip o i) c (d / plen P i)
    (flip o i * (cross (pedge P i) (pnormal P i) / plen P i) * c + dot2 (pedge P i) (pnormal P i) / plen P i * (d / plen P i))
    HL HQ HC (flip_sq o i) eq_refl).
  unfold dot2 at 1. rewrite E.
  - assert (N : edge_normal P o i = [- (flip o i * (nth 1 (pedge P i) 0 / plen P i)); flip o i * (nth 0 (pedge P i) 0 / plen P i)]).
    { destruct (normal_is P (Geo (image 2 P) (fun _ => map (fun m => map (fun k => nth m (vsub (nth (S k) P []) (nth 0 P [])) 0) (seq 0 2)) (seq 0 2))) o i) as [A B]; auto.
      - intros x _. split; reflexivity.
      - now rewrite <- A. }
    rewrite N. unfold dot2. cbn [nth]. split; intros ->; field; lra.
  - rewrite <- Hd. unfold dot2. field. lra.
Qed.
Lemma midpoint_is_vec P i : length P = 3%nat -> Forall (is_vec 2) P -> (i < 3)%nat -> is_vec 2 (edge_midpoint P i).
Proof. intros HP HF Hi. rewrite <- image_midpoint by auto. apply image_vec; auto; [right; now left|apply midpoint_vec]. Qed.
(** the coefficients of a function are the functionals applied to it *)
Lemma coefficients_target P G o u g c : simplex 2 P -> affine_geometry 2 P G -> gradient 2 u g ->
  has_coefficients P (bound_form G o) u c -> c = target P o u g.
Proof.
  intros HS HG Hg H. assert (Hc : length c = 6%nat) by apply H. assert (H' := proj1 (coefficients_ref P G o u c Hc) H). clear H.
  assert (HS' := HS). destruct HS' as (HP & HF & _).
  assert (N : pvalues P u g = pull G o c).
  { rewrite <- (dual (pull G o c)) by apply pull_length. rewrite <- (nodes_values P u g (fun k l x => dot (pull G o c) (sh [k; l] x)) HP HF) by (intros z Hz; now apply Hg).
    apply map_ext_in. intros M HM. apply node_ext. intros t Ht.
    assert (V : is_vec 2 (rv (snd t)) /\ forall k, In k (snd (fst t)) -> (k < 2)%nat).
    { clear - HM Ht. cbn in HM. repeat (destruct HM as [<-|HM]; [cbn in Ht; repeat (destruct Ht as [<-|Ht]; [split; [reflexivity|cbn; intros k Hk; intuition lia]|]); destruct Ht|]). destruct HM. }
    destruct V as [V1 V2]. destruct (snd (fst t)) as [|k [|l ks]]; cbn [derivs]; [now apply H'| |reflexivity].
    apply (pulled_d 2 _ P u); auto; [now left|apply V2; now left]. }
  destruct (pull_form P G o c HS HG Hc) as [F1 F2]. rewrite <- N in F1, F2.
  destruct (nth_target P o u g) as [T1 T2].
  apply six_ext; auto.
  - intros i Hi. rewrite T1 by auto. rewrite <- F1 by auto. revert i Hi. apply three_cases; reflexivity.
  - intros i Hi. rewrite T2 by auto. specialize (F2 i Hi).
    assert (E : nth (3 + i) (pvalues P u g) 0 = nth (3 + i) scales 0 * dot2 (g (edge_midpoint P i)) (pnormal P i)) by (clear - Hi; revert i Hi; apply three_cases; reflexivity).
    rewrite E in F2. apply Rmult_eq_reg_l in F2; [|now apply scales_nz].
    apply (edge_equiv P o g (edge_midpoint P i) (nth (3 + i) c 0) (nth (snd (edge_vertices i)) c 0 - nth (fst (edge_vertices i)) c 0) i HS Hi); auto.
    + apply Hg. now apply midpoint_is_vec.
    + rewrite (along_edge P u g (pull G o c) i HP HF Hg (pull_length G o c) H' Hi). rewrite <- N, !F1; [reflexivity|destruct i as [|[|[|i]]]; cbn; lia..].
Qed.
(** and quadratic polynomials have these coefficients *)
Lemma target_coefficients P G o u g : simplex 2 P -> affine_geometry 2 P G -> polynomial 2 2 u -> gradient 2 u g ->
  has_coefficients P (bound_form G o) u (target P o u g).
Proof.
  intros HS HG Hu Hg. assert (HS' := HS). destruct HS' as (HP & HF & _). assert (D : dims 2) by (right; now left).
  destruct (poly_image 2 2 P u D HP HF Hu) as (p & Hp & E).
  assert (Hp' : Forall (fun t : R * list nat => length (snd t) = 2%nat) p) by (eapply Forall_impl; [|exact Hp]; cbn; tauto).
  set (v := map (fun N => apply_node N (poly p) (dpoly p) (ddpoly p)) nodes).
  assert (Hv : v = pvalues P u g).
  { rewrite <- (nodes_values P u g (ddpoly p) HP HF) by (intros z Hz; now apply Hg). unfold v. apply map_ext_in. intros M HM. apply node_ext. intros t Ht.
    assert (V : is_vec 2 (rv (snd t)) /\ forall k, In k (snd (fst t)) -> (k < 2)%nat).
    { clear - HM Ht. cbn in HM. repeat (destruct HM as [<-|HM]; [cbn in Ht; repeat (destruct Ht as [<-|Ht]; [split; [reflexivity|cbn; intros k Hk; intuition lia]|]); destruct Ht|]). destruct HM. }
    destruct V as [V1 V2]. destruct (snd (fst t)) as [|k [|l ks]]; cbn [derivs]; [symmetry; now apply E| |reflexivity].
    apply (poly_pulled_d P u g); auto. apply V2. now left. }
  assert (R : forall x, is_vec 2 x -> u (image 2 P x) = dot v (sh [] x)).
  { intros x Hx. rewrite E by auto. symmetry. apply (reproduce p [] x Hp). }
  apply coefficients_ref; [reflexivity|]. intros x Hx. rewrite R by auto. f_equal. rewrite Hv.
  destruct (pull_form P G o (target P o u g) HS HG eq_refl) as [F1 F2]. destruct (nth_target P o u g) as [T1 T2].
  apply six_ext; [reflexivity|apply pull_length| |].
  - intros i Hi. rewrite F1, T1 by auto. revert i Hi. apply three_cases; reflexivity.
  - intros i Hi. rewrite F2 by auto.
    assert (Ev : nth (3 + i) (pvalues P u g) 0 = nth (3 + i) scales 0 * dot2 (g (edge_midpoint P i)) (pnormal P i)) by (clear F1 F2; revert i Hi; apply three_cases; reflexivity).
    rewrite Ev. f_equal.
    apply (edge_equiv P o g (edge_midpoint P i) (nth (3 + i) (target P o u g) 0) _ i HS Hi).
    + apply Hg. now apply midpoint_is_vec.
    + rewrite (along_edge P u g v i HP HF Hg eq_refl R Hi). rewrite Hv. clear - Hi. revert i Hi. apply three_cases; reflexivity.
    + now apply T2.
Qed.
