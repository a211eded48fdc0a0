(** The Argyris element: closed form of bound elements, duality, interpolation. *)
From Coq Require Import Reals QArith Qreals Lra Lia List Arith Bool.
From Verif Require Import Lib MonomialSet_spec MonomialSet_props Nodal_spec Nodal_poly Nodal_rat Hermite_model Hermite_spec Hermite_proofs.
From Verif Require Morley_proofs.
From Verif Require Import Triangle_spec Table2_model Table2_proofs Triangle_proofs Argyris_model Argyris_spec.
Import ListNotations.
Local Open Scope R_scope.
#[local] Arguments total : simpl never.

(** * The transformation and its transpose *)
Section Transpose.
Variables (b J th : nat -> nat -> nat -> R) (h o l : nat -> R) (t ta : nat -> nat -> R).
(** the derivative along edge i, with vertices f and s *)
Definition along_of (c : nat -> R) (i f s : nat) : R :=
  15/8 * (c (6 * s)%nat - c (6 * f)%nat) / l i
  - 7/16 * (t i 0%nat * (c (6 * f + 1)%nat / h f + c (6 * s + 1)%nat / h s) + t i 1%nat * (c (6 * f + 2)%nat / h f + c (6 * s + 2)%nat / h s))
  + 1/32 * l i * (ta i 0%nat * (c (6 * s + 3)%nat / h s / h s - c (6 * f + 3)%nat / h f / h f)
                + ta i 1%nat * (c (6 * s + 4)%nat / h s / h s - c (6 * f + 4)%nat / h f / h f)
                + ta i 2%nat * (c (6 * s + 5)%nat / h s / h s - c (6 * f + 5)%nat / h f / h f)).
Definition vertex_of (c : nat -> R) (i : nat) : list R :=
  [c (6 * i)%nat; (J i 0%nat 0%nat * c (6 * i + 1)%nat + J i 1%nat 0%nat * c (6 * i + 2)%nat) / h i;
   (J i 0%nat 1%nat * c (6 * i + 1)%nat + J i 1%nat 1%nat * c (6 * i + 2)%nat) / h i;
   (th i 0%nat 0%nat * c (6 * i + 3)%nat + th i 1%nat 0%nat * c (6 * i + 4)%nat + th i 2%nat 0%nat * c (6 * i + 5)%nat) / h i / h i;
   (th i 0%nat 1%nat * c (6 * i + 3)%nat + th i 1%nat 1%nat * c (6 * i + 4)%nat + th i 2%nat 1%nat * c (6 * i + 5)%nat) / h i / h i;
   (th i 0%nat 2%nat * c (6 * i + 3)%nat + th i 1%nat 2%nat * c (6 * i + 4)%nat + th i 2%nat 2%nat * c (6 * i + 5)%nat) / h i / h i].
Definition edge_of (c : nat -> R) (i f s : nat) : R := o i * b i 0%nat 0%nat * c (18 + i)%nat + b i 1%nat 0%nat * along_of c i f s.
Definition back (c : nat -> R) : list R :=
  vertex_of c 0 ++ vertex_of c 1 ++ vertex_of c 2 ++ [edge_of c 0 0 1; edge_of c 1 0 2; edge_of c 2 1 2].
End Transpose.
Definition back_of (fe : argyris) (c : list R) : list R :=
  back (fun i => entry (nth i (bmat fe) [])) (fun i => entry (nth i (vertexJacobians fe) [])) (fun i => entry (nth i (theta fe) []))
    (fun i => nth i (averageVertexMeshSize fe) 0) (fun i => if nth i (edgeOrientation fe) false then -1 else 1) (fun i => nth i (len fe) 0)
    (fun i j => nth j (nth i (globalTangents fe) []) 0) (fun i j => nth j (nth i (tau fe) []) 0) (fun i => nth i c 0).
Lemma transform_dot fe v c : length v = 21%nat -> length c = 21%nat ->
  exists w, transform fe v = Some w /\ length w = 21%nat /\ dot c w = dot (back_of fe c) v.
Proof.
  intros Hv Hc. unfold transform, size. rewrite Hv. cbn [Nat.eqb]. eexists. split; [reflexivity|]. split; [reflexivity|].
  unfold back_of.
  do 21 (destruct v as [|? v]; [discriminate|]). destruct v; [|discriminate]. do 21 (destruct c as [|? c]; [discriminate|]). destruct c; [|discriminate].
  unfold back, vertex_of, edge_of, along_of. unfold dot, total. cbn -[Rplus Rmult Rminus Rdiv Ropp IZR].
  unfold Rdiv. ring.
Qed.

(** * Binding *)
Definition bound_form (G : geometry) (h : list R) (o : list bool) : argyris :=
  let Js := map (fun i => geo_jacobian G (vertex_position 2 i)) (seq 0 3) in
  Argyris Js (map theta_of Js) (map (edge_length G) (seq 0 3)) (map (globalTangent G) (seq 0 3)) (map (tau_of G) (seq 0 3)) (map (b_of G) (seq 0 3))
          h o (map (globalNormal G o) (seq 0 3)) (map midpoint_position (seq 0 3)) (map (vertex_position 2) (seq 0 3)).
Lemma bound_is P h o fe : bound P h o fe -> exists G, simplex 2 P /\ affine_geometry 2 P G /\ length h = 3%nat /\ Forall (fun a => 0 < a) h /\ length o = 3%nat /\ fe = bound_form G h o.
Proof.
  intros (G & si & sizes & index & os & HS & HG & Hh & Hp & Ho & Hs & Hi & E). exists G. repeat (split; [assumption|]).
  unfold bind in E. cbn [map seq] in E. rewrite !Hs in E by lia. clear Hp. do 3 (destruct h as [|? h]; [discriminate|]). destruct h; [|discriminate].
  cbn [nth_error all_of obind] in E. rewrite Hi in E. cbn [obind] in E. injection E as <-. reflexivity.
Qed.
Lemma bind_is si sizes index os G h o : length h = 3%nat -> (forall i, (i < 3)%nat -> nth_error sizes (si i) = nth_error h i) -> nth_error os index = Some o ->
  bind si sizes index os G = Some (bound_form G h o).
Proof.
  intros Hh Hs Hi. unfold bind. cbn [map seq]. rewrite !Hs by lia. do 3 (destruct h as [|? h]; [discriminate|]). destruct h; [|discriminate].
  cbn [nth_error all_of obind]. rewrite Hi. reflexivity.
Qed.

(** * The reference element *)
Definition qcoeff : list (list Q) :=
  [[1; 0; 0; 0; 0; 0; -10; 0; 0; -10; 15; 0; -30; 0; 15; -6; 0; 30; 30; 0; -6];
   [0; 1; 0; 0; 0; 0; -6; 0; -11; 0; 8; 0; 10; 18; 0; -3; 0; 1; -10; -8; 0];
   [0; 0; 1; 0; 0; 0; 0; -11; 0; -6; 0; 18; 10; 0; 8; 0; -8; -10; 1; 0; -3];
   [0; 0; 0; 1#2; 0; 0; -3#2; 0; 0; 0; 3#2; 0; -3#2; 0; 0; -1#2; 0; 3#2; 1; 0; 0];
   [0; 0; 0; 0; 1; 0; 0; -4; -4; 0; 0; 5; 10; 5; 0; 0; -2; -6; -6; -2; 0];
   [0; 0; 0; 0; 0; 1#2; 0; 0; 0; -3#2; 0; 0; -3#2; 0; 3#2; 0; 0; 1; 3#2; 0; -1#2];
   [0; 0; 0; 0; 0; 0; 10; 0; 0; 0; -15; 0; 15; 0; 0; 6; 0; -15; -15; 0; 0];
   [0; 0; 0; 0; 0; 0; -4; 0; 0; 0; 7; 0; -7#2; 0; 0; -3; 0; 7#2; 7#2; 0; 0];
   [0; 0; 0; 0; 0; 0; 0; -5; 0; 0; 0; 14; 37#2; 0; 0; 0; -8; -37#2; -27#2; 0; 0];
   [0; 0; 0; 0; 0; 0; 1#2; 0; 0; 0; -1; 0; 1#4; 0; 0; 1#2; 0; -1#4; -1#4; 0; 0];
   [0; 0; 0; 0; 0; 0; 0; 1; 0; 0; 0; -3; -7#2; 0; 0; 0; 2; 7#2; 5#2; 0; 0];
   [0; 0; 0; 0; 0; 0; 0; 0; 0; 0; 0; 0; 5#4; 0; 0; 0; 0; -3#4; -5#4; 0; 0];
   [0; 0; 0; 0; 0; 0; 0; 0; 0; 10; 0; 0; 15; 0; -15; 0; 0; -15; -15; 0; 6];
   [0; 0; 0; 0; 0; 0; 0; 0; -5; 0; 0; 0; 37#2; 14; 0; 0; 0; -27#2; -37#2; -8; 0];
   [0; 0; 0; 0; 0; 0; 0; 0; 0; -4; 0; 0; -7#2; 0; 7; 0; 0; 7#2; 7#2; 0; -3];
   [0; 0; 0; 0; 0; 0; 0; 0; 0; 0; 0; 0; 5#4; 0; 0; 0; 0; -5#4; -3#4; 0; 0];
   [0; 0; 0; 0; 0; 0; 0; 0; 1; 0; 0; 0; -7#2; -3; 0; 0; 0; 5#2; 7#2; 2; 0];
   [0; 0; 0; 0; 0; 0; 0; 0; 0; 1#2; 0; 0; 1#4; 0; -1; 0; 0; -1#4; -1#4; 0; 1#2];
   [0; 0; 0; 0; 0; 0; 0; 16; 0; 0; 0; -32; -32; 0; 0; 0; 16; 32; 16; 0; 0];
   [0; 0; 0; 0; 0; 0; 0; 0; -16; 0; 0; 0; 32; 32; 0; 0; 0; -16; -32; -16; 0];
   [0; 0; 0; 0; 0; 0; 0; 0; 0; 0; 0; 0; 16; 0; 0; 0; 0; -16; -16; 0; 0]]%Q.
Definition scales : list R := [1; 1; 1; 1; 1; 1; 1; 1; 1; 1; 1; 1; 1; 1; 1; 1; 1; 1; 1; 1; 1/2 * sqrt 2].
Lemma coefficients_rational : coefficients = scaled scales (map rv qcoeff).
Proof.
  unfold coefficients, scaled, scales, qcoeff, rv, vscale, Q2R. cbn -[Rplus Rmult Rdiv Rminus Ropp sqrt].
  repeat (apply cons_eq; [repeat (apply cons_eq; [lra|]); reflexivity|]). reflexivity.
Qed.
Definition qmid (i : nat) : list Q := match i with 0%nat => [1#2; 0] | 1%nat => [0; 1#2] | _ => [1#2; 1#2] end%Q.
Definition vertex_nodes (i : nat) : list node :=
  map (fun ks => [(1%Q, ks, qvertex 2 i)]) [[]; [0]; [1]; [0; 0]; [0; 1]; [1; 1]]%nat.
Definition nodes : list node :=
  vertex_nodes 0 ++ vertex_nodes 1 ++ vertex_nodes 2 ++
  [[(1%Q, [1%nat], qmid 0)]; [((-1)%Q, [0%nat], qmid 1)]; [((-1#2)%Q, [0%nat], qmid 2); ((-1#2)%Q, [1%nat], qmid 2)]].
Definition sh (ks : list nat) (x : list R) : list R := shape (texps 5) (map rv qcoeff) ks x.
Lemma five : degrees 5. Proof. now right. Qed.
Lemma sh_length ks x : length (sh ks x) = 21%nat. Proof. reflexivity. Qed.
(** the coefficients of the pull-back with respect to the (rational) shape functions *)
Definition pull (fe : argyris) (c : list R) : list R := times scales (back_of fe c).
Lemma pull_length fe c : length (pull fe c) = 21%nat. Proof. reflexivity. Qed.
(** the values and derivatives of the basis functions *)
Definition basis (fe : argyris) (ks : list nat) (x : list R) : list R := map (fun i => dot (pull fe (unit_vec 21 i)) (sh ks x)) (seq 0 21).
Lemma transform_shape fe ks x c : length c = 21%nat ->
  exists w, transform fe (shape (texps 5) coefficients ks x) = Some w /\ length w = 21%nat /\ dot c w = dot (pull fe c) (sh ks x).
Proof.
  intros Hc. destruct (transform_dot fe (shape (texps 5) coefficients ks x) c) as (w & E & L & D); auto.
  exists w. repeat (split; auto). rewrite D. rewrite coefficients_rational, shape_scaled by reflexivity. unfold pull, sh. apply dot_times; reflexivity.
Qed.
Lemma unit_length n i : length (unit_vec n i) = n. Proof. unfold unit_vec. now rewrite map_length, seq_length. Qed.
Lemma transform_basis fe ks x : transform fe (shape (texps 5) coefficients ks x) = Some (basis fe ks x).
Proof.
  destruct (transform_shape fe ks x (unit_vec 21 0) (unit_length _ _)) as (w & E & L & _). rewrite E. f_equal.
  apply (nth_ext _ _ 0 0); [now rewrite L|]. rewrite L. intros i Hi. unfold basis. rewrite (nth_map_seq (fun i => dot (pull fe (unit_vec 21 i)) (sh ks x))) by auto.
  destruct (transform_shape fe ks x (unit_vec 21 i) (unit_length _ _)) as (w' & E' & _ & D). assert (w' = w) by congruence. subst w'. rewrite <- D. now rewrite dot_unit_vec.
Qed.
Lemma basis_values fe ks x c : length c = 21%nat -> dot c (basis fe ks x) = dot (pull fe c) (sh ks x).
Proof. intros Hc. destruct (transform_shape fe ks x c Hc) as (w & E & _ & D). rewrite transform_basis in E. assert (W : basis fe ks x = w) by congruence. now rewrite W. Qed.
Lemma basis_length fe ks x : length (basis fe ks x) = 21%nat. Proof. reflexivity. Qed.
Lemma eval_function fe x : is_vec 2 x -> evaluateFunction fe x = Some (basis fe [] x).
Proof. intros Hx. unfold evaluateFunction. rewrite table_function by (auto using five). apply transform_basis. Qed.
Lemma eval_jacobian fe x k : is_vec 2 x -> (k < 2)%nat -> evaluateJacobian fe x k = Some (basis fe [k] x).
Proof. intros Hx Hk. unfold evaluateJacobian. rewrite table_jacobian by (auto using five). apply transform_basis. Qed.
Lemma eval_hessian fe x k l : is_vec 2 x -> (k < 2)%nat -> (l < 2)%nat -> evaluateHessian fe x k l = Some (basis fe [k; l] x).
Proof. intros Hx Hk Hl. unfold evaluateHessian. rewrite table_hessian by (auto using five). apply transform_basis. Qed.
Lemma basis_partial fe x k i : is_vec 2 x -> (k < 2)%nat -> (i < 21)%nat -> partial (fun y => nth i (basis fe [] y) 0) k x (nth i (basis fe [k] x) 0).
Proof.
  intros Hx Hk Hi. unfold basis. rewrite (nth_map_seq (fun i => dot (pull fe (unit_vec 21 i)) (sh [k] x))) by auto.
  eapply partial_ext; [|unfold is_vec in Hx; lia|apply (shape_partial 5); auto using five].
  intros z _. now rewrite (nth_map_seq (fun i => dot (pull fe (unit_vec 21 i)) (sh [] z))).
Qed.
Lemma basis_partial2 fe x k l i : is_vec 2 x -> (k < 2)%nat -> (l < 2)%nat -> (i < 21)%nat -> partial (fun y => nth i (basis fe [k] y) 0) l x (nth i (basis fe [k; l] x) 0).
Proof.
  intros Hx Hk Hl Hi. unfold basis. rewrite (nth_map_seq (fun i => dot (pull fe (unit_vec 21 i)) (sh [k; l] x))) by auto.
  eapply partial_ext; [|unfold is_vec in Hx; lia|apply (shape_partial2 5); auto using five].
  intros z _. now rewrite (nth_map_seq (fun i => dot (pull fe (unit_vec 21 i)) (sh [k] z))).
Qed.
Lemma coefficients_ref P fe u c : length c = 21%nat ->
  has_coefficients P fe u c <-> (forall x, is_vec 2 x -> u (image 2 P x) = dot (pull fe c) (sh [] x)).
Proof.
  intros Hc. split.
  - intros [_ H] x Hx. destruct (H x Hx) as (w & E & ->). rewrite eval_function in E by auto. assert (W : basis fe [] x = w) by congruence. rewrite <- W. now apply basis_values.
  - intros H. split; auto. intros x Hx. eexists. split; [now apply eval_function|]. rewrite basis_values by auto. auto.
Qed.

(** * Nodal values of the reference element *)
Lemma dual v : length v = 21%nat ->
  map (fun N => apply_node N (fun x => dot v (sh [] x)) (fun k x => dot v (sh [k] x)) (fun k l x => dot v (sh [k; l] x))) nodes = v.
Proof. intros H. apply dual_ok; [vm_compute; reflexivity|exact H]. Qed.
Lemma reproduce p ks x : Forall (fun t => length (snd t) = 2%nat /\ (degree (snd t) <= 5)%nat) p ->
  dot (map (fun N => apply_node N (poly p) (dpoly p) (ddpoly p)) nodes) (sh ks x) = poly_at ks p x.
Proof.
  intros Hp. apply reproduce_poly; [vm_compute; reflexivity|]. intros t Ht. rewrite Forall_forall in Hp. destruct (Hp t Ht) as [HL HD].
  apply (check_monos_ok _ _ _ 5); [vm_compute; reflexivity| |exact HD]. apply texps_all; auto using five.
Qed.
Lemma qmid_rv i : midpoint_position i = rv (qmid i).
Proof. destruct i as [|[|i]]; unfold midpoint_position, qmid, rv, Q2R; cbn -[Rdiv Rmult Rinv]; repeat (apply cons_eq; [field|]); reflexivity. Qed.
(** the derivative along an edge, at its midpoint *)
Definition quintic (ua ub ga gb ha hb : R) : R := 15/8 * (ub - ua) - 7/16 * (ga + gb) + 1/32 * (hb - ha).
Lemma along v : length v = 21%nat -> let n i := nth i v 0 in
  dot v (sh [0%nat] (midpoint_position 0)) = quintic (n 0%nat) (n 6%nat) (n 1%nat) (n 7%nat) (n 3%nat) (n 9%nat) /\
  dot v (sh [1%nat] (midpoint_position 1)) = quintic (n 0%nat) (n 12%nat) (n 2%nat) (n 14%nat) (n 5%nat) (n 17%nat) /\
  dot v (sh [1%nat] (midpoint_position 2)) - dot v (sh [0%nat] (midpoint_position 2)) =
    quintic (n 6%nat) (n 12%nat) (n 8%nat - n 7%nat) (n 14%nat - n 13%nat) (n 9%nat - 2 * n 10%nat + n 11%nat) (n 15%nat - 2 * n 16%nat + n 17%nat).
Proof.
  intros H. do 21 (destruct v as [|? v]; [discriminate|]). destruct v; [|discriminate].
  rewrite !qmid_rv. unfold sh. rewrite !shape_rv. unfold quintic. cbn [nth].
  split; [|split];
  repeat match goal with |- context [map (fun row => qdot row ?l) qcoeff] => let r := eval vm_compute in (map (fun row => qdot row l) qcoeff) in change (map (fun row => qdot row l) qcoeff) with r end; unfold rv, dot, total, Q2R; cbn -[Rplus Rmult Rminus Rinv Rdiv]; lra.
Qed.

(** * The transformation in terms of the triangle *)
Definition quad (H : list (list R)) (a b : list R) : R := nth 0 a 0 * dot (nth 0 H []) b + nth 1 a 0 * dot (nth 1 H []) b.
(** gradient and second derivatives at vertex i, from the coefficients *)
Definition grad_at (h c : list R) (i : nat) : list R := [nth (6 * i + 1) c 0 / nth i h 0; nth (6 * i + 2) c 0 / nth i h 0].
Definition hess_at (h c : list R) (i : nat) : list (list R) :=
  let d k := nth (6 * i + k) c 0 / nth i h 0 / nth i h 0 in [[d 3%nat; d 4%nat]; [d 4%nat; d 5%nat]].
Lemma jacobian_is P G i k m : affine_geometry 2 P G -> (k < 2)%nat -> (m < 2)%nat -> entry (geo_jacobian G (vertex_position 2 i)) m k = nth m (column P k) 0.
Proof.
  intros HG Hk Hm. rewrite (proj2 (HG _ (vertex_position_vec i))). destruct k as [|[|]], m as [|[|]]; try lia; reflexivity.
Qed.
Lemma length_is P G i : simplex 2 P -> affine_geometry 2 P G -> (i < 3)%nat -> edge_length G i = plen P i.
Proof. intros (HP & HF & _) HG Hi. unfold edge_length. rewrite (edge_is P) by auto. now apply norm_is. Qed.
Lemma tangent_is P G i : simplex 2 P -> affine_geometry 2 P G -> (i < 3)%nat -> globalTangent G i = [nth 0 (pedge P i) 0 / plen P i; nth 1 (pedge P i) 0 / plen P i].
Proof. intros HS HG Hi. unfold globalTangent. rewrite (length_is P) by auto. destruct HS as (HP & HF & _). rewrite (edge_is P) by auto. reflexivity. Qed.
Lemma b_is P G i : simplex 2 P -> affine_geometry 2 P G -> (i < 3)%nat ->
  entry (b_of G i) 0 0 = cross (pedge P i) (pnormal P i) / plen P i /\ entry (b_of G i) 1 0 = dot2 (pedge P i) (pnormal P i) / plen P i.
Proof.
  intros HS HG Hi. assert (HL := plen_pos P i HS). assert (T := tangent_is P G i HS HG Hi). destruct HS as (HP & HF & _).
  unfold b_of. rewrite T. clear T.
  assert (X : forall t r, entry (mul2 (mul2 (G_of t) (geo_jacobian G (vertex_position 2 i))) (G_of r)) 0 0
      = (- nth 1 t 0 * nth 0 (column P 0) 0 + nth 0 t 0 * nth 1 (column P 0) 0) * (- nth 1 r 0) + (- nth 1 t 0 * nth 0 (column P 1) 0 + nth 0 t 0 * nth 1 (column P 1) 0) * nth 0 r 0
    /\ entry (mul2 (mul2 (G_of t) (geo_jacobian G (vertex_position 2 i))) (G_of r)) 1 0
      = (nth 0 t 0 * nth 0 (column P 0) 0 + nth 1 t 0 * nth 1 (column P 0) 0) * (- nth 1 r 0) + (nth 0 t 0 * nth 0 (column P 1) 0 + nth 1 t 0 * nth 1 (column P 1) 0) * nth 0 r 0).
  { intros t r. rewrite <- !(jacobian_is P G i) by (auto; lia). split; reflexivity. }
  destruct (X [nth 0 (pedge P i) 0 / plen P i; nth 1 (pedge P i) 0 / plen P i] (referenceTangent i)) as [-> ->]. clear X. cbn [nth].
  assert (Q := sqrt2_pos). destruct reference_tangents as (T0 & T1 & T2).
  revert HL. generalize (plen P i). intros L HL. unfold cross, dot2.
  revert i Hi. apply three_cases; rewrite ?T0, ?T1, ?T2; clear - HP HF HL Q; vec_cases; unfold pnormal, pedge, column, vsub, vadd, vscale; cbn -[Rplus Rmult Rminus Rdiv Ropp sqrt]; split; field; lra.
Qed.
(** the pull-back of the function with coefficients c *)
Definition vertex_data (P : list (list R)) (u : R) (g : list R) (H : list (list R)) : list R :=
  [u; dot2 g (column P 0); dot2 g (column P 1); quad H (column P 0) (column P 0); quad H (column P 0) (column P 1); quad H (column P 1) (column P 1)].
Lemma pull_vertex P G h o c i j : affine_geometry 2 P G -> length P = 3%nat -> Forall (is_vec 2) P -> (i < 3)%nat -> (j < 6)%nat ->
  nth (6 * i + j) (pull (bound_form G h o) c) 0 = nth j (vertex_data P (nth (6 * i) c 0) (grad_at h c i) (hess_at h c i)) 0.
Proof.
  intros HG HP HF Hi Hj.
  assert (J : forall i, geo_jacobian G (vertex_position 2 i) = [[nth 0 (column P 0) 0; nth 0 (column P 1) 0]; [nth 1 (column P 0) 0; nth 1 (column P 1) 0]]) by (intros n; rewrite (proj2 (HG _ (vertex_position_vec n))); reflexivity).
  assert (C : forall k, (k < 2)%nat -> is_vec 2 (column P k)) by (intros k Hk; now apply (column_vec 2); [right; left| | |]).
  assert (C0 := C 0%nat ltac:(lia)). assert (C1 := C 1%nat ltac:(lia)). clear C HP HF HG.
  unfold pull, back_of. cbn [bound_form vertexJacobians theta averageVertexMeshSize edgeOrientation len globalTangents tau bmat].
  cbn [map seq]. rewrite !J. clear J. unfold vertex_data, grad_at, hess_at, quad, dot2.
  destruct (column P 0) as [|p0 [|p1 [|]]]; try discriminate. destruct (column P 1) as [|q0 [|q1 [|]]]; try discriminate.
  clear C0 C1. unfold back. cbn [nth]. unfold vertex_of, theta_of, entry. cbn [nth].
  do 3 (destruct i as [|i]; [do 6 (destruct j as [|j]; [unfold times, scales, dot, total; cbn -[Rplus Rmult Rminus Rdiv Ropp sqrt edge_of]; unfold Rdiv; ring|]); lia|]). lia.
Qed.
(** the derivative along edge i, at its midpoint, from data at its vertices *)
Definition along_data (P : list (list R)) (u : nat -> R) (g : nat -> list R) (H : nat -> list (list R)) (i : nat) : R :=
  let a := fst (edge_vertices i) in let b := snd (edge_vertices i) in let e := pedge P i in
  quintic (u a) (u b) (dot2 (g a) e) (dot2 (g b) e) (quad (H a) e e) (quad (H b) e e).
Lemma pull_edge P G h o c i : simplex 2 P -> affine_geometry 2 P G -> (i < 3)%nat ->
  nth (18 + i) (pull (bound_form G h o) c) 0 = nth (18 + i) scales 0 *
    (flip o i * (cross (pedge P i) (pnormal P i) / plen P i) * nth (18 + i) c 0
     + dot2 (pedge P i) (pnormal P i) / plen P i * (along_data P (fun v => nth (6 * v) c 0) (grad_at h c) (hess_at h c) i / plen P i)).
Proof.
  intros HS HG Hi. destruct (b_is P G i HS HG Hi) as [B0 B1]. assert (L := length_is P G i HS HG Hi). assert (T := tangent_is P G i HS HG Hi). assert (HL := plen_pos P i HS).
  assert (X : nth (18 + i) (pull (bound_form G h o) c) 0 = nth (18 + i) scales 0 *
    edge_of (fun i => entry (nth i (bmat (bound_form G h o)) [])) (fun i => nth i h 0) (flip o) (fun i => nth i (len (bound_form G h o)) 0)
      (fun i j => nth j (nth i (globalTangents (bound_form G h o)) []) 0) (fun i j => nth j (nth i (tau (bound_form G h o)) []) 0) (fun i => nth i c 0) i (fst (edge_vertices i)) (snd (edge_vertices i))).
  { clear - Hi. revert i Hi. apply three_cases; reflexivity. }
  rewrite X. clear X. f_equal. unfold edge_of.
  assert (N1 : nth i (bmat (bound_form G h o)) [] = b_of G i) by (clear - Hi; revert i Hi; apply three_cases; reflexivity).
  assert (N2 : nth i (len (bound_form G h o)) 0 = edge_length G i) by (clear - Hi; revert i Hi; apply three_cases; reflexivity).
  assert (N3 : nth i (globalTangents (bound_form G h o)) [] = globalTangent G i) by (clear - Hi; revert i Hi; apply three_cases; reflexivity).
  assert (N4 : nth i (tau (bound_form G h o)) [] = tau_of G i) by (clear - Hi; revert i Hi; apply three_cases; reflexivity).
  unfold along_of. rewrite N1, N2, N3, N4, B0, B1, L. unfold tau_of. rewrite T. clear - HL HS. f_equal. f_equal.
  destruct HS as (HP & HF & _). assert (V := pedge_vec P i HP HF). revert HL. generalize (plen P i). intros L HL.
  unfold along_data, quintic, grad_at, hess_at, quad, dot2. destruct (pedge P i) as [|e0 [|e1 [|]]]; try discriminate. unfold dot, total. cbn [nth combine map fst snd fold_right].
  generalize (fst (edge_vertices i)), (snd (edge_vertices i)). intros a b. unfold Rdiv.
  generalize (/ nth a h 0), (/ nth b h 0). intros. field. lra.
Qed.
(** nodal values of the pull-back of a function with gradient g and second derivatives H *)
Definition pvalues (P : list (list R)) (u : list R -> R) (g : list R -> list R) (H : list R -> list (list R)) : list R :=
  let at_vertex i := let z := nth i P [] in vertex_data P (u z) (g z) (H z) in
  at_vertex 0%nat ++ at_vertex 1%nat ++ at_vertex 2%nat ++ map (fun i => nth (18 + i) scales 0 * dot2 (g (edge_midpoint P i)) (pnormal P i)) (seq 0 3).
Lemma pvalues_vertex P u g H i j : (i < 3)%nat -> (j < 6)%nat ->
  nth (6 * i + j) (pvalues P u g H) 0 = nth j (let z := nth i P [] in vertex_data P (u z) (g z) (H z)) 0.
Proof. intros Hi Hj. do 3 (destruct i as [|i]; [do 6 (destruct j as [|j]; [reflexivity|]); lia|]). lia. Qed.
Lemma pvalues_edge P u g H i : (i < 3)%nat -> nth (18 + i) (pvalues P u g H) 0 = nth (18 + i) scales 0 * dot2 (g (edge_midpoint P i)) (pnormal P i).
Proof. revert i. apply three_cases; reflexivity. Qed.
Lemma nodes_values P u g H : length P = 3%nat -> Forall (is_vec 2) P -> (forall z, is_vec 2 z -> is_vec 2 (g z)) ->
  map (fun N => apply_node N (fun x => u (image 2 P x)) (fun k x => dot (g (image 2 P x)) (column P k)) (fun k l x => quad (H (image 2 P x)) (column P k) (column P l))) nodes = pvalues P u g H.
Proof.
  intros HP HF Hg. assert (Q := sqrt2_pos). assert (Q2 := sqrt2_sq).
  assert (D : dims 2) by (right; now left).
  assert (VM : forall i, (i < 3)%nat -> is_vec 2 (g (edge_midpoint P i))).
  { intros i Hi. rewrite <- image_midpoint by auto. apply Hg, image_vec; auto. apply midpoint_vec. }
  assert (VV : forall i, (i < 3)%nat -> is_vec 2 (g (nth i P []))).
  { intros i Hi. rewrite Forall_forall in HF. apply Hg, HF, nth_In. lia. }
  unfold nodes, pvalues, apply_node, vertex_nodes, vertex_data. cbn [map seq app fst snd derivs].
  rewrite <- !vertex_rv, <- !qmid_rv. rewrite !image_vertex2 by (auto; lia). rewrite (image_midpoint P 0), (image_midpoint P 1), (image_midpoint P 2) by (auto; lia).
  assert (V0 := VM 0%nat ltac:(lia)). assert (V1 := VM 1%nat ltac:(lia)). assert (V2 := VM 2%nat ltac:(lia)).
  assert (U0 := VV 0%nat ltac:(lia)). assert (U1 := VV 1%nat ltac:(lia)). assert (U2 := VV 2%nat ltac:(lia)).
  assert (C : forall k, (k < 2)%nat -> is_vec 2 (column P k)) by (intros k Hk; now apply (column_vec 2); [right; left| | |]).
  assert (C0 := C 0%nat ltac:(lia)). assert (C1 := C 1%nat ltac:(lia)). clear C VM VV.
  unfold dot2, pnormal, vscale, vadd. unfold Q2R. cbn [Qnum Qden].
  destruct (g (edge_midpoint P 0)) as [|p0 [|q0 [|]]]; try discriminate. destruct (g (edge_midpoint P 1)) as [|p1 [|q1 [|]]]; try discriminate. destruct (g (edge_midpoint P 2)) as [|p2 [|q2 [|]]]; try discriminate.
  destruct (g (nth 0 P [])) as [|a0 [|b0 [|]]]; try discriminate. destruct (g (nth 1 P [])) as [|a1 [|b1 [|]]]; try discriminate. destruct (g (nth 2 P [])) as [|a2 [|b2 [|]]]; try discriminate.
  destruct (column P 0) as [|s0 [|s1 [|]]]; try discriminate. destruct (column P 1) as [|t0 [|t1 [|]]]; try discriminate.
  clear - Q Q2. unfold scales. unfold dot at 1 2 3 4 5 6 7 8 9 10. unfold total. cbn -[Rplus Rmult Rminus Rdiv Ropp sqrt Rinv quad].
  repeat (apply cons_eq; [field; lra|]); reflexivity.
Qed.
(** second derivatives are symmetric *)
Lemma sh_sym x : is_vec 2 x -> sh [0; 1]%nat x = sh [1; 0]%nat x.
Proof.
  intros Hx. unfold sh, shape. apply map_ext. intros row. f_equal.
Qed.
Lemma ddpoly_sym p x : Forall (fun t => length (snd t) = 2%nat) p -> is_vec 2 x -> ddpoly p 0 1 x = ddpoly p 1 0 x.
Proof.
  intros Hp Hx. unfold ddpoly. f_equal. apply map_ext_in. intros [a e] Ht. rewrite Forall_forall in Hp. specialize (Hp _ Ht). cbn [snd fst] in *. f_equal.
  destruct e as [|m [|n [|]]]; try discriminate. destruct x as [|r [|q [|]]]; try discriminate. unfold ddmono. cbn. unfold gen. cbn. ring.
Qed.
(** * Solving for the data at a vertex *)
Lemma lin2 p0 p1 q0 q1 a b : p0 * q1 - p1 * q0 <> 0 -> a * p0 + b * p1 = 0 -> a * q0 + b * q1 = 0 -> a = 0 /\ b = 0.
Proof.
  intros D H1 H2. split; apply (Rmult_eq_reg_l (p0 * q1 - p1 * q0)); auto; rewrite Rmult_0_r.
  - replace ((p0 * q1 - p1 * q0) * a) with (q1 * (a * p0 + b * p1) - p1 * (a * q0 + b * q1)) by ring. rewrite H1, H2. ring.
  - replace ((p0 * q1 - p1 * q0) * b) with (p0 * (a * q0 + b * q1) - q0 * (a * p0 + b * p1)) by ring. rewrite H1, H2. ring.
Qed.
Lemma quad_sym P r0 r1 : simplex 2 P -> is_vec 2 r0 -> is_vec 2 r1 -> quad [r0; r1] (column P 0) (column P 1) = quad [r0; r1] (column P 1) (column P 0) -> nth 1 r0 0 = nth 0 r1 0.
Proof.
  intros HS H0 H1. assert (D := simplex_det P HS). destruct HS as (HP & HF & _). unfold det in D.
  assert (C0 := column_vec 2 P 0 (or_intror (or_introl eq_refl)) HP HF ltac:(lia)). assert (C1 := column_vec 2 P 1 (or_intror (or_introl eq_refl)) HP HF ltac:(lia)).
  destruct (column P 0) as [|p0 [|p1 [|]]]; try discriminate. destruct (column P 1) as [|q0 [|q1 [|]]]; try discriminate. clear HP HF C0 C1.
  destruct r0 as [|a [|b [|]]]; try discriminate. destruct r1 as [|c [|d [|]]]; try discriminate. cbn [nth] in D.
  unfold quad, dot, total. cbn -[Rplus Rmult Rminus]. intros E.
  apply (Rmult_eq_reg_l (p0 * q1 - p1 * q0)); auto. match type of E with ?l = ?r => transitivity ((p0 * q1 - p1 * q0) * c + (l - r)); [ring|rewrite E; ring] end.
Qed.
Lemma vertex_solve P u g H u' g' H' : simplex 2 P -> is_vec 2 g -> is_vec 2 g' -> (forall k, (k < 2)%nat -> is_vec 2 (nth k H []) /\ is_vec 2 (nth k H' [])) ->
  entry H 0 1 = entry H 1 0 -> entry H' 0 1 = entry H' 1 0 -> (forall j, (j < 6)%nat -> nth j (vertex_data P u g H) 0 = nth j (vertex_data P u' g' H') 0) ->
  u = u' /\ g = g' /\ forall k l, (k < 2)%nat -> (l < 2)%nat -> entry H k l = entry H' k l.
Proof.
  intros HS Hg Hg' HH S S' E. assert (D := simplex_det P HS). destruct HS as (HP & HF & _). unfold det in D.
  assert (C0 := column_vec 2 P 0 (or_intror (or_introl eq_refl)) HP HF ltac:(lia)). assert (C1 := column_vec 2 P 1 (or_intror (or_introl eq_refl)) HP HF ltac:(lia)).
  assert (E0 := E 0%nat ltac:(lia)). assert (E1 := E 1%nat ltac:(lia)). assert (E2 := E 2%nat ltac:(lia)). assert (E3 := E 3%nat ltac:(lia)). assert (E4 := E 4%nat ltac:(lia)). assert (E5 := E 5%nat ltac:(lia)). clear E.
  destruct (HH 0%nat ltac:(lia)) as [X0 Y0]. destruct (HH 1%nat ltac:(lia)) as [X1 Y1]. clear HH. unfold entry in *. unfold vertex_data, quad, dot2 in *. cbn [nth] in *.
  destruct (nth 0 H []) as [|a [|b [|]]] eqn:R0; try discriminate. destruct (nth 1 H []) as [|b1 [|c [|]]] eqn:R1; try discriminate. destruct (nth 0 H' []) as [|a' [|b' [|]]] eqn:R2; try discriminate. destruct (nth 1 H' []) as [|b1' [|c' [|]]] eqn:R3; try discriminate.
  cbn [nth] in S, S'. subst b1 b1'.
  destruct (column P 0) as [|p0 [|p1 [|]]]; try discriminate. destruct (column P 1) as [|q0 [|q1 [|]]]; try discriminate. clear HP HF C0 C1.
  destruct g as [|g0 [|g1 [|]]]; try discriminate. destruct g' as [|g0' [|g1' [|]]]; try discriminate.
  unfold dot, total in *. cbn -[Rplus Rmult Rminus] in *.
  split; [exact E0|]. split.
  - destruct (lin2 p0 p1 q0 q1 (g0 - g0') (g1 - g1') D); [lra|lra|]. repeat (apply cons_eq; [lra|]). reflexivity.
  - destruct (lin2 p0 p1 q0 q1 ((a - a') * p0 + (b - b') * p1) ((b - b') * p0 + (c - c') * p1) D) as [K1 K2]; [lra|lra|].
    destruct (lin2 p0 p1 q0 q1 ((a - a') * q0 + (b - b') * q1) ((b - b') * q0 + (c - c') * q1) D) as [K3 K4]; [lra|lra|].
    destruct (lin2 p0 p1 q0 q1 (a - a') (b - b') D) as [M1 M2]; [lra|lra|]. destruct (lin2 p0 p1 q0 q1 (b - b') (c - c') D) as [M3 M4]; [lra|lra|].
    intros k l Hk Hl. destruct k as [|[|]], l as [|[|]]; try lia; rewrite ?R0, ?R1, ?R2, ?R3; cbn [nth]; lra.
Qed.
Lemma vertex_vec P i : simplex 2 P -> (i < 3)%nat -> is_vec 2 (nth i P []).
Proof. intros (HP & HF & _) Hi. rewrite Forall_forall in HF. apply HF, nth_In. lia. Qed.
(** * Functions whose pull-back is a combination of shape functions *)
Section Pulled.
Variables (P : list (list R)) (u : list R -> R) (g : list R -> list R) (H : list R -> list (list R)) (v : list R).
Hypotheses (HS : simplex 2 P) (Hg : gradient 2 u g) (HH : hessian 2 g H) (Hv : length v = 21%nat).
Hypothesis E : forall x, is_vec 2 x -> u (image 2 P x) = dot v (sh [] x).
Lemma pulled_first x k : is_vec 2 x -> (k < 2)%nat -> dot (g (image 2 P x)) (column P k) = dot v (sh [k] x).
Proof. intros Hx Hk. destruct HS as (HP & HF & _). apply (pulled_d 5 _ P u); auto using five. Qed.
Lemma pulled_second x k l : is_vec 2 x -> (k < 2)%nat -> (l < 2)%nat -> quad (H (image 2 P x)) (column P k) (column P l) = dot v (sh [k; l] x).
Proof. intros Hx Hk Hl. destruct HS as (HP & HF & _). apply (pulled_dd 5 _ P u g H); auto using five. Qed.
Lemma hess_vec z k : is_vec 2 z -> (k < 2)%nat -> is_vec 2 (nth k (H z) []).
Proof. intros Hz Hk. now apply (HH k Hk). Qed.
Lemma hess_sym x : is_vec 2 x -> entry (H (image 2 P x)) 0 1 = entry (H (image 2 P x)) 1 0.
Proof.
  intros Hx. destruct HS as (HP & HF & _). assert (V : is_vec 2 (image 2 P x)) by (apply image_vec; auto; right; now left).
  apply (quad_sym P (nth 0 (H (image 2 P x)) []) (nth 1 (H (image 2 P x)) []) HS); try (apply hess_vec; auto; lia).
  change (quad (H (image 2 P x)) (column P 0) (column P 1) = quad (H (image 2 P x)) (column P 1) (column P 0)).
  rewrite !pulled_second by (auto; lia). now rewrite sh_sym.
Qed.
Lemma vertex_sym i : (i < 3)%nat -> entry (H (nth i P [])) 0 1 = entry (H (nth i P [])) 1 0.
Proof. intros Hi. assert (HS' := HS). destruct HS' as (HP & HF & _). rewrite <- image_vertex2 by auto. apply hess_sym. reflexivity. Qed.
Lemma pulled_values : pvalues P u g H = v.
Proof.
  assert (HS' := HS). destruct HS' as (HP & HF & _). rewrite <- (dual v) by auto. rewrite <- (nodes_values P u g H HP HF) by (intros z Hz; now apply Hg).
  apply map_ext_in. intros M HM. apply node_ext. intros t Ht.
  assert (V : is_vec 2 (rv (snd t)) /\ forall k, In k (snd (fst t)) -> (k < 2)%nat).
  { clear - HM Ht. cbn in HM. repeat (destruct HM as [<-|HM]; [cbn in Ht; repeat (destruct Ht as [<-|Ht]; [split; [reflexivity|cbn; intros k Hk; intuition lia]|]); destruct Ht|]). destruct HM. }
  destruct V as [V1 V2]. destruct (snd (fst t)) as [|k [|l ks]]; cbn [derivs]; [now apply E| |].
  - apply pulled_first; auto. apply V2. now left.
  - apply pulled_second; auto; apply V2; [now left|right; now left].
Qed.
Lemma along_edge i : (i < 3)%nat ->
  dot2 (g (edge_midpoint P i)) (pedge P i) = along_data P (fun v => u (nth v P [])) (fun v => g (nth v P [])) (fun v => H (nth v P [])) i.
Proof.
  intros Hi. assert (HS' := HS). destruct HS' as (HP & HF & _). assert (D : dims 2) by (right; now left).
  assert (K : forall i k, (i < 3)%nat -> (k < 2)%nat -> dot (g (edge_midpoint P i)) (column P k) = dot v (sh [k] (midpoint_position i))).
  { intros j k Hj Hk. rewrite <- image_midpoint by auto. apply pulled_first; auto. apply midpoint_vec. }
  assert (V : forall i, (i < 3)%nat -> is_vec 2 (g (edge_midpoint P i))).
  { intros j Hj. rewrite <- image_midpoint by auto. apply Hg, image_vec; auto. apply midpoint_vec. }
  destruct (along v Hv) as (A0 & A1 & A2).
  rewrite <- (K 0%nat) in A0 by lia. rewrite <- (K 1%nat) in A1 by lia. rewrite <- !(K 2%nat) in A2 by lia.
  rewrite <- pulled_values in A0, A1, A2. cbn [pvalues vertex_data app nth] in A0, A1, A2.
  assert (S1 := vertex_sym 1 ltac:(lia)). assert (S2 := vertex_sym 2 ltac:(lia)).
  assert (W : forall j k, (j < 3)%nat -> (k < 2)%nat -> is_vec 2 (nth k (H (nth j P [])) [])) by (intros j k Hj Hk; apply hess_vec; auto; now apply vertex_vec).
  assert (W10 := W 1%nat 0%nat ltac:(lia) ltac:(lia)). assert (W11 := W 1%nat 1%nat ltac:(lia) ltac:(lia)). assert (W20 := W 2%nat 0%nat ltac:(lia) ltac:(lia)). assert (W21 := W 2%nat 1%nat ltac:(lia) ltac:(lia)). clear W.
  specialize (V i Hi). unfold along_data.
  destruct i as [|[|[|i]]]; [..|lia]; cbn [edge_vertices fst snd].
  - change (pedge P 0) with (column P 0). rewrite <- A0. apply eq_sym. clear - HP HF V. destruct (g (edge_midpoint P 0)) as [|p [|q [|]]]; try discriminate. vec_cases. unfold dot, dot2, column, vsub. unfold total. cbn -[Rplus Rmult Rminus]. ring.
  - change (pedge P 1) with (column P 1). rewrite <- A1. apply eq_sym. clear - HP HF V. destruct (g (edge_midpoint P 1)) as [|p [|q [|]]]; try discriminate. vec_cases. unfold dot, dot2, column, vsub. unfold total. cbn -[Rplus Rmult Rminus]. ring.
  - assert (X : forall a, is_vec 2 a -> dot2 a (pedge P 2) = dot2 a (column P 1) - dot2 a (column P 0)).
    { clear - HP HF. intros a Ha. destruct a as [|p [|q [|]]]; try discriminate. vec_cases. unfold dot2, pedge, column, vsub. cbn -[Rplus Rmult Rminus]. ring. }
    assert (Y : forall M, is_vec 2 (nth 0 M []) -> is_vec 2 (nth 1 M []) -> entry M 0 1 = entry M 1 0 ->
      quad M (pedge P 2) (pedge P 2) = quad M (column P 0) (column P 0) - 2 * quad M (column P 0) (column P 1) + quad M (column P 1) (column P 1)).
    { clear - HP HF. intros M. unfold quad, entry. intros H0 H1. destruct (nth 0 M []) as [|p [|q [|]]]; try discriminate. destruct (nth 1 M []) as [|r [|s [|]]]; try discriminate. cbn [nth]. intros ->.
      vec_cases. unfold dot, pedge, column, vsub. unfold total. cbn -[Rplus Rmult Rminus]. ring. }
    rewrite !Y by auto. assert (V1 := vertex_vec P 1 HS ltac:(lia)). assert (V2 := vertex_vec P 2 HS ltac:(lia)).
    rewrite !X by (auto; now apply Hg). rewrite <- A2. clear - HP HF V. destruct (g (edge_midpoint P 2)) as [|p [|q [|]]]; try discriminate. vec_cases. unfold dot, dot2, column, vsub. unfold total. cbn -[Rplus Rmult Rminus]. ring.
Qed.
End Pulled.
(** * Interpolation *)
Definition target (P : list (list R)) (h : list R) (o : list bool) (u : list R -> R) (g : list R -> list R) (H : list R -> list (list R)) : list R :=
  let at_vertex i := let z := nth i P [] in let s := nth i h 0 in
    [u z; nth 0 (g z) 0 * s; nth 1 (g z) 0 * s; entry (H z) 0 0 * s * s; entry (H z) 0 1 * s * s; entry (H z) 1 1 * s * s] in
  at_vertex 0%nat ++ at_vertex 1%nat ++ at_vertex 2%nat ++ map (fun i => dot2 (g (edge_midpoint P i)) (edge_normal P o i)) (seq 0 3).
Lemma interpolate_is P G h o u g H : simplex 2 P -> affine_geometry 2 P G ->
  interpolate (bound_form G h o) (fun x => u (image 2 P x)) (fun x => g (image 2 P x)) (fun x => H (image 2 P x)) = target P h o u g H.
Proof.
  intros HS HG. assert (HS' := HS). destruct HS' as (HP & HF & HO). unfold interpolate, target. cbn [bound_form localVertices localMidpoints globalNormals averageVertexMeshSize].
  cbn [map seq nth concat app]. rewrite !image_vertex2 by (auto; lia). rewrite !image_midpoint by (auto; lia).
  rewrite (proj1 (normal_is P G o 0 HS HG ltac:(lia))), (proj1 (normal_is P G o 1 HS HG ltac:(lia))), (proj1 (normal_is P G o 2 HS HG ltac:(lia))). reflexivity.
Qed.
Lemma twentyone_ext a b : length a = 21%nat -> length b = 21%nat -> (forall i j, (i < 3)%nat -> (j < 6)%nat -> nth (6 * i + j) a 0 = nth (6 * i + j) b 0) -> (forall i, (i < 3)%nat -> nth (18 + i) a 0 = nth (18 + i) b 0) -> a = b.
Proof.
  intros Ha Hb H1 H2. apply (nth_ext _ _ 0 0); [lia|]. intros i Hi. destruct (Nat.lt_ge_cases i 18) as [L|L].
  - assert (X := Nat.div_mod_eq i 6). assert (Y := Nat.mod_upper_bound i 6 ltac:(lia)). rewrite X. apply H1; auto. lia.
  - replace i with (18 + (i - 18))%nat by lia. apply H2. lia.
Qed.
Lemma scales_nz i : (i < 3)%nat -> nth (18 + i) scales 0 <> 0.
Proof. assert (Q := sqrt2_pos). revert i. apply three_cases; cbn; lra. Qed.
Lemma target_vertex P h o u g H i : (i < 3)%nat -> forall j, (j < 6)%nat -> nth (6 * i + j) (target P h o u g H) 0 = nth j (
  let z := nth i P [] in let s := nth i h 0 in [u z; nth 0 (g z) 0 * s; nth 1 (g z) 0 * s; entry (H z) 0 0 * s * s; entry (H z) 0 1 * s * s; entry (H z) 1 1 * s * s]) 0.
Proof. intros Hi j Hj. do 3 (destruct i as [|i]; [do 6 (destruct j as [|j]; [reflexivity|]); lia|]). lia. Qed.
Lemma target_edge P h o u g H i : (i < 3)%nat -> nth (18 + i) (target P h o u g H) 0 = dot2 (g (edge_midpoint P i)) (edge_normal P o i).
Proof. revert i. apply three_cases; reflexivity. Qed.
Lemma size_pos h i : length h = 3%nat -> Forall (fun a => 0 < a) h -> (i < 3)%nat -> 0 < nth i h 0.
Proof. intros HL HF Hi. rewrite Forall_forall in HF. apply HF, nth_In. lia. Qed.
Lemma along_ext P u g H u' g' H' i : (i < 3)%nat -> (forall k, (k < 3)%nat -> u k = u' k /\ g k = g' k /\ nth 0 (H k) [] = nth 0 (H' k) [] /\ nth 1 (H k) [] = nth 1 (H' k) []) ->
  along_data P u g H i = along_data P u' g' H' i.
Proof.
  intros Hi X. unfold along_data, quad.
  assert (L : (fst (edge_vertices i) < 3 /\ snd (edge_vertices i) < 3)%nat) by (destruct i as [|[|]]; cbn; lia).
  destruct (X _ (proj1 L)) as (-> & -> & -> & ->). destruct (X _ (proj2 L)) as (-> & -> & -> & ->). reflexivity.
Qed.
Lemma coefficients_target P G h o u g H c : simplex 2 P -> affine_geometry 2 P G -> length h = 3%nat -> Forall (fun a => 0 < a) h -> gradient 2 u g -> hessian 2 g H ->
  has_coefficients P (bound_form G h o) u c -> c = target P h o u g H.
Proof.
  intros HS HG Lh Ph Hg HH Hc. assert (Lc : length c = 21%nat) by apply Hc. assert (E := proj1 (coefficients_ref P _ u c Lc) Hc). clear Hc.
  assert (HS' := HS). destruct HS' as (HP & HF & _).
  assert (N := pulled_values P u g H (pull (bound_form G h o) c) HS Hg HH (pull_length _ _) E).
  assert (VX : forall i, (i < 3)%nat -> u (nth i P []) = nth (6 * i) c 0 /\ g (nth i P []) = grad_at h c i /\ forall k l, (k < 2)%nat -> (l < 2)%nat -> entry (H (nth i P [])) k l = entry (hess_at h c i) k l).
  { intros i Hi. assert (V := vertex_vec P i HS Hi). apply (vertex_solve P); auto.
    - now apply Hg.
    - reflexivity.
    - intros k Hk. split; [now apply (HH k Hk)|destruct k as [|[|]]; [reflexivity..|lia]].
    - now apply (vertex_sym P u g H (pull (bound_form G h o) c)).
    - intros j Hj. rewrite <- (pull_vertex P G h o c i j) by auto. rewrite <- N. now rewrite pvalues_vertex by auto. }
  apply twentyone_ext; auto.
  - intros i j Hi Hj. rewrite target_vertex by auto. destruct (VX i Hi) as (Xu & Xg & Xh). assert (Hs := size_pos h i Lh Ph Hi). cbn zeta. rewrite !Xh by lia. rewrite Xu, Xg. unfold grad_at, hess_at, entry. cbn [nth].
    do 6 (destruct j as [|j]; [rewrite ?Nat.add_0_r; cbn [nth]; try reflexivity; field; lra|]). lia.
  - intros i Hi. rewrite target_edge by auto.
    assert (F := pull_edge P G h o c i HS HG Hi). rewrite <- N, pvalues_edge in F by auto. apply Rmult_eq_reg_l in F; [|now apply scales_nz].
    apply (Morley_proofs.edge_equiv P o g (edge_midpoint P i) (nth (18 + i) c 0) _ i HS Hi) in F; auto.
    + apply Hg. now apply Morley_proofs.midpoint_is_vec.
    + rewrite (along_edge P u g H (pull (bound_form G h o) c) HS Hg HH (pull_length _ _) E i Hi). apply along_ext; auto.
      intros k Hk. destruct (VX k Hk) as (Xu & Xg & Xh). split; [exact Xu|split; [exact Xg|]]. assert (V := vertex_vec P k HS Hk).
      assert (W0 : is_vec 2 (nth 0 (H (nth k P [])) [])) by (apply (HH 0%nat); auto; lia). assert (W1 : is_vec 2 (nth 1 (H (nth k P [])) [])) by (apply (HH 1%nat); auto; lia).
      assert (Y00 := Xh 0%nat 0%nat ltac:(lia) ltac:(lia)). assert (Y01 := Xh 0%nat 1%nat ltac:(lia) ltac:(lia)). assert (Y10 := Xh 1%nat 0%nat ltac:(lia) ltac:(lia)). assert (Y11 := Xh 1%nat 1%nat ltac:(lia) ltac:(lia)).
      unfold entry in Y00, Y01, Y10, Y11. destruct (nth 0 (H (nth k P [])) []) as [|a [|b [|]]]; try discriminate. destruct (nth 1 (H (nth k P [])) []) as [|a' [|b' [|]]]; try discriminate.
      cbn [nth] in Y00, Y01, Y10, Y11. unfold hess_at in *. cbn [nth] in *. subst. split; reflexivity.
Qed.
Lemma target_coefficients P G h o u g H : simplex 2 P -> affine_geometry 2 P G -> length h = 3%nat -> Forall (fun a => 0 < a) h -> polynomial 2 5 u -> gradient 2 u g -> hessian 2 g H ->
  has_coefficients P (bound_form G h o) u (target P h o u g H).
Proof.
  intros HS HG Lh Ph Hu Hg HH. assert (HS' := HS). destruct HS' as (HP & HF & _). assert (D : dims 2) by (right; now left).
  destruct (poly_image 2 5 P u D HP HF Hu) as (p & Hp & E).
  set (v := map (fun N => apply_node N (poly p) (dpoly p) (ddpoly p)) nodes).
  assert (R : forall x, is_vec 2 x -> u (image 2 P x) = dot v (sh [] x)).
  { intros x Hx. rewrite E by auto. symmetry. apply (reproduce p [] x Hp). }
  assert (Hv : pvalues P u g H = v) by (apply pulled_values; auto).
  apply coefficients_ref; [reflexivity|]. intros x Hx. rewrite R by auto. f_equal. rewrite <- Hv.
  assert (VX : forall i, (i < 3)%nat -> nth (6 * i) (target P h o u g H) 0 = u (nth i P []) /\ grad_at h (target P h o u g H) i = g (nth i P []) /\
     nth 0 (hess_at h (target P h o u g H) i) [] = nth 0 (H (nth i P [])) [] /\ nth 1 (hess_at h (target P h o u g H) i) [] = nth 1 (H (nth i P [])) []).
  { intros i Hi. assert (V := vertex_vec P i HS Hi). assert (Hs := size_pos h i Lh Ph Hi). assert (T := target_vertex P h o u g H i Hi).
    assert (T0 := T 0%nat ltac:(lia)). rewrite Nat.add_0_r in T0. unfold grad_at, hess_at. rewrite T0, !T by lia. cbn [nth]. clear T T0.
    assert (W := proj1 (Hg _ V)). assert (W0 : is_vec 2 (nth 0 (H (nth i P [])) [])) by (apply (HH 0%nat); auto; lia). assert (W1 : is_vec 2 (nth 1 (H (nth i P [])) [])) by (apply (HH 1%nat); auto; lia).
    assert (Sy := vertex_sym P u g H v HS Hg HH R i Hi). unfold entry in *.
    destruct (g (nth i P [])) as [|a [|b [|]]]; try discriminate. destruct (nth 0 (H (nth i P [])) []) as [|c [|d [|]]]; try discriminate. destruct (nth 1 (H (nth i P [])) []) as [|e [|f [|]]]; try discriminate.
    cbn [nth] in *. subst e. revert Hs. generalize (nth i h 0). intros s Hs. repeat split; repeat (apply cons_eq; [field; lra|]); reflexivity. }
  apply twentyone_ext; [reflexivity|apply pull_length| |].
  - intros i j Hi Hj. rewrite pvalues_vertex, (pull_vertex P) by auto. destruct (VX i Hi) as (-> & -> & H0 & H1). unfold vertex_data, quad. cbn zeta. now rewrite H0, H1.
  - intros i Hi. rewrite pvalues_edge, (pull_edge P) by auto. f_equal.
    apply (Morley_proofs.edge_equiv P o g (edge_midpoint P i) (nth (18 + i) (target P h o u g H) 0) _ i HS Hi).
    + apply Hg. now apply Morley_proofs.midpoint_is_vec.
    + rewrite (along_edge P u g H v HS Hg HH eq_refl R i Hi). symmetry. now apply along_ext.
    + now apply target_edge.
Qed.
