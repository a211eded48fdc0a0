(** The geometry of triangles, as the Morley and Argyris elements use it. *)
From Coq Require Import Reals Lra Lia List Arith Bool.
From Verif Require Import Lib Nodal_spec Nodal_poly Nodal_rat Hermite_model Hermite_spec Triangle_spec Table2_model.
Import ListNotations.
Local Open Scope R_scope.
#[local] Arguments total : simpl never.

Definition flip (o : list bool) (i : nat) : R := if nth i o false then -1 else 1.
Lemma flip_sq o i : flip o i * flip o i = 1. Proof. unfold flip. destruct (nth i o false); ring. Qed.

(** * The geometry of the triangle *)
Definition det (P : list (list R)) : R :=
  nth 0 (column P 0) 0 * nth 1 (column P 1) 0 - nth 1 (column P 0) 0 * nth 0 (column P 1) 0.
Lemma simplex_det P : simplex 2 P -> det P <> 0.
Proof.
  intros (HP & HF & H) E. assert (HP' := HP). vec_cases.
  match type of E with det [[?a; ?b]; [?c; ?d]; [?e; ?f]] = 0 => rename a into a0, b into a1, c into b0, d into b1, e into d0, f into d1 end.
  unfold det, column, vsub in E. cbn in E.
  assert (K : forall p q, p * (b0 - a0) + q * (b1 - a1) = 0 -> p * (d0 - a0) + q * (d1 - a1) = 0 -> p = 0 /\ q = 0).
  { intros p q Hp Hq. assert (Z : [p; q] = repeat 0 2).
    { apply H; [reflexivity|]. intros [|[|[|i]]] Hi; try lia; unfold dot, vsub, total; cbn -[Rplus Rmult Rminus]; lra. }
    injection Z as -> ->. auto. }
  destruct (K (- (b1 - a1)) (b0 - a0)) as [K1 K2]; [ring|rewrite <- E; ring|].
  destruct (K (- (d1 - a1)) (d0 - a0)) as [K3 K4]; [rewrite <- Ropp_0, <- E; ring|ring|].
  destruct (K 1 0) as [K5 _]; [rewrite K2; ring|rewrite K4; ring|]. lra.
Qed.
(** the edges, their lengths and the images of the reference normals *)
Definition pedge (P : list (list R)) (i : nat) : list R := vsub (nth (snd (edge_vertices i)) P []) (nth (fst (edge_vertices i)) P []).
Definition plen (P : list (list R)) (i : nat) : R := sqrt (dot (pedge P i) (pedge P i)).
Definition pnormal (P : list (list R)) (i : nat) : list R :=
  match i with
  | 0%nat => column P 1
  | 1%nat => vscale (-1) (column P 0)
  | _ => vscale (- / sqrt 2) (vadd (column P 0) (column P 1))
  end.
Definition cross (a b : list R) : R := nth 0 a 0 * nth 1 b 0 - nth 1 a 0 * nth 0 b 0.
Lemma sqrt2_pos : 0 < sqrt 2. Proof. apply sqrt_lt_R0. lra. Qed.
Lemma sqrt2_sq : sqrt 2 * sqrt 2 = 2. Proof. apply sqrt_sqrt. lra. Qed.
Lemma pedge_vec P i : length P = 3%nat -> Forall (is_vec 2) P -> is_vec 2 (pedge P i).
Proof. intros HP HF. vec_cases. destruct i as [|[|i]]; reflexivity. Qed.
Lemma pnormal_vec P i : length P = 3%nat -> Forall (is_vec 2) P -> is_vec 2 (pnormal P i).
Proof. intros HP HF. vec_cases. destruct i as [|[|i]]; reflexivity. Qed.
Lemma cross_edge P i : length P = 3%nat -> Forall (is_vec 2) P ->
  cross (pedge P i) (pnormal P i) = det P * match i with 0%nat | 1%nat => 1 | _ => 2 / sqrt 2 end.
Proof.
  intros HP HF. vec_cases. assert (Q := sqrt2_pos).
  destruct i as [|[|i]]; unfold cross, det, pedge, pnormal, column, vsub, vadd, vscale; cbn -[Rplus Rmult Rminus Rdiv sqrt]; [ring|ring|field; lra].
Qed.
Lemma cross_nz P i : simplex 2 P -> cross (pedge P i) (pnormal P i) <> 0.
Proof.
  intros HS. assert (D := simplex_det P HS). destruct HS as (HP & HF & _). rewrite cross_edge by auto. assert (Q := sqrt2_pos).
  apply Rmult_integral_contrapositive_currified; auto. destruct i as [|[|i]]; try lra. unfold Rdiv. apply Rmult_integral_contrapositive_currified; [lra|]. apply Rinv_neq_0_compat. lra.
Qed.
Lemma plen_pos P i : simplex 2 P -> 0 < plen P i.
Proof.
  intros HS. assert (D := cross_nz P i HS). destruct HS as (HP & HF & _). unfold plen. apply sqrt_lt_R0.
  assert (V := pedge_vec P i HP HF). destruct (pedge P i) as [|a [|b [|]]]; try discriminate. unfold dot, total. cbn -[Rplus Rmult]. unfold cross in D. cbn [nth] in D.
  destruct (Req_dec a 0) as [->|Na]; [destruct (Req_dec b 0) as [->|Nb]|]; [exfalso; apply D; ring|nra|nra].
Qed.
Lemma plen_sq P i : simplex 2 P -> plen P i * plen P i = nth 0 (pedge P i) 0 * nth 0 (pedge P i) 0 + nth 1 (pedge P i) 0 * nth 1 (pedge P i) 0.
Proof.
  intros (HP & HF & _). unfold plen. assert (V := pedge_vec P i HP HF). destruct (pedge P i) as [|a [|b [|]]]; try discriminate.
  rewrite sqrt_sqrt; unfold dot, total; cbn -[Rplus Rmult]; [ring|nra].
Qed.

(** ** What bind computes, in these terms *)
Lemma three_cases (Q : nat -> Prop) : Q 0%nat -> Q 1%nat -> Q 2%nat -> forall i, (i < 3)%nat -> Q i.
Proof. intros H0 H1 H2 [|[|[|i]]] Hi; auto. lia. Qed.
Lemma image_vertex2 P i : length P = 3%nat -> Forall (is_vec 2) P -> (i < 3)%nat -> image 2 P (vertex_position 2 i) = nth i P [].
Proof.
  intros HP HF Hi. vec_cases. destruct i as [|[|[|i]]]; try lia; unfold image, comb, bary, total, vadd, vscale; cbn -[Rplus Rmult Rminus];
    repeat (apply cons_eq; [ring|]); reflexivity.
Qed.
Lemma image_midpoint P i : length P = 3%nat -> Forall (is_vec 2) P -> (i < 3)%nat -> image 2 P (midpoint_position i) = edge_midpoint P i.
Proof.
  intros HP HF Hi. vec_cases. destruct i as [|[|[|i]]]; try lia; unfold image, comb, bary, edge_midpoint, between, total, vadd, vscale; cbn -[Rplus Rmult Rminus Rdiv];
    repeat (apply cons_eq; [field|]); reflexivity.
Qed.
Lemma vertex_position_vec i : is_vec 2 (vertex_position 2 i). Proof. reflexivity. Qed.
Lemma midpoint_vec i : is_vec 2 (midpoint_position i). Proof. destruct i as [|[|i]]; reflexivity. Qed.
Lemma edge_is P G i : length P = 3%nat -> Forall (is_vec 2) P -> affine_geometry 2 P G -> (i < 3)%nat -> global_edge G i = pedge P i.
Proof.
  intros HP HF HG Hi. unfold global_edge. rewrite !(proj1 (HG _ (vertex_position_vec _))).
  rewrite !image_vertex2 by (auto; destruct i as [|[|[|i]]]; cbn; lia).
  vec_cases. destruct i as [|[|[|i]]]; try lia; reflexivity.
Qed.
Lemma norm_is P i : length P = 3%nat -> Forall (is_vec 2) P -> two_norm (pedge P i) = plen P i.
Proof.
  intros HP HF. unfold two_norm, plen. f_equal. assert (V := pedge_vec P i HP HF). destruct (pedge P i) as [|a [|b [|]]]; try discriminate.
  unfold dot, total. cbn -[Rplus Rmult]. ring.
Qed.
Lemma normal_is P G o i : simplex 2 P -> affine_geometry 2 P G -> (i < 3)%nat ->
  globalNormal G o i = edge_normal P o i /\
  globalNormal G o i = [- (flip o i * (nth 1 (pedge P i) 0 / plen P i)); flip o i * (nth 0 (pedge P i) 0 / plen P i)].
Proof.
  intros HS HG Hi. assert (HL := plen_pos P i HS). destruct HS as (HP & HF & _).
  assert (E : globalNormal G o i = [- (flip o i * (nth 1 (pedge P i) 0 / plen P i)); flip o i * (nth 0 (pedge P i) 0 / plen P i)]).
  { unfold globalNormal. rewrite (edge_is P) by auto. rewrite norm_is by auto. unfold flip, div2. cbn [nth].
    destruct (nth i o false); repeat (apply cons_eq; [field; lra|]); reflexivity. }
  split; auto. rewrite E. unfold edge_normal, flip. destruct (nth i o false).
  - assert (X : distance (nth (snd (edge_vertices i)) P []) (nth (fst (edge_vertices i)) P []) = plen P i).
    { unfold distance, plen, pedge. f_equal. clear - HP HF Hi. vec_cases. destruct i as [|[|[|i]]]; try lia; unfold dot, vsub, total; cbn -[Rplus Rmult Rminus]; ring. }
    unfold unit_normal. rewrite X. revert HL. generalize (plen P i). intros L HL. clear - HL HP HF Hi. vec_cases.
    destruct i as [|[|[|i]]]; try lia; unfold pedge, vsub; cbn -[Rplus Rmult Rminus Rdiv Ropp]; repeat (apply cons_eq; [field; lra|]); reflexivity.
  - change (distance (nth (fst (edge_vertices i)) P []) (nth (snd (edge_vertices i)) P [])) with (plen P i). unfold unit_normal.
    change (distance (nth (fst (edge_vertices i)) P []) (nth (snd (edge_vertices i)) P [])) with (plen P i).
    fold (pedge P i). repeat (apply cons_eq; [field; lra|]); reflexivity.
Qed.
Lemma reference_tangents : referenceTangent 0 = [1; 0] /\ referenceTangent 1 = [0; 1] /\ referenceTangent 2 = [- / sqrt 2; / sqrt 2].
Proof.
  assert (Q := sqrt2_pos).
  split; [|split]; unfold referenceTangent, two_norm, div2, sub2; cbn -[Rplus Rmult Rminus Rdiv sqrt Ropp].
  - replace ((1 - 0) * (1 - 0) + (0 - 0) * (0 - 0)) with 1 by ring. rewrite sqrt_1. repeat (apply cons_eq; [field|]). reflexivity.
  - replace ((0 - 0) * (0 - 0) + (1 - 0) * (1 - 0)) with 1 by ring. rewrite sqrt_1. repeat (apply cons_eq; [field|]). reflexivity.
  - replace ((0 - 1) * (0 - 1) + (1 - 0) * (1 - 0)) with 2 by ring. repeat (apply cons_eq; [field; lra|]). reflexivity.
Qed.
