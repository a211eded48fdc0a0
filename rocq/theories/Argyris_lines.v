(** The functions of the Argyris space along lines through two vertices of a triangle. *)
From Coq Require Import Reals QArith Qreals Lra Lia List Arith Bool.
From Verif Require Import Lib MonomialSet_spec MonomialSet_props Nodal_spec Nodal_poly Nodal_rat Hermite_model Hermite_spec Hermite_proofs.
From Verif Require Import Triangle_spec Table2_model Table2_proofs Triangle_proofs Argyris_model Argyris_spec Argyris_proofs Argyris_edges Triangle_grid.
Import ListNotations.
Local Open Scope R_scope.
#[local] Arguments total : simpl never.

(** * On the triangle *)
Lemma line_vec a b t : is_vec 2 a -> is_vec 2 b -> is_vec 2 (line a b t).
Proof. intros Ha Hb. vec_cases. reflexivity. Qed.
Lemma image_line P i j t : length P = 3%nat -> Forall (is_vec 2) P -> (i < 3)%nat -> (j < 3)%nat ->
  image 2 P (line (V i) (V j) t) = line (nth i P []) (nth j P []) t.
Proof.
  intros HP HF Hi Hj. vec_cases. destruct i as [|[|[|i]]], j as [|[|[|j]]]; try lia; unfold image, comb, bary, line, V, vertex_position, vadd, vscale, vsub; unfold total; cbn -[Rplus Rmult Rminus];
    repeat (apply cons_eq; [ring|]); reflexivity.
Qed.
Lemma edge_columns P i j : length P = 3%nat -> Forall (is_vec 2) P -> (i < 3)%nat -> (j < 3)%nat ->
  vsub (nth j P []) (nth i P []) = vadd (vscale (dir i j 0) (column P 0)) (vscale (dir i j 1) (column P 1)).
Proof.
  intros HP HF Hi Hj. vec_cases. destruct i as [|[|[|i]]], j as [|[|[|j]]]; try lia; unfold dir, V, vertex_position, column, vadd, vscale, vsub; cbn -[Rplus Rmult Rminus];
    repeat (apply cons_eq; [ring|]); reflexivity.
Qed.
Lemma dot_columns a p q s t : is_vec 2 a -> is_vec 2 p -> is_vec 2 q -> dot a (vadd (vscale s p) (vscale t q)) = s * dot a p + t * dot a q.
Proof. intros Ha Hp Hq. vec_cases. unfold dot, vadd, vscale, total. cbn -[Rplus Rmult]. ring. Qed.
Lemma quad_columns H p q s t : is_vec 2 (nth 0 H []) -> is_vec 2 (nth 1 H []) -> is_vec 2 p -> is_vec 2 q ->
  (forall w, is_vec 2 w -> quad H w (vadd (vscale s p) (vscale t q)) = s * quad H w p + t * quad H w q) /\
  (forall w, is_vec 2 w -> quad H (vadd (vscale s p) (vscale t q)) w = s * quad H p w + t * quad H q w).
Proof.
  unfold quad. intros H0 H1 Hp Hq. destruct (nth 0 H []) as [|h0 [|h1 [|]]]; try discriminate. destruct (nth 1 H []) as [|h2 [|h3 [|]]]; try discriminate.
  split; intros w Hw; vec_cases; unfold dot, vadd, vscale, total; cbn -[Rplus Rmult]; ring.
Qed.
Section OnLine.
Variables (P : list (list R)) (u : list R -> R) (g : list R -> list R) (H : list R -> list (list R)) (v : list R).
Hypotheses (HS : simplex 2 P) (Hg : gradient 2 u g) (HH : hessian 2 g H).
Hypothesis E : forall x, is_vec 2 x -> u (image 2 P x) = dot v (sh [] x).
Variables (i j : nat) (t : R).
Hypotheses (Hi : (i < 3)%nat) (Hj : (j < 3)%nat) (Hn : i <> j).
Let a := nth i P [].
Let b := nth j P [].
Let e := vsub b a.
Lemma cols k : (k < 2)%nat -> is_vec 2 (column P k).
Proof. intros Hk. destruct HS as (HP & HF & _). apply (column_vec 2); auto. right; now left. Qed.
Lemma value_on_line : u (line a b t) = quintic_on t (u a) (u b) (dot (g a) e) (dot (g b) e) (quad (H a) e e) (quad (H b) e e).
Proof.
  assert (HS' := HS). destruct HS' as (HP & HF & _).
  assert (C0 := cols 0%nat ltac:(lia)). assert (C1 := cols 1%nat ltac:(lia)).
  assert (Va : is_vec 2 a) by now apply vertex_vec. assert (Vb : is_vec 2 b) by now apply vertex_vec.
  assert (Ha : forall k, (k < 2)%nat -> is_vec 2 (nth k (H a) [])) by (intros; now apply (HH k)). assert (Hb : forall k, (k < 2)%nat -> is_vec 2 (nth k (H b) [])) by (intros; now apply (HH k)).
  assert (Ee : e = vadd (vscale (dir i j 0) (column P 0)) (vscale (dir i j 1) (column P 1))) by now apply edge_columns.
  unfold a at 1, b at 1. rewrite <- image_line by auto. rewrite E by (apply line_vec; reflexivity). rewrite value_on by auto.
  unfold quintic_on. rewrite Ee.
  destruct (quad_columns (H a) (column P 0) (column P 1) (dir i j 0) (dir i j 1) (Ha 0%nat ltac:(lia)) (Ha 1%nat ltac:(lia)) C0 C1) as [A1 A2].
  destruct (quad_columns (H b) (column P 0) (column P 1) (dir i j 0) (dir i j 1) (Hb 0%nat ltac:(lia)) (Hb 1%nat ltac:(lia)) C0 C1) as [B1 B2].
  assert (We : is_vec 2 (vadd (vscale (dir i j 0) (column P 0)) (vscale (dir i j 1) (column P 1)))) by (rewrite <- Ee; unfold e; revert Va Vb; generalize a b; intros p q Va Vb; vec_cases; reflexivity).
  rewrite A1, B1 by auto. rewrite !A2, !B2 by auto. rewrite !dot_columns by (auto; now apply Hg).
  assert (Pu : forall k, (k < 3)%nat -> u (nth k P []) = dot v (sh [] (V k))) by (intros k Hk; rewrite <- image_vertex2 by auto; apply E; reflexivity).
  assert (Pg : forall k m, (k < 3)%nat -> (m < 2)%nat -> dot (g (nth k P [])) (column P m) = dot v (sh [m] (V k))) by (intros k m Hk Hm; rewrite <- image_vertex2 by auto; now apply (pulled_first P u g v)).
  assert (Ph : forall k m l, (k < 3)%nat -> (m < 2)%nat -> (l < 2)%nat -> quad (H (nth k P [])) (column P m) (column P l) = dot v (sh [m; l] (V k))) by (intros k m l Hk Hm Hl; rewrite <- image_vertex2 by auto; now apply (pulled_second P u g H v)).
  unfold a, b. rewrite !Pu, !Pg, !Ph by (auto; lia). unfold value_nodes, total. cbn -[Rplus Rmult Rminus sh V dir q0 q1 q2 q3 q4 q5]. ring.
Qed.
Lemma gradient_on_line m : (m < 2)%nat ->
  nth m (g (line a b t)) 0 = quartic_on t (nth m (g a) 0) (nth m (g b) 0) (dot (nth m (H a) []) e) (dot (nth m (H b) []) e) (nth m (g (line a b (1/2))) 0).
Proof.
  assert (HS' := HS). destruct HS' as (HP & HF & _). assert (D := simplex_det P HS).
  assert (C0 := cols 0%nat ltac:(lia)). assert (C1 := cols 1%nat ltac:(lia)).
  assert (Va : is_vec 2 a) by now apply vertex_vec. assert (Vb : is_vec 2 b) by now apply vertex_vec.
  assert (Ha : forall k, (k < 2)%nat -> is_vec 2 (nth k (H a) [])) by (intros; now apply (HH k)). assert (Hb : forall k, (k < 2)%nat -> is_vec 2 (nth k (H b) [])) by (intros; now apply (HH k)).
  assert (Ee : e = vadd (vscale (dir i j 0) (column P 0)) (vscale (dir i j 1) (column P 1))) by now apply edge_columns.
  assert (K : forall k, (k < 2)%nat -> dot (g (line a b t)) (column P k) = quartic_on t (dot (g a) (column P k)) (dot (g b) (column P k)) (quad (H a) (column P k) e) (quad (H b) (column P k) e) (dot (g (line a b (1/2))) (column P k))).
  { intros k Hk. unfold a at 1, b at 1. rewrite <- image_line by auto. rewrite (pulled_first P u g v) by (auto; apply line_vec; reflexivity). rewrite gradient_on by auto.
    unfold quartic_on. rewrite Ee.
    destruct (quad_columns (H a) (column P 0) (column P 1) (dir i j 0) (dir i j 1) (Ha 0%nat ltac:(lia)) (Ha 1%nat ltac:(lia)) C0 C1) as [A1 _].
    destruct (quad_columns (H b) (column P 0) (column P 1) (dir i j 0) (dir i j 1) (Hb 0%nat ltac:(lia)) (Hb 1%nat ltac:(lia)) C0 C1) as [B1 _].
    rewrite A1, B1 by now apply cols.
    assert (Pg : forall n m, (n < 3)%nat -> (m < 2)%nat -> dot (g (nth n P [])) (column P m) = dot v (sh [m] (V n))) by (intros n m' Hn' Hm; rewrite <- image_vertex2 by auto; now apply (pulled_first P u g v)).
    assert (Ph : forall n m l, (n < 3)%nat -> (m < 2)%nat -> (l < 2)%nat -> quad (H (nth n P [])) (column P m) (column P l) = dot v (sh [m; l] (V n))) by (intros n m' l Hn' Hm Hl; rewrite <- image_vertex2 by auto; now apply (pulled_second P u g H v)).
    assert (Pm : dot (g (line a b (1/2))) (column P k) = dot v (sh [k] (line (V i) (V j) (1/2)))) by (unfold a, b; rewrite <- image_line by auto; apply (pulled_first P u g v); auto; apply line_vec; reflexivity).
    rewrite Pm. unfold a, b. rewrite !Pg, !Ph by (auto; lia). unfold gradient_nodes, total. cbn -[Rplus Rmult Rminus Rdiv sh V dir line c0 c1 c2 c3 bub]. ring. }
  assert (K0 := K 0%nat ltac:(lia)). assert (K1 := K 1%nat ltac:(lia)). clear K.
  assert (Wz : is_vec 2 (g (line a b t))) by (apply Hg, line_vec; auto). assert (Wm : is_vec 2 (g (line a b (1/2)))) by (apply Hg, line_vec; auto).
  assert (Wa : is_vec 2 (g a)) by now apply Hg. assert (Wb : is_vec 2 (g b)) by now apply Hg.
  unfold det in D. unfold quad in K0, K1. intros Hm.
  destruct (column P 0) as [|p0 [|p1 [|]]]; try discriminate. destruct (column P 1) as [|r0 [|r1 [|]]]; try discriminate. cbn [nth] in *.
  destruct (g (line a b t)) as [|z0 [|z1 [|]]]; try discriminate. destruct (g (line a b (1/2))) as [|m0 [|m1 [|]]]; try discriminate.
  destruct (g a) as [|a0 [|a1 [|]]]; try discriminate. destruct (g b) as [|b0 [|b1 [|]]]; try discriminate.
  assert (M : m = 0%nat \/ m = 1%nat) by lia. revert K0 K1. destruct M as [-> | ->]; generalize (dot (nth 0 (H a) []) e) (dot (nth 1 (H a) []) e) (dot (nth 0 (H b) []) e) (dot (nth 1 (H b) []) e); intros x0 x1 y0 y1 K0 K1;
  unfold dot, dot2, total in K0, K1; cbn -[Rplus Rmult Rminus quartic_on] in K0, K1;
  (destruct (lin2 p0 p1 r0 r1 (z0 - quartic_on t a0 b0 x0 y0 m0) (z1 - quartic_on t a1 b1 x1 y1 m1) D) as [L0 L1];
  [unfold quartic_on in *; lra|unfold quartic_on in *; lra|cbn [nth]; lra]).
Qed.
End OnLine.

(** * Functions on two triangles, along a common edge *)
Lemma line_between a b : is_vec 2 a -> is_vec 2 b -> line a b (1/2) = between a b.
Proof. intros Ha Hb. vec_cases. unfold line, between, vadd, vscale, vsub. cbn -[Rplus Rmult Rminus Rdiv]. repeat (apply cons_eq; [field|]). reflexivity. Qed.
Lemma line_swap a b t : is_vec 2 a -> is_vec 2 b -> line a b t = line b a (1 - t).
Proof. intros Ha Hb. vec_cases. unfold line, vadd, vscale, vsub. cbn -[Rplus Rmult Rminus Rdiv]. repeat (apply cons_eq; [ring|]). reflexivity. Qed.
Lemma line_shift a b t : is_vec 2 a -> is_vec 2 b -> vadd (line a b (1/2)) (vscale t (vsub b a)) = line a b (1/2 + t).
Proof. intros Ha Hb. vec_cases. unfold line, vadd, vscale, vsub. cbn -[Rplus Rmult Rminus Rdiv]. repeat (apply cons_eq; [ring|]). reflexivity. Qed.
Lemma tangential u g u' g' a b : is_vec 2 a -> is_vec 2 b -> gradient 2 u g -> gradient 2 u' g' -> (forall t, u (line a b t) = u' (line a b t)) ->
  dot (g (line a b (1/2))) (vsub b a) = dot (g' (line a b (1/2))) (vsub b a).
Proof.
  intros Ha Hb Hg Hg' E. assert (Vl := line_vec a b (1/2) Ha Hb). assert (Ve : is_vec 2 (vsub b a)) by (clear - Ha Hb; vec_cases; reflexivity).
  destruct (Hg _ Vl) as [_ D]. destruct (Hg' _ Vl) as [_ D']. specialize (D _ Ve). specialize (D' _ Ve).
  eapply uniqueness_limite; [exact D|]. apply dlim_ext with (g := fun t => u' (vadd (line a b (1/2)) (vscale t (vsub b a)))); [|exact D'].
  intros t. now rewrite line_shift, E by auto.
Qed.
(** The same data at a and b, and the same derivative across the line at the midpoint. *)
Lemma agree_on_line P u g H v i j P' u' g' H' v' i' j' t :
  simplex 2 P -> gradient 2 u g -> hessian 2 g H -> (forall x, is_vec 2 x -> u (image 2 P x) = dot v (sh [] x)) ->
  simplex 2 P' -> gradient 2 u' g' -> hessian 2 g' H' -> (forall x, is_vec 2 x -> u' (image 2 P' x) = dot v' (sh [] x)) ->
  (i < 3)%nat -> (j < 3)%nat -> i <> j -> (i' < 3)%nat -> (j' < 3)%nat -> i' <> j' ->
  let a := nth i P [] in let b := nth j P [] in nth i' P' [] = a -> nth j' P' [] = b -> a <> b ->
  (forall z, z = a \/ z = b -> u z = u' z /\ g z = g' z /\ forall k, (k < 2)%nat -> nth k (H z) [] = nth k (H' z) []) ->
  dot (g (between a b)) (unit_normal a b) = dot (g' (between a b)) (unit_normal a b) ->
  u (line a b t) = u' (line a b t) /\ g (line a b t) = g' (line a b t).
Proof.
  intros HS Hg HH E HS' Hg' HH' E' Hi Hj Hn Hi' Hj' Hn' a b Ea Eb Nab K N.
  assert (Va : is_vec 2 a) by now apply vertex_vec. assert (Vb : is_vec 2 b) by now apply vertex_vec.
  destruct (K a (or_introl eq_refl)) as (U1 & G1 & H1). destruct (K b (or_intror eq_refl)) as (U2 & G2 & H2).
  assert (A : forall t, u (line a b t) = u' (line a b t)).
  { intros s. unfold a, b. rewrite (value_on_line P u g H v HS Hg HH E i j s Hi Hj Hn). fold a b.
    assert (X := value_on_line P' u' g' H' v' HS' Hg' HH' E' i' j' s Hi' Hj' Hn'). rewrite Ea, Eb in X. rewrite X. rewrite U1, U2, G1, G2. unfold quad. rewrite !H1, !H2 by lia. reflexivity. }
  split; [apply A|].
  assert (M : g (line a b (1/2)) = g' (line a b (1/2))).
  { apply (vector_of_components a b); auto; try (apply Hg, line_vec; auto); try (apply Hg', line_vec; auto); [now apply (tangential u g u' g')|]. now rewrite line_between by auto. }
  assert (W : is_vec 2 (g (line a b t))) by (apply Hg, line_vec; auto). assert (W' : is_vec 2 (g' (line a b t))) by (apply Hg', line_vec; auto).
  apply (nth_ext _ _ 0 0); [congruence|]. intros m Hm. assert (Lm : (m < 2)%nat) by (unfold is_vec in W; lia).
  unfold a, b. rewrite (gradient_on_line P u g H v HS Hg HH E i j t Hi Hj Hn m Lm). fold a b.
  assert (X := gradient_on_line P' u' g' H' v' HS' Hg' HH' E' i' j' t Hi' Hj' Hn' m Lm). rewrite Ea, Eb in X. rewrite X. rewrite G1, G2, M, !H1, !H2 by auto. reflexivity.
Qed.
