(** Grids of triangles: common edges have common normals. *)
From Coq Require Import Reals Lra Lia List Arith Bool.
From Verif Require Import Lib Nodal_spec Nodal_poly Table2_model Orientation_model Orientation_spec Orientation_props.
From Verif Require Import Triangle_spec Triangle_proofs.
Import ListNotations.
Local Open Scope R_scope.
#[local] Arguments total : simpl never.

Section Grid.
Context {E : Type} (g : fgrid E) (P : E -> list (list R)) (position : nat -> list R) (T : triangles g P position).
Definition low_end (e : E) (i : nat) : list R := position (Nat.min (fst (edge_ends g e i)) (snd (edge_ends g e i))).
Definition high_end (e : E) (i : nat) : list R := position (Nat.max (fst (edge_ends g e i)) (snd (edge_ends g e i))).
Lemma ends_are e i : In e (fg_elements g) -> (i < 3)%nat ->
  edge_ends g e i = (fg_vidx g e (fst (edge_vertices i)), fg_vidx g e (snd (edge_vertices i))).
Proof. intros He Hi. unfold edge_ends. assert (X := tr_edges g P position T e i He Hi). destruct (edge_vertices i) as [a b]. now injection X as -> ->. Qed.
Lemma edge_lt i : (fst (edge_vertices i) < snd (edge_vertices i) < 3)%nat.
Proof. destruct i as [|[|i]]; cbn; lia. Qed.
Lemma positions_differ e i : In e (fg_elements g) -> (i < 3)%nat ->
  nth (fst (edge_vertices i)) (P e) [] <> nth (snd (edge_vertices i)) (P e) [].
Proof.
  intros He Hi X. assert (L := plen_pos (P e) i (tr_simplex g P position T e He)). unfold plen, pedge in L. rewrite X in L.
  assert (HS := tr_simplex g P position T e He). destruct HS as (HP & HF & _).
  assert (V : is_vec 2 (nth (snd (edge_vertices i)) (P e) [])) by (rewrite Forall_forall in HF; apply HF, nth_In; rewrite HP; apply edge_lt).
  destruct (nth (snd (edge_vertices i)) (P e) []) as [|a [|b [|]]]; try discriminate. revert L. unfold dot, vsub. unfold total. cbn -[Rplus Rminus Rmult sqrt].
  match goal with |- 0 < sqrt ?a -> _ => replace a with 0 by ring end. rewrite sqrt_0. lra.
Qed.
Lemma ids_differ e i : In e (fg_elements g) -> (i < 3)%nat -> fst (edge_ends g e i) <> snd (edge_ends g e i).
Proof.
  intros He Hi X. rewrite ends_are in X by auto. cbn [fst snd] in X. apply (positions_differ e i He Hi).
  assert (L := edge_lt i). rewrite !(tr_position g P position T e) by (auto; lia). now rewrite X.
Qed.
Lemma edges_fine : edges_ok g /\ local_order g.
Proof.
  assert (N : forall e i, In e (fg_elements g) -> (i < edges (fg_dim g) (fg_type g e))%nat -> (i < 3)%nat).
  { intros e i He. rewrite (tr_dim g P position T), (tr_type g P position T e He). auto. }
  assert (L : local_order g).
  { intros e i He Hi. assert (X := tr_edges g P position T e i He (N e i He Hi)). assert (Y := edge_lt i). destruct (edge_vertices i). injection X as -> ->. cbn in Y. lia. }
  split; auto. intros e i He Hi. split; [assert (X := L e i He Hi); lia|]. apply ids_differ; eauto.
Qed.
Lemma ends_cases e i : In e (fg_elements g) -> (i < 3)%nat ->
  (low_end e i = nth (fst (edge_vertices i)) (P e) [] /\ high_end e i = nth (snd (edge_vertices i)) (P e) [] /\ (fst (edge_ends g e i) < snd (edge_ends g e i))%nat) \/
  (low_end e i = nth (snd (edge_vertices i)) (P e) [] /\ high_end e i = nth (fst (edge_vertices i)) (P e) [] /\ (snd (edge_ends g e i) < fst (edge_ends g e i))%nat).
Proof.
  intros He Hi. assert (D := ids_differ e i He Hi). assert (L := edge_lt i). rewrite !(tr_position g P position T e) by (auto; lia). unfold low_end, high_end. rewrite ends_are in * by auto. cbn [fst snd] in *.
  destruct (Nat.lt_ge_cases (fg_vidx g e (fst (edge_vertices i))) (fg_vidx g e (snd (edge_vertices i)))).
  - left. rewrite Nat.min_l, Nat.max_r by lia. auto.
  - right. rewrite Nat.min_r, Nat.max_l by lia. repeat split; auto. lia.
Qed.
Lemma orientation_normals : exists os, compute_edge_orientations g = Some os /\
  forall e, In e (fg_elements g) -> exists b, nth_error os (fg_idx g e) = Some b /\ length b = 3%nat /\
  forall i, (i < 3)%nat -> edge_normal (P e) b i = unit_normal (low_end e i) (high_end e i).
Proof.
  destruct edges_fine as [Eo Lo].
  destruct (C47_edge_orientations g (tr_grid g P position T) (tr_dim g P position T) (tr_type g P position T) Eo Lo) as (os & HO & _ & H).
  exists os. split; auto. intros e He. destruct (H e He) as (b & Hb & HL & HE). exists b. split; [auto|split; auto]. intros i Hi.
  destruct (HE i Hi) as (f & Hf & HD). unfold edge_normal. rewrite (nth_error_nth b i false Hf).
  assert (X := tr_edges g P position T e i He Hi). assert (L := edge_lt i). assert (C := ends_cases e i He Hi).
  rewrite (surjective_pairing (edge_ends g e i)) in HD. unfold edge_dir in HD. destruct (edge_vertices i) as [l0 l1] eqn:V. injection X as X0 X1. rewrite X0, X1 in HD. cbn [fst snd] in L, C.
  rewrite Nat.min_l, Nat.max_r in HD by lia. assert (EE := ends_are e i He Hi). rewrite V in EE. cbn [fst snd] in EE |- *. rewrite EE in HD, C. cbn [fst snd] in HD, C.
  destruct C as [(-> & -> & C)|(-> & -> & C)]; destruct f; auto; exfalso; injection HD as H0 H1; lia.
Qed.
Lemma same_ends e i e' j : same_edge g e i e' j -> low_end e i = low_end e' j /\ high_end e i = high_end e' j.
Proof.
  unfold same_edge, low_end, high_end. intros [-> | ->]; auto. cbn [fst snd]. now rewrite Nat.min_comm, Nat.max_comm.
Qed.
Lemma midpoint_ends e i : In e (fg_elements g) -> (i < 3)%nat -> edge_midpoint (P e) i = between (low_end e i) (high_end e i).
Proof.
  intros He Hi. unfold edge_midpoint. destruct (ends_cases e i He Hi) as [(-> & -> & _)|(-> & -> & _)]; auto.
  destruct (tr_simplex g P position T e He) as (HP & HF & _). assert (L := edge_lt i).
  assert (V : forall k, (k < 3)%nat -> is_vec 2 (nth k (P e) [])) by (intros k Hk; rewrite Forall_forall in HF; apply HF, nth_In; lia).
  assert (V0 := V (fst (edge_vertices i)) ltac:(lia)). assert (V1 := V (snd (edge_vertices i)) ltac:(lia)).
  destruct (nth (fst (edge_vertices i)) (P e) []) as [|a [|b [|]]]; try discriminate. destruct (nth (snd (edge_vertices i)) (P e) []) as [|c [|d [|]]]; try discriminate.
  unfold between, vscale, vadd. cbn -[Rplus Rmult Rdiv]. repeat (apply cons_eq; [ring|]). reflexivity.
Qed.
Lemma ends_vec e i : In e (fg_elements g) -> (i < 3)%nat -> is_vec 2 (low_end e i) /\ is_vec 2 (high_end e i) /\ low_end e i <> high_end e i.
Proof.
  intros He Hi. destruct (tr_simplex g P position T e He) as (HP & HF & _). assert (L := edge_lt i).
  assert (V : forall k, (k < 3)%nat -> is_vec 2 (nth k (P e) [])) by (intros k Hk; rewrite Forall_forall in HF; apply HF, nth_In; lia).
  assert (D := positions_differ e i He Hi).
  destruct (ends_cases e i He Hi) as [(-> & -> & _)|(-> & -> & _)]; (split; [apply V; lia|split; [apply V; lia|congruence]]).
Qed.
End Grid.
(** A vector is determined by its components along and across an edge. *)
Lemma vector_of_components a b p q : is_vec 2 a -> is_vec 2 b -> is_vec 2 p -> is_vec 2 q -> a <> b ->
  dot p (vsub b a) = dot q (vsub b a) -> dot p (unit_normal a b) = dot q (unit_normal a b) -> p = q.
Proof.
  intros Ha Hb Hp Hq N H1 H2.
  assert (HL : 0 < distance a b).
  { unfold distance. apply sqrt_lt_R0. vec_cases. unfold dot, vsub. unfold total. cbn -[Rplus Rmult Rminus].
    match goal with |- 0 < (?x - ?y) * _ + ((?z - ?w) * _ + 0) =>
      assert (x - y <> 0 \/ z - w <> 0) as [D|D];
        [destruct (Req_dec x y); [|left; lra]; destruct (Req_dec z w); [|right; lra]; exfalso; apply N; subst; reflexivity|
         assert (0 <= (z - w) * (z - w)) by apply Rle_0_sqr; assert (0 < (x - y) * (x - y)) by (apply Rsqr_pos_lt; auto); lra|
         assert (0 <= (x - y) * (x - y)) by apply Rle_0_sqr; assert (0 < (z - w) * (z - w)) by (apply Rsqr_pos_lt; auto); lra] end. }
  assert (HQ : distance a b * distance a b = dot (vsub b a) (vsub b a)).
  { unfold distance. apply sqrt_sqrt. vec_cases. unfold dot, vsub. unfold total. cbn -[Rplus Rmult Rminus].
    match goal with |- 0 <= ?x * ?x + (?y * ?y + 0) => assert (0 <= x * x) by apply Rle_0_sqr; assert (0 <= y * y) by apply Rle_0_sqr; lra end. }
  revert H2 HQ. unfold unit_normal. set (L := distance a b) in *. clearbody L. clear N. vec_cases.
  revert H1. unfold dot, vsub. unfold total. cbn -[Rplus Rmult Rminus Rdiv Ropp]. intros H1 H2 HQ.
  match type of HQ with L * L = ?s * ?s + (?t * ?t + 0) =>
    match type of H1 with ?p0 * _ + (?p1 * _ + 0) = ?q0 * _ + (?q1 * _ + 0) =>
      assert (H3 : (p1 - q1) * s - (p0 - q0) * t = 0);
      [transitivity (L * ((p0 * (- t / L) + (p1 * (s / L) + 0)) - (q0 * (- t / L) + (q1 * (s / L) + 0)))); [field; lra|rewrite H2; ring]|];
      assert (H4 : (p0 - q0) * s + (p1 - q1) * t = 0) by lra;
      assert (HP0 : (p0 - q0) * (L * L) = 0) by (rewrite HQ; transitivity (s * ((p0 - q0) * s + (p1 - q1) * t) - t * ((p1 - q1) * s - (p0 - q0) * t)); [ring|rewrite H3, H4; ring]);
      assert (HP1 : (p1 - q1) * (L * L) = 0) by (rewrite HQ; transitivity (t * ((p0 - q0) * s + (p1 - q1) * t) + s * ((p1 - q1) * s - (p0 - q0) * t)); [ring|rewrite H3, H4; ring])
    end end.
  assert (LL : L * L <> 0) by (apply Rmult_integral_contrapositive_currified; lra).
  apply Rmult_integral in HP0. apply Rmult_integral in HP1. repeat (apply cons_eq; [destruct HP0, HP1; try lra; contradiction|]). reflexivity.
Qed.
