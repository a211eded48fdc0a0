(** C55: average mesh sizes. *)
From Coq Require Import Reals Lra Lia List Arith Bool.
From Verif Require Import Lib GeometryType_model Mapper_model Mapper_spec Mapper_props Nodal_spec MeshSize_model MeshSize_spec.
From Verif Require Orientation_model Basis_model Hermite_props.
Import ListNotations.
Local Open Scope R_scope.

Section MeshSize.
Context {E X : Type}.
Variables (g : grid E X) (mp : mapper X) (lay : gt -> nat).

Lemma flat_map_map {A B C} (f : B -> C) (h : A -> list B) l : map f (flat_map h l) = flat_map (fun a => map f (h a)) l.
Proof. induction l as [|a l IH]; cbn; auto. now rewrite map_app, IH. Qed.
Lemma flat_map_ext' {A B} (f h : A -> list B) l : (forall a, In a l -> f a = h a) -> flat_map f l = flat_map h l.
Proof. induction l as [|a l IH]; cbn; auto. intros H. rewrite H by now left. rewrite IH; auto. Qed.
(** the indices are those of all degrees of freedom of the layout *)
Lemma subIndices_keys e : gt_dim (g_type g e) = g_dim g -> subIndices g mp lay e = subIndexRange g mp e (all_keys lay (g_type g e)).
Proof.
  intros HD. unfold subIndices, subIndexRange, all_keys. rewrite HD, flat_map_map. apply flat_map_ext'. intros c _.
  unfold keys_of_codim. rewrite flat_map_map. apply flat_map_ext'. intros i _.
  destruct (nth_error _ i) as [t|]; [|reflexivity]. rewrite map_map.
  assert (S : forall n s, seq s n = map (fun j => (s + j)%nat) (seq 0 n)).
  { intros n. induction n as [|n IH]; intros s; [reflexivity|]. cbn [seq map]. f_equal; [lia|]. rewrite IH, (IH 1%nat), map_map. apply map_ext. intros; lia. }
  cbn zeta. destruct (lay t) as [|n]; [reflexivity|]. cbn [Nat.ltb Nat.leb]. apply S.
Qed.

Definition hits (n : nat) (e : E) : bool := existsb (Nat.eqb n) (subIndices g mp lay e).
Lemma hits_in n e : hits n e = true <-> In n (subIndices g mp lay e).
Proof. unfold hits. rewrite existsb_exists. split; [intros (x & I & H); apply Nat.eqb_eq in H; now subst|intros I; exists n; split; auto; apply Nat.eqb_refl]. Qed.
(** the loop over the indices of one element *)
Lemma touch_all A size : forall l adj sz, NoDup l -> (forall n, In n l -> (n < size)%nat) -> length adj = size -> length sz = size ->
  exists adj' sz', Orientation_model.foreach l (touch A) (adj, sz) = Some (adj', sz') /\ length adj' = size /\ length sz' = size /\
  forall n, (n < size)%nat -> nth n adj' 0%nat = (nth n adj 0%nat + if existsb (Nat.eqb n) l then 1 else 0)%nat /\ nth n sz' 0 = nth n sz 0 + if existsb (Nat.eqb n) l then A else 0.
Proof.
  induction l as [|i l IH]; intros adj sz ND HR L1 L2.
  - exists adj, sz. cbn. split; [reflexivity|split; [assumption|split; [assumption|]]]. intros n Hn. split; [lia|ring].
  - inversion ND as [|? ? NI ND']; subst. assert (Hi := HR i (or_introl eq_refl)). cbn [Orientation_model.foreach]. unfold touch at 1. cbn [fst snd].
    destruct (nth_error_lt_Some adj i) as [a Ha]; [lia|]. destruct (nth_error_lt_Some sz i) as [v Hv]; [lia|]. rewrite Ha, Hv. cbn [obind].
    destruct (upd_Some sz i (v + A)) as [sz1 U1]; [lia|]. destruct (upd_Some adj i (S a)) as [adj1 U2]; [lia|]. rewrite U1, U2. cbn [obind].
    destruct (IH adj1 sz1) as (adj' & sz' & F & M1 & M2 & V); auto; [intros n I; apply HR; now right|now rewrite (upd_length _ _ _ _ U2)|rewrite (upd_length _ _ _ _ U1); lia|].
    exists adj', sz'. repeat (split; [assumption|]). intros n Hn. destruct (V n Hn) as [V1 V2]. cbn [existsb].
    assert (X1 := upd_nth_error _ _ _ _ n U1). assert (X2 := upd_nth_error _ _ _ _ n U2).
    destruct (Nat.eqb_spec n i) as [->|N].
    + apply nth_error_nth with (d := 0) in X1. apply nth_error_nth with (d := 0%nat) in X2. apply nth_error_nth with (d := 0) in Hv. apply nth_error_nth with (d := 0%nat) in Ha.
      cbn [orb]. rewrite V1, V2, X1, X2, Hv, Ha.
      assert (Z : existsb (Nat.eqb i) l = false). { apply not_true_iff_false. intros Z. apply existsb_exists in Z. destruct Z as (m & I & Z). apply Nat.eqb_eq in Z. subst m. contradiction. }
      rewrite Z. split; [lia|ring].
    + cbn [orb]. rewrite V1, V2. f_equal. rewrite <- !nth_default_eq. unfold nth_default. now rewrite X1, X2.
Qed.
Lemma filter_cons {A} (f : A -> bool) a l : filter f (a :: l) = if f a then a :: filter f l else filter f l.
Proof. reflexivity. Qed.
Lemma elements_all volume size : forall l adj sz, (forall e, In e l -> NoDup (subIndices g mp lay e) /\ forall n, In n (subIndices g mp lay e) -> (n < size)%nat) -> length adj = size -> length sz = size ->
  exists adj' sz', Orientation_model.foreach l (fun e => Orientation_model.foreach (subIndices g mp lay e) (touch (volume e))) (adj, sz) = Some (adj', sz') /\ length adj' = size /\ length sz' = size /\
  forall n, (n < size)%nat -> nth n adj' 0%nat = (nth n adj 0%nat + length (filter (hits n) l))%nat /\ nth n sz' 0 = nth n sz 0 + total (map volume (filter (hits n) l)).
Proof.
  induction l as [|e l IH]; intros adj sz H L1 L2.
  - exists adj, sz. cbn. split; [reflexivity|split; [assumption|split; [assumption|]]]. intros n Hn. split; [lia|unfold total; cbn; ring].
  - cbn [Orientation_model.foreach]. destruct (H e (or_introl eq_refl)) as [ND HR].
    destruct (touch_all (volume e) size (subIndices g mp lay e) adj sz ND HR L1 L2) as (adj1 & sz1 & F & M1 & M2 & V). rewrite F. cbn [obind].
    destruct (IH adj1 sz1) as (adj' & sz' & F' & M1' & M2' & V'); auto; [intros; apply H; now right|].
    exists adj', sz'. repeat (split; [assumption|]). intros n Hn. destruct (V n Hn) as [V1 V2]. destruct (V' n Hn) as [V1' V2']. rewrite V1', V2', V1, V2.
    rewrite filter_cons. change (hits n e) with (existsb (Nat.eqb n) (subIndices g mp lay e)). destruct (existsb (Nat.eqb n) (subIndices g mp lay e)); cbn [map length]; [|split; [lia|ring]].
    split; [lia|unfold total; cbn [fold_right]; ring].
Qed.
Lemma total_pos (l : list R) : l <> [] -> (forall a, In a l -> 0 < a) -> 0 < total l.
Proof.
  induction l as [|a l IH]; intros N H; [congruence|]. unfold total. cbn [fold_right]. destruct l as [|b l]; [cbn; assert (0 < a) by (apply H; now left); lra|].
  assert (0 < total (b :: l)) by (apply IH; [discriminate|intros; apply H; now right]). assert (0 < a) by (apply H; now left). unfold total in *. lra.
Qed.
Lemma root x n : 0 < x -> (0 < n)%nat -> 0 < Rpower x (1 / INR n) /\ Rpower x (1 / INR n) ^ n = x.
Proof.
  intros Hx Hn. assert (P : 0 < Rpower x (1 / INR n)) by (unfold Rpower; apply exp_pos). split; auto.
  assert (0 < INR n) by now apply lt_0_INR. rewrite <- Rpower_pow by auto. rewrite Rpower_mult. replace (1 / INR n * INR n) with 1 by (field; lra). now apply Rpower_1.
Qed.
(** The computed vector has one entry per index of the mapper.  At each index of an entity x
    it is the d-th root of the average volume of the elements that x belongs to, in a
    d-dimensional grid.  In particular all entries are positive numbers. *)
Theorem C55_average_mesh_size els elements volume :
  grid_ok els g -> layout_ok lay -> mapper_ok els g lay mp -> (0 < g_dim g)%nat ->
  NoDup elements -> (forall e, In e elements <-> els e) -> (forall e, els e -> 0 < volume e) ->
  exists r, computeAverageSubEntityMeshSize g mp lay elements volume = Some r /\ length r = mp_size mp /\
  forall x t n, entity els g x t -> (n < lay t)%nat ->
    exists h l, nth_error r (mp_off mp x + n) = Some h /\ 0 < h /\ h ^ g_dim g = average volume l /\
      NoDup l /\ l <> [] /\ forall e, In e l <-> els e /\ adjacent g e x.
Proof.
  intros HG HL HM HD ND HE HV.
  assert (KO : keys_ok els g lay (fun e => all_keys lay (g_type g e))).
  { intros e He. split; [apply all_keys_nodup|]. intros i c n. apply all_keys_in. }
  assert (TO : types_ok els g (map (g_type g) elements)).
  { intros e He. exists (g_type g e). split; [now apply in_map, HE|apply same_type_refl]. }
  destruct (C30_mapper_leaf els g lay (map (g_type g) elements) (fun e => all_keys lay (g_type g e)) mp HG HL TO HM KO) as (LO & DI & _). cbn [mapper_leaf Basis_model.lf_indices] in DI.
  assert (SI : forall e, els e -> subIndices g mp lay e = subIndexRange g mp e (all_keys lay (g_type g e))) by (intros e He; apply subIndices_keys, (go_dim _ _ HG e He)).
  assert (RA : forall e n, els e -> In n (subIndices g mp lay e) <-> exists i c t k, subtype g e i c t /\ (k < lay t)%nat /\ n = (mp_off mp (g_sub g e i c) + k)%nat).
  { intros e n He. rewrite SI by auto. rewrite in_range. split.
    - intros (s & c & i & I & ->). apply all_keys_in in I. destruct I as (t & Ht & Hi). exists s, c, t, i. auto.
    - intros (s & c & t & k & Ht & Hk & ->). exists s, c, k. split; auto. apply all_keys_in. now exists t. }
  destruct (elements_all volume (mp_size mp) elements (repeat 0%nat (mp_size mp)) (repeat 0 (mp_size mp))) as (adj & sz & F & M1 & M2 & V); try apply repeat_length.
  { intros e He. apply HE in He. split; [rewrite SI by auto; now apply DI|]. intros n I. apply (RA e n He) in I. destruct I as (i & c & t & k & Ht & Hk & ->).
    apply (mo_range els g lay mp HM _ t); auto. exists e, i, c. auto. }
  unfold computeAverageSubEntityMeshSize. rewrite F. cbn [obind]. eexists. split; [reflexivity|]. cbn [fst snd]. split; [rewrite map_length, combine_length; lia|].
  intros x t n Hx Hn. set (m := (mp_off mp x + n)%nat).
  assert (Hm : (m < mp_size mp)%nat) by (apply (mo_range els g lay mp HM x t n Hx Hn)).
  destruct (V m Hm) as [V1 V2]. rewrite nth_repeat in V1, V2. rewrite Rplus_0_l in V2. cbn [Nat.add] in V1.
  set (l := filter (hits m) elements) in *.
  assert (LI : forall e, In e l <-> els e /\ adjacent g e x).
  { intros e. unfold l. rewrite filter_In, hits_in, HE. split.
    - intros [He I]. split; auto. apply (RA e m He) in I. destruct I as (i & c & t' & k & Ht & Hk & Q). exists i, c, t'. split; auto. symmetry.
      apply (mo_disjoint els g lay mp HM x t n _ t' k); auto. exists e, i, c. auto.
    - intros (He & i & c & t' & Ht & Q). split; auto. apply (RA e m He). exists i, c, t', n. split; auto. split; [|unfold m; now rewrite Q].
      destruct Hx as (e0 & i0 & c0 & He0 & Ht0 & ->). destruct (go_type els g HG e0 i0 c0 t e i c t' He0 He Ht0 Ht (eq_sym Q)) as [S _]. now rewrite <- (HL _ _ S). }
  assert (NE : l <> []).
  { destruct Hx as (e0 & i0 & c0 & He0 & Ht0 & Q). intros Z. assert (I : In e0 l) by (apply LI; split; auto; exists i0, c0, t; auto). rewrite Z in I. destruct I. }
  assert (P : 0 < average volume l).
  { unfold average. assert (0 < total (map volume l)).
    { apply total_pos; [destruct l; [congruence|discriminate]|]. intros a I. apply in_map_iff in I. destruct I as (e & <- & I). apply HV. now apply LI. }
    assert (0 < INR (length l)) by (apply lt_0_INR; destruct l; [congruence|cbn; lia]). now apply Rdiv_lt_0_compat. }
  destruct (root _ (g_dim g) P HD) as [R1 R2].
  exists (Rpower (average volume l) (1 / INR (g_dim g))), l. split; [|split; [auto|split; [auto|split; [now apply NoDup_filter|split; auto]]]].
  rewrite nth_error_map_eq. destruct (nth_error_lt_Some (combine sz adj) m) as [p Hp]; [rewrite combine_length; lia|]. rewrite Hp. cbn [option_map]. f_equal. f_equal.
  apply nth_error_nth with (d := (0, 0%nat)) in Hp. rewrite combine_nth in Hp by lia. subst p. cbn [fst snd]. rewrite V1, V2. reflexivity.
Qed.
End MeshSize.

(** * Example: two triangles, with the layout for vertices *)

Definition ex_mapper : mapper nat := MAP 4 (fun x => x).
Definition ex_volume (e : bool) : R := if e then 4 else 3.
Lemma ex_subtype e i c t : subtype Hermite_props.ex_grid2 e i c t ->
  In (i, c, t) [(0, 0, [false; true]); (0, 1, [true]); (1, 1, [false]); (2, 1, [false]); (0, 2, []); (1, 2, []); (2, 2, [])]%nat.
Proof.
  unfold subtype. cbn [Hermite_props.ex_grid2 g_type]. destruct c as [|[|[|c]]].
  - destruct i as [|[|i]]; cbn; intros H; try discriminate. injection H as <-. tauto.
  - destruct i as [|[|[|i]]]; cbn; intros H; try (destruct i; discriminate); injection H as <-; tauto.
  - destruct i as [|[|[|i]]]; cbn; intros H; try (destruct i; discriminate); injection H as <-; tauto.
  - intros H. exfalso. rewrite GeometryType_props.subtypes_big in H by (cbn; lia). destruct i; discriminate.
Qed.
Ltac ex_cases H := apply ex_subtype in H; cbn [In] in H; repeat (destruct H as [H|H]; [injection H as <- <- <-|]); [..|destruct H].
Example C55_ex_grid : grid_ok (fun _ => True) Hermite_props.ex_grid2.
Proof.
  constructor.
  - reflexivity.
  - intros e i c t i' c' t' _ H H' Q. ex_cases H; ex_cases H'; destruct e; cbn in Q; try discriminate; auto.
  - intros e i c t e' i' c' t' _ _ H H' Q. ex_cases H; ex_cases H'; destruct e, e'; cbn in Q; try discriminate; split; try reflexivity; split; reflexivity.
Qed.
Example C55_ex_layout : layout_ok mcmgVertexLayout.
Proof. intros t t' [_ L]. unfold mcmgVertexLayout, gt_dim. now rewrite L. Qed.
Example C55_ex_mapper : mapper_ok (fun _ => True) Hermite_props.ex_grid2 mcmgVertexLayout ex_mapper.
Proof.
  constructor.
  - intros x t i (e & a & c & _ & H & ->) Hi. ex_cases H; unfold mcmgVertexLayout in Hi; cbn in Hi; try lia; destruct e; cbn; lia.
  - intros x t i y t' j (e & a & c & _ & H & ->) (e' & a' & c' & _ & H' & ->) Hi Hj Q.
    ex_cases H; unfold mcmgVertexLayout in Hi; cbn in Hi; try lia; ex_cases H'; unfold mcmgVertexLayout in Hj; cbn in Hj; try lia; cbn [ex_mapper mp_off] in Q; lia.
  - intros n Hn. cbn in Hn.
    assert (K : forall e a, (a < 3)%nat -> exists x t i, entity (fun _ => True) Hermite_props.ex_grid2 x t /\ (i < mcmgVertexLayout t)%nat /\ g_sub Hermite_props.ex_grid2 e a 2 = (mp_off ex_mapper x + i)%nat).
    { intros e a Ha. exists (g_sub Hermite_props.ex_grid2 e a 2), [], 0%nat. split; [|split; [cbn; lia|cbn [ex_mapper mp_off]; lia]].
      exists e, a, 2%nat. split; auto. split; [|reflexivity]. destruct a as [|[|[|a]]]; try lia; reflexivity. }
    destruct n as [|[|[|[|n]]]]; [apply (K false 0%nat)|apply (K false 1%nat)|apply (K false 2%nat)|apply (K true 1%nat)|]; lia.
Qed.
Example C55_ex_elements : NoDup [false; true] /\ (forall e : bool, In e [false; true] <-> True) /\ forall e, 0 < ex_volume e.
Proof. split; [repeat constructor; cbn; intuition discriminate|]. split; [intros [|]; cbn; tauto|]. intros [|]; cbn; lra. Qed.
(** vertex 1 belongs to both triangles *)
Example C55_ex_result : exists r h, computeAverageSubEntityMeshSize Hermite_props.ex_grid2 ex_mapper mcmgVertexLayout [false; true] ex_volume = Some r /\ nth_error r 1 = Some h /\ 0 < h /\ h * h = 7/2.
Proof.
  eexists _, _. split; [reflexivity|]. split; [reflexivity|]. cbn [Hermite_props.ex_grid2 g_dim].
  match goal with |- context [Rpower ?x _] => replace x with (7/2) by (cbn; lra) end.
  destruct (root (7/2) 2 ltac:(lra) ltac:(lia)) as [A B]. split; auto. rewrite <- B at 3. ring.
Qed.
Print Assumptions C55_average_mesh_size.
