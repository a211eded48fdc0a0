(** The hypotheses of C90 are met: two triangles with a common edge, and a triangle and a
    square. *)
From Coq Require Import List Arith Lia Bool Reals Lra Permutation.
From Verif Require Import Lib Basis_model Basis_spec Basis_ok Basis_view Basis_proofs Basis_props Container_model Container_spec FlatVector_model FlatVector_props
  DiscreteFunction_model DiscreteFunction_spec DiscreteFunction_proofs
  GeometryType_model GeometryType_spec GeometryType_props Mapper_model Mapper_spec Mapper_props Mapper_blocks Keys_check Lagrange_model Lagrange_spec Lagrange_tables Lagrange_proofs Lagrange_props
  Conforming_spec Conforming_proofs Conforming_shapes Conforming_refs Conforming_props Families_model Families_spec Families_props
  SimplexFunctions_spec SimplexFunctions_proofs SimplexFunctions_props.
Import ListNotations.

(** Vertices 0,1,2,3; the triangles have the vertices (0,1,2) and (2,3,1).  Edges are numbered
    from 4, the triangles 9 and 10. *)
Definition t2_sub (e : bool) (i c : nat) : nat :=
  match c with
  | 0 => if e then 10 else 9
  | 1 => nth i (if e then [7; 6; 8] else [4; 5; 6]) 0
  | _ => nth i (if e then [2; 3; 1] else [0; 1; 2]) 0
  end.
Definition t2_grid : grid bool nat := GRID 2 (fun _ => [false; false]) t2_sub.
Definition t2_ref (e : bool) : refelem := triangle2.
Definition t2_vid (e : bool) (v : nat) : nat := t2_sub e v 2.
Definition t2_bary (e : bool) (x : R * R) (v : nat) : R := nth v [1 - fst x - snd x; fst x; snd x]%R 0%R.
Definition t2_table : list (bool * nat * nat * gt) :=
  flat_map (fun e => [(e, 0, 0, [false; false]); (e, 0, 1, [false]); (e, 1, 1, [false]); (e, 2, 1, [false]); (e, 0, 2, []); (e, 1, 2, []); (e, 2, 2, [])]) [false; true].
Lemma t2_types e i c t : subtype t2_grid e i c t <-> In (e, i, c, t) t2_table.
Proof.
  unfold subtype. cbn [t2_grid g_type]. split.
  - intros H. destruct c as [|[|[|c]]]; cbn in H; do 3 (destruct i as [|i]; [try discriminate H; injection H as <-; destruct e; cbn; tauto|]); destruct i; discriminate H.
  - intros H. cbn [t2_table flat_map app In] in H. repeat (destruct H as [H|H]; [injection H as <- <- <- <-; reflexivity|]). destruct H.
Qed.
Ltac t2_cases H := apply t2_types in H; cbn [t2_table flat_map app In] in H; repeat (destruct H as [H|H]; [try discriminate H; injection H; clear H; intros; subst|]); [..|destruct H].
Lemma t2_grid_ok : grid_ok all_els t2_grid.
Proof.
  constructor.
  - reflexivity.
  - intros e i c t i' c' t' _ H H' Q. destruct e; t2_cases H; t2_cases H'; cbn in Q; try discriminate Q; split; reflexivity.
  - intros e i c t e' i' c' t' _ _ H H' Q. t2_cases H; t2_cases H'; cbn in Q; try discriminate Q; repeat split; reflexivity.
Qed.
Lemma t2_ids_ok : ids_ok all_els t2_grid t2_ref t2_vid.
Proof.
  constructor.
  - reflexivity.
  - intros e _ _. constructor; try (intros; discriminate).
    + reflexivity.
    + vm_compute. lia.
    + intros i H. vm_compute in H. do 3 (destruct i as [|i]; [do 2 eexists; reflexivity|]). exfalso. lia.
  - intros e s c _ Hc Hs. change (g_dim t2_grid) with 2 in Hc. assert (c = 1) by lia. subst c.
    destruct e; vm_compute in Hs; do 3 (destruct s as [|s]; [vm_compute; repeat constructor; cbn; lia|]); exfalso; lia.
  - intros e s c e' s' _ _ Hc Hs Hs' Q. change (g_dim t2_grid) with 2 in Hc. assert (c = 1) by lia. subst c.
    assert (Sw : forall a b, same_face [a; b] [b; a]).
    { intros a b. split; [reflexivity|]. split; [cbn; tauto|]. intros x y. rewrite !face_edge_2. tauto. }
    destruct e, e'; vm_compute in Hs, Hs';
      do 3 (destruct s as [|s]; [do 3 (destruct s' as [|s']; [vm_compute in Q; try discriminate Q; first [apply same_face_refl|apply Sw]|]); exfalso; lia|]); exfalso; lia.
Qed.
Definition t2_part (e : bool) (s1 c1 s c : nat) : bool := (c <=? c1) && incl_check (vertices t2_grid t2_ref e s1 c1) (vertices t2_grid t2_ref e s c).
Definition t2_closed : bool :=
  forallb (fun a => let '(e, s, c, _) := a in forallb (fun a' => let '(e', s', c', _) := a' in forallb (fun a1 => let '(e1, s1, c1, _) := a1 in
    negb ((0 <? c) && (c =? c') && Bool.eqb e e1 && (g_sub t2_grid e s c =? g_sub t2_grid e' s' c) && t2_part e s1 c1 s c) ||
    existsb (fun a2 => let '(e2, s2, c2, _) := a2 in
      Bool.eqb e' e2 && (c1 =? c2) && (g_sub t2_grid e s1 c1 =? g_sub t2_grid e' s2 c1) && t2_part e' s2 c1 s' c) t2_table) t2_table) t2_table) t2_table.
Lemma t2_faces_ok : faces_ok all_els t2_grid t2_ref t2_vid.
Proof.
  constructor.
  - intros e s c t e' s' t' s1 c1 t1 _ _ Hc Hs Hs' Q Hs1 [P1 P2].
    assert (CL : t2_closed = true) by (vm_compute; reflexivity). unfold t2_closed in CL. rewrite forallb_forall in CL.
    specialize (CL _ (proj1 (t2_types _ _ _ _) Hs)). cbn beta iota in CL. rewrite forallb_forall in CL.
    specialize (CL _ (proj1 (t2_types _ _ _ _) Hs')). cbn beta iota in CL. rewrite forallb_forall in CL.
    specialize (CL _ (proj1 (t2_types _ _ _ _) Hs1)). cbn beta iota in CL.
    rewrite (proj2 (Nat.ltb_lt 0 c) Hc), Nat.eqb_refl, Bool.eqb_reflx in CL. unfold t2_part at 1 in CL.
    rewrite (proj2 (Nat.leb_le _ _) P1), (proj2 (incl_check_ok _ _) P2), (proj2 (Nat.eqb_eq _ _) Q) in CL. cbn [andb negb orb] in CL.
    apply existsb_exists in CL as ([[[e2 s2] c2] t2] & I & H).
    apply andb_true_iff in H as [H H4]. apply andb_true_iff in H as [H H3]. apply andb_true_iff in H as [H1 H2].
    apply eqb_prop in H1. apply Nat.eqb_eq in H2, H3. subst. apply andb_true_iff in H4 as [H4 H5].
    exists s2, t2. split; [now apply t2_types|]. split; auto. split; [now apply Nat.leb_le|now apply incl_check_ok].
  - intros e s t _ _. reflexivity.
  - intros e s t e' s' t' _ _ _ _ Q. exact Q.
Qed.
Lemma t2_simplices e : all_els e -> In (g_dim t2_grid, t2_ref e) simplices.
Proof. cbn. auto. Qed.
Lemma t2_types_ok : types_ok all_els t2_grid [[false; false]].
Proof. intros e _. exists [false; false]. split; [now left|split; reflexivity]. Qed.
(** One index per vertex and edge, and per triangle for the basis with bubbles *)
Lemma t2_mapper n (lay : gt -> nat) : (forall e i c t, subtype t2_grid e i c t -> lay t = if t2_sub e i c <? n then 1 else 0) -> n <= 11 ->
  mapper_ok all_els t2_grid lay (MAP n (fun x => x)).
Proof.
  intros H Hn. constructor; cbn [mp_off mp_size].
  - intros x t i (e & j & c & _ & St & ->) Hi. rewrite (H e j c t St) in Hi. cbn [t2_grid g_sub]. destruct (Nat.ltb_spec (t2_sub e j c) n); lia.
  - intros x t i y t' j (e & i0 & c & _ & St & ->) (e' & i0' & c' & _ & St' & ->) Hi Hj Q.
    rewrite (H e i0 c t St) in Hi. rewrite (H e' i0' c' t' St') in Hj. cbn [t2_grid g_sub] in *.
    destruct (t2_sub e i0 c <? n), (t2_sub e' i0' c' <? n); lia.
  - intros m Hm.
    assert (G : exists e i c t, subtype t2_grid e i c t /\ m = t2_sub e i c).
    { destruct m as [|[|[|[|[|[|[|[|[|[|[|m]]]]]]]]]]]; [..|exfalso; lia].
      - exists false, 0, 2, []. split; reflexivity.
      - exists false, 1, 2, []. split; reflexivity.
      - exists false, 2, 2, []. split; reflexivity.
      - exists true, 1, 2, []. split; reflexivity.
      - exists false, 0, 1, [false]. split; reflexivity.
      - exists false, 1, 1, [false]. split; reflexivity.
      - exists false, 2, 1, [false]. split; reflexivity.
      - exists true, 0, 1, [false]. split; reflexivity.
      - exists true, 2, 1, [false]. split; reflexivity.
      - exists false, 0, 0, [false; false]. split; reflexivity.
      - exists true, 0, 0, [false; false]. split; reflexivity. }
    destruct G as (e & i & c & t & St & ->). exists (t2_sub e i c), t, 0. split; [exists e, i, c; repeat split; exact St|].
    rewrite (H e i c t St), (proj2 (Nat.ltb_lt _ _) Hm). lia.
Qed.
Lemma t2_keys_ok lay : keys_ok all_els t2_grid lay (fun e => all_keys lay [false; false]).
Proof. intros e _. split; [apply all_keys_nodup|]. intros i c m. rewrite all_keys_in. reflexivity. Qed.

(** A scalar basis over this grid. *)
Section Scalar.
Variables (l : leaf bool) (shape : bool -> R * R -> list R).
Hypothesis Hl : leaf_ok all_els l.
Hypothesis Hs : forall e x, length (shape e x) = lf_fe l e.
Definition t2_su : setup bool (R * R) := SU (subspace_of_root (build (BLeaf l)) []) 1 (fun _ => 1) 2 2
  (fun e _ x => map (fun r => [r]) (shape e x)) (fun e _ _ => repeat [0; 0]%R (lf_fe l e)) (fun _ _ _ _ => 0%R)
  (CVal 0%R) (fun _ => FScalar) (CBlk [CVal 0; CVal 0])%R (fun _ => FVec (Some 2) FScalar).
Lemma t2_leaves e v p n : leaf_of (BLeaf l) [] e v p n -> p = [] /\ node_size n = lf_fe l e.
Proof.
  intros (H1 & H2 & H3). rewrite (bind_new_ok all_els _ _ e (build_ok (BLeaf l) all_els Hl) I) in H1. injection H1 as <-. cbn [lv_tree app] in H2.
  destruct p as [|[|i] p]; cbn in H2; [|discriminate|destruct i; discriminate]. injection H2 as <-. cbn. auto.
Qed.
Lemma t2_setup : setup_ok (BLeaf l) [] all_els t2_su.
Proof.
  constructor.
  - exact Hl.
  - cbn. eauto.
  - reflexivity.
  - intros e v p n x He L. destruct (t2_leaves e v p n L) as [-> ->]. cbn [t2_su su_shape su_vdim].
    split; [now rewrite map_length|]. apply Forall_forall. intros z Hz. apply in_map_iff in Hz as (r & <- & _). reflexivity.
  - intros e v p n x He L. destruct (t2_leaves e v p n L) as [-> ->]. cbn [t2_su su_jac su_vdim su_ldim].
    split; [apply repeat_length|]. apply Forall_forall. intros z Hz. apply repeat_spec in Hz. now subst.
  - intros e v p n He L. destruct (t2_leaves e v p n L) as [-> _]. split; [eexists; repeat split; reflexivity|now left].
  - intros e v p n He L. destruct (t2_leaves e v p n L) as [-> _]. split; [|right; cbn; eauto]. eexists. split; [reflexivity|]. repeat split; repeat constructor.
Qed.
Lemma t2_scalar : scalar_leaf all_els t2_su [] shape.
Proof. split; reflexivity. Qed.
End Scalar.

Definition norm4 (n : nat) : R := (INR n ^ n)%R.
Definition t2_leaf (n : nat) (lay : gt -> nat) : leaf bool := mapper_leaf t2_grid (MAP n (fun x => x)) lay [[false; false]] (fun e => all_keys lay [false; false]).
Lemma t2_leaf_ok n lay : layout_ok lay ->
  (forall e i c t, subtype t2_grid e i c t -> lay t = if t2_sub e i c <? n then 1 else 0) -> n <= 11 -> leaf_ok all_els (t2_leaf n lay).
Proof.
  intros HL H Hn.
  apply (C30_mapper_leaf all_els t2_grid lay [[false; false]] (fun e => all_keys lay [false; false]) (MAP n (fun x => x)));
    [apply t2_grid_ok|exact HL|apply t2_types_ok|now apply t2_mapper|apply t2_keys_ok].
Qed.
Definition lay_hierarchical (t : gt) : nat := hierarchical_layout 2 t 2.
Definition lay_bubble (t : gt) : nat := bubble_layout 2 2 t 2.
Definition lay_refined (t : gt) : nat := refined_layout 1 2 t 2.
Lemma layout_by_dim lay : (forall t t', gt_dim t = gt_dim t' -> lay t = lay t') -> layout_ok lay.
Proof. intros H t t' S. apply H. apply (same_dim _ _ S). Qed.
Definition t2_keys (lay : gt -> nat) (e : bool) : list localkey := all_keys lay [false; false].

Example C90_hierarchical_case :
  let shape := hierarchical_shapes t2_grid t2_ref (t2_keys lay_hierarchical) t2_bary norm4 in
  let l := t2_leaf 9 lay_hierarchical in
  continuous all_els (BLeaf l) [] (t2_su l shape) [] t2_grid t2_ref t2_vid t2_bary /\
  lf_indices l false = [4; 5; 6; 0; 1; 2] /\ lf_indices l true = [7; 6; 8; 2; 3; 1].
Proof.
  intros shape l. split; [|split; reflexivity].
  assert (HL : layout_ok lay_hierarchical) by (apply layout_by_dim; intros t t' Q; unfold lay_hierarchical, hierarchical_layout, isVertex, isLine; now rewrite Q).
  assert (HC : forall e i c t, subtype t2_grid e i c t -> lay_hierarchical t = if t2_sub e i c <? 9 then 1 else 0) by (intros e i c t H; t2_cases H; reflexivity).
  assert (Hl : leaf_ok all_els l) by (apply t2_leaf_ok; auto).
  apply (C90_hierarchical_lagrange all_els (BLeaf l) [] (t2_su l shape) [] t2_grid t2_ref t2_vid t2_bary [[false; false]] (MAP 9 (fun x => x)) (t2_keys lay_hierarchical) 2 norm4);
    [apply t2_setup; [exact Hl|intros; apply map_length]|now right|apply t2_simplices|apply t2_grid_ok|apply t2_ids_ok|apply t2_faces_ok|apply t2_types_ok|reflexivity
    |apply t2_mapper; [exact HC|lia]| |reflexivity|apply t2_scalar].
  apply (counts_agree all_els t2_grid lay_hierarchical); [|apply t2_keys_ok]. intros e i c t _ H. t2_cases H; reflexivity.
Qed.
Example C90_bubble_case :
  let shape := hierarchical_shapes t2_grid t2_ref (t2_keys lay_bubble) t2_bary norm4 in
  let l := t2_leaf 11 lay_bubble in
  continuous all_els (BLeaf l) [] (t2_su l shape) [] t2_grid t2_ref t2_vid t2_bary /\
  lf_indices l false = [9; 4; 5; 6; 0; 1; 2] /\ lf_indices l true = [10; 7; 6; 8; 2; 3; 1].
Proof.
  intros shape l. split; [|split; reflexivity].
  assert (HL : layout_ok lay_bubble) by (apply layout_by_dim; intros t t' Q; unfold lay_bubble, bubble_layout; now rewrite Q).
  assert (HC : forall e i c t, subtype t2_grid e i c t -> lay_bubble t = if t2_sub e i c <? 11 then 1 else 0) by (intros e i c t H; t2_cases H; reflexivity).
  assert (Hl : leaf_ok all_els l) by (apply t2_leaf_ok; auto).
  apply (C90_hierarchical_with_bubble all_els (BLeaf l) [] (t2_su l shape) [] t2_grid t2_ref t2_vid t2_bary [[false; false]] (MAP 11 (fun x => x)) (t2_keys lay_bubble) 2 norm4);
    [apply t2_setup; [exact Hl|intros; apply map_length]|now right|cbn; lia|apply t2_simplices|apply t2_grid_ok|apply t2_ids_ok|apply t2_faces_ok|apply t2_types_ok|reflexivity
    |apply t2_mapper; [exact HC|lia]| |reflexivity|apply t2_scalar].
  apply (counts_agree all_els t2_grid lay_bubble); [|apply t2_keys_ok]. intros e i c t _ H. t2_cases H; reflexivity.
Qed.
Example C90_refined_case :
  let shape := refined_shapes t2_grid t2_ref (t2_keys lay_refined) t2_bary in
  let l := t2_leaf 9 lay_refined in
  continuous all_els (BLeaf l) [] (t2_su l shape) [] t2_grid t2_ref t2_vid t2_bary /\
  lf_indices l false = [4; 5; 6; 0; 1; 2] /\ lf_indices l true = [7; 6; 8; 2; 3; 1].
Proof.
  intros shape l. split; [|split; reflexivity].
  assert (HL : layout_ok lay_refined) by (apply layout_by_dim; intros t t' Q; unfold lay_refined, refined_layout; now rewrite Q).
  assert (HC : forall e i c t, subtype t2_grid e i c t -> lay_refined t = if t2_sub e i c <? 9 then 1 else 0) by (intros e i c t H; t2_cases H; reflexivity).
  assert (Hl : leaf_ok all_els l) by (apply t2_leaf_ok; auto).
  apply (C90_refined_lagrange all_els (BLeaf l) [] (t2_su l shape) [] t2_grid t2_ref t2_vid t2_bary [[false; false]] (MAP 9 (fun x => x)) (t2_keys lay_refined) shape);
    [apply t2_setup; [exact Hl|intros; apply map_length]|apply t2_simplices|apply t2_grid_ok|apply t2_ids_ok|apply t2_faces_ok|apply t2_types_ok|reflexivity
    |apply t2_mapper; [exact HC|lia]| |reflexivity| |apply t2_scalar].
  - apply (counts_agree all_els t2_grid lay_refined); [|apply t2_keys_ok]. intros e i c t _ H. t2_cases H; reflexivity.
  - split; [intros; apply map_length|]. reflexivity.
Qed.
(** The point at r of the common edge, which is edge 2 of the first and edge 1 of the second
    triangle. *)
Example C90_same_location : forall r, same_location t2_grid t2_ref t2_vid t2_bary 1 false (1 - r, r)%R 2 true (0, 1 - r)%R 1.
Proof.
  intros r. split; [reflexivity|]. split; [|split].
  - intros v Hv. destruct v as [|[|[|v]]]; cbn in Hv |- *; try tauto; [ring|destruct v; reflexivity].
  - intros v Hv. destruct v as [|[|[|v]]]; cbn in Hv |- *; try tauto; destruct v; reflexivity.
  - intros v v' Hv Hv' Q. cbn in Hv, Hv'. destruct Hv as [<-|[<-|[]]], Hv' as [<-|[<-|[]]]; cbn in Q; try discriminate; cbn; ring.
Qed.

(** Crouzeix-Raviart on the triangle, Rannacher-Turek on the square. *)
Definition rt_center (e : bool) (s : nat) : R * R :=
  nth s (if e then [(0, /2); (1, /2); (/2, 0); (/2, 1)] else [(/2, 0); (0, /2); (/2, /2)])%R (0, 0)%R.
Definition rt_shape (e : bool) (z : R * R) : list R := let (x, y) := z in
  (if e then [3/4 - 2 * x + y + x * x - y * y; - (1/4) + y + x * x - y * y; 3/4 + x - 2 * y - x * x + y * y; - (1/4) + x - x * x + y * y]
   else [1 - 2 * y; 1 - 2 * x; 2 * x + 2 * y - 1])%R.
Definition rt_leaf : leaf bool := rannacher_turek_leaf ex_grid 6 (fun x => x - 5) rt_keys.
Lemma rt_facets : facet_shapes ex_grid rt_keys all_els rt_center rt_shape.
Proof.
  split; [intros e [x y] _; destruct e; reflexivity|].
  intros e a s c i s' _ Ka Ls. assert (La : a < length (rt_keys e)) by (apply nth_error_Some; congruence).
  destruct e; cbn in La, Ls.
  - do 4 (destruct a as [|a]; [injection Ka as <- <- <-; do 4 (destruct s' as [|s']; [cbn; field|]); exfalso; lia|]); exfalso; lia.
  - do 3 (destruct a as [|a]; [injection Ka as <- <- <-; do 3 (destruct s' as [|s']; [cbn; field|]); exfalso; lia|]); exfalso; lia.
Qed.
Example C90_rannacher_turek_case :
  agree (BLeaf rt_leaf) [] (t2_su rt_leaf rt_shape) [] false (/2, /2)%R true (0, /2)%R /\ nth_error (lf_indices rt_leaf false) 2 = nth_error (lf_indices rt_leaf true) 0.
Proof.
  split; [|reflexivity].
  assert (Hl : leaf_ok all_els rt_leaf) by apply C57_rannacher_turek_case.
  apply (C90_rannacher_turek all_els (BLeaf rt_leaf) [] (t2_su rt_leaf rt_shape) [] ex_grid [[true; true]; [false; false]] rt_keys 6 (fun x => x - 5) rt_center rt_shape) with (s := 2) (t := [false]) (s' := 0) (t' := [true]);
    [apply t2_setup; [exact Hl|]|cbn; lia|apply ex_grid_ok|apply C30_types_ok|reflexivity|apply facet_mapper_ok|apply rt_keys_ok|reflexivity|apply rt_facets|apply t2_scalar|exact I|exact I|reflexivity|reflexivity|reflexivity].
  intros e [x y]. destruct e; reflexivity.
Qed.
