(** The hypotheses of C67 are met: a vector field of third order on a triangle and a
    quadrilateral that share an edge (the grid of C28 and C63). *)
From Coq Require Import List Arith Bool Reals Lia Lra.
From Verif Require Import Lib GeometryType_model Mapper_model Mapper_spec Mapper_props Lagrange_model Lagrange_spec Lagrange_proofs Lagrange_tables Lagrange_props
  Basis_model Basis_spec Basis_proofs Basis_ok Basis_view Basis_props Container_model Container_spec Container_props
  Interpolate_model Interpolate_props FlatVector_model DiscreteFunction_model DiscreteFunction_spec
  Projection_spec Conforming_spec Conforming_proofs Conforming_shapes Conforming_refs Conforming_props LagrangeNodes_spec LagrangeNodes_props LagrangeNodes_functions.
Import ListNotations.
#[local] Arguments Nat.ltb : simpl never.

Definition ex67_node (e : bool) (a : nat) : R * R :=
  let at_ S := (INR (ex63_coordinate e (nth a (ex_keysL e) (0, 0, 0)%nat) S) / 3)%R in
  if e then (at_ [1; 3], at_ [2; 3]) else (at_ [1], at_ [2]).
Example C67_conforming_grid : conforming_grid all_els ex_gridL ex63_ref ex_vid.
Proof.
  constructor; auto using C28_grid_ok, C63_ids_ok, C63_faces_ok.
  - cbn. lia.
  - intros [] [] t t' _ _ _ _ Q; auto; discriminate.
  - intros e s t _ H. apply ex_subtypesL in H. cbn [ex_table In] in H.
    repeat (destruct H as [H|H]; [injection H; intros; lia|]). destruct H.
Qed.
Example C67_corners_ok : corners_ok all_els ex_gridL ex63_ref.
Proof.
  intros e _. split; [destruct e; cbn; repeat constructor; cbn; intuition discriminate|].
  intros s c t Hc H. apply ex_subtypesL in H. cbn [ex_table In] in H.
  repeat (destruct H as [H|H]; [injection H as <- <- <- <-; cbn; intros v Hv; cbn in Hv |- *; intuition lia|]). destruct H.
Qed.
Example C67_nodes_ok : nodes_ok all_els ex_gridL ex63_ref ex63_bary 3 ex_keysL ex67_node.
Proof.
  intros e a s c i W v _ Ka Hc KW. unfold ex67_node. rewrite (nth_error_nth _ _ _ Ka).
  assert (HW : W v = ex63_W e (s, c, i) v).
  { unfold ex63_W. destruct KW as [[-> KW]|[C (w & Dw & KW)]].
    - change (g_dim ex_gridL) with 2 in *. rewrite Nat.eqb_refl, KW. unfold vertices. change (g_dim ex_gridL) with 2.
      replace (re_subs (ex63_ref e) s 2 2) with [s] by (destruct e; reflexivity). reflexivity.
    - change (g_dim ex_gridL) with 2 in *. assert (c = 1) by lia. subst c. rewrite KW. cbn [Nat.eqb]. unfold vertices in *. change (g_dim ex_gridL) with 2 in *.
      apply nth_error_In, C28_keys_ok in Ka as (t & Ht & Hi); [|exact Logic.I]. apply ex_subtypesL in Ht; cbn [ex_table In] in Ht.
      repeat (destruct Ht as [Ht|Ht]; [try (injection Ht; intros; lia); injection Ht as <- <- <-; cbn in Dw; destruct Dw as [_ ->]; reflexivity|]). destruct Ht. }
  rewrite HW. clear HW KW W.
  apply nth_error_In in Ka.
  destruct e.
  all: match type of Ka with In _ ?l => let r := eval vm_compute in l in change l with r in Ka end; cbn [In] in Ka.
  all: repeat (destruct Ka as [Ka|Ka]; [injection Ka as <- <- <-; try lia|]); try destruct Ka.
  all: destruct v as [|[|[|[|v]]]].
  all: unfold ex63_bary, ex63_coordinate, ex63_W, weight; cbn -[Rplus Rmult Rminus Rdiv INR]; try (destruct v); cbn -[Rplus Rmult Rminus Rdiv INR].
  all: repeat match goal with |- context [INR ?n] => lazymatch n with O => fail | S _ => fail | _ => let r := eval vm_compute in n in change (INR n) with (INR r) end end.
  all: cbn [INR]; field.
Qed.
Example C67_lagrange_space : lagrange_space all_els ex_gridL ex63_ref ex_vid ex63_bary ex63_leaf ex67_node.
Proof.
  exists ex_mpL, (fun x => x), 3, [[true; true]; [false; false]], ex_keysL.
  split; [exact C28_types_ok|]. split; [reflexivity|]. split; [exact C28_mapper_ok|]. split; [exact C28_keys_ok|]. split; [discriminate|].
  split; [exact C67_nodes_ok|reflexivity].
Qed.

(** The coordinates of opposite sides add up to 3; different points have different ones. *)
Lemma ex67_sums e key : In key (ex_keysL e) ->
  if e then ex63_coordinate e key [0; 2] + ex63_coordinate e key [1; 3] = 3 /\ ex63_coordinate e key [0; 1] + ex63_coordinate e key [2; 3] = 3
  else ex63_coordinate e key [0] + ex63_coordinate e key [1] + ex63_coordinate e key [2] = 3.
Proof.
  intros H. destruct e; match type of H with In _ ?l => let r := eval vm_compute in l in change l with r in H end; cbn [In] in H;
    repeat (destruct H as [<-|H]; [try split; reflexivity|]); destruct H.
Qed.
Definition ex67_distinct (e : bool) : bool :=
  forallb (fun i => forallb (fun j => (i =? j) || existsb (fun S => negb (ex63_coordinate e (nth i (ex_keysL e) (0, 0, 0)) S =? ex63_coordinate e (nth j (ex_keysL e) (0, 0, 0)) S)) (ex63_sides e))
    (seq 0 (length (ex_keysL e)))) (seq 0 (length (ex_keysL e))).
Example C67_kronecker : kronecker all_els (fun e => length (ex_keysL e)) (fun e x i => nth i (ex63_shape e x) 0%R) ex67_node.
Proof.
  intros e i j _ Hi Hj. unfold ex63_shape, lagrange_shapes.
  set (ki := nth i (ex_keysL e) (0, 0, 0)). set (kj := nth j (ex_keysL e) (0, 0, 0)).
  rewrite (nth_indep _ 0%R (shape_function 3 (ex63_sides e) (ex63_coordinate e (0, 0, 0)) (ex63_bary e (ex67_node e j)))) by (rewrite map_length; auto).
  rewrite (map_nth (fun key => shape_function 3 (ex63_sides e) (ex63_coordinate e key) (ex63_bary e (ex67_node e j))) (ex_keysL e) (0, 0, 0) i). fold ki.
  pose proof (ex67_sums e ki (nth_In _ _ Hi)) as Si. pose proof (ex67_sums e kj (nth_In _ _ Hj)) as Sj.
  destruct (C67_shape_functions_are_nodal 3 (ex63_sides e) (ex63_coordinate e ki) (ex63_coordinate e kj) (ex63_bary e (ex67_node e j))) as [H1 H0].
  - lia.
  - destruct e; match goal with |- context [ex63_sides ?e] => let r := eval vm_compute in (ex63_sides e) in change (ex63_sides e) with r end;
      cbn [map list_sum fold_right]; lia.
  - intros S HS. unfold ex67_node. fold kj.
    assert (EQ : forall a b, a + b = 3 -> (INR a = 3 - INR b)%R) by (intros a b H; apply (f_equal INR) in H; rewrite plus_INR in H; cbn [INR] in H; lra).
    destruct e; vm_compute in HS; repeat (destruct HS as [<-|HS]; [|]); try destruct HS; unfold ex63_bary, sum; cbn [map fold_right nth fst snd].
    1: rewrite (EQ _ _ (proj1 Sj)). 3: rewrite (EQ _ _ (proj2 Sj)). 5: rewrite (EQ (ex63_coordinate false kj [0]) _ (eq_trans (Nat.add_assoc _ _ _) Sj)), plus_INR.
    all: cbn [INR]; field.
  - destruct (Nat.eqb_spec i j) as [Q|Q]; [apply H1; unfold ki, kj; now rewrite Q|].
    apply H0. assert (D : ex67_distinct e = true) by (destruct e; vm_compute; reflexivity). unfold ex67_distinct in D.
    rewrite forallb_forall in D. specialize (D i ltac:(apply in_seq; lia)). rewrite forallb_forall in D. specialize (D j ltac:(apply in_seq; lia)).
    cbv beta in D. rewrite (proj2 (Nat.eqb_neq i j) Q), orb_false_l in D. apply existsb_exists in D as (S & HS & D). exists S. split; auto.
    apply negb_true_iff, Nat.eqb_neq in D. exact D.
Qed.

(** The field (x*y, x+1) of the global coordinates, with the vertices anywhere in the plane. *)
Definition ex67_field (corner : nat -> nat -> R) (p : list nat) (e : bool) (x : R * R) : R :=
  (fun X : nat -> R => match p with [0] => X 0%nat * X 1%nat | _ => X 0%nat + 1 end)%R (position ex_gridL ex63_ref ex_vid ex63_bary corner e x).
Definition ex67_interp (corner : nat -> nat -> R) (e : bool) (p : list nat) : list R :=
  map (fun a => ex67_field corner p e (ex67_node e a)) (seq 0 (length (ex_keysL e))).
Definition ex67_t : cty := TDyn (TArr 2 TScalar).
Example C67_nodal_interpolation : forall corner,
  nodal_interpolation all_els ex_gridL ex63_ref ex_vid ex63_bary ex63_b [] (ex67_interp corner) (fun _ => ex67_node) (ex67_field corner).
Proof.
  intros corner p l Hl. assert (l = ex63_leaf) as ->.
  { cbn [app ex63_b leaf_at] in Hl. destruct p as [|i p]; [discriminate|]. destruct (i <? 2); [|discriminate]. destruct p; [congruence|discriminate]. }
  split; [exact C67_lagrange_space|]. split; [|reflexivity].
  apply (C67_functions_of_the_position bool nat (R * R) R all_els ex_gridL ex63_ref ex_vid ex63_bary corner
    (fun X => match p with [0] => X 0%nat * X 1%nat | _ => X 0%nat + 1 end)%R C67_conforming_grid C67_corners_ok).
  intros x y H. rewrite (H 0), (H 1). reflexivity.
Qed.
Example C67_call_ok : forall corner, call_ok ex63_b all_els [] ex67_t (ex67_interp corner) (CBlk []) [true; false].
Proof.
  intros corner. constructor.
  - apply C63_setup_ok.
  - apply C63_setup_ok.
  - intros e v p n He H1 H2 H3. destruct (ex63_leaves e v p n) as [_ ->]; [repeat split; auto|].
    unfold ex67_interp. rewrite map_length, seq_length. auto.
  - intros; exact I.
  - repeat constructor.
  - intros p u H Hu. destruct p as [|i [|j [|? ?]]]; cbn in Hu; try discriminate.
    + exfalso. cbn in H. do 22 (destruct i as [|i]; [discriminate|]). destruct i; discriminate.
    + destruct (j <? 2); [injection Hu as <-|discriminate]. reflexivity.
    + destruct (j <? 2); discriminate.
Qed.
(** Both interpolation orders give the field's values in the Lagrange points, and the discrete
    function agrees with the field there. *)
Example C67_example : forall corner, exists c',
  interpolate ex67_t (fun _ => true) (ex67_interp corner) 0%R (subspace_of_root (build ex63_b) []) [true; false] (CBlk []) = Done c' /\
  interpolate ex67_t (fun _ => true) (ex67_interp corner) 0%R (subspace_of_root (build ex63_b) []) [false; true; false] (CBlk []) = Done c' /\
  forall e v i n j y, leaf_of ex63_b [] e v [i] n -> j < length (ex_keysL e) ->
    is_value ex63_b [] ex63_su e (contents ex67_t c') (ex67_node e j) y ->
    exists z, node_to_range [i] y = Some z /\ scalars z = [ex67_field corner [i] e (ex67_node e j)].
Proof.
  intros corner.
  pose proof (C25_throws_iff_resize_throws ex63_b all_els [] ex67_t (fun _ => true) (ex67_interp corner) 0%R (CBlk []) [true; false] (C67_call_ok corner)) as HT.
  destruct (interpolate ex67_t (fun _ => true) (ex67_interp corner) 0%R (subspace_of_root (build ex63_b) []) [true; false] (CBlk [])) as [c'| |] eqn:HI.
  - exists c'. split; auto. split.
    + rewrite <- HI. symmetry.
      apply (C67_order_independent all_els ex_gridL ex63_ref ex_vid ex63_bary ex63_b [] ex67_t (fun _ => true) (ex67_interp corner) 0%R (fun _ => ex67_node) (ex67_field corner));
        auto using C67_conforming_grid, C67_nodal_interpolation, C67_call_ok.
      intros e. cbn. tauto.
    + intros e v i n j y Lf Hj Hy.
      apply (C67_agrees_at_the_nodes bool nat (R * R) all_els ex_gridL ex63_ref ex_vid ex63_bary ex63_b [] ex63_su ex67_t (ex67_interp corner)
        (fun _ => ex67_node) (ex67_field corner) (CBlk []) [true; false] c') with (v := v) (n := n);
        auto using C67_conforming_grid, C67_nodal_interpolation, C67_call_ok, C63_setup_ok.
      * intros p l Hl. assert (l = ex63_leaf) as ->.
        { cbn [app ex63_b leaf_at] in Hl. destruct p as [|q p]; [discriminate|]. destruct (q <? 2); [|discriminate]. destruct p; [congruence|discriminate]. }
        intros e0 a1 a2 He0 L1 L2. rewrite <- (C67_kronecker e0 a1 a2 He0 L1 L2). unfold shape_of. cbn [ex63_su su_shape].
        assert (L3 : a1 < length (ex63_shape e0 (ex67_node e0 a2))) by (unfold ex63_shape, lagrange_shapes; rewrite map_length; exact L1).
        rewrite (nth_indep _ [] [0%R]) by (rewrite map_length; auto). now rewrite (map_nth (fun r => [r]) (ex63_shape e0 (ex67_node e0 a2)) 0%R a1).
      * destruct e; cbn; auto.
      * destruct (ex63_leaves e v [i] n Lf) as [_ ->]. exact Hj.
  - exfalso. vm_compute in HT. discriminate.
  - contradiction.
Qed.
