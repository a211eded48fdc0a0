(** C65: examples. *)
From Coq Require Import List Arith Lia Bool Reals Lra.
From Verif Require Import Lib Basis_model Basis_spec GeometryType_model GeometryType_spec GeometryType_props Mapper_model Mapper_spec Mapper_props
  Families_model Families_spec Families_props Lagrange_model Lagrange_spec Lagrange_proofs Lagrange_props
  Basis_ok Basis_view Basis_proofs Basis_props Container_model Container_spec FlatVector_model FlatVector_props DiscreteFunction_model DiscreteFunction_spec DiscreteFunction_proofs Orientation_model Orientation_spec Orientation_props Piola_model Piola_spec Piola_props
  Conforming_spec Conforming_proofs Conforming_shapes Conforming_refs Conforming_props Keys_check GridCheck FaceCheck HDiv_spec HDiv_props HDiv_elements HCurl_spec HCurl_props HCurl_elements.
Import ListNotations.
#[local] Arguments Nat.ltb : simpl never.
Local Open Scope R_scope.

(** * The hypotheses are met *)
(** The two cubes of [HDiv_elements], side by side, the right one turned or not. *)
Definition cube_ref (_ : bool) : refelem := hexahedron3.
Definition cube_keys (_ : bool) : list localkey := map (fun i => (i, 2%nat, 0%nat)) (seq 0 12).
Definition cube_mp : mapper nat :=
  MAP 20 (fun x => if (200 <=? x) && (x <? 212) then x - 200 else nth (x - 250) [0; 12; 0; 13; 0; 14; 15; 16; 0; 17; 18; 19] 0)%nat.
Definition cube_lay (t : gt) : nat := nedelec_layout t 3.
Example C65_cube_mapper_ok : forall turn, mapper_ok hex_els (hex_grid turn) cube_lay cube_mp.
Proof. intros turn. apply (mapper_check_ok (hex_grid turn) [false; true]). destruct turn; vm_compute; reflexivity. Qed.
Example C65_cube_ids_ok : forall turn, ids_ok hex_els (hex_grid turn) cube_ref (fg_vidx (hex_fg turn)).
Proof.
  intros turn. apply (ids_check_ok (hex_grid turn) [false; true] cube_ref (fg_vidx (hex_fg turn))).
  - intros e _. split; [destruct turn; reflexivity|exact hexahedron3_ok].
  - destruct turn; vm_compute; reflexivity.
Qed.
Example C65_cube_faces_ok : forall turn, faces_ok hex_els (hex_grid turn) cube_ref (fg_vidx (hex_fg turn)).
Proof.
  intros turn. apply (faces_check_ok Bool.eqb eqb_true_iff (hex_grid turn) [false; true] cube_ref (fg_vidx (hex_fg turn))).
  - destruct turn; vm_compute; lia.
  - destruct turn; vm_compute; reflexivity.
Qed.
Example C65_cube_keys_ok : forall turn, keys_ok hex_els (hex_grid turn) edge_functions cube_keys.
Proof. intros turn e _. apply Keys_check.keys_check_ok. destruct turn, e; vm_compute; reflexivity. Qed.
Example C65_cube_edges_ok : forall turn, edges_ok (hex_fg turn).
Proof.
  intros turn e i _ Hi. vm_compute in Hi.
  destruct i as [|[|[|[|[|[|[|[|[|[|[|[|i]]]]]]]]]]]]; try (exfalso; lia); destruct turn, e; vm_compute; split; lia.
Qed.
Definition cube_mu (e : bool) (x : pt) (v : nat) : R := at_ (vertex_weights 3 Cube x) v.
Definition cube_dmu (e : bool) (x : pt) (w : list R) (v : nat) : R := direction 3 Cube x w v.
Example C65_cube_contract : forall turn, edges_of_faces_ok (hex_grid turn) (hex_fg turn) cube_ref cube_dmu /\
  edge_functions_ok (hex_grid turn) (hex_fg turn) cube_ref cube_keys (nd0_basis 3) cube_mu cube_dmu.
Proof.
  intros turn. apply (C65_edge_shape_functions bool nat (hex_grid turn) (hex_fg turn) cube_ref cube_keys).
  - intros e _. split; [right; right; right; left; reflexivity|reflexivity].
  - reflexivity.
  - intros e i j _ Hi Hj. vm_compute in Hi. destruct j as [|[|j]]; try (exfalso; lia);
      destruct i as [|[|[|[|[|[|[|[|[|[|[|[|i]]]]]]]]]]]]; try (exfalso; lia); reflexivity.
  - intros e _. reflexivity.
Qed.
(** The vector (0,r,q) at the point (1,y,z) of the common facet. *)
Definition cube_vector (turn : bool) (r q : R) : list R := if turn then [0; q; - r] else [0; r; q].
Example C65_cube_tangent : forall turn y z r q,
  same_tangent (hex_grid turn) (hex_fg turn) cube_ref cube_mu cube_dmu (hex_geo turn) 1
    false [1; y; z] 1 [0; r; q] true (hex_other turn y z) 0 (cube_vector turn r q).
Proof.
  intros turn y z r q. constructor.
  - split; [destruct turn; reflexivity|]. split; [|split].
    + intros v Hv. destruct v as [|[|[|[|[|[|[|[|v]]]]]]]]; try (exfalso; apply Hv; cbn; tauto); unfold cube_mu, vertex_weights, co, at_; cbn [nth]; try ring. destruct v; reflexivity.
    + intros v Hv. destruct v as [|[|[|[|[|[|[|[|v]]]]]]]]; try (exfalso; apply Hv; cbn; tauto); unfold cube_mu, vertex_weights, co, at_; destruct turn; cbn [nth hex_other]; try ring; destruct v; reflexivity.
    + intros v v' Hv Hv'. cbn in Hv, Hv'. repeat (destruct Hv as [<-|Hv]); try contradiction; repeat (destruct Hv' as [<-|Hv']); try contradiction;
        destruct turn; intros Q; vm_compute in Q; try discriminate Q; unfold cube_mu, vertex_weights, co, at_; cbn [nth hex_other]; ring.
  - split; (split; [destruct turn; reflexivity|]); intros v Hv.
    + destruct v as [|[|[|[|[|[|[|[|v]]]]]]]]; try (exfalso; apply Hv; cbn; tauto); unfold cube_dmu, direction, weight_gradients, dot, rsum, co, at_; cbn [nth seq map fold_right]; try ring.
      destruct v; cbn [nth]; ring.
    + destruct v as [|[|[|[|[|[|[|[|v]]]]]]]]; try (exfalso; apply Hv; cbn; tauto); unfold cube_dmu, direction, weight_gradients, dot, rsum, co, at_; destruct turn;
        cbn [nth seq map fold_right hex_other cube_vector]; try ring; destruct v; cbn [nth]; ring.
  - intros v v' Hv Hv'. cbn in Hv, Hv'. repeat (destruct Hv as [<-|Hv]); try contradiction; repeat (destruct Hv' as [<-|Hv']); try contradiction;
      destruct turn; intros Q; vm_compute in Q; try discriminate Q; unfold cube_dmu, direction, weight_gradients, dot, rsum, co, at_; cbn [nth seq map fold_right hex_other cube_vector]; ring.
  - split; apply C64_hex_geo_ok.
  - change (g_dim (hex_grid turn)) with 3%nat. unfold push, rsum, hex_geo, hex_J, at_, cube_vector. destruct turn; cbn [seq map fold_right nth g_JT andb]; repeat (f_equal; try ring).
Qed.
Example C65_cube_example : forall turn, exists m f f', nd_update (hex_fg turn) (Some Cube) (FM [] []) = Some m /\
  fm_find (hex_fg turn) m false = Some f /\ fm_find (hex_fg turn) m true = Some f' /\
  let l := mapper_leaf (hex_grid turn) cube_mp cube_lay [[true; true; true]] cube_keys in
  forall y z r q nb,
  basis_value 12 (lf_indices l false) (fun a => dot 3 (nth a (gv_eval (covariant 3 (hex_geo turn false)) (nd0_basis 3 f) [1; y; z]) []) [0; r; q]) nb =
  basis_value 12 (lf_indices l true) (fun a => dot 3 (nth a (gv_eval (covariant 3 (hex_geo turn true)) (nd0_basis 3 f') (hex_other turn y z)) []) [0; r; q]) nb.
Proof.
  intros turn.
  assert (TM : types_match (hex_fg turn) (Some Cube)) by (split; [auto|intros; reflexivity]).
  assert (TY : nd_types (hex_fg turn)) by (intros e _; right; reflexivity).
  destruct (C47_nedelec (hex_fg turn) (C64_hex_fgrid_ok turn) (Some Cube) (FM [] []) TM TY (C65_cube_edges_ok turn)) as (m & U & P).
  destruct (P false (or_introl eq_refl)) as (n & F & _). destruct (P true (or_intror (or_introl eq_refl))) as (n' & F' & _).
  exists m, (FE Cube n), (FE Cube n'). split; [exact U|]. split; [exact F|]. split; [exact F'|]. intros l y z r q nb.
  destruct (C65_cube_contract turn) as [C1 C2].
  pose proof (C65_nedelec bool nat (hex_grid turn) (hex_fg turn) cube_ref cube_keys (nd0_basis 3) cube_mu cube_dmu [[true; true; true]] cube_mp (Some Cube) (FM [] []) m (hex_geo turn)
    (C64_hex_grid_ok turn) (C64_hex_fgrid_ok turn)) as T.
  specialize (T ltac:(intros e _; exists [true; true; true]; split; [now left|split; reflexivity]) (C65_cube_mapper_ok turn) (C65_cube_keys_ok turn) (C65_cube_ids_ok turn) (C65_cube_faces_ok turn)
    C1 C2 TM TY (C65_cube_edges_ok turn) U false 1%nat [true; true] [1; y; z] [0; r; q] true 0%nat [true; true] (hex_other turn y z) (cube_vector turn r q) 1%nat
    (FE Cube n) (FE Cube n') nb (or_introl eq_refl) (or_intror (or_introl eq_refl)) ltac:(cbn; lia) eq_refl eq_refl (C65_cube_tangent turn y z r q) F F').
  assert (Q : push 3 (hex_geo turn false) [1; y; z] [0; r; q] = [0; r; q]).
  { unfold push, rsum, hex_geo, hex_J, at_. destruct turn; cbn [seq map fold_right nth g_JT andb]; repeat (f_equal; try ring). }
  cbn zeta in T. change (g_dim (hex_grid turn)) with 3%nat in T. rewrite Q in T. exact T.
Qed.
(** A discrete function on the turned cubes: a Nedelec basis alone, with values in R^3. *)
Definition cube_leaf : leaf bool := mapper_leaf (hex_grid true) cube_mp cube_lay [[true; true; true]] cube_keys.
Definition cube_b : bexpr bool := BLeaf cube_leaf.
Definition cube_variant (n n' : nat) (e : bool) : fe := FE Cube (if e then n' else n).
Definition cube_su (n n' : nat) : setup bool pt := SU (subspace_of_root (build cube_b) []) 1 (fun _ => 3%nat) 3 3
  (fun e _ x => gv_eval (covariant 3 (hex_geo true e)) (nd0_basis 3 (cube_variant n n' e)) x)
  (fun _ _ _ => repeat [0; 0; 0; 0; 0; 0; 0; 0; 0] 12) (fun _ _ _ _ => 0)
  (CBlk [CVal 0; CVal 0; CVal 0]) (fun _ => FVec (Some 3%nat) FScalar)
  (CBlk [CBlk [CVal 0; CVal 0; CVal 0]; CBlk [CVal 0; CVal 0; CVal 0]; CBlk [CVal 0; CVal 0; CVal 0]]) (fun _ => FMat 3 3 FScalar).
Lemma cube_leaf_ok : leaf_ok hex_els cube_leaf.
Proof.
  apply (C57_nedelec hex_els (hex_grid true) [[true; true; true]] cube_keys cube_mp (C64_hex_grid_ok true)).
  - intros e _. exists [true; true; true]. split; [now left|split; reflexivity].
  - exact (C65_cube_mapper_ok true).
  - exact (C65_cube_keys_ok true).
Qed.
Lemma cube_leaves e v p n : hex_els e -> leaf_of cube_b [] e v p n -> p = [] /\ node_size n = 12%nat.
Proof.
  intros He (H1 & H2 & H3).
  assert (W : wf hex_els cube_b) by exact cube_leaf_ok.
  rewrite (bind_new_ok hex_els _ _ e (build_ok cube_b hex_els W) He) in H1. injection H1 as <-. cbn [lv_tree app] in H2.
  destruct p as [|i p]; [|destruct i; discriminate]. cbn in H2. injection H2 as <-. auto.
Qed.
Example C65_setup_ok : forall n n', setup_ok cube_b [] hex_els (cube_su n n').
Proof.
  intros n1 n1'. constructor.
  - exact cube_leaf_ok.
  - cbn. eauto.
  - reflexivity.
  - intros e v p n x He L. destruct (cube_leaves e v p n He L) as [_ ->]. cbn [cube_su su_shape su_vdim]. unfold gv_eval. split; [now rewrite map_length|].
    apply Forall_forall. intros z Hz. apply in_map_iff in Hz as (r & <- & _). reflexivity.
  - intros e v p n x He L. destruct (cube_leaves e v p n He L) as [_ ->]. cbn [cube_su su_jac su_vdim su_ldim].
    split; [apply repeat_length|]. apply Forall_forall. intros z Hz. apply repeat_spec in Hz. now subst.
  - intros e v p n He L. destruct (cube_leaves e v p n He L) as [-> _]. split; [|now left]. eexists. repeat split; repeat constructor.
  - intros e v p n He L. destruct (cube_leaves e v p n He L) as [-> _]. split; [|now left]. eexists. split; [reflexivity|]. repeat split; repeat constructor.
Qed.
Example C65_function_example : exists m n1 n2, nd_update (hex_fg true) (Some Cube) (FM [] []) = Some m /\
  (forall e, fm_find (hex_fg true) m e = Some (cube_variant n1 n2 e)) /\ forall coefficients y z r q val val' v n v' n',
  is_value cube_b [] (cube_su n1 n2) false coefficients [1; y; z] val -> is_value cube_b [] (cube_su n1 n2) true coefficients [0; z; 1 - y] val' ->
  leaf_of cube_b [] false v [] n -> leaf_of cube_b [] true v' [] n' ->
  exists c c', node_to_range [] val = Some c /\ node_to_range [] val' = Some c' /\
  rsum 3 (fun i => nth i (scalars c) 0 * at_ [0; r; q] i) = rsum 3 (fun i => nth i (scalars c') 0 * at_ [0; r; q] i).
Proof.
  assert (TM : types_match (hex_fg true) (Some Cube)) by (split; [auto|intros; reflexivity]).
  assert (TY : nd_types (hex_fg true)) by (intros e _; right; reflexivity).
  destruct (C47_nedelec (hex_fg true) (C64_hex_fgrid_ok true) (Some Cube) (FM [] []) TM TY (C65_cube_edges_ok true)) as (m & U & P).
  destruct (P false (or_introl eq_refl)) as (n1 & F1 & _). destruct (P true (or_intror (or_introl eq_refl))) as (n2 & F2 & _).
  assert (F : forall e, fm_find (hex_fg true) m e = Some (cube_variant n1 n2 e)) by (intros []; [exact F2|exact F1]).
  exists m, n1, n2. split; [exact U|]. split; [exact F|]. intros cf y z r q val val' v n v' n' V V' L L'.
  destruct (C65_cube_contract true) as [C1 C2].
  assert (E1 : hex_els false) by (left; reflexivity). assert (E2 : hex_els true) by (right; left; reflexivity).
  assert (Q : push 3 (hex_geo true false) [1; y; z] [0; r; q] = [0; r; q]).
  { unfold push, rsum, hex_geo, hex_J, at_. cbn [seq map fold_right nth g_JT andb]; repeat (f_equal; try ring). }
  pose proof (C65_tangential_component_continuous bool nat (hex_grid true) (hex_fg true) cube_ref cube_keys (nd0_basis 3) cube_mu cube_dmu [[true; true; true]] cube_mp
    (Some Cube) (FM [] []) m (hex_geo true) cube_b [] (cube_su n1 n2) []) as T. cbn zeta in T.
  specialize (T (C65_setup_ok n1 n2) (C64_hex_grid_ok true) (C64_hex_fgrid_ok true) ltac:(intros e _; exists [true; true; true]; split; [now left|split; reflexivity])
    (C65_cube_mapper_ok true) (C65_cube_keys_ok true) (C65_cube_ids_ok true) (C65_cube_faces_ok true) C1 C2 TM TY (C65_cube_edges_ok true) U eq_refl eq_refl).
  specialize (T ltac:(intros e x f _ Hf; rewrite F in Hf; injection Hf as <-; reflexivity) cf false 1%nat [true; true] [1; y; z] [0; r; q] true 0%nat [true; true]
    (hex_other true y z) (cube_vector true r q) 1%nat val val' v n v' n' E1 E2 ltac:(cbn; lia) eq_refl eq_refl (C65_cube_tangent true y z r q) V V' L L').
  rewrite (proj2 (cube_leaves _ _ _ _ E1 L)), (proj2 (cube_leaves _ _ _ _ E2 L')) in T.
  destruct (T ltac:(discriminate) ltac:(discriminate)) as (c & c' & H & H' & K). exists c, c'. split; auto. split; auto.
  change (g_dim (hex_grid true)) with 3%nat in K. rewrite Q in K. exact (K 0%nat ltac:(cbn; lia)).
Qed.
