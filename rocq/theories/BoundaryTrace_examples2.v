(** C93: the hypotheses are met, for the hierarchical basis with bubble and for Raviart-Thomas. *)
From Coq Require Import List Arith Lia Bool Reals Lra.
From Verif Require Import Lib Basis_model Basis_spec Basis_ok Basis_view Basis_proofs Basis_props Container_model Container_spec FlatVector_model FlatVector_props
  GeometryType_model GeometryType_spec GeometryType_props Mapper_model Mapper_spec Mapper_props Families_model Families_spec Families_props
  Lagrange_model Lagrange_spec Lagrange_proofs Lagrange_props DiscreteFunction_model DiscreteFunction_spec DiscreteFunction_proofs
  SubEntityDOFs_model SubEntityDOFs_spec SubEntityDOFs_props Orientation_model Orientation_spec Orientation_props Piola_model Piola_spec Piola_props
  Conforming_spec Conforming_proofs Conforming_refs Conforming_props SimplexFunctions_spec SimplexFunctions_proofs SimplexFunctions_props SimplexFunctions_examples
  HDiv_spec HDiv_props HDiv_elements SingleLeaf_example HDivInterpolation_examples BoundaryTrace_spec BoundaryTrace_proofs BoundaryTrace_props.
Import ListNotations.
#[local] Arguments Nat.ltb : simpl never.

(** Two triangles; the facet 2 of the first is the facet 1 of the second. *)
Definition t2_co : coeffs bool := CO (fun _ e => map fst (t2_keys lay_bubble e)) (fun e s c cc j => t2_part e j cc s c).
Definition t2_bg : bgrid bool := BG [false; true] (fun _ => true) (fun e => if e then [(true, 0); (false, 1); (true, 2)] else [(true, 0); (true, 1); (false, 2)]).
Definition t2_ms : list mi := match for_each_boundary_dof1 t2_co (build (BLeaf (t2_leaf 11 lay_bubble))) [] t2_bg with Some l => l | None => [] end.
(** The DOFs 0, 1, 2, 3 of the vertices and 4, 5, 7, 8 of the boundary edges; not the one of the
    common edge (6) nor the bubbles (9, 10). *)
Example C93_t2_dofs : for_each_boundary_dof1 t2_co (build (BLeaf (t2_leaf 11 lay_bubble))) [] t2_bg = Some t2_ms /\
  forall i, In [i] t2_ms <-> In i [0; 1; 2; 3; 4; 5; 7; 8].
Proof.
  split; [vm_compute; reflexivity|]. intros i.
  assert (Q : t2_ms = map (fun i => [i]) (map (fun m => hd 0 m) t2_ms)) by (vm_compute; reflexivity). rewrite Q.
  assert (M : forall l, In [i] (map (fun j => [j]) l) <-> In i l).
  { intros l. rewrite in_map_iff. split; [intros (j & [= ->] & H); exact H|intros H; now exists i]. }
  rewrite M. match goal with |- In i ?l <-> _ => let r := eval vm_compute in l in change l with r end. cbn [In]. tauto.
Qed.
Example C93_hierarchical_case : forall c1 c2 f1 f2,
  let l := t2_leaf 11 lay_bubble in let su := t2_su l (hierarchical_shapes t2_grid t2_ref (t2_keys lay_bubble) t2_bary norm4) in
  function_of (BLeaf l) [] su all_els c1 f1 -> function_of (BLeaf l) [] su all_els c2 f2 -> agree_on t2_ms c1 c2 ->
  same_on_boundary (BLeaf l) [] su t2_bg (point_of_facet t2_grid t2_ref t2_bary) [] f1 f2.
Proof.
  intros c1 c2 f1 f2 l su F1 F2 HA.
  assert (HL : layout_ok lay_bubble) by (apply layout_by_dim; intros t t' Q; unfold lay_bubble, bubble_layout; now rewrite Q).
  assert (HC : forall e i c t, subtype t2_grid e i c t -> lay_bubble t = if t2_sub e i c <? 11 then 1 else 0) by (intros e i c t H; t2_cases H; reflexivity).
  assert (Hl : leaf_ok all_els l) by (apply t2_leaf_ok; auto).
  assert (OKS : setup_ok (BLeaf l) [] all_els su) by (apply t2_setup; [exact Hl|intros; apply map_length]).
  assert (BO : boundary_ok (BLeaf l) t2_co all_els t2_bg []).
  { constructor.
    - intros; exact I.
    - discriminate.
    - intros e v _ Hv q n D L _. destruct (single_leaf l all_els Hl e v q n I) as [_ ->]; [repeat split; auto|]. reflexivity.
    - cbn. eauto. }
  apply (C93_hierarchical all_els (BLeaf l) [] [] [] [] su t2_co t2_bg t2_ms t2_grid t2_ref t2_vid t2_bary (t2_keys lay_bubble) OKS BO (proj1 C93_t2_dofs) eq_refl) with
    (lay := lay_bubble) (norm := norm4) (c1 := c1) (c2 := c2); auto.
  - intros e s t s1 c1' t1 _ _ _. cbn [t2_co co_sub]. unfold t2_part, part_of. now rewrite andb_true_iff, Nat.leb_le, incl_check_ok.
  - intros e _; reflexivity.
  - intros e _. apply t2_simplices. exact I.
  - apply t2_ids_ok.
  - apply t2_keys_ok.
  - apply t2_scalar.
Qed.

(** Raviart-Thomas on a triangle and a quadrilateral that share an edge. *)
Definition mix_co : coeffs bool := CO (fun _ e => map fst (mix_keys e)) (fun e s c cc j => (c =? cc) && (s =? j)).
Definition mix_bg : bgrid bool := BG [false; true] (fun _ => true) (fun e => if e then [(false, 0); (true, 1); (true, 2); (true, 3)] else [(true, 0); (true, 1); (false, 2)]).
Definition mix_ms : list mi := match for_each_boundary_dof1 mix_co (build (BLeaf mix_leaf)) [] mix_bg with Some l => l | None => [] end.
Example C93_mix_dofs : for_each_boundary_dof1 mix_co (build (BLeaf mix_leaf)) [] mix_bg = Some mix_ms /\ length mix_ms = 5.
Proof. vm_compute. auto. Qed.
Definition mix_at (e : bool) (i : nat) (x : pt) (_ : unit) : Prop := mix_on e i x.
Example C93_mix_fluxes_ok : fluxes_ok mix_grid mix_fg 2 mix_keys (rt0_basis 2) mix_nu mix_at (fun q => q) (fun _ m _ => if Nat.even m then 1%R else 0%R).
Proof.
  destruct (C64_lowest_order_shape_functions bool nat mix_grid mix_fg mix_keys) as (C1 & C2 & _).
  { intros [] _; cbn; auto. }
  { intros e i t _. apply mix_facets. }
  { intros [] _; reflexivity. }
  constructor; auto.
  - intros e n i t xi q a s c m He Hn Ht P Ka. etransitivity; [exact (C2 e n i t xi a s c m He Hn Ht P Ka)|].
    assert (m = 0) as ->.
    { apply nth_error_In in Ka. unfold mix_keys in Ka. apply in_map_iff in Ka as (k & [= _ _ <-] & _). reflexivity. }
    unfold facet_sign. destruct (bit n i); reflexivity.
  - intros t m q. destruct (Nat.even m); ring.
Qed.
Example C93_raviart_thomas_case : forall c1 c2 f1 f2,
  function_of (BLeaf mix_leaf) [] mix_su mix_els c1 f1 -> function_of (BLeaf mix_leaf) [] mix_su mix_els c2 f2 -> agree_on mix_ms c1 c2 ->
  same_on_boundary (BLeaf mix_leaf) [] mix_su mix_bg (normal_at mix_grid mix_geo 2 mix_nu mix_at) [] f1 f2.
Proof.
  intros c1 c2 f1 f2 F1 F2 HA.
  assert (BO : boundary_ok (BLeaf mix_leaf) mix_co mix_els mix_bg []).
  { constructor.
    - intros e H. exact H.
    - discriminate.
    - intros e v He Hv q n D L _. destruct (single_leaf mix_leaf mix_els mix_leaf_ok e v q n He) as [_ ->]; [repeat split; auto|]. destruct e; reflexivity.
    - cbn. eauto. }
  assert (U : exists m, rt_update mix_fg None (FM [] []) = Some m /\ fm_find mix_fg m false = Some (FE Simplex 4) /\ fm_find mix_fg m true = Some (FE Cube 0)).
  { eexists. split; [vm_compute; reflexivity|]. split; vm_compute; reflexivity. }
  destruct U as (m & U & V0 & V1). assert (V : forall e, fm_find mix_fg m e = Some (mix_variant e)) by (intros []; auto).
  apply (C93_raviart_thomas (BLeaf mix_leaf) [] [] [] [] mix_su mix_co mix_bg mix_ms mix_grid mix_fg mix_keys (rt0_basis 2) mix_geo mix_setup_ok BO (proj1 C93_mix_dofs) eq_refl
    ltac:(intros e _; reflexivity) mix_nu mix_at (fun q => q) (fun _ m _ => if Nat.even m then 1%R else 0%R) None (FM [] []) m c1 c2 f1 f2); auto.
  - exact C64_mix_fgrid_ok.
  - exact C93_mix_fluxes_ok.
  - exact I.
  - intros e s _. cbn. now rewrite Nat.eqb_refl.
  - intros e x f _ Hf. rewrite V in Hf. injection Hf as <-. reflexivity.
Qed.
