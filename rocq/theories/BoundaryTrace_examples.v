(** C93: the hypotheses are met. *)
From Coq Require Import List Arith Lia Bool Reals Lra.
From Verif Require Import Lib Basis_model Basis_spec Basis_ok Basis_view Basis_proofs Basis_props Container_model Container_spec FlatVector_model FlatVector_props
  GeometryType_model GeometryType_spec GeometryType_props Mapper_model Mapper_spec Mapper_props Families_model Families_spec Families_props
  Lagrange_model Lagrange_spec Lagrange_proofs Lagrange_props DiscreteFunction_model DiscreteFunction_spec DiscreteFunction_proofs DiscreteFunction_props
  Interpolate_model Interpolate_props InterpLinear_props Projection_spec
  SubEntityDOFs_model SubEntityDOFs_spec SubEntityDOFs_props
  Orientation_model Orientation_spec Orientation_props Piola_model Piola_spec Piola_props
  Conforming_spec Conforming_proofs Conforming_refs Conforming_props SimplexFunctions_spec SimplexFunctions_proofs SimplexFunctions_props
  HDiv_spec HDiv_props HDiv_elements HCurl_spec HCurl_props HCurl_elements HCurl_examples
  LagrangeNodes_spec LagrangeNodes_examples BoundaryTrace_spec BoundaryTrace_proofs BoundaryTrace_props.
Import ListNotations.
#[local] Arguments Nat.ltb : simpl never.

(** Every coefficient vector of the right size belongs to a function: that of a local function
    bound to the element. *)
Lemma functions_exist {E P} (b : bexpr E) path els (su : setup E P) c : setup_ok b path els su -> coefs_ok b els su c ->
  exists f, function_of b path su els c f.
Proof.
  intros OKS HC.
  exists (fun e x => match lf_run su (W [] c) [OpNew false; OpBind 0 e] with
    | Some w => match nth_error (w_pool w) 0 with Some fo => match lf_eval su fo x with Some y => y | None => CBlk [] end | None => CBlk [] end
    | None => CBlk [] end).
  intros e x He. set (h := [OpNew false; OpBind 0 e]).
  assert (Hh : Forall (op_ok b els su) h) by (repeat constructor; exact He).
  destruct (C26_histories_are_defined b path els su c h OKS HC Hh [SF false (Some (e, c))] c eq_refl) as (w & R & L). rewrite R.
  destruct (w_pool w) as [|fo r] eqn:Q; [discriminate|]. cbn [nth_error].
  destruct (C26_value_is_the_weighted_sum b path els su c h OKS HC Hh [SF false (Some (e, c))] c w 0 e c fo x eq_refl R eq_refl) as (y & Y & V); [now rewrite Q|].
  now rewrite Y.
Qed.

(** A displacement of third order on a triangle and a square; all facets but the common one
    are on the boundary. *)
Definition ex93_co : coeffs bool := CO (fun _ e => map fst (ex_keysL e)) (fun e s c cc j => ex63_part e j cc s c).
Definition ex93_bg : bgrid bool := BG [false; true] (fun _ => true)
  (fun e => if e then [(false, 0); (true, 1); (true, 2); (true, 3)] else [(true, 0); (true, 1); (false, 2)]).
Definition ex93_ms : list mi := match for_each_boundary_dof1 ex93_co (build ex63_b) [] ex93_bg with Some l => l | None => [] end.
Example C93_boundary_ok : boundary_ok ex63_b ex93_co all_els ex93_bg [].
Proof.
  constructor.
  - intros; exact I.
  - discriminate.
  - intros e v _ Hv q l D L _. destruct (ex63_leaves e v q l) as [_ ->]; [repeat split; auto|]. apply map_length.
  - cbn. eauto.
Qed.
Example C93_subs_ok : subs_ok ex93_co all_els ex_gridL ex63_ref.
Proof.
  intros e s t s1 c1 t1 _ _ _. cbn [ex93_co co_sub]. unfold ex63_part, part_of, ex63_V. now rewrite andb_true_iff, Nat.leb_le, incl_check_ok.
Qed.
(** 15 of the 22 Lagrange points are on the boundary: all but the two inside of the common edge
    and the five inside of the elements. *)
Example C93_dofs : for_each_boundary_dof1 ex93_co (build ex63_b) [] ex93_bg = Some ex93_ms.
Proof. vm_compute. reflexivity. Qed.
Example C93_dofs_are :
  map (fun i => length (filter (fun m => nth 0 m 0 =? i) (nodup (list_eq_dec Nat.eq_dec) ex93_ms))) (seq 0 22) =
  [2; 2; 2; 2; 2; 2; 2; 2; 2; 0; 0; 2; 2; 2; 2; 2; 2; 0; 0; 0; 0; 0].
Proof. vm_compute. reflexivity. Qed.

Lemma ex93_facets e s : boundary_facet ex93_bg e s -> (if e then 1 <= s <= 3 else s <= 1) /\ exists t, subtype ex_gridL e s 1 t.
Proof.
  intros [_ H]. destruct e; cbn in H; repeat (destruct H as [H|H]; [first [discriminate H|injection H as <-; split; [lia|eexists; reflexivity]]|]); destruct H.
Qed.
Lemma ex93_nodes e s i j c : boundary_facet ex93_bg e s -> nth_error (map fst (ex_keysL e)) i = Some (j, c) -> ex63_part e j c s 1 = true ->
  on_face ex_gridL ex63_ref ex63_bary e (ex67_node e i) s 1.
Proof.
  intros HB Hk HP v Hv. destruct (ex93_facets e s HB) as [Hs _].
  assert (Ka : exists i1, nth_error (ex_keysL e) i = Some (j, c, i1)).
  { assert (G : forall (l : list (nat * nat * nat)), nth_error (map fst l) i = Some (j, c) -> exists i1, nth_error l i = Some (j, c, i1)).
    { intros l H. rewrite nth_error_map_eq in H. destruct (nth_error l i) as [[[j' c'] i1]|]; [|discriminate H]. injection H as -> ->. now exists i1. }
    exact (G (ex_keysL e) Hk). }
  clear Hk. destruct Ka as (i1 & Ka). unfold ex67_node. rewrite (nth_error_nth _ _ _ Ka). apply nth_error_In in Ka.
  destruct e; (destruct s as [|[|[|[|s]]]]; try (exfalso; lia)).
  all: match type of Ka with In _ ?l => let r := eval vm_compute in l in change l with r in Ka end; cbn [In] in Ka.
  all: repeat (destruct Ka as [Ka|Ka]; [injection Ka as <- <- <-; try (vm_compute in HP; discriminate HP)|]); try destruct Ka.
  all: destruct v as [|[|[|[|v]]]]; try (exfalso; apply Hv; cbn; tauto).
  all: unfold ex63_bary, ex63_coordinate, ex63_W, weight; cbn -[Rplus Rmult Rminus Rdiv INR]; try (destruct v); cbn -[Rplus Rmult Rminus Rdiv INR].
  all: repeat match goal with |- context [INR ?n] => lazymatch n with O => fail | S _ => fail | _ => let r := eval vm_compute in n in change (INR n) with (INR r) end end.
  all: cbn [INR]; field.
Qed.

(** Displacements agree on the boundary if and only if their coefficients of the boundary DOFs
    agree. *)
Example C93_lagrange_case : forall c1 c2, coefs_ok ex63_b all_els ex63_su c1 -> coefs_ok ex63_b all_els ex63_su c2 ->
  exists f1 f2, function_of ex63_b [] ex63_su all_els c1 f1 /\ function_of ex63_b [] ex63_su all_els c2 f2 /\
  (agree_on ex93_ms c1 c2 <-> forall p, same_on_boundary ex63_b [] ex63_su ex93_bg (point_of_facet ex_gridL ex63_ref ex63_bary) p f1 f2).
Proof.
  intros c1 c2 H1 H2. destruct (functions_exist ex63_b [] all_els ex63_su c1 C63_setup_ok H1) as (f1 & F1).
  destruct (functions_exist ex63_b [] all_els ex63_su c2 C63_setup_ok H2) as (f2 & F2). exists f1, f2. split; [exact F1|]. split; [exact F2|]. split.
  - intros HA p. apply (C93_lagrange all_els ex63_b [] [] p p ex63_su ex93_co ex93_bg ex93_ms ex_gridL ex63_ref ex63_bary ex_keysL
      C63_setup_ok C93_boundary_ok C93_dofs eq_refl C93_subs_ok ltac:(intros e _; reflexivity) 3 ex63_shape c1 c2 f1 f2 C28_keys_ok C63_shapes_ok); auto.
    split; reflexivity.
  - apply (C93_traces_decide_boundary_dofs ex63_b [] [] all_els ex63_su ex93_co ex93_bg ex93_ms C63_setup_ok C93_boundary_ok C93_dofs c1 c2 f1 f2
      (point_of_facet ex_gridL ex63_ref ex63_bary) (fun _ => ex67_node)); auto.
    + intros e v p n He Lf. split; [reflexivity|]. intros a1 a2 L1 L2. destruct (ex63_leaves e v p n Lf) as [_ Sz]. rewrite Sz in *.
      rewrite <- (C67_kronecker e a1 a2 He L1 L2). unfold shape_of. cbn [ex63_su su_shape].
      assert (L3 : a1 < length (ex63_shape e (ex67_node e a2))) by (unfold ex63_shape, lagrange_shapes; rewrite map_length; exact L1).
      rewrite (nth_indep _ [] [0%R]) by (rewrite map_length; auto). now rewrite (map_nth (fun r => [r]) (ex63_shape e (ex67_node e a2)) 0%R a1).
    + intros e s p i j c HB Hk Hc. split; [|split; [apply (ex93_facets e s HB)|reflexivity]]. apply (ex93_nodes e s i j c HB Hk Hc).
Qed.

(** Boundary values: the three calls return. *)
Definition ex93_mask (m : mi) : bool := existsb (fun m' => if list_eq_dec Nat.eq_dec m m' then true else false) ex93_ms.
Lemma ex93_mask_ok m : ex93_mask m = true <-> In m ex93_ms.
Proof.
  unfold ex93_mask. rewrite existsb_exists. split.
  - intros (m' & H & Q). destruct (list_eq_dec Nat.eq_dec m m') as [->|]; [exact H|discriminate Q].
  - intros H. exists m. split; [exact H|]. destruct (list_eq_dec Nat.eq_dec m m); congruence.
Qed.
Lemma ex93_call corner : call_ok ex63_b all_els [] ex67_t (ex67_interp corner) (CBlk []) [false; true].
Proof. destruct (C67_call_ok corner). constructor; auto. intros; exact I. Qed.
Example C93_boundary_values_case : forall corner1 corner2, exists d1 d d2, let s := subspace_of_root (build ex63_b) [] in
  interpolate ex67_t (fun _ => true) (ex67_interp corner1) 0%R s [false; true] (CBlk []) = Done d1 /\
  interpolate ex67_t ex93_mask (ex67_interp corner2) 0%R s [false; true] d1 = Done d /\
  interpolate ex67_t (fun _ => true) (ex67_interp corner2) 0%R s [false; true] (CBlk []) = Done d2 /\
  forall f f2, function_of ex63_b [] ex63_su all_els (contents ex67_t d) f -> function_of ex63_b [] ex63_su all_els (contents ex67_t d2) f2 ->
    forall p, same_on_boundary ex63_b [] ex63_su ex93_bg (point_of_facet ex_gridL ex63_ref ex63_bary) p f f2.
Proof.
  intros corner1 corner2.
  assert (HD : exists d1 d d2, interpolate ex67_t (fun _ => true) (ex67_interp corner1) 0%R (subspace_of_root (build ex63_b) []) [false; true] (CBlk []) = Done d1 /\
    interpolate ex67_t ex93_mask (ex67_interp corner2) 0%R (subspace_of_root (build ex63_b) []) [false; true] d1 = Done d /\
    interpolate ex67_t (fun _ => true) (ex67_interp corner2) 0%R (subspace_of_root (build ex63_b) []) [false; true] (CBlk []) = Done d2).
  { destruct (two_calls ex63_b all_els ex67_t 0%R [] [] (ex67_interp corner1) (ex67_interp corner2) [false; true] [false; true] (CBlk []))
      as [(T1 & T2 & T3 & T4)|(c0 & ws1 & ws2 & ms & HM & Ht & HA & HP & F1 & F2 & W1 & W2 & R1 & R2)]; auto using ex93_call.
    - intros; exact I.
    - exfalso. pose proof (C25_throws_iff_resize_throws ex63_b all_els [] ex67_t (fun _ => true) (ex67_interp corner1) 0%R (CBlk []) [false; true] (ex93_call corner1)) as HT.
      rewrite T3 in HT. vm_compute in HT. discriminate HT.
    - assert (IN : forall k k' w, In w (marked k ws1 ++ marked k' ws2) -> In (fst w) ms).
      { intros k k' [m x] Hw. apply HM. exists x. apply in_app_or in Hw as [Hw|Hw]; unfold marked in Hw; apply filter_In in Hw as [Hw _]; apply in_or_app; auto. }
      destruct (writes_final ex67_t ms (marked all ws1) c0 Ht HA HP) as (d1 & E1 & _).
      { intros w Hw. apply (IN all all). apply in_or_app. auto. }
      destruct (writes_final ex67_t ms (marked all ws2) c0 Ht HA HP) as (d2 & E2 & _).
      { intros w Hw. apply (IN all all). apply in_or_app. auto. }
      destruct (writes_final ex67_t ms (marked all ws1 ++ marked ex93_mask ws2) c0 Ht HA HP) as (d & E & _).
      { intros w Hw. now apply (IN all ex93_mask). }
      exists d1, d, d2. specialize (R1 all ex93_mask). specialize (W1 all). specialize (W2 all). rewrite E1 in W1. rewrite E2 in W2. rewrite E in R1.
      rewrite W1 in R1. split; [exact W1|]. split; [exact R1|exact W2]. }
  destruct HD as (d1 & d & d2 & I1 & I2 & I3). exists d1, d, d2. cbn zeta. split; [exact I1|]. split; [exact I2|]. split; [exact I3|]. intros f f2 F F2 p.
  destruct (C93_boundary_values ex63_b [] all_els ex63_su ex93_co ex93_bg ex93_ms ex67_t ex93_mask (ex67_interp corner1) (ex67_interp corner2) (CBlk []) d1 d2 d
    C63_setup_ok C93_boundary_ok C93_dofs ex93_mask_ok (ex93_call corner1) (ex93_call corner2) I1 I2 I3) as [B _].
  apply (B f f2 p (point_of_facet ex_gridL ex63_ref ex63_bary)); auto.
  intros e s x w HB (Ox & (t & Hs) & _).
  apply (scalar_no_trace [] all_els ex63_su ex93_co ex_gridL ex63_ref ex63_bary ex_keysL ex63_shape (fun t => lagrange_layout 3 t (g_dim ex_gridL)) e s t p x w); auto.
  all: try exact I; try exact C28_keys_ok; try exact C93_subs_ok; try (intros ? _; reflexivity); try (split; reflexivity).
  intros e' x' s' t' a s1 c1' i1 t1 He' Ht' Ox' Ka _ NP. apply (sh_zero _ _ _ _ _ _ _ C63_shapes_ok e' x' s' 1 t' a s1 c1' i1); auto.
Qed.

(** The tangential components of Nedelec functions on two cubes; one of them is turned. *)
Definition cube_co : coeffs bool := CO (fun _ e => map fst (cube_keys e))
  (fun e s c cc j => (c <=? cc) && incl_check (vertices (hex_grid true) cube_ref e j cc) (vertices (hex_grid true) cube_ref e s c)).
Definition cube_bg : bgrid bool := BG [false; true] (fun _ => true) (fun e => map (fun i => (negb (i =? if e then 0 else 1), i)) (seq 0 6)).
Definition cube_ms : list mi := match for_each_boundary_dof1 cube_co (build cube_b) [] cube_bg with Some l => l | None => [] end.
Example C93_cube_dofs : for_each_boundary_dof1 cube_co (build cube_b) [] cube_bg = Some cube_ms.
Proof. vm_compute. reflexivity. Qed.
Example C93_cube_boundary_ok : boundary_ok cube_b cube_co hex_els cube_bg [].
Proof.
  constructor.
  - intros e H. exact H.
  - discriminate.
  - intros e v He Hv q l D L _. destruct (cube_leaves e v q l He) as [_ ->]; [repeat split; auto|]. reflexivity.
  - cbn. eauto.
Qed.
Example C93_nedelec_case : exists m n1 n2, nd_update (hex_fg true) (Some Cube) (FM [] []) = Some m /\
  (forall e, fm_find (hex_fg true) m e = Some (cube_variant n1 n2 e)) /\ forall c1 c2 f1 f2,
  function_of cube_b [] (cube_su n1 n2) hex_els c1 f1 -> function_of cube_b [] (cube_su n1 n2) hex_els c2 f2 -> agree_on cube_ms c1 c2 ->
  same_on_boundary cube_b [] (cube_su n1 n2) cube_bg (tangent_at (hex_grid true) (hex_geo true) cube_ref cube_mu cube_dmu) [] f1 f2.
Proof.
  assert (TM : types_match (hex_fg true) (Some Cube)) by (split; [auto|intros; reflexivity]).
  assert (TY : nd_types (hex_fg true)) by (intros e _; right; reflexivity).
  destruct (C47_nedelec (hex_fg true) (C64_hex_fgrid_ok true) (Some Cube) (FM [] []) TM TY (C65_cube_edges_ok true)) as (m & U & P).
  destruct (P false (or_introl eq_refl)) as (n1 & F1 & _). destruct (P true (or_intror (or_introl eq_refl))) as (n2 & F2 & _).
  assert (F : forall e, fm_find (hex_fg true) m e = Some (cube_variant n1 n2 e)) by (intros []; [exact F2|exact F1]).
  exists m, n1, n2. split; [exact U|]. split; [exact F|]. intros c1 c2 f1 f2 G1 G2 HA.
  destruct (C65_cube_contract true) as [_ CF].
  apply (C93_nedelec cube_b [] [] [] [] (cube_su n1 n2) cube_co cube_bg cube_ms (hex_grid true) (hex_fg true) cube_keys (nd0_basis 3) (hex_geo true)
    (C65_setup_ok n1 n2) C93_cube_boundary_ok C93_cube_dofs eq_refl ltac:(intros e _; reflexivity) cube_ref cube_mu cube_dmu (Some Cube) (FM [] []) m c1 c2 f1 f2); auto.
  - cbn. lia.
  - exact (C64_hex_grid_ok true).
  - exact (C64_hex_fgrid_ok true).
  - exact (C65_cube_keys_ok true).
  - exact (C65_cube_edges_ok true).
  - intros e s t s1 c1' t1 _ _ _. cbn [cube_co co_sub]. unfold part_of. now rewrite andb_true_iff, Nat.leb_le, incl_check_ok.
  - intros e x f _ Hf. rewrite F in Hf. injection Hf as <-. reflexivity.
Qed.
(** All 20 edges are on the boundary; tangential vectors of a boundary facet. *)
Example C93_cube_dofs_are : length (nodup (list_eq_dec Nat.eq_dec) cube_ms) = 20.
Proof. vm_compute. reflexivity. Qed.
Example C93_tangent_at : forall y z r q, boundary_facet cube_bg false 0 /\
  tangent_at (hex_grid true) (hex_geo true) cube_ref cube_mu cube_dmu false 0 [0%R; y; z] (at_ [0%R; r; q]).
Proof.
  intros y z r q. split; [split; cbn; auto|]. exists [true; true], [0%R; r; q]. split; [reflexivity|]. split; [|split; [|split]].
  - intros v Hv. destruct v as [|[|[|[|[|[|[|[|v]]]]]]]]; try (exfalso; apply Hv; cbn; tauto); unfold cube_mu, vertex_weights, co, at_; cbn [nth]; try ring. destruct v; reflexivity.
  - split; [reflexivity|]. intros v Hv.
    destruct v as [|[|[|[|[|[|[|[|v]]]]]]]]; try (exfalso; apply Hv; cbn; tauto); unfold cube_dmu, direction, weight_gradients, dot, rsum, co, at_; cbn [nth seq map fold_right]; try ring.
    destruct v; cbn [nth]; ring.
  - apply C64_hex_geo_ok.
  - f_equal. change (g_dim (hex_grid true)) with 3. unfold push, rsum, hex_geo, hex_J, at_. cbn [seq map fold_right nth g_JT andb]; repeat (f_equal; try ring).
Qed.
