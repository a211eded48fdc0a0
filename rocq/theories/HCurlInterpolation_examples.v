(** C82: fields on a triangle and a quadrilateral that share an edge, interpolated into the
    Nedelec basis. *)
From Coq Require Import List Arith Lia Bool Reals Lra.
From Verif Require Import Lib Basis_model Basis_spec Basis_ok GeometryType_model GeometryType_spec Mapper_model Mapper_spec Families_model Families_spec Families_props
  Container_model Container_spec FlatVector_model Interpolate_model Interpolate_props
  DiscreteFunction_model DiscreteFunction_spec DiscreteFunction_proofs Orientation_model Orientation_spec Orientation_props Piola_model Piola_spec Piola_props
  Projection_spec Derivative_spec Keys_check GridCheck HDiv_spec HDiv_elements HCurl_elements NodalFunctions_proofs NodalFunctions_example SingleLeaf_example DofPreservation_spec DofPreservation_props
  HDivInterpolation_props HDivInterpolation_examples HCurlInterpolation_props.
Import ListNotations.
Local Open Scope R_scope.

Definition mix_tau (T : gtype) (s : nat) : list R :=
  match T with
  | Simplex => nth s [[1; 0]; [0; 1]; [-1; 1]] []
  | _ => nth s [[0; 1]; [0; 1]; [1; 0]; [1; 0]] []
  end.
Definition mix_circulation (f : fe) (u : pt -> list R) : list R :=
  match f with FE T n => map (fun i => (if bit n i then -1 else 1) * dot 2 (u (mix_mid T i)) (mix_tau T i)) (seq 0 (facets 2 T)) end.
Definition mix_mean (e : bool) (s : nat) (w : pt -> R) : R := w (mix_mid (fg_type mix_fg e) s).
Definition mix_t (e : bool) (s : nat) : list R := mix_tau (fg_type mix_fg e) s.
Lemma mix_edges e s t : subtype mix_grid e s 1 t -> (s < edges 2 (fg_type mix_fg e))%nat.
Proof. intros H. apply mix_facets in H. destruct e; exact H. Qed.
Example C82_mix_circulations_ok : circulations_ok mix_grid mix_fg mix_keys (nd0_basis 2) mix_circulation mix_t mix_inside mix_facet mix_position mix_mean.
Proof.
  assert (KS : forall e, length (mix_keys e) = facets 2 (fg_type mix_fg e)) by (intros []; reflexivity).
  constructor; cbn [g_dim mix_grid Nat.sub].
  - intros e n xi _ _. rewrite KS. split; [destruct e; cbn; reflexivity|]. destruct e; cbn; repeat constructor.
  - intros e n f _ _. unfold mix_circulation. rewrite map_length, seq_length. now rewrite KS.
  - intros e n f h _ _ Q. unfold mix_circulation. apply map_ext_in. intros i Hi. apply in_seq in Hi. rewrite Q; auto. apply (mix_mid_facet e i). lia.
  - intros e n cs _ _ LC. rewrite KS in LC. destruct e; cbn in LC.
    + destruct cs as [|c0 [|c1 [|c2 [|c3 [|]]]]]; try discriminate LC. unfold mix_circulation, reference_field, dot, rsum, nd0_basis, flip_signs, nd0, co, at_.
      cbn -[bit Rplus Rmult Rdiv Rminus]. generalize (bit n 0) (bit n 1) (bit n 2) (bit n 3). intros [] [] [] []; repeat (f_equal; try field).
    + destruct cs as [|c0 [|c1 [|c2 [|]]]]; try discriminate LC. unfold mix_circulation, reference_field, dot, rsum, nd0_basis, flip_signs, nd0, co, at_.
      cbn -[bit Rplus Rmult Rdiv Rminus]. generalize (bit n 0) (bit n 1) (bit n 2). intros [] [] []; repeat (f_equal; try field).
  - intros e n f a s m _ _ Ka. assert (Q : s = a /\ (a < facets 2 (fg_type mix_fg e))%nat).
    { assert (L : (a < facets 2 (fg_type mix_fg e))%nat) by (rewrite <- KS; apply nth_error_Some; unfold localkey in *; congruence).
      unfold mix_keys in Ka. rewrite nth_error_map_eq in Ka. rewrite nth_error_seq in Ka.
      change (if e then Cube else Simplex) with (fg_type mix_fg e) in Ka. rewrite (proj2 (Nat.ltb_lt _ _) L) in Ka. cbn in Ka. injection Ka as <- _. auto. }
    destruct Q as (-> & L). unfold mix_circulation. cbn [fg_type mix_fg] in *.
    erewrite (nth_error_nth (map _ _) a 0). 2: { rewrite nth_error_map_eq, nth_error_seq. rewrite (proj2 (Nat.ltb_lt _ _) L). reflexivity. }
    reflexivity.
  - intros e s t w w' _ Hs Q. unfold mix_mean. apply Q. apply mix_mid_facet. now apply mix_facets in Hs.
  - reflexivity.
  - intros e i t e' j t' w w' _ _ NE Hi Hj Q W. unfold mix_mean. symmetry.
    apply W; try apply mix_mid_facet; try (now apply mix_facets in Hi); try (now apply mix_facets in Hj).
    destruct (mix_shared e i t e' j t' NE Hi Hj Q) as [(-> & -> & -> & ->)|(-> & -> & -> & ->)]; unfold mix_position, mix_mid, at_; cbn -[Rplus Rdiv Rminus]; f_equal; try field; f_equal; field.
  - intros e s t xi _ _ [_ H]. exact H.
  - intros e s t _ Hs. apply mix_facets in Hs. destruct e; cbn in Hs; do 4 (destruct s as [|s]; [first [exfalso; lia|reflexivity]|]); exfalso; lia.
Qed.
Example C82_mix_common_edges_ok : common_edges_ok mix_grid mix_fg mix_t mix_inside mix_facet mix_position mix_geo.
Proof.
  split; [intros; apply C64_mix_geo_ok|]. split; [intros e s t _ H; now apply mix_edges in H|].
  intros e i t e' j t' _ _ NE Hi Hj Q.
  destruct (mix_shared e i t e' j t' NE Hi Hj Q) as [(-> & -> & -> & ->)|(-> & -> & -> & ->)]; (split; [right; reflexivity|]); intros xi xi' _ _ _;
    (split; [intros D; discriminate D|]); intros _; unfold push, rsum, mix_t, mix_tau, mix_geo, mix_J, at_; cbn -[Rplus Rmult Ropp]; f_equal; try ring; f_equal; ring.
Qed.

Definition mixc_leaf : leaf bool := mapper_leaf mix_grid mix_mp (fun t => nedelec_layout t 2) [[false; false]; [true; true]] mix_keys.
Definition mixc_su (variant : bool -> fe) : setup bool pt := SU (subspace_of_root (build (BLeaf mixc_leaf)) []) 1 (fun _ => 2%nat) 2 2
  (fun e _ x => gv_eval (covariant 2 (mix_geo e)) (nd0_basis 2 (variant e)) x)
  (fun e _ _ => repeat [0; 0; 0; 0] (length (mix_keys e))) (fun _ _ _ _ => 0)
  (CBlk [CVal 0; CVal 0]) (fun _ => FVec (Some 2%nat) FScalar)
  (CBlk [CBlk [CVal 0; CVal 0]; CBlk [CVal 0; CVal 0]]) (fun _ => FMat 2 2 FScalar).
Lemma mixc_mapper_ok : mapper_ok mix_els mix_grid (fun t => nedelec_layout t 2) mix_mp.
Proof. apply (mapper_check_ok mix_grid [false; true]). vm_compute. reflexivity. Qed.
Lemma mixc_keys_ok : keys_ok mix_els mix_grid edge_functions mix_keys.
Proof. intros e _. apply Keys_check.keys_check_ok. destruct e; vm_compute; reflexivity. Qed.
Lemma mixc_leaf_ok : leaf_ok mix_els mixc_leaf.
Proof. exact (proj1 (C57_nedelec mix_els mix_grid [[false; false]; [true; true]] mix_keys mix_mp C64_mix_grid_ok mix_types mixc_mapper_ok mixc_keys_ok)). Qed.
Lemma mixc_setup_ok k k' : setup_ok (BLeaf mixc_leaf) [] mix_els (mixc_su (fun e => FE (fg_type mix_fg e) (if e then k else k'))).
Proof.
  constructor.
  - exact mixc_leaf_ok.
  - cbn. eauto.
  - reflexivity.
  - intros e v p n x He L. destruct (single_leaf mixc_leaf mix_els mixc_leaf_ok e v p n He L) as [_ ->]. cbn [mixc_su su_shape su_vdim]. unfold gv_eval.
    split; [rewrite map_length; now destruct e|]. apply Forall_forall. intros z Hz. apply in_map_iff in Hz as (r & <- & _). reflexivity.
  - intros e v p n x He L. destruct (single_leaf mixc_leaf mix_els mixc_leaf_ok e v p n He L) as [_ ->]. cbn [mixc_su su_jac su_vdim su_ldim].
    split; [apply repeat_length|]. apply Forall_forall. intros z Hz. apply repeat_spec in Hz. now subst.
  - intros e v p n He L. destruct (single_leaf mixc_leaf mix_els mixc_leaf_ok e v p n He L) as [-> _]. split; [|now left]. eexists. repeat split; repeat constructor.
  - intros e v p n He L. destruct (single_leaf mixc_leaf mix_els mixc_leaf_ok e v p n He L) as [-> _]. split; [|now left]. eexists. split; [reflexivity|]. repeat split; repeat constructor.
Qed.
Lemma mix_edges_ok : edges_ok mix_fg.
Proof. intros e s _ Hs. destruct e; cbn in Hs; do 4 (destruct s as [|s]; [first [exfalso; lia|split; discriminate]|]); exfalso; lia. Qed.

Example C82_mix_nedelec_met : forall u : list R -> list R, (forall z, length (u z) = 2%nat) ->
  exists m variant, nd_update mix_fg None (FM [] []) = Some m /\ (forall e, fm_find mix_fg m e = Some (variant e)) /\
  let b := BLeaf mixc_leaf in let t := TDyn TScalar in let su := mixc_su variant in
  let interp := fun e (_ : list nat) => gv_interpolate (covariant 2 (mix_geo e)) (mix_circulation (variant e)) (fun xi => u (mix_position e xi)) in
  exists c', Interpolate_model.interpolate t (fun _ => true) interp 0 (subspace_of_root (build b) []) [false; true] (CBlk []) = Done c' /\
    (forall e x, exists y, is_value b [] su e (contents t c') x y) /\
    forall e s (y : pt -> cont R), (s < edges 2 (fg_type mix_fg e))%nat -> (forall x, mix_inside e x -> is_value b [] su e (contents t c') x (y x)) ->
      let x := mix_mid (fg_type mix_fg e) s in
      rsum 2 (fun r => range_entry [] (y x) r * at_ (push 2 (mix_geo e) x (mix_t e s)) r) = dot 2 (u (mix_position e x)) (push 2 (mix_geo e) x (mix_t e s)).
Proof.
  intros u Lu.
  assert (TY : nd_types mix_fg) by (intros [] _; cbn; auto).
  destruct (C47_nedelec mix_fg C64_mix_fgrid_ok None (FM [] []) I TY mix_edges_ok) as (m & U & P).
  destruct (P false (mix_all false)) as (k' & F0 & _). destruct (P true (mix_all true)) as (k & F1 & _).
  set (variant := fun e => FE (fg_type mix_fg e) (if e then k else k')).
  assert (F : forall e, fm_find mix_fg m e = Some (variant e)) by (intros []; auto).
  exists m, variant. split; [exact U|]. split; [exact F|]. intros b t su interp.
  assert (LI : forall e p, mix_els e -> length (interp e p) = lf_fe mixc_leaf e).
  { intros e p _. unfold interp, gv_interpolate, mix_circulation. destruct e; reflexivity. }
  assert (LD : lf_dim mixc_leaf <> 0%nat) by discriminate.
  assert (LES : forall e, In e [false; true] -> mix_els e) by (intros; apply mix_all).
  destruct (run1 mixc_leaf mix_els [false; true] interp mixc_leaf_ok LES LD LI) as [c' RUN]. exists c'. split; [exact RUN|].
  pose proof (mixc_setup_ok k k') as SO. fold variant su in SO.
  pose proof (contents1_ok mixc_leaf mix_els [false; true] interp mixc_leaf_ok LES LD LI su c' eq_refl RUN) as CK.
  split.
  { intros e x. destruct (values_exist b [] mix_els su (contents t c') e x SO CK (mix_all e)) as (y & _ & HV & _). eauto. }
  intros e s y Hs V. cbn zeta. destruct (single_leaf_ex mixc_leaf mix_els mixc_leaf_ok e (mix_all e)) as (w & n & Lf & NS).
  assert (ST : exists ts, subtype mix_grid e s 1 ts /\ gt_dim ts = 1%nat).
  { unfold subtype. destruct (nth_error_lt_Some (subtypes (g_type mix_grid e) 1) s) as [ts Hts]; [destruct e; exact Hs|]. exists ts. split; auto.
    apply nth_error_In, Families_props.subtypes_dim in Hts. destruct e; cbn in Hts; lia. }
  destruct ST as (ts & ST & DT).
  pose proof (C82_nedelec bool nat mix_grid mix_fg [[false; false]; [true; true]] mix_keys mix_mp (nd0_basis 2) mix_circulation mix_t mix_inside mix_facet
    mix_position mix_mean None (FM [] []) m mix_geo b [] su t (fun _ => u) interp (CBlk []) [false; true] c') as T. cbn zeta in T.
  specialize (T SO eq_refl C64_mix_grid_ok C64_mix_fgrid_ok mix_types mixc_mapper_ok mixc_keys_ok C82_mix_circulations_ok C82_mix_common_edges_ok I TY mix_edges_ok U).
  specialize (T ltac:(intros [|q p] l Hl; [injection Hl as <-; reflexivity|discriminate]) ltac:(reflexivity)).
  specialize (T ltac:(intros e0 p x f _ Hf; rewrite F in Hf; injection Hf as <-; reflexivity) ltac:(intros; apply Lu)
    ltac:(intros e0 p f _ Hf; rewrite F in Hf; injection Hf as <-; reflexivity) (call1_ok mixc_leaf mix_els [false; true] interp mixc_leaf_ok LES LD LI) RUN
    e w [] n y s ts).
  apply T; auto.
  - destruct e; cbn; auto.
  - rewrite NS. now destruct e.
Qed.
