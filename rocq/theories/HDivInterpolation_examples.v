(** C82: fields on a triangle and a quadrilateral that share an edge, interpolated into the
    Raviart-Thomas basis of lowest order. *)
From Coq Require Import List Arith Lia Bool Reals Lra.
From Verif Require Import Lib Basis_model Basis_spec Basis_ok GeometryType_model GeometryType_spec Mapper_model Mapper_spec Families_model Families_spec Families_props
  Container_model Container_spec FlatVector_model Interpolate_model Interpolate_props
  DiscreteFunction_model DiscreteFunction_spec DiscreteFunction_proofs Orientation_model Orientation_spec Orientation_props Piola_model Piola_spec Piola_props
  Projection_spec Derivative_spec HDiv_spec HDiv_elements NodalFunctions_proofs NodalFunctions_example SingleLeaf_example DofPreservation_spec DofPreservation_props HDivInterpolation_props.
Import ListNotations.
Local Open Scope R_scope.

(** Midpoints of the facets; the local interpolation evaluates there, with the sign of the bit
    (dune-localfunctions, order 0 in two dimensions). *)
Definition mix_mid (T : gtype) (i : nat) : pt :=
  match T with
  | Simplex => nth i [[1/2; 0]; [0; 1/2]; [1/2; 1/2]] []
  | _ => nth i [[0; 1/2]; [1; 1/2]; [1/2; 0]; [1/2; 1]] []
  end.
Definition mix_linterp (f : fe) (u : pt -> list R) : list R :=
  match f with FE T n => map (fun i => (if bit n i then -1 else 1) * dot 2 (u (mix_mid T i)) (fst (plane 2 T i))) (seq 0 (facets 2 T)) end.
Definition mix_inside (e : bool) (x : pt) : Prop :=
  length x = 2%nat /\ 0 <= at_ x 0 <= 1 /\ 0 <= at_ x 1 <= 1 /\ (e = false -> at_ x 0 + at_ x 1 <= 1).
Definition mix_facet (e : bool) (i : nat) (x : pt) : Prop := mix_on e i x /\ mix_inside e x.
Definition mix_position (e : bool) (x : pt) : list R :=
  if e then [at_ x 0 + at_ x 1; 1 + at_ x 0 - at_ x 1] else [at_ x 0; at_ x 1].
Definition mix_moment (e : bool) (i m : nat) (w : pt -> R) : R := if Nat.even m then w (mix_mid (fg_type mix_fg e) i) else 0.
Definition mix_N (e : bool) (i : nat) (_ : pt) : list R :=
  let nu := mix_nu e i in if e then [at_ nu 0 + at_ nu 1; at_ nu 0 - at_ nu 1] else [at_ nu 0; at_ nu 1].
Lemma mix_mid_facet e i : (i < facets 2 (fg_type mix_fg e))%nat -> mix_facet e i (mix_mid (fg_type mix_fg e) i).
Proof.
  intros Hi. destruct e; cbn in Hi; do 4 (destruct i as [|i]; [first [exfalso; lia|
    unfold mix_facet, mix_on, mix_inside, dot, rsum, plane, at_; cbn -[Rplus Rmult Rle]; repeat split; try lra; try discriminate]|]); exfalso; lia.
Qed.
Ltac mix_cases e i Hi := destruct e; cbn in Hi; do 4 (destruct i as [|i]; [first [exfalso; lia|idtac]|]); try (exfalso; lia).
Lemma mix_shared e i t e' j t' : e <> e' -> subtype mix_grid e i 1 t -> subtype mix_grid e' j 1 t' -> g_sub mix_grid e i 1 = g_sub mix_grid e' j 1 ->
  (e = false /\ i = 2 /\ e' = true /\ j = 0)%nat \/ (e = true /\ i = 0 /\ e' = false /\ j = 2)%nat.
Proof.
  intros NE Hi Hj Q. apply mix_facets in Hi, Hj.
  destruct e, e'; try congruence; vm_compute in Hi, Hj;
    destruct i as [|[|[|[|i]]]]; try (exfalso; lia); destruct j as [|[|[|[|j]]]]; try (exfalso; lia); try (vm_compute in Q; discriminate Q); auto 10.
Qed.
Example C82_mix_moments_ok : moments_ok mix_grid mix_fg 2 mix_keys (rt0_basis 2) mix_linterp mix_nu mix_inside mix_facet mix_position mix_moment.
Proof.
  assert (KS : forall e, length (mix_keys e) = facets 2 (fg_type mix_fg e)) by (intros []; reflexivity).
  constructor.
  - intros e n xi _ _. rewrite KS. split; [destruct e; cbn; reflexivity|]. destruct e; cbn; repeat constructor.
  - intros e n f _ _. unfold mix_linterp. rewrite map_length, seq_length. now rewrite KS.
  - intros e n f h _ _ Q. unfold mix_linterp. apply map_ext_in. intros i Hi. apply in_seq in Hi. rewrite Q; auto. apply (mix_mid_facet e i). lia.
  - intros e n cs _ _ LC. rewrite KS in LC. destruct e; cbn in LC.
    + destruct cs as [|c0 [|c1 [|c2 [|c3 [|]]]]]; try discriminate LC. unfold mix_linterp, reference_field, dot, rsum, rt0_basis, flip_signs, rt0, plane, co, at_.
      cbn -[bit Rplus Rmult Rdiv]. generalize (bit n 0) (bit n 1) (bit n 2) (bit n 3). intros [] [] [] []; repeat (f_equal; try field).
    + destruct cs as [|c0 [|c1 [|c2 [|]]]]; try discriminate LC. unfold mix_linterp, reference_field, dot, rsum, rt0_basis, flip_signs, rt0, plane, co, at_.
      cbn -[bit Rplus Rmult Rdiv]. generalize (bit n 0) (bit n 1) (bit n 2). intros [] [] []; repeat (f_equal; try field).
  - intros e n f a s m _ _ Ka. assert (Q : s = a /\ m = 0%nat /\ (a < facets 2 (fg_type mix_fg e))%nat).
    { assert (L : (a < facets 2 (fg_type mix_fg e))%nat) by (rewrite <- KS; apply nth_error_Some; unfold localkey in *; congruence).
      unfold mix_keys in Ka. rewrite nth_error_map_eq in Ka. rewrite nth_error_seq in Ka.
      change (if e then Cube else Simplex) with (fg_type mix_fg e) in Ka. rewrite (proj2 (Nat.ltb_lt _ _) L) in Ka. cbn in Ka. injection Ka as <- <-. auto. }
    destruct Q as (-> & -> & L). unfold mix_linterp. cbn [fg_type mix_fg] in *.
    erewrite (nth_error_nth (map _ _) a 0). 2: { rewrite nth_error_map_eq, nth_error_seq. rewrite (proj2 (Nat.ltb_lt _ _) L). reflexivity. }
    cbn [Nat.add]. unfold facet_sign, mix_moment, mix_nu. cbn [Nat.even fg_type mix_fg]. now rewrite andb_true_r.
  - intros e s t m w w' _ Hs Q. unfold mix_moment. destruct (Nat.even m); auto. apply Q. apply mix_mid_facet. now apply mix_facets in Hs.
  - intros e s m w. unfold mix_moment. destruct (Nat.even m); ring.
  - intros e i t e' j t' m w w' _ _ NE Hi Hj Q W. unfold mix_moment. destruct (Nat.even m); [|ring]. rewrite Rmult_1_l. symmetry.
    apply W; try apply mix_mid_facet; try (now apply mix_facets in Hi); try (now apply mix_facets in Hj).
    destruct (mix_shared e i t e' j t' NE Hi Hj Q) as [(-> & -> & -> & ->)|(-> & -> & -> & ->)]; unfold mix_position, mix_mid, at_; cbn -[Rplus Rdiv Rminus]; f_equal; try field; f_equal; field.
  - intros e s t xi _ _ [_ H]. exact H.
Qed.
Example C82_mix_areas_ok : areas_ok mix_grid mix_fg 2 mix_nu mix_inside mix_facet mix_position mix_geo mix_N.
Proof.
  split; [intros; apply C64_mix_geo_ok|]. split.
  - intros e i t xi _ Hi _. apply mix_facets in Hi. split; [destruct e; reflexivity|]. intros w Lw. destruct w as [|a [|b [|]]]; try discriminate Lw.
    destruct e; unfold dot, push, rsum, mix_N, mix_geo, mix_J; generalize (mix_nu true i) (mix_nu false i); intros n1 n2; unfold at_; cbn -[nth Rplus Rmult Rminus]; cbn [nth]; ring.
  - intros e i t xi e' j t' xi' _ _ NE Hi Hj Q _ _ _.
    destruct (mix_shared e i t e' j t' NE Hi Hj Q) as [(-> & -> & -> & ->)|(-> & -> & -> & ->)]; unfold mix_N, mix_nu, plane, at_; cbn -[Rplus Ropp Rminus]; f_equal; try ring; f_equal; ring.
Qed.

Definition mix_leaf : leaf bool := mapper_leaf mix_grid mix_mp (fun t => rt_layout 0 2 t 2) [[false; false]; [true; true]] mix_keys.
Definition mix_variant (e : bool) : fe := if e then FE Cube 0 else FE Simplex 4.
Definition mix_su : setup bool pt := SU (subspace_of_root (build (BLeaf mix_leaf)) []) 1 (fun _ => 2%nat) 2 2
  (fun e _ x => gv_eval (contravariant 2 (mix_geo e)) (rt0_basis 2 (mix_variant e)) x)
  (fun e _ _ => repeat [0; 0; 0; 0] (length (mix_keys e))) (fun _ _ _ _ => 0)
  (CBlk [CVal 0; CVal 0]) (fun _ => FVec (Some 2%nat) FScalar)
  (CBlk [CBlk [CVal 0; CVal 0]; CBlk [CVal 0; CVal 0]]) (fun _ => FMat 2 2 FScalar).
Definition mix_els (e : bool) : Prop := In e (fg_elements mix_fg).
Lemma mix_all e : mix_els e. Proof. destruct e; cbn; auto. Qed.
Lemma mix_types : types_ok mix_els mix_grid [[false; false]; [true; true]].
Proof. intros e _. exists (if e then [true; true] else [false; false]). split; [destruct e; cbn; auto|]. destruct e; split; reflexivity. Qed.
Lemma mix_leaf_ok : leaf_ok mix_els mix_leaf.
Proof.
  apply (C57_raviart_thomas mix_els mix_grid 0 [[false; false]; [true; true]] mix_keys mix_mp C64_mix_grid_ok mix_types C64_mix_mapper_ok).
  - intros t [<-|[<-|[]]]; reflexivity.
  - exact C64_mix_keys_ok.
Qed.
Lemma mix_setup_ok : setup_ok (BLeaf mix_leaf) [] mix_els mix_su.
Proof.
  constructor.
  - exact mix_leaf_ok.
  - cbn. eauto.
  - reflexivity.
  - intros e v p n x He L. destruct (single_leaf mix_leaf mix_els mix_leaf_ok e v p n He L) as [_ ->]. cbn [mix_su su_shape su_vdim]. unfold gv_eval.
    split; [rewrite map_length; now destruct e|]. apply Forall_forall. intros z Hz. apply in_map_iff in Hz as (r & <- & _). reflexivity.
  - intros e v p n x He L. destruct (single_leaf mix_leaf mix_els mix_leaf_ok e v p n He L) as [_ ->]. cbn [mix_su su_jac su_vdim su_ldim].
    split; [apply repeat_length|]. apply Forall_forall. intros z Hz. apply repeat_spec in Hz. now subst.
  - intros e v p n He L. destruct (single_leaf mix_leaf mix_els mix_leaf_ok e v p n He L) as [-> _]. split; [|now left]. eexists. repeat split; repeat constructor.
  - intros e v p n He L. destruct (single_leaf mix_leaf mix_els mix_leaf_ok e v p n He L) as [-> _]. split; [|now left]. eexists. split; [reflexivity|]. repeat split; repeat constructor.
Qed.

(** Every field: the hypotheses are met, the call returns, the interpolant has values, and its
    fluxes are those of the field. *)
Example C82_mix_met : forall u : list R -> list R, (forall z, length (u z) = 2%nat) ->
  let b := BLeaf mix_leaf in let t := TDyn TScalar in
  let interp := fun e (_ : list nat) => gv_interpolate (contravariant 2 (mix_geo e)) (mix_linterp (mix_variant e)) (fun xi => u (mix_position e xi)) in
  exists c', Interpolate_model.interpolate t (fun _ => true) interp 0 (subspace_of_root (build b) []) [false; true] (CBlk []) = Done c' /\
    (forall e x, exists y, is_value b [] mix_su e (contents t c') x y) /\
    forall e i (y : pt -> cont R), (i < facets 2 (fg_type mix_fg e))%nat -> (forall x, mix_inside e x -> is_value b [] mix_su e (contents t c') x (y x)) ->
      let x := mix_mid (fg_type mix_fg e) i in
      rsum 2 (fun r => range_entry [] (y x) r * at_ (mix_N e i x) r) = dot 2 (u (mix_position e x)) (mix_N e i x).
Proof.
  intros u Lu b t interp.
  assert (LI : forall e p, mix_els e -> length (interp e p) = lf_fe mix_leaf e).
  { intros e p _. unfold interp, gv_interpolate, mix_linterp. destruct e; reflexivity. }
  assert (LD : lf_dim mix_leaf <> 0%nat) by discriminate.
  assert (LES : forall e, In e [false; true] -> mix_els e) by (intros; apply mix_all).
  destruct (run1 mix_leaf mix_els [false; true] interp mix_leaf_ok LES LD LI) as [c' RUN]. exists c'. split; [exact RUN|].
  pose proof (contents1_ok mix_leaf mix_els [false; true] interp mix_leaf_ok LES LD LI mix_su c' eq_refl RUN) as CK.
  split.
  { intros e x. destruct (values_exist b [] mix_els mix_su (contents t c') e x mix_setup_ok CK (mix_all e)) as (y & _ & HV & _). eauto. }
  assert (U : exists m, rt_update mix_fg None (FM [] []) = Some m /\ fm_find mix_fg m false = Some (FE Simplex 4) /\ fm_find mix_fg m true = Some (FE Cube 0)).
  { eexists. split; [vm_compute; reflexivity|]. split; vm_compute; reflexivity. }
  destruct U as (m & U & F0 & F1). assert (F : forall e, fm_find mix_fg m e = Some (mix_variant e)) by (intros []; auto).
  intros e i y Hi V. cbn zeta. destruct (single_leaf_ex mix_leaf mix_els mix_leaf_ok e (mix_all e)) as (w & n & Lf & NS).
  assert (ST : exists ti, subtype mix_grid e i 1 ti).
  { unfold subtype. destruct (nth_error_lt_Some (subtypes (g_type mix_grid e) 1) i) as [ti Hti]; [|eauto]. destruct e; exact Hi. }
  destruct ST as [ti ST].
  pose proof (C82_raviart_thomas bool nat mix_grid mix_fg 0 [[false; false]; [true; true]] mix_keys mix_mp (rt0_basis 2) mix_linterp mix_nu mix_inside mix_facet
    mix_position mix_moment None (FM [] []) m mix_geo mix_N b [] mix_su t (fun _ => u) interp (CBlk []) [false; true] c') as T. cbn zeta in T.
  specialize (T mix_setup_ok eq_refl C64_mix_grid_ok C64_mix_fgrid_ok C64_mix_neighbours_ok).
  specialize (T ltac:(intros [] [] _ _ Q; auto; discriminate Q) mix_types C64_mix_mapper_ok ltac:(intros t0 [<-|[<-|[]]]; reflexivity) C64_mix_keys_ok
    C82_mix_moments_ok C82_mix_areas_ok I U).
  specialize (T ltac:(intros [|q p] l Hl; [injection Hl as <-; reflexivity|discriminate]) ltac:(reflexivity)).
  specialize (T ltac:(intros e0 p x f _ Hf; rewrite F in Hf; injection Hf as <-; reflexivity) ltac:(intros; apply Lu)
    ltac:(intros e0 p f _ Hf; rewrite F in Hf; injection Hf as <-; reflexivity) (call1_ok mix_leaf mix_els [false; true] interp mix_leaf_ok LES LD LI) RUN
    e w [] n y i ti 0%nat).
  apply T; auto.
  - destruct e; cbn; auto.
  - rewrite NS. now destruct e.
  - unfold mix_keys. apply in_map_iff. exists i. split; auto. apply in_seq. destruct e; cbn in *; lia.
Qed.
