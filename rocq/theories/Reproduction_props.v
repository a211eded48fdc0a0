(** C81: interpolation of functions that belong to the space. *)
From Coq Require Import List Arith Lia Bool Reals Lra.
From Verif Require Import Lib Basis_model Basis_spec Basis_proofs Basis_ok Basis_view Basis_props Container_model Container_spec Container_props
  Interpolate_model Interpolate_props FlatVector_model DiscreteFunction_model DiscreteFunction_spec DiscreteFunction_proofs
  Projection_spec Derivative_spec Derivative_props NodalFunctions_proofs Reproduction_spec.
Import ListNotations.
Local Open Scope R_scope.

Section Coefficients.
Context {E V : Type}.
Variables (b : bexpr E) (path : list nat) (els : E -> Prop) (interp : E -> list nat -> list V) (mask : mi -> bool).
Lemma consistent_agree es : wf els b -> (forall e, In e es -> els e) -> consistent els b path interp -> agree b path mask interp es.
Proof.
  intros Hwf Hes HC e e' m x x' He He' _ V1 V2.
  assert (K : forall e x, In e es -> local_value b path interp e m x -> exists v k p d l j,
    lv_bind (build b) (lv_new (build b)) e = Some v /\ dof_of b e v k (path ++ p) d /\ lv_index v k = Some m /\ leaf_at b (path ++ p) = Some l /\
    nth_error (lf_indices l e) j = Some d /\ nth_error (interp e p) j = Some x).
  { clear - Hwf Hes. intros e x He (v & p & n & j & k & H1 & H2 & H3 & H4 & H5 & H6).
    pose proof H1 as H1'. rewrite (bind_new_ok els _ _ e (build_ok b els Hwf) (Hes e He)) in H1'. injection H1' as H1'.
    pose proof H2 as D. rewrite <- H1' in D. cbn [lv_tree] in D.
    destruct (key_at b els e _ (path ++ p) n j k Hwf (Hes e He) (new_skel _) D H3 H4) as (l & d & A & B & _).
    exists v, k, p, d, l, j. split; auto. split; [exists n, l, j; auto|]. auto. }
  destruct (K e x He V1) as (v & k & p & d & l & j & A1 & A2 & A3 & A4 & A5 & A6).
  destruct (K e' x' He' V2) as (v' & k' & p' & d' & l' & j' & B1 & B2 & B3 & B4 & B5 & B6).
  destruct (proj1 (C07_indices_identify_dofs b els e e' v v' k k' _ d _ d' Hwf (Hes e He) (Hes e' He') A1 B1 A2 B2)) as [Qp <-]; [congruence|].
  apply app_inv_head in Qp as <-. rewrite A4 in B4. injection B4 as <-. apply (HC p l e e' j j' d x x'); auto.
Qed.
End Coefficients.

(** A leaf node that is not switched off belongs to a leaf of the basis. *)
Lemma leaf_exists {E} (b : bexpr E) path (els : E -> Prop) e w p n : wf els b -> els e -> leaf_of b path e w p n -> node_size n <> 0%nat ->
  exists l, leaf_at b (path ++ p) = Some l.
Proof.
  intros Hwf Hel (L1 & L2 & L3) NZ. rewrite (bind_new_ok els _ _ e (build_ok b els Hwf) Hel) in L1. injection L1 as L1. rewrite <- L1 in L2. cbn [lv_tree] in L2.
  assert (LI : Basis_model.local_index n 0 = Some (node_offset n + 0)%nat) by (apply local_index_Some; split; auto; lia).
  destruct (key_at b els e _ (path ++ p) n 0%nat _ Hwf Hel (new_skel _) L2 L3 LI) as (l & _ & A & _). eauto.
Qed.

(** The coefficients that a call of interpolate() without mask leaves in the vector. *)
Lemma interpolated_coefficients {E X} (b : bexpr E) path els (su : setup E X) t interp c es c' e w p n l :
  setup_ok b path els su -> consistent els b path interp -> call_ok b els path t interp c es ->
  Interpolate_model.interpolate t (fun _ => true) interp 0 (subspace_of_root (build b) path) es c = Done c' ->
  In e es -> leaf_of b path e w p n -> node_size n <> 0%nat -> leaf_at b (path ++ p) = Some l -> length (interp e p) = length (lf_indices l e) ->
  map (coefficient b path (contents t c') p 0) (lf_indices l e) = interp e p.
Proof.
  intros OKS HC CO HI He L NZ Hl LE. pose proof (call_elements _ _ _ _ _ _ _ CO) as Hes. pose proof (call_basis _ _ _ _ _ _ _ CO) as Hwf.
  destruct (leaf_coefficients b path els su OKS (contents t c') e w p n l (Hes e He) L NZ Hl) as [LN _].
  apply (nth_ext _ _ 0 0); [now rewrite map_length|]. rewrite map_length. intros i Hi.
  destruct (nth_error_lt_Some (lf_indices l e) i Hi) as [g Hg]. destruct (nth_error_lt_Some (interp e p) i ltac:(lia)) as [x Hx].
  rewrite (nth_error_nth _ _ _ Hx). apply nth_error_nth. rewrite nth_error_map_eq, Hg. cbn [option_map]. f_equal.
  destruct L as (L1 & L2 & L3). pose proof L1 as L1'. rewrite (bind_new_ok els _ _ e (build_ok b els Hwf) (Hes e He)) in L1'. injection L1' as L1'.
  pose proof L2 as D. rewrite <- L1' in D. cbn [lv_tree] in D.
  assert (LI : Basis_model.local_index n i = Some (node_offset n + i)%nat) by (apply local_index_Some; split; auto; lia).
  destruct (key_at b els e _ (path ++ p) n i _ Hwf (Hes e He) (new_skel _) D L3 LI) as (l1 & g1 & B1 & B2 & B3).
  rewrite Hl in B1. injection B1 as <-. rewrite Hg in B2. injection B2 as <-.
  assert (IX : lv_index w (node_offset n + i) = Some (sp_glob (meaning b) (path ++ p, g))).
  { rewrite <- L1'. unfold lv_index. cbn [lv_indices]. rewrite nth_error_map_eq, B3. reflexivity. }
  unfold coefficient, contents.
  rewrite (C25_agreeing_value b els path t (fun _ => true) interp 0 c es c' (sp_glob (meaning b) (path ++ p, g)) e x CO); auto.
  - now apply (consistent_agree b path els interp).
  - exists w, p, n, i, (node_offset n + i)%nat. repeat split; auto.
Qed.

(** If the local interpolations reproduce a function of the space, with the same coefficients
    for the basis functions that elements share, then the discrete function with the
    interpolated coefficients is this function, at every point of the visited elements. *)
Theorem C81_functions_of_the_space_are_reproduced : forall (E X : Type) (b : bexpr E) (path : list nat) (els : E -> Prop) (su : setup E X)
    (t : cty) (interp : E -> list nat -> list R) (F : list nat -> nat -> E -> X -> R) c es c',
  setup_ok b path els su -> su_cdim su = 1%nat ->
  consistent els b path interp -> locally_reproduced els b path su interp F ->
  call_ok b els path t interp c es ->
  Interpolate_model.interpolate t (fun _ => true) interp 0 (subspace_of_root (build b) path) es c = Done c' ->
  forall e w p n x y k, In e es -> leaf_of b path e w p n -> node_size n <> 0%nat -> (k < su_vdim su p)%nat ->
  is_value b path su e (contents t c') x y -> range_entry p y k = F p k e x.
Proof.
  intros E X b path els su t interp F c es c' OKS Hcd HC HR CO HI e w p n x y k He L NZ Hk V.
  pose proof (call_elements _ _ _ _ _ _ _ CO e He) as Hel. pose proof (call_basis _ _ _ _ _ _ _ CO) as Hwf.
  destruct (leaf_exists b path els e w p n Hwf Hel L NZ) as [l Hl]. destruct (HR p l e x k Hl Hel Hk) as [Li ->].
  destruct (leaf_coefficients b path els su OKS (contents t c') e w p n l Hel L NZ Hl) as [Ln CE].
  pose proof (value_entry b path su e (contents t c') x y w p n 0 k V L) as VE. rewrite Hcd in VE. cbn [Nat.mul Nat.add] in VE.
  rewrite VE by (auto; lia). rewrite Li, Ln. apply rsum_ext. intros i Hi. f_equal.
  rewrite CE by auto. f_equal. eapply interpolated_coefficients; eauto.
Qed.
Print Assumptions C81_functions_of_the_space_are_reproduced.
