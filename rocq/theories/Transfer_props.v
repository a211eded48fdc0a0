(** Interpolation of discrete functions into other bases (C73). *)
From Coq Require Import List Arith Bool Reals Lia Lra.
From Verif Require Import Lib Basis_model Basis_spec Basis_proofs Basis_ok Basis_view Basis_props
  Container_model Container_spec Container_proofs Container_desc Container_props FlatVector_model FlatVector_props
  Interpolate_model Interpolate_props DiscreteFunction_model DiscreteFunction_spec DiscreteFunction_proofs DiscreteFunction_props
  Projection_model Projection_spec Projection_props Transfer_spec Transfer_proofs.
Import ListNotations.
#[local] Arguments Nat.ltb : simpl never.
#[local] Arguments Nat.eqb : simpl never.

(** interpolate() of a discrete function over one basis into a vector for another basis is
    defined, throws only if the vector cannot be resized, and gives every marked DOF that
    occurs on a visited element the value that the local interpolation of one of these
    elements delivers for that DOF; all other DOFs keep their values. *)
Theorem C73_local_interpolation_decides : forall (E X : Type) (els : E -> Prop) (b1 : bexpr E) (path1 : list nat) (su1 : setup E X) (c1 : mi -> option (list R))
    (b2 : bexpr E) (path2 : list nat) (t : cty) (mask : mi -> bool) (asks : list nat -> bool) (interpolation : functional)
    (interp : E -> list nat -> list R) (es : list E) (c : cont R),
  setup_ok b1 path1 els su1 -> coefs_ok b1 els su1 c1 -> call_ok b2 els path2 t interp c es ->
  locally_interpolates els b1 path1 su1 b2 path2 asks interpolation c1 interp ->
  match interpolate_discrete su1 t mask asks interpolation (fun _ => c1) (subspace_of_root (build b2) path2) es c with
  | Undef => False
  | Throw => backend_resize 0%R (pb_size (build b2)) t c = Throw
  | Done c' =>
      (forall m e x, mask m = true -> In e es -> local_value b2 path2 interp e m x ->
         exists e' x', In e' es /\ local_value b2 path2 interp e' m x' /\ read t c' m = Some (CVal x')) /\
      (forall m, global_index els b2 m -> mask m = false \/ (forall e x, In e es -> ~ local_value b2 path2 interp e m x) ->
         exists c0, backend_resize 0%R (pb_size (build b2)) t c = Done c0 /\ read t c' m = read t c0 m)
  end.
Proof.
  intros E X els b1 path1 su1 c1 b2 path2 t mask asks interpolation interp es c OKS Hc1 HC HL.
  pose proof (C25_throws_iff_resize_throws b2 els path2 t mask interp 0%R c es HC) as HT.
  rewrite (transfer b1 path1 els su1 c1 OKS Hc1 t mask asks interpolation interp (subspace_of_root (build b2) path2)
             (used_leaf b2 path2) HL (tviews b2)).
  - destruct (interpolate t mask interp 0%R _ es c) as [c'| |] eqn:EI; auto. split.
    + intros m e x Hm He Hx. eapply (C25_marked_dofs_are_interpolated b2 els path2); eauto.
    + intros m Gm Hm. destruct (C25_other_dofs_unchanged b2 els path2 t mask interp 0%R c es c' m HC EI Gm Hm) as (c0 & A & B & _). eauto.
  - intros v e v' Hv He Hb. eapply (tviews_ok b2 els path2); eauto; [apply HC|]. intros; eapply bind_tree_of; eauto.
  - reflexivity.
  - apply HC.
  - intros HU. now rewrite HU in HT.
Qed.

(** The value functions of a setup exist. *)
Section Values.
Context {E X : Type}.
Variables (b : bexpr E) (path : list nat) (els : E -> Prop) (su : setup E X).
Hypothesis OKS : setup_ok b path els su.
Lemma value_exists c e x : coefs_ok b els su c -> els e -> exists y, is_value b path su e c x y.
Proof.
  intros Hc He. destruct (bind_inv b path els su OKS c (lf_new su false) e) as (f & _ & H1 & H2 & H3 & H4 & H5 & H6); auto.
  { unfold lf_new, sv_new. cbn. rewrite (so_basis _ _ _ _ OKS). apply vinv_new. }
  cbn [sf_deriv sf_state] in *. destruct (value_ok b path els su OKS f e c x H1 H2 H3 H4 H6) as (y & _ & Hy). eauto.
Qed.
Lemma derivative_exists c e x : coefs_ok b els su c -> els e -> exists y, is_derivative b path su e c x y.
Proof.
  intros Hc He. destruct (bind_inv b path els su OKS c (lf_new su true) e) as (f & _ & H1 & H2 & H3 & H4 & H5 & H6); auto.
  { unfold lf_new, sv_new. cbn. rewrite (so_basis _ _ _ _ OKS). apply vinv_new. }
  cbn [sf_deriv sf_state] in *. destruct (deriv_ok b path els su OKS f e c x H1 (H5 H1) H2 H3 H4 H6) as (y & _ & Hy). eauto.
Qed.
End Values.

Section Contained.
Context {E X : Type}.
Variables (els : E -> Prop) (asks : list nat -> bool) (interpolation : @functional E X).
Variables (b1 : bexpr E) (path1 : list nat) (su1 : setup E X) (c1 : mi -> option (list R)).
Variables (b2 : bexpr E) (path2 : list nat) (su2 : setup E X) (c2 : mi -> option (list R)) (x : mi -> R).
Hypothesis OK1 : setup_ok b1 path1 els su1.
Hypothesis OK2 : setup_ok b2 path2 els su2.
Hypothesis Hdim : su_cdim su2 = 1.
Hypothesis HD : dual b2 path2 els su2 asks interpolation.
Hypothesis Hc1 : coefs_ok b1 els su1 c1.
Hypothesis Hx : numbers b2 els c2 x.
Hypothesis HS : same_parts els asks b1 path1 su1 c1 b2 path2 su2 c2.

Lemma c2_ok : coefs_ok b2 els su2 c2.
Proof. intros m Hm. exists [x m]. split; [now apply Hx|now rewrite Hdim]. Qed.
Lemma contained_interpolates : locally_interpolates els b1 path1 su1 b2 path2 asks interpolation c1 (interp0 b2 path2 x).
Proof.
  intros e p f d He (v & n & L & NZ) Hf Hd. rewrite (interp0_leaf b2 path2 x e v p n L).
  assert (U : used_leaf b2 path2 e p) by (exists v, n; auto). destruct (view_of_leaf b2 path2 els su2 OK2 e v p n He L) as [V1 V2].
  assert (CO : forall i, coef_of c2 v n i 0 = coefx x v n i).
  { intros i. unfold coef_of, coefx. destruct (Basis_model.local_index n i) as [k|]; auto. destruct (lv_index v k) as [m|] eqn:Em; auto.
    rewrite (Hx m); auto. eapply (vinv_global b2 path2 els su2 OK2); eauto. }
  apply (HD e v p n); auto.
  - intros y. destruct (Hf y) as (y1 & Y1 & ->). destruct (value_exists b2 path2 els su2 OK2 c2 e y c2_ok He) as [y2 Y2].
    destruct (HS e p y He U) as [S1 _]. specialize (S1 y1 y2 Y1 Y2). destruct Y2 as [_ Y2]. destruct (Y2 v p n L) as (z2 & Z1 & _ & Z2).
    rewrite Z1 in S1. destruct (node_to_range p y1) as [z1|]; [|discriminate]. cbn in S1. injection S1 as S1.
    destruct (Z2 NZ) as [Z3 Z4]. exists z1. split; auto. rewrite S1. split; [lia|]. intros k Hk. specialize (Z4 0 k ltac:(lia) Hk). cbn [Nat.mul Nat.add] in Z4.
    rewrite Z4. f_equal. apply rsum_ext. intros i _. now rewrite CO.
  - destruct (asks p) eqn:Ea; auto. destruct Hd as (d' & -> & Hd). exists d'. split; auto.
    intros y. destruct (Hd y) as (y1 & Y1 & ->). destruct (derivative_exists b2 path2 els su2 OK2 c2 e y c2_ok He) as [y2 Y2].
    destruct (HS e p y He U) as [_ S1]. specialize (S1 Ea y1 y2 Y1 Y2). destruct Y2 as [_ Y2]. destruct (Y2 v p n L) as (z2 & Z1 & _ & Z2).
    rewrite Z1 in S1. destruct (node_to_range p y1) as [z1|]; [|discriminate]. cbn in S1. injection S1 as S1.
    destruct (Z2 NZ) as [Z3 Z4]. exists z1. split; auto. rewrite S1. split; [lia|]. intros r g Hr Hg. specialize (Z4 0 r g ltac:(lia) Hr Hg). cbn [Nat.mul Nat.add] in Z4.
    rewrite Z4. f_equal. apply rsum_ext. intros i _. now rewrite CO.
Qed.
End Contained.

(** If the function over [b1] is a function over [b2] too, then interpolating it gives its
    coefficients with respect to [b2]: nothing is lost. *)
Theorem C73_contained_functions_are_reproduced : forall (E X : Type) (els : E -> Prop) (b1 : bexpr E) (path1 : list nat) (su1 : setup E X) (c1 : mi -> option (list R))
    (b2 : bexpr E) (path2 : list nat) (su2 : setup E X) (c2 : mi -> option (list R)) (x : mi -> R)
    (t : cty) (mask : mi -> bool) (asks : list nat -> bool) (interpolation : functional) (es : list E) (c : cont R),
  setup_ok b1 path1 els su1 -> coefs_ok b1 els su1 c1 ->
  setup_ok b2 path2 els su2 -> su_cdim su2 = 1 -> dual b2 path2 els su2 asks interpolation -> numbers b2 els c2 x ->
  same_parts els asks b1 path1 su1 c1 b2 path2 su2 c2 ->
  (forall e, In e es -> els e) -> has_ty t c -> solid_entries t (sp_tree (meaning b2)) ->
  match interpolate_discrete su1 t mask asks interpolation (fun _ => c1) (su_basis su2) es c with
  | Undef => False
  | Throw => backend_resize 0%R (pb_size (build b2)) t c = Throw
  | Done c' =>
      (forall e m, In e es -> dof_on b2 path2 e m -> mask m = true -> read t c' m = Some (CVal (x m))) /\
      (forall m, global_index els b2 m -> mask m = false \/ (forall e, In e es -> ~ dof_on b2 path2 e m) ->
         exists c0, backend_resize 0%R (pb_size (build b2)) t c = Done c0 /\ read t c' m = read t c0 m)
  end.
Proof.
  intros E X els b1 path1 su1 c1 b2 path2 su2 c2 x t mask asks interpolation es c OK1 Hc1 OK2 Hdim HD Hx HS Hes Hty Hso.
  rewrite (so_basis _ _ _ _ OK2).
  pose proof (contained_interpolates els asks interpolation b1 path1 su1 c1 b2 path2 su2 c2 x OK2 Hdim HD Hx HS) as HL.
  assert (HC : call_ok b2 els path2 t (interp0 b2 path2 x) c es).
  { constructor; auto; [apply OK2|apply OK2|apply (interp0_ok b2 path2 els x)]. }
  pose proof (C73_local_interpolation_decides E X els b1 path1 su1 c1 b2 path2 t mask asks interpolation (interp0 b2 path2 x) es c OK1 Hc1 HC HL) as H.
  destruct (interpolate_discrete su1 t mask asks interpolation (fun _ => c1) _ es c) as [c'| |]; auto. destruct H as [H1 H2]. split.
  - intros e m He Hm Hk. destruct (H1 m e (x m) Hk He) as (e' & x' & He' & Hv & ->). { eapply (dof_value b2 path2 els); eauto. }
    now rewrite (value_dof b2 path2 x e' m x' Hv).
  - intros m Gm [Hm|Hm]; apply H2; auto. right. intros e y He Hv. apply (Hm e He).
    destruct Hv as (v & p & n & j & k & P1 & P2 & P3 & P4 & P5 & P6). exists v, p, n, j, k. split; [split; auto|auto].
Qed.

(** Values depend on the coefficients of the DOFs on the element only. *)
Lemma coef_of_ext {E} (b : bexpr E) path (e : E) v p n c c' i j : leaf_of b path e v p n -> (forall m, dof_on b path e m -> c m = c' m) ->
  coef_of c v n i j = coef_of c' v n i j.
Proof.
  intros L H. unfold coef_of. destruct (Basis_model.local_index n i) as [k|] eqn:Ek; auto. destruct (lv_index v k) as [m|] eqn:Em; auto.
  rewrite (H m); auto. exists v, p, n, i, k. auto.
Qed.
Lemma is_value_ext {E X} (b : bexpr E) path (su : setup E X) e c c' x y : (forall m, dof_on b path e m -> c m = c' m) ->
  is_value b path su e c x y -> is_value b path su e c' x y.
Proof.
  intros H [S V]. split; auto. intros v p n L. destruct (V v p n L) as (z & Z1 & Z2 & Z3). exists z. split; auto. split; auto.
  intros NZ. destruct (Z3 NZ) as [Z4 Z5]. split; auto. intros j k Hj Hk. rewrite (Z5 j k Hj Hk). f_equal. apply rsum_ext. intros i _.
  now rewrite (coef_of_ext b path e v p n c c' i j L H).
Qed.
Lemma is_derivative_ext {E X} (b : bexpr E) path (su : setup E X) e c c' x y : (forall m, dof_on b path e m -> c m = c' m) ->
  is_derivative b path su e c x y -> is_derivative b path su e c' x y.
Proof.
  intros H [S V]. split; auto. intros v p n L. destruct (V v p n L) as (z & Z1 & Z2 & Z3). exists z. split; auto. split; auto.
  intros NZ. destruct (Z3 NZ) as [Z4 Z5]. split; auto. intros j r g Hj Hr Hg. rewrite (Z5 j r g Hj Hr Hg). f_equal. apply rsum_ext. intros i _.
  now rewrite (coef_of_ext b path e v p n c c' i j L H).
Qed.

(** ... hence the discrete function with the resulting vector is the interpolated function. *)
Theorem C73_interpolant_is_the_function : forall (E X : Type) (els : E -> Prop) (b1 : bexpr E) (path1 : list nat) (su1 : setup E X) (c1 : mi -> option (list R))
    (b2 : bexpr E) (path2 : list nat) (su2 : setup E X) (c2 : mi -> option (list R)) (x : mi -> R)
    (t : cty) (asks : list nat -> bool) (interpolation : functional) (es : list E) (c c' : cont R),
  setup_ok b1 path1 els su1 -> coefs_ok b1 els su1 c1 ->
  setup_ok b2 path2 els su2 -> su_cdim su2 = 1 -> dual b2 path2 els su2 asks interpolation -> numbers b2 els c2 x ->
  same_parts els asks b1 path1 su1 c1 b2 path2 su2 c2 ->
  (forall e, In e es <-> els e) -> has_ty t c -> solid_entries t (sp_tree (meaning b2)) ->
  interpolate_discrete su1 t (fun _ => true) asks interpolation (fun _ => c1) (su_basis su2) es c = Done c' ->
  same_parts els asks b1 path1 su1 c1 b2 path2 su2 (contents t c').
Proof.
  intros E X els b1 path1 su1 c1 b2 path2 su2 c2 x t asks interpolation es c c' OK1 Hc1 OK2 Hdim HD Hx HS Hes Hty Hso HI.
  pose proof (C73_contained_functions_are_reproduced E X els b1 path1 su1 c1 b2 path2 su2 c2 x t (fun _ => true) asks interpolation es c
    OK1 Hc1 OK2 Hdim HD Hx HS (fun e He => proj1 (Hes e) He) Hty Hso) as H. rewrite HI in H. destruct H as [H _].
  assert (EQ : forall e, els e -> forall m, dof_on b2 path2 e m -> contents t c' m = c2 m).
  { intros e He m Hm. unfold contents. rewrite (H e m); auto; [|now apply Hes]. symmetry. apply Hx.
    destruct Hm as (v & p & n & i & k & L & Hi & Hk). destruct (view_of_leaf b2 path2 els su2 OK2 e v p n He L) as [V1 V2].
    eapply (vinv_global b2 path2 els su2 OK2); eauto. }
  intros e p y He U. destruct (HS e p y He U) as [S1 S2]. split.
  - intros y1 y2 Y1 Y2. apply S1; auto. eapply is_value_ext; [|exact Y2]. intros m Hm. now apply (EQ e).
  - intros Ha y1 y2 Y1 Y2. apply S2; auto. eapply is_derivative_ext; [|exact Y2]. intros m Hm. now apply (EQ e).
Qed.
Print Assumptions C73_local_interpolation_decides.
Print Assumptions C73_contained_functions_are_reproduced.
Print Assumptions C73_interpolant_is_the_function.
