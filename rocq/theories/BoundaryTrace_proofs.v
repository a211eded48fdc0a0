(** Proofs for C93. *)
From Coq Require Import List Arith Lia Bool Reals Lra.
From Verif Require Import Lib Basis_model Basis_spec Basis_ok Basis_view Basis_proofs Container_model Container_spec FlatVector_model FlatVector_props
  GeometryType_model Mapper_model Mapper_spec
  Lagrange_model DiscreteFunction_model DiscreteFunction_spec DiscreteFunction_proofs DiscreteFunction_props SubEntityDOFs_model SubEntityDOFs_spec SubEntityDOFs_props
  Conforming_spec Conforming_proofs Conforming_props SimplexFunctions_spec BoundaryTrace_spec.
Import ListNotations.

Section Trace.
Context {E P : Type}.
Variables (b : bexpr E) (path : list nat) (els : E -> Prop) (su : setup E P) (co : coeffs E).
Hypothesis OKS : setup_ok b path els su.

Lemma entry_trace e v p n x c y j w : els e -> leaf_of b path e v p n -> is_value b path su e c x y -> j < su_cdim su ->
  exists z, node_to_range p y = Some z /\
    rsum (su_vdim su p) (fun k => (nth (j * su_vdim su p + k) (scalars z) 0 * w k)%R) =
    rsum (node_size n) (fun i => (coef_of c v n i j * rsum (su_vdim su p) (fun k => shape_of su e p x i k * w k))%R).
Proof.
  intros He Lf [_ V] Hj. destruct (V v p n Lf) as (z & Z & Z0 & Z1). exists z. split; auto.
  destruct (Nat.eq_dec (node_size n) 0) as [N0|N0].
  - rewrite N0. transitivity (rsum (su_vdim su p) (fun k => (0 * 0)%R)).
    + apply rsum_ext. intros k _. destruct (nth_in_or_default (j * su_vdim su p + k) (scalars z) 0%R) as [I|I].
      * rewrite (Z0 N0 _ I). ring.
      * rewrite I. ring.
    + rewrite rsum_scal. cbn. ring.
  - destruct (Z1 N0) as [_ Ez].
    rewrite (rsum_ext (su_vdim su p) _ (fun k => rsum (node_size n) (fun i => (coef_of c v n i j * (shape_of su e p x i k * w k))%R))).
    + rewrite rsum_swap. apply rsum_ext. intros i _. now rewrite rsum_scal.
    + intros k Hk. rewrite (nth_error_nth _ _ _ (Ez j k Hj Hk)), Rmult_comm, <- rsum_scal. apply rsum_ext. intros; ring.
Qed.

Lemma facet_trace prefix q e s v p n x w c1 c2 y1 y2 :
  els e -> leaf_of b path e v p n -> path ++ p = prefix ++ q -> keys_ok co e (lv_tree v) -> no_trace path su co e s p x w ->
  (forall k m, dof_on co e (lv_tree v) prefix s 1 k -> lv_index v k = Some m -> c1 m = c2 m) ->
  is_value b path su e c1 x y1 -> is_value b path su e c2 x y2 -> same_trace su p w y1 y2.
Proof.
  intros He Lf Hq KO NT HA V1 V2. destruct (su_cdim su) as [|cd] eqn:Cd.
  - destruct V1 as [_ V1], V2 as [_ V2]. destruct (V1 v p n Lf) as (z1 & Z1 & _). destruct (V2 v p n Lf) as (z2 & Z2 & _).
    exists z1, z2. split; auto. split; auto. rewrite Cd. intros; lia.
  - assert (H0 : 0 < su_cdim su) by lia.
    destruct (entry_trace e v p n x c1 y1 0 w He Lf V1 H0) as (z1 & Z1 & _). destruct (entry_trace e v p n x c2 y2 0 w He Lf V2 H0) as (z2 & Z2 & _).
    exists z1, z2. split; auto. split; auto. intros j Hj.
    destruct (entry_trace e v p n x c1 y1 j w He Lf V1 Hj) as (z1' & Z1' & E1). destruct (entry_trace e v p n x c2 y2 j w He Lf V2 Hj) as (z2' & Z2' & E2).
    rewrite Z1 in Z1'. injection Z1' as <-. rewrite Z2 in Z2'. injection Z2' as <-. rewrite E1, E2. clear E1 E2.
    apply rsum_ext. intros i Hi. destruct Lf as (L1 & L2 & L3).
    assert (LK : length (co_keys co (path ++ p) e) = node_size n) by (apply (KO (path ++ p) n); auto; lia).
    destruct (nth_error_lt_Some (co_keys co (path ++ p) e) i ltac:(lia)) as ([j0 c0] & Hkey).
    destruct (co_sub co e s 1 c0 j0) eqn:CS.
    + f_equal. unfold coef_of. destruct (local_index n i) as [k|] eqn:LI; auto. destruct (lv_index v k) as [m|] eqn:Hm; auto.
      rewrite (HA k m); auto. exists q, n, i, j0, c0. rewrite <- Hq. auto.
    + rewrite (NT i j0 c0 Hkey CS). ring.
Qed.

(** All boundary facets. *)
Lemma boundary_trace prefix q bg ms c1 c2 e s v p n x w y1 y2 :
  boundary_ok b co els bg prefix -> for_each_boundary_dof1 co (build b) prefix bg = Some ms -> agree_on ms c1 c2 ->
  boundary_facet bg e s -> path ++ p = prefix ++ q -> no_trace path su co e s p x w ->
  leaf_of b path e v p n ->
  is_value b path su e c1 x y1 -> is_value b path su e c2 x y2 -> same_trace su p w y1 y2.
Proof.
  intros [B1 B2 B3 B4] HF HA [Fe Fs] Hq NT Lf V1 V2.
  destruct (C34_boundary_indices b els co bg prefix (so_wf _ _ _ _ OKS) B1 B2 B3 B4) as (ms' & M & MI). rewrite HF in M. injection M as <-.
  apply (facet_trace prefix q e s v p n x w c1 c2 y1 y2); auto.
  - apply (B3 e v Fe). apply Lf.
  - intros k m Hk Hm. apply HA, MI. exists e, (true, s), v, k. repeat split; auto. apply Lf.
Qed.

(** Scalar shape functions that vanish on facets they do not belong to. *)
Definition vanish {X} (g : grid E X) (ref : E -> refelem) (bary : E -> P -> nat -> R) (keys : E -> list localkey) (shape : E -> P -> list R) : Prop :=
  forall e x s t a s1 c1 i1 t1, els e -> subtype g e s 1 t -> on_face g ref bary e x s 1 ->
    nth_error (keys e) a = Some (s1, c1, i1) -> subtype g e s1 c1 t1 -> ~ part_of g ref e s1 c1 s 1 -> nth a (shape e x) 0%R = 0%R.
Lemma scalar_no_trace {X} (g : grid E X) ref bary keys shape lay e s t p x w : subs_ok co els g ref -> keys_of path co els p keys ->
  Mapper_spec.keys_ok els g lay keys -> vanish g ref bary keys shape -> scalar_leaf els su p shape ->
  els e -> subtype g e s 1 t -> on_face g ref bary e x s 1 -> no_trace path su co e s p x w.
Proof.
  intros SO KO HK HV [Hd Hs] He Ht Ox i j c Hk Hc. rewrite Hd. rewrite (KO e He), nth_error_map_eq in Hk. unfold localkey in *.
  destruct (nth_error (keys e) i) as [[[s1 c1] i1]|] eqn:Ka; [|discriminate]. injection Hk as <- <-.
  destruct (proj1 (proj2 (HK e He) s1 c1 i1) (nth_error_In _ _ Ka)) as (t1 & Ht1 & _).
  assert (Z : nth i (shape e x) 0%R = 0%R).
  { apply (HV e x s t i s1 c1 i1 t1); auto. intros PO. apply (SO e s t s1 c1 t1 He Ht Ht1) in PO. congruence. }
  rewrite (rsum_ext 1 _ (fun _ => (0 * 0)%R)); [rewrite rsum_scal; ring|]. intros k Hk. assert (k = 0) by lia. subst k.
  unfold shape_of. rewrite (Hs e x He). destruct (Nat.lt_ge_cases i (length (shape e x))) as [Li|Li].
  - rewrite (nth_indep _ [] [0%R]) by (rewrite map_length; lia). rewrite (map_nth (fun r => [r]) (shape e x) 0%R i), Z. cbn. ring.
  - rewrite (nth_overflow (map (fun r => [r]) (shape e x))) by (rewrite map_length; lia). cbn. ring.
Qed.
End Trace.
