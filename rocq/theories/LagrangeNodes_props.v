(** Interpolation into Lagrange bases (C67). *)
From Coq Require Import List Arith Bool Reals Lia Lra.
From Verif Require Import Lib GeometryType_model Mapper_model Mapper_spec Lagrange_model Lagrange_spec Lagrange_proofs Lagrange_tables Lagrange_props
  Basis_model Basis_spec Basis_proofs Basis_ok Basis_view Basis_props Container_model Container_spec Container_props
  Interpolate_model Interpolate_props DiscreteFunction_model DiscreteFunction_spec Conforming_spec Conforming_proofs LagrangeNodes_spec.
Import ListNotations.

(** Degrees of freedom with the same number sit at the same point. *)
Theorem C67_shared_dofs_share_the_node : forall (E X P : Type) (els : E -> Prop) (g : grid E X) (ref : E -> refelem)
    (vid : E -> nat -> nat) (bary : E -> P -> nat -> R) (l : leaf E) (node : E -> nat -> P),
  conforming_grid els g ref vid -> lagrange_space els g ref vid bary l node ->
  forall e a e' a' n, els e -> els e' -> nth_error (lf_indices l e) a = Some n -> nth_error (lf_indices l e') a' = Some n ->
  (e = e' /\ a = a') \/
  exists c s t s' t', 0 < c /\ subtype g e s c t /\ subtype g e' s' c t' /\
    same_location g ref vid bary c e (node e a) s e' (node e' a') s'.
Proof.
  intros E X P els g ref vid bary l node [HD HG HI HF HE HE0] (mp & vi & k & types & keys & HT & HC & HM & HK & HV & HN & Hl)
    e a e' a' n He He' Ha Ha'.
  destruct (C28_lagrange_indices E X els g mp vi ref vid k types keys HD HG HI HT HC HM HK HV) as (LK & LN & LI). rewrite <- Hl in LK, LN, LI.
  assert (Q : forall e0 a0, els e0 -> nth_error (lf_indices l e0) a0 = Some n -> exists key, nth_error (keys e0) a0 = Some key).
  { intros e0 a0 H0 Hn. apply nth_error_lt_Some.
    replace (length (keys e0)) with (lf_fe l e0) by (rewrite Hl; reflexivity). rewrite <- (lok_size _ _ LK e0 H0). apply nth_error_Some. congruence. }
  destruct (Q e a He Ha) as ([[s c] i] & Ka). destruct (Q e' a' He' Ha') as ([[s' c'] i'] & Ka'). clear Q.
  destruct (LI e a s c i e' a' s' c' i' He He' Ka Ka') as (n1 & n2 & H1 & H2 & H3).
  rewrite Ha in H1. injection H1 as <-. rewrite Ha' in H2. injection H2 as <-. pose proof (proj1 H3 eq_refl) as SL. clear H3.
  pose proof (proj1 (proj2 (HK e He) s c i) (nth_error_In _ _ Ka)) as (t & Ht & Hi).
  pose proof (proj1 (proj2 (HK e' He') s' c' i') (nth_error_In _ _ Ka')) as (t' & Ht' & Hi').
  pose proof SL as (Q & _). destruct (go_type _ _ HG _ _ _ _ _ _ _ _ He He' Ht Ht' Q) as [_ <-].
  destruct (Nat.eq_dec c 0) as [->|Hc].
  - left. pose proof (HE0 e s t He Ht). pose proof (HE0 e' s' t' He' Ht'). subst s s'.
    pose proof (HE e e' t t' He He' Ht Ht' Q) as <-. split; auto.
    apply (proj1 (NoDup_nth_error _) (LN e He)); [apply nth_error_Some|]; congruence.
  - right. exists c, s, t, s', t'. split; [lia|]. split; [exact Ht|]. split; [exact Ht'|].
    assert (WX : forall e0 s0 i0, els e0 -> In (s0, c, i0) (keys e0) -> exists W, key_weights g ref k e0 s0 c i0 W).
    { intros e0 s0 i0 H0 I0. apply (weights_exist els g mp vi ref vid k types keys HD HG HI HC HK HV); auto. lia. }
    destruct (WX e s i He (nth_error_In _ _ Ka)) as (W & KW). destruct (WX e' s' i' He' (nth_error_In _ _ Ka')) as (W' & KW').
    assert (OF : forall e0 a0 s0 i0 W0, els e0 -> nth_error (keys e0) a0 = Some (s0, c, i0) -> key_weights g ref k e0 s0 c i0 W0 ->
      on_face g ref bary e0 (node e0 a0) s0 c).
    { intros e0 a0 s0 i0 W0 H0 K0 KW0 v Hv. rewrite (HN e0 a0 s0 c i0 W0 v H0 K0 ltac:(lia) KW0).
      replace (W0 v) with 0; [cbn; unfold Rdiv; ring|]. symmetry. destruct KW0 as [[_ KW0]|[_ (w & _ & KW0)]]; rewrite KW0.
      - destruct (in_dec _ _ _); [contradiction|reflexivity].
      - rewrite weight_notin; auto. }
    split; [exact Q|]. split; [eapply OF; eauto|]. split; [eapply OF; eauto|].
    intros v v' Hv Hv' QV. rewrite (HN e a s c i W v He Ka ltac:(lia) KW), (HN e' a' s' c i' W' v' He' Ka' ltac:(lia) KW').
    rewrite (weights_agree els g mp vi ref vid k types HD HG HI HC HV HF e s c t e' s' t' s c t i s' t' i' W W' v v'); auto; try lia.
    + split; [lia|apply incl_refl].
    + split; [lia|apply incl_refl].
Qed.
Print Assumptions C67_shared_dofs_share_the_node.

(** interpolate() into a (sub)basis made of Lagrange bases. *)
Section Interpolation.
Context {E X P V : Type}.
Variables (els : E -> Prop) (g : grid E X) (ref : E -> refelem) (vid : E -> nat -> nat) (bary : E -> P -> nat -> R).
Variables (b : bexpr E) (path : list nat) (t : cty) (mask : mi -> bool) (interp : E -> list nat -> list V) (zero : V).
(** [node p]: the Lagrange points of the leaf at [p]; [f p]: the entry of the interpolated
    function that belongs to this leaf *)
Variables (node : list nat -> E -> nat -> P) (f : list nat -> E -> P -> V).

(** All leaves are Lagrange bases, whose local interpolation takes the values of the function
    in the Lagrange points. *)
Definition nodal_interpolation : Prop := forall p l, leaf_at b (path ++ p) = Some l ->
  lagrange_space els g ref vid bary l (node p) /\ single_valued els g ref vid bary (f p) /\
  forall e, els e -> interp e p = map (fun a => f p e (node p e a)) (seq 0 (lf_fe l e)).

Lemma nodal_value e m y : nodal_interpolation -> wf els b -> els e -> local_value b path interp e m y ->
  exists v p n l j k i, lv_bind (build b) (lv_new (build b)) e = Some v /\ dof_of b e v k (path ++ p) n /\ lv_index v k = Some m /\
    leaf_at b (path ++ p) = Some l /\ local_index i j = Some k /\ descendant (lv_tree v) (path ++ p) = Some i /\
    nth_error (lf_indices l e) j = Some n /\ y = f p e (node p e j).
Proof.
  intros HN Hwf He (v & p & n & j & k & H1 & H2 & H3 & H4 & H5 & H6).
  pose proof H1 as H1'. rewrite (bind_new_ok els _ _ e (build_ok b els Hwf) He) in H1'. injection H1' as H1'.
  pose proof H2 as D. rewrite <- H1' in D. cbn [lv_tree] in D.
  destruct (key_at b els e _ (path ++ p) n j k Hwf He (new_skel _) D H3 H4) as (l & d & A & B & _).
  exists v, p, d, l, j, k, n. split; auto. split; [exists n, l, j; auto|]. split; auto. split; auto. split; auto. split; auto. split; auto.
  destruct (HN p l A) as (_ & _ & HI). rewrite (HI e He), nth_error_map_eq in H6. unfold option_map in H6.
  destruct (nth_error (seq 0 (lf_fe l e)) j) as [q|] eqn:Q; [|discriminate]. rewrite nth_error_seq in Q. destruct (j <? lf_fe l e); [|discriminate]. cbn in Q. congruence.
Qed.
Lemma nodal_agree es : conforming_grid els g ref vid -> nodal_interpolation -> wf els b -> (forall e, In e es -> els e) ->
  agree b path mask interp es.
Proof.
  intros HG HN Hwf Hes e e' m y y' He He' _ V1 V2.
  apply (nodal_value e m y) in V1 as (v & p & d & l & j & k & n & A1 & A2 & A3 & A4 & _ & _ & A7 & ->); auto.
  apply (nodal_value e' m y') in V2 as (v' & p' & d' & l' & j' & k' & n' & B1 & B2 & B3 & B4 & _ & _ & B7 & ->); auto.
  destruct (proj1 (C07_indices_identify_dofs b els e e' v v' k k' _ d _ d' Hwf (Hes e He) (Hes e' He') A1 B1 A2 B2)) as [Qp <-]; [congruence|].
  apply app_inv_head in Qp as <-. rewrite A4 in B4. injection B4 as <-. destruct (HN p l A4) as (HL & HF & _).
  destruct (C67_shared_dofs_share_the_node E X P els g ref vid bary l (node p) HG HL e j e' j' d) as [[<- <-]|(c & s & t1 & s' & t1' & C1 & C2 & C3 & C4)]; auto.
  eapply HF; eauto.
Qed.

(** Every marked DOF of the given elements gets the value of the function in its Lagrange
    point, the same from all elements. *)
Theorem C67_interpolation_is_nodal : forall c es c', conforming_grid els g ref vid -> nodal_interpolation ->
  call_ok b els path t interp c es ->
  interpolate t mask interp zero (subspace_of_root (build b) path) es c = Done c' ->
  forall e v p n i k m, In e es -> leaf_of b path e v p n -> local_index n i = Some k -> lv_index v k = Some m -> mask m = true ->
  read t c' m = Some (CVal (f p e (node p e i))).
Proof.
  intros c es c' HG HN HC HI e v p n i k m He (L1 & L2 & L3) Hk Hm Hmask.
  pose proof (call_elements _ _ _ _ _ _ _ HC) as Hes. pose proof (call_basis _ _ _ _ _ _ _ HC) as Hwf.
  eapply C25_agreeing_value; eauto using nodal_agree.
  exists v, p, n, i, k. repeat split; auto.
  pose proof L1 as L1'. rewrite (bind_new_ok els _ _ e (build_ok b els Hwf) (Hes e He)) in L1'. injection L1' as L1'.
  pose proof L2 as D. rewrite <- L1' in D. cbn [lv_tree] in D.
  destruct (key_at b els e _ (path ++ p) n i k Hwf (Hes e He) (new_skel _) D L3 Hk) as (l & d & A & B & _).
  destruct (HN p l A) as (HL & _ & HIn). rewrite (HIn e (Hes e He)), nth_error_map_eq.
  assert (Li : i < lf_fe l e).
  { destruct HL as (mp & vi & k0 & types & keys & HT & HCt & HM & HK & HV & _ & Hl).
    destruct (C28_lagrange_indices E X els g mp vi ref vid k0 types keys (cg_dim _ _ _ _ HG) (cg_grid _ _ _ _ HG) (cg_ids _ _ _ _ HG) HT HCt HM HK HV) as (LK & _ & _).
    rewrite <- Hl in LK. rewrite <- (lok_size _ _ LK e (Hes e He)). apply nth_error_Some. congruence. }
  rewrite nth_error_seq, (proj2 (Nat.ltb_lt _ _) Li). reflexivity.
Qed.
(** The order in which the elements are visited does not matter. *)
Theorem C67_order_independent : forall c es es', conforming_grid els g ref vid -> nodal_interpolation ->
  call_ok b els path t interp c es -> (forall e, In e es <-> In e es') ->
  interpolate t mask interp zero (subspace_of_root (build b) path) es c =
  interpolate t mask interp zero (subspace_of_root (build b) path) es' c.
Proof.
  intros c es es' HG HN HC HP. eapply C25_order_independent; eauto.
  apply nodal_agree; auto; [apply (call_basis _ _ _ _ _ _ _ HC)|apply (call_elements _ _ _ _ _ _ _ HC)].
Qed.
End Interpolation.
Print Assumptions C67_interpolation_is_nodal.
Print Assumptions C67_order_independent.
