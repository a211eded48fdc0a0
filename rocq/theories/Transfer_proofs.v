(** interpolate() of a discrete function into an arbitrary basis does what interpolate() of
    the local coefficients does (C73, C74). *)
From Coq Require Import List Arith Bool Reals Lia Lra.
From Verif Require Import Lib Basis_model Basis_spec Basis_proofs Basis_ok Basis_view Basis_props
  Container_model Container_spec Container_proofs Container_desc Container_props FlatVector_model FlatVector_props
  Interpolate_model Interpolate_props DiscreteFunction_model DiscreteFunction_spec DiscreteFunction_proofs DiscreteFunction_props
  Projection_model Transfer_spec.
Import ListNotations.
#[local] Arguments Nat.ltb : simpl never.
#[local] Arguments Nat.eqb : simpl never.

Section Simulation.
Context {E X : Type}.
(** the source *)
Variables (b : bexpr E) (path : list nat) (els : E -> Prop) (su : setup E X) (c1 : mi -> option (list R)).
Hypothesis OKS : setup_ok b path els su.
Hypothesis Hc1 : coefs_ok b els su c1.
(** the destination *)
Variables (t : cty) (mask : mi -> bool) (asks : list nat -> bool) (interpolation : @functional E X).
Variables (interp : E -> list nat -> list R) (s : subspace E).
Variable usable : E -> list nat -> Prop.
Hypothesis HI : forall e p f d, els e -> usable e p -> part b path su c1 e p f ->
  (if asks p then exists d', d = Some d' /\ derivative_part b path su c1 e p d' else d = None) ->
  interpolation e p f d = Some (interp e p).
(** an invariant of the views of the destination *)
Variable Q : lview E -> Prop.
Hypothesis HQ : forall v e v', Q v -> els e -> sv_bind s v e = Some v' ->
  Q v' /\ forall tree p n, sv_tree s v' = Some tree -> In (p, n) (leaf_nodes tree) -> node_size n <> 0 ->
    usable e p /\ exists mx g fe, n = NLeaf mx g fe (Some e).

Definition tfun_ok (d : bool) (e : E) (f : lfun E) : Prop := obj_inv b path els su (SF d (Some (e, c1))) f.
Definition tstate_ok (e : E) (w : cached_fn E) : Prop :=
  tfun_ok false e (cf_f w) /\ match cf_derivative w with Some d => tfun_ok true e d | None => True end.
Definition tstate_inv (w : cached_fn E) : Prop :=
  vinv b els (lf_view (cf_f w)) /\ lf_deriv (cf_f w) = false /\
  match cf_derivative w with Some d => vinv b els (lf_view d) /\ lf_deriv d = true | None => True end.
Lemma tstate_ok_inv e w : tstate_ok e w -> tstate_inv w.
Proof.
  intros [(H1 & H2 & _) H]. split; auto. split; auto. destruct (cf_derivative w) as [d|]; auto.
  destruct H as (H3 & H4 & _). auto.
Qed.
Lemma tbind d f e : vinv b els (lf_view f) -> lf_deriv f = d -> els e -> exists f', lf_bind su c1 f e = Some f' /\ tfun_ok d e f'.
Proof. intros HV <- He. apply (bind_inv b path els su OKS c1 f e HV He Hc1). Qed.
Lemma tcf_bind w e : tstate_inv w -> els e -> exists w', cf_bind su c1 w e = Some w' /\ tstate_ok e w'.
Proof.
  intros (H1 & H2 & H3) He. unfold cf_bind. destruct (tbind false (cf_f w) e H1 H2 He) as (f & -> & Hf). cbn [obind].
  destruct (cf_derivative w) as [d|].
  - destruct H3 as [H3 H4]. destruct (tbind true d e H3 H4 He) as (d' & -> & Hd). cbn [obind]. eexists. split; [reflexivity|]. split; auto.
  - eexists. split; [reflexivity|]. split; cbn; auto.
Qed.
Lemma tcf_deriv w e : tstate_ok e w -> els e ->
  exists d w', cf_deriv su c1 w = Some (d, w') /\ cf_f w' = cf_f w /\ tfun_ok true e d /\ tstate_ok e w'.
Proof.
  intros [Hf Hd] He. unfold cf_deriv. destruct (cf_derivative w) as [d|] eqn:Ed.
  - exists d, w. split; auto. split; auto. split; auto. split; auto. now rewrite Ed.
  - pose proof Hf as (F1 & F2 & F3 & _). cbn [sf_deriv sf_state] in *. unfold lf_derivative. rewrite F1, F3.
    destruct (tbind true (lf_new su true) e) as (d & -> & Hd1); auto.
    { unfold lf_new, sv_new. cbn. rewrite (so_basis _ _ _ _ OKS). apply vinv_new. }
    cbn [obind]. unfold lf_bound, lv_bound. unfold lf_context in F3. rewrite F3. cbn [obind].
    pose proof Hd1 as (D1 & D2 & _). destruct (tbind true d e D2 D1 He) as (d' & -> & Hd2). cbn [obind].
    exists d', (CLF (cf_f w) (Some d')). split; auto. split; auto. split; auto. split; auto.
Qed.
Lemma tpart e f p : tfun_ok false e f -> part b path su c1 e p (component su f p).
Proof.
  intros (H1 & H2 & H3 & H4 & H5 & H6) x. cbn [sf_deriv sf_state] in *.
  destruct (value_ok b path els su OKS f e c1 x H1 H2 H3 H4 H6) as (y & Hy & HV). exists y. split; auto. unfold component. now rewrite Hy.
Qed.
Lemma tderivative_part e f p : tfun_ok true e f -> derivative_part b path su c1 e p (component su f p).
Proof.
  intros (H1 & H2 & H3 & H4 & H5 & H6) x. cbn [sf_deriv sf_state] in *.
  destruct (deriv_ok b path els su OKS f e c1 x H1 (H5 H1) H2 H3 H4 H6) as (y & Hy & HV). exists y. split; auto. unfold component. now rewrite Hy.
Qed.

Lemma tleaf v e p n c c' w : els e -> tstate_ok e w -> (node_size n <> 0 -> usable e p /\ exists mx g fe, n = NLeaf mx g fe (Some e)) ->
  interpolate_leaf t mask interp v (p, n) c = Some c' ->
  exists w', project_leaf su t mask asks interpolation (fun _ => c1) v (p, n) (c, w) = Some (c', w') /\ tstate_ok e w'.
Proof.
  intros He Hw Hn HL. unfold interpolate_leaf in HL. unfold project_leaf. destruct (Nat.eqb_spec (node_size n) 0) as [Hz|NZ].
  { injection HL as <-. exists w. auto. }
  destruct (Hn NZ) as (HU & mx & g & fe & ->). destruct (asks p) eqn:Ea.
  - destruct (tcf_deriv w e Hw He) as (d & w' & -> & Hf & Hd & Hw'). cbn [obind option_map].
    rewrite (HI e p (component su (cf_f w) p) (Some (component su d p))); auto.
    + cbn [obind]. rewrite HL. cbn [obind]. eauto.
    + apply tpart. apply Hw.
    + rewrite Ea. eexists. split; [reflexivity|]. now apply tderivative_part.
  - cbn [obind option_map]. rewrite (HI e p (component su (cf_f w) p) None); auto.
    + cbn [obind]. rewrite HL. cbn [obind]. eauto.
    + apply tpart. apply Hw.
    + now rewrite Ea.
Qed.
Lemma tleaves v e : els e -> forall l c c' w,
  (forall p n, In (p, n) l -> node_size n <> 0 -> usable e p /\ exists mx g fe, n = NLeaf mx g fe (Some e)) -> tstate_ok e w ->
  interpolate_leaves t mask interp v l c = Some c' ->
  exists w', project_leaves su t mask asks interpolation (fun _ => c1) v l (c, w) = Some (c', w') /\ tstate_ok e w'.
Proof.
  intros He. induction l as [|[p n] l IH]; intros c c' w Hl Hw HL; cbn [interpolate_leaves project_leaves] in *.
  - injection HL as <-. eauto.
  - apply obind_Some in HL as (c2 & H1 & HL). destruct (tleaf v e p n c c2 w) as (w1 & -> & Hw1); auto. { intros. apply (Hl p n); auto. now left. }
    cbn [obind]. apply IH; auto. intros; apply (Hl p0 n0); auto. now right.
Qed.
Lemma telements : forall es v c c' w, Q v -> (forall e, In e es -> els e) -> tstate_inv w ->
  interpolate_elements t mask interp s v es c = Some c' ->
  project_elements su t mask asks interpolation (fun _ => c1) s v es (c, w) = Some c'.
Proof.
  induction es as [|e es IH]; intros v c c' w Hv Hes Hw HL; cbn [interpolate_elements project_elements] in *.
  - now injection HL as <-.
  - assert (He : els e) by (apply Hes; now left). apply obind_Some in HL as (v' & Hb & HL). rewrite Hb. cbn [obind fst snd].
    destruct (HQ v e v' Hv He Hb) as [Hv' HU]. destruct (tcf_bind w e Hw He) as (w1 & -> & Hw1). cbn [obind].
    apply obind_Some in HL as (c2 & H1 & HL). unfold interpolate_local in H1. apply obind_Some in H1 as (tr & Htr & H1). rewrite Htr. cbn [obind].
    rewrite for_each_leaf_eq in *. destruct (tleaves v' e He (leaf_nodes tr) c c2 w1) as (w2 & -> & Hw2); auto.
    { intros p n Hin NZ. now apply (HU tr p n). }
    cbn [obind]. apply IH; auto. { intros; apply Hes; now right. } eapply tstate_ok_inv; eauto.
Qed.
Lemma transfer es c : Q (sv_new s) -> (forall e, In e es -> els e) ->
  interpolate t mask interp 0%R s es c <> Undef ->
  interpolate_discrete su t mask asks interpolation (fun _ => c1) s es c = interpolate t mask interp 0%R s es c.
Proof.
  intros HN Hes HU. unfold interpolate_discrete, interpolate in *. destruct (backend_resize _ _ t c) as [c0| |]; auto.
  destruct (interpolate_elements _ _ _ _ _ es c0) as [c'|] eqn:Ei; [|congruence].
  rewrite (telements es (sv_new s) c0 c' (cf_new su)); auto.
  split; [|split; [reflexivity|exact I]]. unfold cf_new, lf_new, sv_new. cbn. rewrite (so_basis _ _ _ _ OKS). apply vinv_new.
Qed.
End Simulation.

(** The views of a (possibly transformed) basis [b2]. *)
Section Views.
Context {E : Type}.
Variables (b : bexpr E) (els : E -> Prop) (path : list nat) (s : subspace E).
Hypothesis Hwf : wf els b.
Hypothesis Hs : ss_path s = path.
Hypothesis Hlv : forall v e v', lv_bind (ss_root s) v e = Some v' -> lv_tree v' = bind_tree e 0 (lv_tree v).
Definition tviews (v : lview E) : Prop := tskel (lv_tree v) = tskel (lv_tree (lv_new (build b))).
Lemma tviews_ok v e v' : tviews v -> els e -> sv_bind s v e = Some v' ->
  tviews v' /\ forall tree p n, sv_tree s v' = Some tree -> In (p, n) (leaf_nodes tree) -> node_size n <> 0 ->
    used_leaf b path e p /\ exists mx g fe, n = NLeaf mx g fe (Some e).
Proof.
  intros Hv He Hb. unfold sv_bind in Hb. pose proof (Hlv v e v' Hb) as Ht. unfold tviews in *. split; [now rewrite Ht, tskel_bind|].
  intros tree p n Htr Hn NZ. unfold sv_tree in Htr. rewrite Hs in Htr. apply leaf_nodes_descendant in Hn as [Hd Hl].
  assert (Hd' : descendant (lv_tree v') (path ++ p) = Some n) by (rewrite descendant_app', Htr; exact Hd).
  assert (HIn : In (path ++ p, n) (leaf_nodes (lv_tree v'))) by (apply leaf_nodes_descendant; auto).
  rewrite Ht in HIn. destruct (bound_leaf e (lv_tree v) 0 (path ++ p) n HIn NZ) as (mx & g & fe & -> & Hfe). split; [|eauto].
  pose proof (bind_new_ok els _ _ e (build_ok b els Hwf) He) as Hnew.
  set (v1 := LV _ _ _) in Hnew. assert (ST : same_tree (lv_tree v') (lv_tree v1)) by (rewrite Ht; apply same_bind; exact Hv).
  pose proof (ST (path ++ p)) as K. rewrite Hd' in K. destruct (descendant (lv_tree v1) (path ++ p)) as [n1|] eqn:En1; [|contradiction].
  destruct K as (K1 & K2 & _ & _ & K3 & _). exists v1, n1. split; [|congruence]. split; [exact Hnew|]. split; [exact En1|congruence].
Qed.
End Views.
Lemma bind_tree_of {E} (pb : prebasis E) v e v' : lv_bind pb v e = Some v' -> lv_tree v' = bind_tree e 0 (lv_tree v).
Proof. unfold lv_bind. intros H. apply obind_Some in H as ([ix q] & _ & H). now injection H as <-. Qed.
