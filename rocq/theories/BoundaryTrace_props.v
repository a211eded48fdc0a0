(** C93: the DOFs that forEachBoundaryDOF visits decide about the boundary values of discrete
    functions. *)
From Coq Require Import List Arith Lia Bool Reals Lra.
From Verif Require Import Lib Basis_model Basis_spec Basis_ok Basis_view Basis_proofs Basis_props Container_model Container_spec FlatVector_model FlatVector_props
  GeometryType_model GeometryType_spec GeometryType_props Mapper_model Mapper_spec Families_model Families_spec Families_props
  Lagrange_model Lagrange_spec DiscreteFunction_model DiscreteFunction_spec DiscreteFunction_proofs DiscreteFunction_props
  Interpolate_model Interpolate_props InterpLinear_props Projection_spec
  SubEntityDOFs_model SubEntityDOFs_spec SubEntityDOFs_props
  Orientation_model Orientation_spec Orientation_props Piola_model Piola_spec Piola_props
  Conforming_spec Conforming_proofs Conforming_props SimplexFunctions_spec SimplexFunctions_proofs SimplexFunctions_props HDiv_spec HDiv_props HCurl_spec HCurl_props
  LagrangeNodes_spec BoundaryTrace_spec BoundaryTrace_proofs.
Import ListNotations.
#[local] Arguments Nat.ltb : simpl never.
#[local] Arguments Nat.pow : simpl never.

Section General.
Context {E P : Type}.
Variables (b : bexpr E) (path prefix : list nat) (els : E -> Prop) (su : setup E P) (co : coeffs E) (bg : bgrid E) (ms : list mi).
Hypotheses (OKS : setup_ok b path els su) (BO : boundary_ok b co els bg prefix)
  (HM : for_each_boundary_dof1 co (build b) prefix bg = Some ms).

(** Any basis: if the coefficients agree for the boundary DOFs (of the subspace basis at
    [prefix]) then a component (below [prefix]) has the same traces on the boundary, provided
    that shape functions have a trace on those facets only they belong to. *)
Theorem C93_boundary_dofs_decide_traces c1 c2 f1 f2 p q (at_facet : E -> nat -> P -> (nat -> R) -> Prop) :
  path ++ p = prefix ++ q -> (forall e s x w, boundary_facet bg e s -> at_facet e s x w -> no_trace path su co e s p x w) ->
  function_of b path su els c1 f1 -> function_of b path su els c2 f2 -> agree_on ms c1 c2 ->
  same_on_boundary b path su bg at_facet p f1 f2.
Proof.
  intros Hq NT F1 F2 HA e s x w v n HB Hx Lf. assert (He : els e) by (apply (bo_elements _ _ _ _ _ BO), HB).
  apply (boundary_trace b path els su co OKS prefix q bg ms c1 c2 e s v p n x w); auto.
Qed.

(** Nodal bases: the traces decide about the coefficients of the boundary DOFs, so those are
    exactly the DOFs that boundary values belong to. *)
Theorem C93_traces_decide_boundary_dofs c1 c2 f1 f2 (at_facet : E -> nat -> P -> (nat -> R) -> Prop) (node : list nat -> E -> nat -> P) :
  prefix = path -> coefs_ok b els su c1 -> coefs_ok b els su c2 ->
  (forall e v p n, els e -> leaf_of b path e v p n -> su_vdim su p = 1 /\
     forall i j, i < node_size n -> j < node_size n -> shape_of su e p (node p e j) i 0 = if i =? j then 1%R else 0%R) ->
  (forall e s p i j c, boundary_facet bg e s -> nth_error (co_keys co (path ++ p) e) i = Some (j, c) -> co_sub co e s 1 c j = true ->
     at_facet e s (node p e i) (fun _ => 1%R)) ->
  function_of b path su els c1 f1 -> function_of b path su els c2 f2 ->
  (forall p, same_on_boundary b path su bg at_facet p f1 f2) -> agree_on ms c1 c2.
Proof.
  intros -> C1 C2 HK HN F1 F2 HS m Hm. pose proof (so_wf _ _ _ _ OKS) as Hwf.
  destruct (C34_boundary_indices b els co bg path Hwf (bo_elements _ _ _ _ _ BO) (bo_hasbnd _ _ _ _ _ BO) (bo_keys _ _ _ _ _ BO) (bo_prefix _ _ _ _ _ BO))
    as (ms' & M & MI). rewrite HM in M. injection M as <-.
  apply MI in Hm as (e & [bd s] & v & k & Fe & Fs & Hb & Hv & (p & n & i & j & c & D & L & LI & Hkey & CS) & Hm). cbn [fst snd] in *. subst bd.
  assert (He : els e) by (now apply (bo_elements _ _ _ _ _ BO)). assert (Lf : leaf_of b path e v p n) by (split; auto).
  destruct (HK e v p n He Lf) as [Hd Kr]. assert (Hi : i < node_size n) by (apply local_index_Some in LI; lia).
  assert (G : global_index els b m).
  { destruct (vinv_bind b path els su OKS (lv_new (build b)) e (vinv_new b els) He) as (v' & Hv' & HV & Hve). rewrite Hv in Hv'. injection Hv' as <-.
    apply (vinv_global b path els su OKS v e k m HV Hve Hm). }
  destruct (C1 m G) as (l1 & E1 & L1). destruct (C2 m G) as (l2 & E2 & L2). rewrite E1, E2. f_equal.
  assert (CO : forall c0 l0, c0 m = Some l0 -> forall j0, coef_of c0 v n i j0 = nth j0 l0 0%R).
  { intros c0 l0 E0 j0. unfold coef_of. now rewrite LI, Hm, E0. }
  apply (nth_ext _ _ 0%R 0%R); [congruence|]. intros j0 Hj0. rewrite L1 in Hj0.
  rewrite <- (CO c1 l1 E1), <- (CO c2 l2 E2).
  destruct (HS p e s (node p e i) (fun _ => 1%R) v n (conj Fe Fs)) as (z1 & z2 & Z1 & Z2 & EQ); auto.
  { apply (HN e s p i j c); auto. split; auto. }
  specialize (EQ j0 Hj0).
  assert (VAL : forall c0 f0 z0, function_of b path su els c0 f0 -> node_to_range p (f0 e (node p e i)) = Some z0 ->
    rsum (su_vdim su p) (fun k0 => (nth (j0 * su_vdim su p + k0) (scalars z0) 0 * 1)%R) = coef_of c0 v n i j0).
  { intros c0 f0 z0 F0 Z0. destruct (entry_trace b path els su e v p n (node p e i) c0 _ j0 (fun _ => 1%R) He Lf (F0 e _ He) Hj0) as (z & Z & EZ). rewrite Z0 in Z. injection Z as <-. rewrite EZ.
    rewrite Hd. rewrite (rsum_ext (node_size n) _ (fun a => if i =? a then coef_of c0 v n a j0 else 0%R)); [now apply (rsum_single (node_size n) (fun a => coef_of c0 v n a j0) i)|].
    intros a Ha. rewrite rsum_S. change (rsum 0 _) with 0%R. rewrite (Kr a i) by lia. rewrite (Nat.eqb_sym i a). destruct (a =? i); ring. }
  rewrite <- (VAL c1 f1 z1 F1 Z1), <- (VAL c2 f2 z2 F2 Z2). exact EQ.
Qed.
End General.

(** Continuous Lagrange bases of any order, on any conforming grid; the values themselves. *)
Definition point_of_facet {E X P} (g : grid E X) (ref : E -> refelem) (bary : E -> P -> nat -> R) (e : E) (s : nat) (x : P) (w : nat -> R) : Prop :=
  on_face g ref bary e x s 1 /\ (exists t, subtype g e s 1 t) /\ w = fun _ => 1%R.

Section Scalar.
Context {E X P : Type}.
Variables (els : E -> Prop) (b : bexpr E) (path prefix p q : list nat) (su : setup E P) (co : coeffs E) (bg : bgrid E) (ms : list mi)
  (g : grid E X) (ref : E -> refelem) (vid : E -> nat -> nat) (bary : E -> P -> nat -> R) (keys : E -> list localkey).
Hypotheses (OKS : setup_ok b path els su) (BO : boundary_ok b co els bg prefix)
  (HM : for_each_boundary_dof1 co (build b) prefix bg = Some ms) (Hq : path ++ p = prefix ++ q)
  (SO : subs_ok co els g ref) (KO : keys_of path co els p keys).

Lemma scalar_boundary lay shape c1 c2 f1 f2 : Mapper_spec.keys_ok els g lay keys -> vanish els g ref bary keys shape -> scalar_leaf els su p shape ->
  function_of b path su els c1 f1 -> function_of b path su els c2 f2 -> agree_on ms c1 c2 ->
  same_on_boundary b path su bg (point_of_facet g ref bary) p f1 f2.
Proof.
  intros HK HV HS F1 F2 HA. apply (C93_boundary_dofs_decide_traces b path prefix els su co bg ms OKS BO HM c1 c2 f1 f2 p q); auto.
  intros e s x w HB (Ox & (t & Ht) & _).
  apply (scalar_no_trace path els su co g ref bary keys shape lay e s t p x w); auto. apply (bo_elements _ _ _ _ _ BO), HB.
Qed.

Theorem C93_lagrange k shape c1 c2 f1 f2 :
  Mapper_spec.keys_ok els g (fun t => lagrange_layout k t (g_dim g)) keys -> shapes_ok els g ref k keys bary shape -> scalar_leaf els su p shape ->
  function_of b path su els c1 f1 -> function_of b path su els c2 f2 -> agree_on ms c1 c2 ->
  same_on_boundary b path su bg (point_of_facet g ref bary) p f1 f2.
Proof.
  intros HK HS. apply (scalar_boundary (fun t => lagrange_layout k t (g_dim g)) shape); auto.
  intros e x s t a s1 c1' i1 t1 He Ht Ox Ka _ NP. apply (sh_zero _ _ _ _ _ _ _ HS e x s 1 t a s1 c1' i1); auto.
Qed.

(** Hierarchical Lagrange bases, with and without bubble, and the refined Lagrange basis. *)
Theorem C93_hierarchical lay norm c1 c2 f1 f2 :
  (forall e, els e -> In (g_dim g, ref e) simplices) -> ids_ok els g ref vid ->
  Mapper_spec.keys_ok els g lay keys -> scalar_leaf els su p (hierarchical_shapes g ref keys bary norm) ->
  function_of b path su els c1 f1 -> function_of b path su els c2 f2 -> agree_on ms c1 c2 ->
  same_on_boundary b path su bg (point_of_facet g ref bary) p f1 f2.
Proof.
  intros HR HI HK. apply (scalar_boundary lay (hierarchical_shapes g ref keys bary norm)); auto.
  intros e x s t a s1 c1' i1 t1 He Ht Ox Ka Ht1 NP. unfold hierarchical_shapes. rewrite (nth_of_key _ _ _ _ Ka).
  destruct (simplex_outside els g ref vid HR HI e s 1 t s1 c1' t1 He Nat.lt_0_1 Ht Ht1 NP) as (v & Iv & Nv).
  rewrite product_zero; [ring|]. rewrite <- (Ox v Nv). now apply in_map.
Qed.
Theorem C93_refined lay shape c1 c2 f1 f2 :
  (forall e, els e -> In (g_dim g, ref e) simplices) -> ids_ok els g ref vid ->
  Mapper_spec.keys_ok els g lay keys -> refined_on_faces g ref keys bary els shape -> scalar_leaf els su p shape ->
  function_of b path su els c1 f1 -> function_of b path su els c2 f2 -> agree_on ms c1 c2 ->
  same_on_boundary b path su bg (point_of_facet g ref bary) p f1 f2.
Proof.
  intros HR HI HK (_ & Sf). apply (scalar_boundary lay shape); auto.
  intros e x s t a s1 c1' i1 t1 He Ht Ox Ka Ht1 NP. rewrite (Sf e x s 1 t He Nat.lt_0_1 Ht Ox). unfold refined_shapes. rewrite (nth_of_key _ _ _ _ Ka).
  apply hat_zero. destruct (simplex_outside els g ref vid HR HI e s 1 t s1 c1' t1 He Nat.lt_0_1 Ht Ht1 NP) as (v & Iv & Nv).
  rewrite <- (Ox v Nv). now apply in_map.
Qed.
(** Rannacher-Turek and Crouzeix-Raviart bases: the values in the centers of the facets. *)
Theorem C93_rannacher_turek lay center shape c1 c2 f1 f2 :
  Mapper_spec.keys_ok els g lay keys -> (forall e s c i, els e -> In (s, c, i) (keys e) -> c = 1) ->
  facet_shapes g keys els center shape -> scalar_leaf els su p shape ->
  (forall e s, els e -> co_sub co e s 1 1 s = true) ->
  function_of b path su els c1 f1 -> function_of b path su els c2 f2 -> agree_on ms c1 c2 ->
  same_on_boundary b path su bg (fun e s x w => x = center e s /\ s < length (subtypes (g_type g e) 1)) p f1 f2.
Proof.
  intros HK H1 (Sz & Sv) [Hd Hs] CS F1 F2 HA. apply (C93_boundary_dofs_decide_traces b path prefix els su co bg ms OKS BO HM c1 c2 f1 f2 p q); auto.
  intros e s x w HB [-> Ls] i j c Hk Hc. assert (He : els e) by (apply (bo_elements _ _ _ _ _ BO), HB).
  rewrite (KO e He), nth_error_map_eq in Hk. unfold localkey in *.
  destruct (nth_error (keys e) i) as [[[s1 c1'] i1]|] eqn:Ka; [|discriminate]. injection Hk as <- <-.
  pose proof (H1 e s1 c1' i1 He (nth_error_In _ _ Ka)) as ->. rewrite Hd.
  assert (D : s1 <> s) by (intros ->; rewrite CS in Hc; [discriminate|auto]).
  pose proof (Sv e i s1 1 i1 s He Ka Ls) as Z. destruct (Nat.eqb_spec s1 s); [contradiction|].
  rewrite rsum_S. change (rsum 0 _) with 0%R. unfold shape_of. rewrite (Hs e _ He).
  assert (Li : i < length (shape e (center e s))) by (rewrite Sz by auto; apply nth_error_Some; congruence).
  rewrite (nth_indep _ [] [0%R]) by (rewrite map_length; lia). rewrite (map_nth (fun r => [r]) (shape e (center e s)) 0%R i), Z. cbn. ring.
Qed.
End Scalar.

(** * Normal and tangential components *)
Section Vector.
Context {E X : Type}.
Variables (b : bexpr E) (path prefix p q : list nat) (su : setup E pt) (co : coeffs E) (bg : bgrid E) (ms : list mi)
  (g : grid E X) (fg : fgrid E) (keys : E -> list localkey) (basis : fe -> lbasis) (G : E -> geo).
Local Notation els := (fun e => In e (fg_elements fg)).
Hypotheses (OKS : setup_ok b path els su) (BO : boundary_ok b co els bg prefix)
  (HM : for_each_boundary_dof1 co (build b) prefix bg = Some ms) (Hq : path ++ p = prefix ++ q)
  (KO : keys_of path co els p keys).

(** Normal components of Raviart-Thomas and Brezzi-Douglas-Marini functions.  [find]: the
    variant of the finite element that is used for an element. *)
Lemma normal_no_trace {Q} d nu at_facet flip psi (find : E -> option fe) e s t x N : fluxes_ok (Q := Q) g fg d keys basis nu at_facet flip psi ->
  (forall e s, els e -> co_sub co e s 1 1 s = true) -> su_vdim su p = d ->
  (forall e, In e (fg_elements fg) -> exists n, find e = Some (FE (fg_type fg e) n) /\ n < 2 ^ facets (fg_dim fg) (fg_type fg e)) ->
  (forall e x f, els e -> find e = Some f -> su_shape su e p x = gv_eval (contravariant d (G e)) (basis f) x) ->
  els e -> subtype g e s 1 t -> (exists r, at_facet e s x r) -> geo_ok d (G e) x -> image_area_vector d (G e) x (nu e s) N ->
  no_trace path su co e s p x (at_ N).
Proof.
  intros HF CS Hd HV Hsh He Ht (r & Hr) Hg HN i j c Hk Hc. destruct (HV e He) as (n & Hf & Bn). rewrite Hd.
  rewrite (KO e He), nth_error_map_eq in Hk. unfold localkey in *. destruct (nth_error (keys e) i) as [[[s1 c1] i1]|] eqn:Ka; [|discriminate]. injection Hk as <- <-.
  pose proof (fx_flux _ _ _ _ _ _ _ _ _ HF e n s t x r i s1 c1 i1 He Bn Ht Hr Ka) as Z.
  assert (La : i < length (keys e)) by (apply nth_error_Some; unfold localkey; congruence).
  rewrite <- (normal_flux g fg d keys basis nu at_facet flip psi G HF e n s x N i He Bn La Hg HN) in Z. unfold normal, dot in Z.
  rewrite (rsum_ext d _ (fun k => (at_ (nth i (gv_eval (contravariant d (G e)) (basis (FE (fg_type fg e) n)) x) []) k * at_ N k)%R)).
  2: { intros k _. unfold shape_of. now rewrite (Hsh e x _ He Hf). }
  rewrite Z. destruct (Nat.eqb_spec s1 s) as [->|]; auto. destruct (Nat.eqb_spec c1 1) as [->|]; auto. rewrite CS in Hc by auto. discriminate.
Qed.
Definition normal_at {Q} d (nu : E -> nat -> list R) (at_facet : E -> nat -> pt -> Q -> Prop) (e : E) (s : nat) (x : pt) (w : nat -> R) : Prop :=
  exists t r N, subtype g e s 1 t /\ at_facet e s x r /\ geo_ok d (G e) x /\ image_area_vector d (G e) x (nu e s) N /\ w = at_ N.

Theorem C93_raviart_thomas {Q} nu at_facet flip psi fixed old m c1 c2 f1 f2 :
  let d := g_dim g in fgrid_ok fg -> fluxes_ok (Q := Q) g fg d keys basis nu at_facet flip psi ->
  types_match fg fixed -> rt_update fg fixed old = Some m ->
  (forall e s, els e -> co_sub co e s 1 1 s = true) -> su_vdim su p = d ->
  (forall e x f, els e -> fm_find fg m e = Some f -> su_shape su e p x = gv_eval (contravariant d (G e)) (basis f) x) ->
  function_of b path su els c1 f1 -> function_of b path su els c2 f2 -> agree_on ms c1 c2 ->
  same_on_boundary b path su bg (normal_at d nu at_facet) p f1 f2.
Proof.
  intros d HGf HF HTM HU CS Hd Hsh F1 F2 HA. apply (C93_boundary_dofs_decide_traces b path prefix els su co bg ms OKS BO HM c1 c2 f1 f2 p q); auto.
  intros e s x w HB (t & r & N & Ht & Hr & Hg & HN & ->). destruct (C46_raviart_thomas fg HGf fixed old HTM) as (m' & U' & V). rewrite HU in U'. injection U' as <-.
  apply (normal_no_trace d nu at_facet flip psi (fm_find fg m) e s t x N); eauto.
  - intros e0 He0. destruct (V e0 He0) as (n & A & B & _). eauto.
  - apply (bo_elements _ _ _ _ _ BO), HB.
Qed.
Theorem C93_brezzi_douglas_marini {Q} nu at_facet flip psi old m c1 c2 f1 f2 :
  fg_dim fg = 2 -> (forall e, fg_contains fg e = true) -> fgrid_ok fg -> fluxes_ok (Q := Q) g fg 2 keys basis nu at_facet flip psi ->
  bdm_update fg old = Some m ->
  (forall e s, els e -> co_sub co e s 1 1 s = true) -> su_vdim su p = 2 ->
  (forall e x f, els e -> bdm_find fg m e = Some f -> su_shape su e p x = gv_eval (contravariant 2 (G e)) (basis f) x) ->
  function_of b path su els c1 f1 -> function_of b path su els c2 f2 -> agree_on ms c1 c2 ->
  same_on_boundary b path su bg (normal_at 2 nu at_facet) p f1 f2.
Proof.
  intros HD HC HGf HF HU CS Hd Hsh F1 F2 HA. apply (C93_boundary_dofs_decide_traces b path prefix els su co bg ms OKS BO HM c1 c2 f1 f2 p q); auto.
  intros e s x w HB (t & r & N & Ht & Hr & Hg & HN & ->). destruct (C46_brezzi_douglas_marini fg HGf old HD HC) as (m' & U' & V). rewrite HU in U'. injection U' as <-.
  apply (normal_no_trace 2 nu at_facet flip psi (bdm_find fg m) e s t x N); eauto.
  - intros e0 He0. destruct (V e0 He0) as (n & A & B & _). eauto.
  - apply (bo_elements _ _ _ _ _ BO), HB.
Qed.

(** Tangential components of Nedelec functions. *)
Definition tangent_at ref bary dbary (e : E) (s : nat) (x : pt) (w : nat -> R) : Prop :=
  exists t tau, subtype g e s 1 t /\ on_face g ref bary e x s 1 /\ tangential g ref dbary e x s 1 tau /\
    geo_ok (g_dim g) (G e) x /\ w = at_ (push (g_dim g) (G e) x tau).
Theorem C93_nedelec ref bary dbary fixed old m c1 c2 f1 f2 :
  let d := g_dim g in 2 <= d -> grid_ok els g -> fgrid_ok fg -> Mapper_spec.keys_ok els g edge_functions keys ->
  edge_functions_ok g fg ref keys basis bary dbary ->
  types_match fg fixed -> nd_types fg -> edges_ok fg -> nd_update fg fixed old = Some m ->
  subs_ok co els g ref -> su_vdim su p = d ->
  (forall e x f, els e -> fm_find fg m e = Some f -> su_shape su e p x = gv_eval (covariant d (G e)) (basis f) x) ->
  function_of b path su els c1 f1 -> function_of b path su els c2 f2 -> agree_on ms c1 c2 ->
  same_on_boundary b path su bg (tangent_at ref bary dbary) p f1 f2.
Proof.
  intros d D2 HG HGf HK HB' HTM HTy HEo HU SO Hd Hsh F1 F2 HA.
  apply (C93_boundary_dofs_decide_traces b path prefix els su co bg ms OKS BO HM c1 c2 f1 f2 p q); auto.
  intros e s x w HB (t & tau & Ht & Ox & HT & Hg & ->) i j c Hk Hc.
  assert (He : In e (fg_elements fg)) by (apply (bo_elements _ _ _ _ _ BO e), HB).
  destruct (C47_nedelec fg HGf fixed old HTM HTy HEo) as (m' & U' & V). rewrite HU in U'. injection U' as <-.
  destruct (V e He) as (n & Hf & Bn & _). rewrite Hd.
  rewrite (KO e He), nth_error_map_eq in Hk. unfold localkey in *. destruct (nth_error (keys e) i) as [[[s1 c1'] i1]|] eqn:Ka; [|discriminate]. injection Hk as <- <-.
  destruct (edge_key g fg keys HG HK e s1 c1' i1 He (nth_error_In _ _ Ka)) as (-> & -> & _ & t1 & Ht1 & _).
  assert (NP : ~ part_of g ref e s1 (d - 1) s 1).
  { intros PO. apply (SO e s t s1 (d - 1) t1 He Ht Ht1) in PO. fold d in Hc. congruence. }
  pose proof (en_zero _ _ _ _ _ _ _ HB' e n x s 1 t tau i s1 0 He Bn ltac:(fold d; lia) Ht Ox HT Ka NP) as Z.
  assert (La : i < length (keys e)) by (apply nth_error_Some; congruence).
  rewrite <- (component_local g fg ref keys basis bary dbary G HB' e n x tau i He Bn La Hg (proj1 HT)) in Z. unfold component, dot in Z. rewrite <- Z.
  apply rsum_ext. intros k _. unfold shape_of. now rewrite (Hsh e x _ He Hf).
Qed.
End Vector.

(** * Interpolation of boundary values *)
(** An initial vector from the first function, boundary values from the second one: interpolate
    the first one, then the second one with the boundary DOFs as mask.  The result has on the
    boundary the same values as the interpolant of the second function, and away from it the
    coefficients of the interpolant of the first one. *)
Theorem C93_boundary_values {E P : Type} (b : bexpr E) (path : list nat) (els : E -> Prop) (su : setup E P) (co : coeffs E) (bg : bgrid E) (ms : list mi)
    (t : cty) (mask : mi -> bool) (interp1 interp2 : E -> list nat -> list R) c d1 d2 d :
  setup_ok b path els su -> boundary_ok b co els bg path -> for_each_boundary_dof1 co (build b) path bg = Some ms ->
  (forall m, mask m = true <-> In m ms) ->
  let es := bg_elements bg in let s := subspace_of_root (build b) path in
  call_ok b els path t interp1 c es -> call_ok b els path t interp2 c es ->
  interpolate t (fun _ => true) interp1 0%R s es c = Done d1 -> interpolate t mask interp2 0%R s es d1 = Done d ->
  interpolate t (fun _ => true) interp2 0%R s es c = Done d2 ->
  (forall f f2 p (at_facet : E -> nat -> P -> (nat -> R) -> Prop), (forall e s x w, boundary_facet bg e s -> at_facet e s x w -> no_trace path su co e s p x w) ->
     function_of b path su els (contents t d) f -> function_of b path su els (contents t d2) f2 ->
     same_on_boundary b path su bg at_facet p f f2) /\
  (forall m e p j, In e es -> dof_at b path e p j m -> ~ In m ms -> contents t d m = contents t d1 m).
Proof.
  intros OKS BO HM HMk es s A1 A2 R1 R R2.
  assert (RR : rbind (interpolate t all interp1 0%R s es c) (fun c' => interpolate t mask interp2 0%R s es c') = Done d) by (unfold all; rewrite R1; exact R).
  pose proof (C91_boundary_values b els t 0%R path mask interp1 interp2 es c A1 A2) as (_ & _ & Q). specialize (Q d d1 d2).
  split.
  - intros f f2 p at_facet NT F F2. apply (C93_boundary_dofs_decide_traces b path path els su co bg ms OKS BO HM (contents t d) (contents t d2) f f2 p p); auto.
    intros m Hm. unfold contents. rewrite (Q m RR R1 R2); [now rewrite (proj2 (HMk m) Hm)|].
    destruct (C34_boundary_indices b els co bg path (so_wf _ _ _ _ OKS) (bo_elements _ _ _ _ _ BO) (bo_hasbnd _ _ _ _ _ BO) (bo_keys _ _ _ _ _ BO) (bo_prefix _ _ _ _ _ BO))
      as (ms' & M & MI). rewrite HM in M. injection M as <-.
    apply MI in Hm as (e & x & v & k & Fe & _ & _ & Hv & (p0 & n & i & j & c0 & D & L & LI & _) & Hm). exists e, p0, i. split; auto. exists v, n, k. auto.
  - intros m e p j He Hd Nm. unfold contents. rewrite (Q m RR R1 R2); [|eauto]. destruct (mask m) eqn:Em; auto. apply HMk in Em. contradiction.
Qed.
Print Assumptions C93_boundary_dofs_decide_traces.
Print Assumptions C93_traces_decide_boundary_dofs.
Print Assumptions C93_lagrange.
Print Assumptions C93_hierarchical.
Print Assumptions C93_refined.
Print Assumptions C93_rannacher_turek.
Print Assumptions C93_raviart_thomas.
Print Assumptions C93_brezzi_douglas_marini.
Print Assumptions C93_nedelec.
Print Assumptions C93_boundary_values.
