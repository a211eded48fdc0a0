(** Interpolation of discrete functions into their own space (C66). *)
From Coq Require Import List Arith Bool Reals Lia Lra.
From Verif Require Import Lib Basis_model Basis_spec Basis_proofs Basis_ok Basis_view Basis_props
  Container_model Container_spec Container_proofs Container_desc Container_props FlatVector_model FlatVector_props
  Interpolate_model Interpolate_props DiscreteFunction_model DiscreteFunction_spec DiscreteFunction_proofs DiscreteFunction_props
  Projection_model Projection_spec.
Import ListNotations.
#[local] Arguments Nat.ltb : simpl never.

Section Simulation.
Context {E X : Type}.
Variables (b : bexpr E) (path : list nat) (els : E -> Prop) (su : setup E X).
Variables (t : cty) (mask : mi -> bool) (asks : list nat -> bool) (interpolation : @functional E X).
Variable source : cont R -> mi -> option (list R).
Variable x : mi -> R.
Hypothesis OKS : setup_ok b path els su.
Hypothesis Hdim : su_cdim su = 1.
Hypothesis HD : dual b path els su asks interpolation.

(** coefficient of local DOF [i] of leaf [n] *)
Definition coefx (v : lview E) (n : node E) (i : nat) : R :=
  match local_index n i with Some k => match lv_index v k with Some m => x m | None => 0%R end | None => 0%R end.
(** what the local interpolation is going to deliver *)
Definition interp0 (e : E) (p : list nat) : list R :=
  match lv_bind (build b) (lv_new (build b)) e with
  | Some v => match descendant (lv_tree v) (path ++ p) with Some n => map (coefx v n) (seq 0 (node_size n)) | None => [] end
  | None => []
  end.

Variable Inv : cont R -> Prop.
Hypothesis HInv : forall c, Inv c -> numbers b els (source c) x.
Hypothesis HStep : forall v e p n c c', vinv b els v -> lv_elem v = Some e -> descendant (lv_tree v) (path ++ p) = Some n -> is_leaf n = true -> Inv c ->
  interpolate_leaf t mask interp0 v (p, n) c = Some c' -> Inv c'.

Lemma numbers_ok c : numbers b els c x -> coefs_ok b els su c.
Proof. intros H m Hm. exists [x m]. split; [now apply H|now rewrite Hdim]. Qed.

Definition fun_ok (d : bool) (e : E) (f : lfun E) : Prop :=
  exists c, numbers b els c x /\ obj_inv b path els su (SF d (Some (e, c))) f.
Definition state_ok (e : E) (s : cached_fn E) : Prop :=
  fun_ok false e (cf_f s) /\ match cf_derivative s with Some d => fun_ok true e d | None => True end.
(** before the first bind as well *)
Definition state_inv (s : cached_fn E) : Prop :=
  vinv b els (lf_view (cf_f s)) /\ lf_deriv (cf_f s) = false /\
  match cf_derivative s with Some d => vinv b els (lf_view d) /\ lf_deriv d = true | None => True end.
Lemma state_ok_inv e s : state_ok e s -> state_inv s.
Proof.
  intros [(c & _ & H1 & H2 & _) H]. split; auto. split; auto. destruct (cf_derivative s) as [d|]; auto.
  destruct H as (c' & _ & H3 & H4 & _). auto.
Qed.

Lemma bind_fun d c f e : vinv b els (lf_view f) -> lf_deriv f = d -> els e -> numbers b els c x ->
  exists f', lf_bind su c f e = Some f' /\ fun_ok d e f'.
Proof.
  intros HV <- He Hc. destruct (bind_inv b path els su OKS c f e HV He (numbers_ok c Hc)) as (f' & H1 & H2).
  exists f'. split; auto. exists c. auto.
Qed.
Lemma cf_bind_ok c s e : state_inv s -> els e -> numbers b els c x -> exists s', cf_bind su c s e = Some s' /\ state_ok e s'.
Proof.
  intros (H1 & H2 & H3) He Hc. unfold cf_bind. destruct (bind_fun false c (cf_f s) e H1 H2 He Hc) as (f & -> & Hf). cbn [obind].
  destruct (cf_derivative s) as [d|].
  - destruct H3 as [H3 H4]. destruct (bind_fun true c d e H3 H4 He Hc) as (d' & -> & Hd). cbn [obind]. eexists. split; [reflexivity|]. split; auto.
  - eexists. split; [reflexivity|]. split; cbn; auto.
Qed.
Lemma cf_deriv_ok c s e : state_ok e s -> els e -> numbers b els c x ->
  exists d s', cf_deriv su c s = Some (d, s') /\ cf_f s' = cf_f s /\ fun_ok true e d /\ state_ok e s'.
Proof.
  intros [Hf Hd] He Hc. unfold cf_deriv. destruct (cf_derivative s) as [d|] eqn:Ed.
  - exists d, s. split; auto. split; auto. split; auto. split; auto. now rewrite Ed.
  - pose proof Hf as (c0 & Hc0 & F1 & F2 & F3 & _). cbn [sf_deriv sf_state] in *. unfold lf_derivative. rewrite F1, F3.
    destruct (bind_fun true c (lf_new su true) e) as (d & -> & Hd1); auto.
    { unfold lf_new, sv_new. cbn. rewrite (so_basis _ _ _ _ OKS). apply vinv_new. }
    cbn [obind]. unfold lf_bound, lv_bound. unfold lf_context in F3. rewrite F3. cbn [obind].
    pose proof Hd1 as (c1 & _ & D1 & D2 & _). destruct (bind_fun true c d e D2 D1 He Hc) as (d' & -> & Hd2). cbn [obind].
    exists d', (CLF (cf_f s) (Some d')). split; auto. split; auto. split; auto. split; auto.
Qed.

Lemma coef_of_numbers c v n i e : numbers b els c x -> vinv b els v -> lv_elem v = Some e -> coef_of c v n i 0 = coefx v n i.
Proof.
  intros Hc HV He. unfold coef_of, coefx. destruct (local_index n i) as [k|]; auto. destruct (lv_index v k) as [m|] eqn:Em; auto.
  rewrite (Hc m); auto. eapply (vinv_global b path els su OKS); eauto.
Qed.
Lemma view_of_leaf e v p n : els e -> leaf_of b path e v p n -> vinv b els v /\ lv_elem v = Some e.
Proof.
  intros He (H & _). destruct (vinv_bind b path els su OKS (lv_new (build b)) e (vinv_new b els) He) as (v' & H1 & H2 & H3).
  rewrite H in H1. injection H1 as <-. auto.
Qed.
Lemma component_value e f v p n : els e -> fun_ok false e f -> leaf_of b path e v p n -> node_size n <> 0 ->
  combination su e p (node_size n) (coefx v n) (component su f p).
Proof.
  intros He (c & Hc & H1 & H2 & H3 & H4 & H5 & H6) L NZ y. cbn [sf_deriv sf_state] in *. destruct (view_of_leaf e v p n He L) as [V1 V2].
  destruct (value_ok b path els su OKS f e c y H1 H2 H3 H4 H6) as (z & Hz & _ & HV). destruct (HV v p n L) as (entry & E1 & _ & E3).
  destruct (E3 NZ) as [E4 E5]. exists entry. unfold component. rewrite Hz. cbn [obind]. split; auto. split; [lia|]. intros k Hk.
  specialize (E5 0 k ltac:(lia) Hk). cbn [Nat.mul Nat.add] in E5. rewrite E5. f_equal. apply rsum_ext. intros i Hi. f_equal.
  eapply coef_of_numbers; eauto.
Qed.
Lemma component_derivative e f v p n : els e -> fun_ok true e f -> leaf_of b path e v p n -> node_size n <> 0 ->
  combination_derivative su e p (node_size n) (coefx v n) (component su f p).
Proof.
  intros He (c & Hc & H1 & H2 & H3 & H4 & H5 & H6) L NZ y. cbn [sf_deriv sf_state] in *. destruct (view_of_leaf e v p n He L) as [V1 V2].
  destruct (deriv_ok b path els su OKS f e c y H1 (H5 H1) H2 H3 H4 H6) as (z & Hz & _ & HV). destruct (HV v p n L) as (entry & E1 & _ & E3).
  destruct (E3 NZ) as [E4 E5]. exists entry. unfold component. rewrite Hz. cbn [obind]. split; auto. split; [lia|]. intros r g Hr Hg.
  specialize (E5 0 r g ltac:(lia) Hr Hg). cbn [Nat.mul Nat.add] in E5. rewrite E5. f_equal. apply rsum_ext. intros i Hi. f_equal.
  eapply coef_of_numbers; eauto.
Qed.

Lemma interp0_leaf e v p n : leaf_of b path e v p n -> interp0 e p = map (coefx v n) (seq 0 (node_size n)).
Proof. intros (H1 & H2 & H3). unfold interp0. now rewrite H1, H2. Qed.
Lemma interp0_ok : interp_ok b path els interp0.
Proof. intros e v p n He H1 H2 H3. rewrite (interp0_leaf e v p n) by (split; auto). now rewrite map_length, seq_length. Qed.

Lemma leaf_sim v e p n c c' s : vinv b els v -> lv_elem v = Some e -> els e -> descendant (lv_tree v) (path ++ p) = Some n -> is_leaf n = true ->
  state_ok e s -> Inv c -> interpolate_leaf t mask interp0 v (p, n) c = Some c' ->
  exists s', project_leaf su t mask asks interpolation source v (p, n) (c, s) = Some (c', s') /\ state_ok e s' /\ Inv c'.
Proof.
  intros HV Hv He Hd Hl Hs Hc HI. pose proof (HStep v e p n c c' HV Hv Hd Hl Hc HI) as Hc'.
  unfold interpolate_leaf in HI. unfold project_leaf. destruct (Nat.eqb_spec (node_size n) 0) as [Hz|NZ].
  { injection HI as <-. exists s. auto. }
  assert (HIn : In (path ++ p, n) (leaf_nodes (lv_tree v))) by (apply leaf_nodes_descendant; auto).
  pose proof HV as [_ HV2]. destruct (HV2 e Hv) as (_ & _ & n0 & _ & Ht). rewrite Ht in HIn.
  destruct (bound_leaf e n0 0 (path ++ p) n HIn NZ) as (mx & g & fe & -> & Hfe).
  destruct (vinv_fresh b path els su OKS v e HV Hv) as (v1 & W1 & W2 & W3).
  pose proof (W3 (path ++ p)) as Q. rewrite Hd in Q. destruct (descendant (lv_tree v1) (path ++ p)) as [n1|] eqn:En1; [|contradiction].
  destruct Q as (Q1 & Q2 & _ & _ & Q3 & _).
  assert (L : leaf_of b path e v1 p n1) by (split; [exact W1|split; [exact En1|congruence]]).
  assert (NZ1 : node_size n1 <> 0) by congruence.
  assert (HX : forall s1, cf_f s1 = cf_f s -> forall d, (if asks p then exists d', d = Some d' /\ combination_derivative su e p (node_size n1) (coefx v1 n1) d' else d = None) ->
    interpolation e p (component su (cf_f s1) p) d = Some (interp0 e p)).
  { intros s1 -> d Hd1. rewrite (interp0_leaf e v1 p n1 L). apply (HD e v1); auto. apply component_value; auto. apply Hs. }
  destruct (asks p) eqn:Ea.
  - destruct (cf_deriv_ok (source c) s e Hs He (HInv c Hc)) as (d & s' & -> & Hf & Hd1 & Hs'). cbn [obind option_map].
    rewrite (HX s eq_refl (Some (component su d p))).
    2:{ eexists. split; [reflexivity|]. apply component_derivative; auto. }
    cbn [obind]. rewrite HI. cbn [obind]. exists s'. auto.
  - cbn [obind option_map]. rewrite (HX s eq_refl None eq_refl). cbn [obind]. rewrite HI. cbn [obind]. exists s. auto.
Qed.

Lemma leaves_sim v e tr : vinv b els v -> lv_elem v = Some e -> els e -> descendant (lv_tree v) path = Some tr ->
  forall l c c' s, (forall p n, In (p, n) l -> In (p, n) (leaf_nodes tr)) -> state_ok e s -> Inv c ->
  interpolate_leaves t mask interp0 v l c = Some c' ->
  exists s', project_leaves su t mask asks interpolation source v l (c, s) = Some (c', s') /\ state_ok e s' /\ Inv c'.
Proof.
  intros HV Hv He Htr. induction l as [|[p n] l IH]; intros c c' s Hl Hs Hc HI; cbn [interpolate_leaves project_leaves] in *.
  - injection HI as <-. exists s. auto.
  - apply obind_Some in HI as (c1 & H1 & HI). pose proof (Hl p n (or_introl eq_refl)) as Hn. apply leaf_nodes_descendant in Hn as [Hd Hlf].
    destruct (leaf_sim v e p n c c1 s HV Hv He) as (s1 & -> & Hs1 & Hc1); auto.
    { rewrite descendant_app', Htr. exact Hd. }
    cbn [obind]. apply IH; auto. intros; apply Hl; now right.
Qed.

Lemma elements_sim : forall es v c c' s, vinv b els v -> (forall e, In e es -> els e) -> state_inv s -> Inv c ->
  interpolate_elements t mask interp0 (subspace_of_root (build b) path) v es c = Some c' ->
  project_elements su t mask asks interpolation source (subspace_of_root (build b) path) v es (c, s) = Some c' /\ Inv c'.
Proof.
  induction es as [|e es IH]; intros v c c' s HV Hes Hs Hc HI; cbn [interpolate_elements project_elements] in *.
  - injection HI as <-. auto.
  - assert (He : els e) by (apply Hes; now left). destruct (vinv_bind b path els su OKS v e HV He) as (v' & Hb & HV' & Hv').
    unfold sv_bind in *. cbn [ss_root subspace_of_root] in *. rewrite Hb in *. cbn [obind] in *. cbn [fst snd].
    destruct (cf_bind_ok (source c) s e Hs He (HInv c Hc)) as (s1 & -> & Hs1). cbn [obind].
    apply obind_Some in HI as (c1 & H1 & HI). unfold interpolate_local in H1. apply obind_Some in H1 as (tr & Htr & H1). rewrite Htr. cbn [obind].
    unfold sv_tree in Htr. cbn [ss_path subspace_of_root] in Htr. rewrite for_each_leaf_eq in *.
    destruct (leaves_sim v' e tr HV' Hv' He Htr (leaf_nodes tr) c c1 s1 ltac:(auto) Hs1 Hc H1) as (s2 & -> & Hs2 & Hc1). cbn [obind].
    apply IH; auto; [intros; apply Hes; now right|now apply (state_ok_inv e)].
Qed.

Lemma interpolate_sim es c : (forall e, In e es -> els e) ->
  (forall c0, backend_resize 0%R (pb_size (build b)) t c = Done c0 -> Inv c0) ->
  interpolate t mask interp0 0%R (subspace_of_root (build b) path) es c <> Undef ->
  interpolate_discrete su t mask asks interpolation source (subspace_of_root (build b) path) es c =
  interpolate t mask interp0 0%R (subspace_of_root (build b) path) es c /\
  forall c', interpolate t mask interp0 0%R (subspace_of_root (build b) path) es c = Done c' -> Inv c'.
Proof.
  intros Hes H0 HU. unfold interpolate_discrete, interpolate in *. cbn [ss_root subspace_of_root] in *.
  destruct (backend_resize _ _ t c) as [c0| |]; [|split; [reflexivity|discriminate]..].
  destruct (interpolate_elements _ _ _ _ _ es c0) as [c'|] eqn:Ei; [|congruence].
  destruct (elements_sim es (sv_new (subspace_of_root (build b) path)) c0 c' (cf_new su)) as [-> Hi]; auto; [| |split; [reflexivity|now intros ? [= <-]]].
  - apply vinv_new.
  - split; [|split; [reflexivity|exact I]]. unfold cf_new, lf_new, sv_new. cbn. rewrite (so_basis _ _ _ _ OKS). apply vinv_new.
Qed.

Lemma dof_value e m : els e -> dof_on b path e m -> local_value b path interp0 e m (x m).
Proof.
  intros He (v & p & n & i & k & L & Hi & Hk). pose proof L as (L1 & L2 & L3). exists v, p, n, i, k. repeat split; auto.
  rewrite (interp0_leaf e v p n L), nth_error_map_eq, nth_error_seq. apply local_index_Some in Hi as Hi'.
  destruct (Nat.ltb_spec i (node_size n)); [|lia]. cbn. unfold coefx. now rewrite Hi, Hk.
Qed.
Lemma value_dof e m y : local_value b path interp0 e m y -> y = x m.
Proof.
  intros (v & p & n & j & k & H1 & H2 & H3 & H4 & H5 & H6). rewrite (interp0_leaf e v p n) in H6 by (split; auto).
  rewrite nth_error_map_eq, nth_error_seq in H6. destruct (Nat.ltb_spec j (node_size n)); [|discriminate]. cbn in H6. injection H6 as <-.
  unfold coefx. now rewrite H4, H5.
Qed.
Lemma bound_value v e p n i k m y : vinv b els v -> lv_elem v = Some e -> descendant (lv_tree v) (path ++ p) = Some n -> is_leaf n = true ->
  local_index n i = Some k -> lv_index v k = Some m -> nth_error (interp0 e p) i = Some y -> y = x m.
Proof.
  intros HV Hv Hd Hl Hi Hk Hy. destruct (vinv_fresh b path els su OKS v e HV Hv) as (v1 & W1 & W2 & W3).
  pose proof (W3 (path ++ p)) as Q. rewrite Hd in Q. destruct (descendant (lv_tree v1) (path ++ p)) as [n1|] eqn:En1; [|contradiction].
  destruct Q as (Q1 & Q2 & _ & _ & Q3 & _). apply (value_dof e m y). exists v1, p, n1, i, k. repeat split; auto; [congruence| |unfold lv_index in *; congruence].
  apply local_index_Some. apply local_index_Some in Hi. lia.
Qed.
End Simulation.

(** Interpolating a discrete function into a vector for its own basis gives every degree of
    freedom that is marked the coefficient of the function, and leaves the others as they
    are.  The call is defined, and throws only if the vector cannot be resized. *)
Theorem C66_interpolation_reproduces_coefficients : forall (E X : Type) (b : bexpr E) (path : list nat) (els : E -> Prop) (su : setup E X)
    (t : cty) (mask : mi -> bool) (asks : list nat -> bool) (interpolation : functional) (coefficients : mi -> option (list R)) (x : mi -> R) (es : list E) (c : cont R),
  setup_ok b path els su -> su_cdim su = 1 -> dual b path els su asks interpolation -> numbers b els coefficients x ->
  (forall e, In e es -> els e) -> has_ty t c -> solid_entries t (sp_tree (meaning b)) ->
  match interpolate_discrete su t mask asks interpolation (fun _ => coefficients) (su_basis su) es c with
  | Undef => False
  | Throw => backend_resize 0%R (pb_size (build b)) t c = Throw
  | Done c' =>
      (forall e m, In e es -> dof_on b path e m -> mask m = true -> read t c' m = Some (CVal (x m))) /\
      (forall m, global_index els b m -> mask m = false \/ (forall e, In e es -> ~ dof_on b path e m) ->
         exists c0, backend_resize 0%R (pb_size (build b)) t c = Done c0 /\ read t c' m = read t c0 m)
  end.
Proof.
  intros E X b path els su t mask asks interpolation coefficients x es c OKS Hdim HD Hx Hes Hty Hso. rewrite (so_basis _ _ _ _ OKS).
  assert (HC : call_ok b els path t (interp0 b path x) c es).
  { constructor; auto; [apply OKS|apply OKS|apply (interp0_ok b path els x)]. }
  pose proof (C25_throws_iff_resize_throws b els path t mask (interp0 b path x) 0%R c es HC) as HT.
  destruct (interpolate_sim b path els su t mask asks interpolation (fun _ => coefficients) x OKS Hdim HD (fun _ => True)) with (es := es) (c := c) as [HS _]; auto.
  { intros HU. now rewrite HU in HT. }
  rewrite HS. destruct (interpolate t mask (interp0 b path x) 0%R _ es c) as [c'| |] eqn:EI; auto. split.
  - intros e m He Hm Hk. apply (C25_agreeing_value b els path t mask (interp0 b path x) 0%R c es c' m e (x m)); auto.
    + intros e1 e2 m1 x1 x2 _ _ _ V1 V2. now rewrite (value_dof b path x e1 m1 x1 V1), (value_dof b path x e2 m1 x2 V2).
    + eapply (dof_value b path els); eauto.
  - intros m Gm Hm. destruct (C25_other_dofs_unchanged b els path t mask (interp0 b path x) 0%R c es c' m HC EI Gm) as (c0 & H1 & H2 & _); [|eauto].
    destruct Hm as [Hm|Hm]; [now left|right]. intros e y He (v & p & n & j & k & V1 & V2 & V3 & V4 & V5 & _).
    apply (Hm e He). exists v, p, n, j, k. repeat split; auto.
Qed.
Print Assumptions C66_interpolation_reproduces_coefficients.

Lemma put_same {V} (y : cont V) : forall p c, at_path c p = Some y -> put c p y = Some c.
Proof.
  induction p as [|i p IH]; intros c H; cbn in *; [congruence|]. destruct c as [v|l]; [discriminate|].
  destruct (nth_error l i) as [z|] eqn:Ez; [|discriminate]. rewrite (IH z H). destruct (upd l i z) as [l'|] eqn:El.
  - cbn. do 2 f_equal. apply nth_error_ext. intros k. rewrite (upd_nth_error _ _ _ _ k El). destruct (Nat.eqb_spec k i); congruence.
  - exfalso. apply upd_None in El. apply nth_error_Some_lt in Ez. lia.
Qed.


(** Interpolating a discrete function into the very vector it refers to does nothing but
    resize the vector: although the vector is written while the function is evaluated, and the
    derivative of the function is created in between, all writes are of values already there. *)
Theorem C66_interpolation_in_place : forall (E X : Type) (b : bexpr E) (path : list nat) (els : E -> Prop) (su : setup E X)
    (t : cty) (mask : mi -> bool) (asks : list nat -> bool) (interpolation : functional) (es : list E) (c : cont R),
  setup_ok b path els su -> su_cdim su = 1 -> dual b path els su asks interpolation ->
  (forall e, In e es -> els e) -> has_ty t c -> solid_entries t (sp_tree (meaning b)) ->
  interpolate_discrete su t mask asks interpolation (contents t) (su_basis su) es c = backend_resize 0%R (pb_size (build b)) t c.
Proof.
  intros E X b path els su t mask asks interpolation es c OKS Hdim HD Hes Hty Hso. rewrite (so_basis _ _ _ _ OKS).
  destruct (backend_resize 0%R (pb_size (build b)) t c) as [c0| |] eqn:HR.
  2,3: unfold interpolate_discrete; cbn [ss_root subspace_of_root]; now rewrite HR.
  set (x := fun m => match read t c0 m with Some (CVal r) => r | _ => 0%R end).
  assert (HC : call_ok b els path t (interp0 b path x) c es).
  { constructor; auto; [apply OKS|apply OKS|apply (interp0_ok b path els x)]. }
  pose proof (C25_throws_iff_resize_throws b els path t mask (interp0 b path x) 0%R c es HC) as HT.
  assert (HA : forall m, global_index els b m -> exists a, backend_at t c0 m = Some a /\ at_path c0 a = Some (CVal (x m))).
  { intros m Gm. destruct (addressed b els path t mask (interp0 b path x) 0%R c es c0 m HC HR Gm) as (a & v & Ha & Hv). exists a. split; auto.
    unfold x, read. now rewrite Ha, Hv. }
  destruct (interpolate_sim b path els su t mask asks interpolation (contents t) x OKS Hdim HD (fun c1 => c1 = c0)) with (es := es) (c := c) as [HS HI]; auto.
  - intros c1 -> m Gm. destruct (HA m Gm) as (a & H1 & H2). unfold contents, read. now rewrite H1, H2.
  - intros v e p n c1 c2 HV Hv Hd Hl -> HL. unfold interpolate_leaf in HL. destruct (Nat.eqb_spec (node_size n) 0) as [|NZ]; [congruence|].
    assert (HIn : In (path ++ p, n) (leaf_nodes (lv_tree v))) by (apply leaf_nodes_descendant; auto).
    pose proof HV as [_ HV2]. destruct (HV2 e Hv) as (_ & _ & n0 & _ & Ht). rewrite Ht in HIn.
    destruct (bound_leaf e n0 0 (path ++ p) n HIn NZ) as (mx & g & fe & -> & Hfe). clear HIn Ht Hfe NZ HV2.
    revert HL. generalize 0 at 1. generalize (fe e) at 1.
    intros k0. induction k0 as [|k IH]; intros s; cbn [forl]; [congruence|]. intros HL. apply obind_Some in HL as (c3 & H3 & HL).
    assert (c3 = c0) as ->; [|eauto]. apply obind_Some in H3 as (q & Hq & H3). apply obind_Some in H3 as (m & Hm & H3).
    destruct (mask m); [|congruence]. apply obind_Some in H3 as (y & Hy & H3).
    assert (y = x m) as -> by (eapply bound_value; eauto).
    destruct (HA m) as (a & A1 & A2); [eapply (vinv_global b path els su OKS); eauto|].
    unfold backend_write in H3. rewrite A1 in H3. cbn [obind] in H3. rewrite (put_same _ a c0 A2) in H3. congruence.
  - congruence.
  - intros HU. now rewrite HU in HT.
  - rewrite HS. destruct (interpolate t mask (interp0 b path x) 0%R _ es c) as [c'| |] eqn:EI; [|congruence|contradiction]. f_equal. now apply HI.
Qed.
Print Assumptions C66_interpolation_in_place.
