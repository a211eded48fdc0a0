(** Interpolation into periodic bases (C74). *)
From Coq Require Import List Arith Bool Reals Lia Lra Relations.
From Verif Require Import Lib Basis_model Basis_spec Basis_proofs Basis_ok Basis_view Basis_props
  Container_model Container_spec Container_proofs Container_desc Container_props FlatVector_model FlatVector_props
  Interpolate_model Interpolate_props DiscreteFunction_model DiscreteFunction_spec DiscreteFunction_proofs DiscreteFunction_props
  Projection_model Projection_spec Projection_props Independence_spec Independence_props
  Periodic_model Periodic_spec Periodic_proofs Periodic_props TransformFun_spec TransformFun_props
  Transfer_spec Transfer_proofs Transfer_props TransformInterp_spec TransformInterp_proofs.
Import ListNotations.
#[local] Arguments Nat.ltb : simpl never.
#[local] Arguments Nat.eqb : simpl never.

Lemma shifted_at0 k : shifted_at [k] 0 0 = Some k. Proof. reflexivity. Qed.

Section Flat.
Context {V : Type}.
Notation cont := (cont V).
Variables (zero : V) (t : cty).
Hypothesis FT : flat_vector t.

Definition block : cty := match t with TDyn b => b | _ => TScalar end.
Definition sfx : list nat := match block with TScalar => [] | _ => [0] end.

Lemma flat_len (c : cont) : has_ty t c -> exists l, c = CBlk l /\ Forall (has_ty block) l.
Proof. intros H. unfold block. destruct FT as [-> | ->]; (destruct c as [v|l]; cbn [has_ty] in H; [contradiction|exists l; auto]). Qed.
Lemma flat_entry (l : list cont) k : Forall (has_ty block) l -> k < length l ->
  exists v, backend_at t (CBlk l) [k] = Some (k :: sfx) /\ at_path (CBlk l) (k :: sfx) = Some (CVal v) /\ exists y, at_path (CBlk l) [k] = Some y.
Proof.
  intros HF Hk. destruct (nth_error_lt_Some l k Hk) as [y Hy]. rewrite Forall_forall in HF. pose proof (HF y (nth_error_In _ _ Hy)) as HY.
  unfold backend_at, resolve_final, sfx, block in *. destruct FT as [-> | ->]; cbn in HY |- *.
  - destruct y as [v|?]; [|contradiction]. rewrite Hy, shifted_at0. cbn [obind]. rewrite Hy. exists v. split; [reflexivity|]. split; [reflexivity|]. eauto.
  - destruct y as [v|l']; [contradiction|]. destruct HY as [HL HY]. destruct l' as [|z [|]]; try discriminate. inversion HY as [|? ? HZ _]; subst.
    destruct z as [v|?]; cbn in HZ; [|contradiction]. rewrite Hy, shifted_at0. cbn [obind]. rewrite Hy. exists v. split; [reflexivity|]. split; [reflexivity|]. eauto.
Qed.
Lemma flat_default : has_ty block (default zero block) /\ forall l : list cont, at_path (CBlk (default zero block :: l)) (0 :: sfx) = Some (CVal zero).
Proof. unfold sfx, block. destruct FT as [-> | ->]; cbn; repeat split; repeat constructor. Qed.

Lemma flat_resize num (c : cont) l : 0 < num -> c = CBlk l -> Forall (has_ty block) l ->
  backend_resize zero (fun p => Some (if length p =? 1 then 0 else num)) t c = Done (CBlk (vresize l num (default zero block))).
Proof.
  intros Hn -> HF. unfold backend_resize.
  assert (H1 : forall x i, has_ty block x -> resize zero (fun p => Some (if length p =? 1 then 0 else num)) block x [i] = Done x).
  { intros x i Hx. unfold block in *. destruct FT as [-> | ->]; destruct x; cbn in Hx |- *; try contradiction; reflexivity. }
  assert (H2 : forall l i, Forall (has_ty block) l ->
    each (fun i x => resize zero (fun p => Some (if length p =? 1 then 0 else num)) block x ([] ++ [i])) i l = Done l).
  { induction l0 as [|x l0 IH]; intros i HF0; [reflexivity|]. inversion HF0; subst. cbn [each app]. rewrite H1 by auto. cbn [rbind].
    cbn [app] in IH. rewrite IH by auto. reflexivity. }
  assert (HF' : Forall (has_ty block) (vresize l num (default zero block))).
  { unfold vresize. apply Forall_app. split.
    - clear -HF. revert num. induction HF as [|x l Hx HF IH]; intros [|k]; cbn; constructor; auto.
    - apply Forall_forall. intros x Hx. apply repeat_spec in Hx. subst. apply flat_default. }
  assert (TE : t = TDyn block) by (unfold block; destruct FT as [-> | ->]; reflexivity).
  rewrite TE at 1. cbn [resize length]. change (0 =? 1) with false. cbn iota.
  destruct (Nat.eqb_spec num 0); [lia|]. rewrite H2 by exact HF'. reflexivity.
Qed.
Lemma vresize_typed (l : list cont) num : Forall (has_ty block) l -> Forall (has_ty block) (vresize l num (default zero block)).
Proof.
  intros HF. unfold vresize. apply Forall_app. split.
  - revert num. induction HF as [|x l Hx HF IH]; intros [|k]; cbn; constructor; auto.
  - apply Forall_forall. intros x Hx. apply repeat_spec in Hx. subst. apply flat_default.
Qed.
Lemma read_flat (l : list cont) k : Forall (has_ty block) l -> k < length l -> exists v, read t (CBlk l) [k] = Some (CVal v) /\ at_path (CBlk l) (k :: sfx) = Some (CVal v).
Proof. intros HF Hk. destruct (flat_entry l k HF Hk) as (v & H1 & H2 & _). exists v. unfold read. now rewrite H1. Qed.
Lemma read_flat_None (l : list cont) k : length l <= k -> read t (CBlk l) [k] = None.
Proof.
  intros Hk. unfold read, backend_at, resolve_final. assert (HN : nth_error l k = None) by now apply nth_error_None.
  destruct FT as [-> | ->]; cbn; rewrite shifted_at0; cbn [obind]; rewrite HN; reflexivity.
Qed.
End Flat.

Section Interp.
Context {E V : Type}.
Variables (b : bexpr E) (els : E -> Prop) (path : list nat) (calls : list (nat * nat)).
Variables (t : cty) (mask : mi -> bool) (interp : E -> list nat -> list V) (zero : V).
Hypothesis Hwf : wf els b.
Hypothesis Hf : flat_basis b.
Hypothesis HR : in_range (pb_dim (build b)) calls.
Hypothesis Hdim : 0 < pb_dim (build b).
Hypothesis Hpath : exists n, descendant (pb_node (build b)) path = Some n.
Hypothesis Hint : interp_ok b path els interp.
Hypothesis FT : flat_vector t.

Lemma periodic_interp es c : (forall e, In e es -> els e) -> has_ty t c ->
  exists m num pb c', periodic_map (pb_dim (build b)) calls = Some (m, num) /\ periodic_pb (build b) calls = Some pb /\ pb_size pb [] = Some num /\
    (forall d k, renumbered b els pb d k <-> d < pb_dim (build b) /\ nth_error m d = Some (Some k)) /\
    pb = transformed_pb (periodic_transformation m num (pb_desc (build b))) (build b) /\
    interpolate t mask interp zero (subspace_of_root pb path) es c = Done c' /\ has_ty t c' /\
    forall k, k < num ->
      (mask [k] = true /\ exists x, offered b els path interp pb es k x /\ read t c' [k] = Some (CVal x)) \/
      (read t c' [k] = match read t c [k] with Some v => Some v | None => Some (CVal zero) end /\
       (mask [k] = true -> forall x, ~ offered b els path interp pb es k x)).
Proof.
  intros Hes Hty. destruct (flat_global b els [] Hwf Hf) as [_ Hs].
  destruct (periodic_basis b els calls Hwf Hf HR) as (m & num & pb & Hm & Hpb & HS & _ & _ & HL).
  destruct (periodic_numbering _ calls HR) as (m' & num' & Hm' & Hl & Hv & Hsu & Hsh & _ & _ & _).
  rewrite Hm in Hm'. injection Hm' as <- <-.
  assert (Hpb' : pb = transformed_pb (periodic_transformation m num (pb_desc (build b))) (build b)).
  { unfold periodic_pb in Hpb. rewrite Hs in Hpb. cbn [obind] in Hpb. rewrite Hm in Hpb. cbn [obind] in Hpb. congruence. }
  assert (Hphi : forall mu, global_index els b mu -> tr_index (periodic_transformation m num (pb_desc (build b)))
     (max (pb_bufmi (build b)) (tr_max (periodic_transformation m num (pb_desc (build b))))) mu = Some (phi_of m mu)).
  { intros mu Gm. apply (flat_global b els mu Hwf Hf) in Gm as (k & -> & Hd).
    destruct (Hv k Hd) as (y & Hy & _). unfold phi_of, periodic_transformation, digit. cbn [tr_index nth_error obind tr_max].
    rewrite Hy. cbn [obind]. destruct (Nat.ltb_spec (max (pb_bufmi (build b)) 1) 1); [lia|]. reflexivity. }
  assert (REN : forall d k, renumbered b els pb d k <-> d < pb_dim (build b) /\ nth_error m d = Some (Some k)).
  { intros d k. split.
    - intros (e & i & He & H1 & H2). apply HL in H2 as (d' & x & H3 & H4 & [= ->]); auto.
      destruct H1 as (v1 & A1 & A2 & A3), H3 as (v2 & B1 & B2 & B3). assert (d' = d) as -> by congruence.
      split; auto. rewrite <- Hl. eapply nth_error_Some_lt; eauto.
    - intros [Hd Hk]. assert (G : global_index els b [d]) by (apply (flat_global b els _ Hwf Hf); eauto).
      destruct G as (e & i & He & v & V1 & V2 & V3). exists e, i. split; auto.
      assert (L : Periodic_props.local_index (build b) e i [d]) by (exists v; auto). split; auto. apply HL; eauto. }
  destruct (flat_len t FT c Hty) as (l & -> & HF).
  assert (Hnum : 0 < num). { destruct (Hv 0 Hdim) as (y & _ & Hy). lia. }
  set (c0 := CBlk (vresize l num (default zero (block t)))).
  pose proof (vresize_typed zero t FT l num HF) as HF0.
  assert (L0 : length (vresize l num (default zero (block t))) = num) by apply vresize_length.
  assert (T0 : has_ty t c0) by (unfold c0; assert (TE : t = TDyn (block t)) by (unfold block; destruct FT as [-> | ->]; reflexivity); rewrite TE at 1; exact HF0).
  destruct (tr_elements_writes t mask interp b els path _ (phi_of m) Hwf Hphi Hpath Hint es (lv_new (build b)) eq_refl Hes) as (ws & W1 & W2).
  assert (GL : forall e mu x, In e es -> local_value b path interp e mu x -> exists d k, mu = [d] /\ d < pb_dim (build b) /\ nth_error m d = Some (Some k) /\ k < num /\ phi_of m mu = [k]).
  { intros e mu x He Hx. apply Hes in He. pose proof (local_value_global interp b els path Hwf e mu x He Hx) as G.
    apply (flat_global b els mu Hwf Hf) in G as (d & -> & Hd). destruct (Hv d Hd) as (k & Hk & Hlt). exists d, k. unfold phi_of. rewrite Hk. auto. }
  destruct (writes_ok t mask ws c0 T0) as (c' & X1 & X2 & X3).
  { intros [mu x] Hx. apply W2 in Hx as (e & mu0 & He & Hx & ->). destruct (GL e mu0 x He Hx) as (d & k & -> & Hd & Hk & Hlt & Hp).
    cbn [fst]. rewrite Hp. destruct (flat_entry t FT _ k HF0) as (v & E1 & E2 & y & E3); [lia|]. split; [eauto|]. eauto. }
  exists m, num, pb, c'. split; auto. split; auto. split; [rewrite HS; reflexivity|]. split; [exact REN|]. split; [exact Hpb'|].
  assert (T1 : has_ty t c') by (apply (has_ty_shape t c0 c'); auto).
  split; [|split; [exact T1|]].
  { unfold interpolate. cbn [ss_root subspace_of_root].
    assert (HRS : backend_resize zero (pb_size pb) t (CBlk l) = Done c0).
    { rewrite Hpb'. cbn [transformed_pb pb_size periodic_transformation tr_size]. now apply flat_resize. }
    rewrite HRS. unfold sv_new. cbn [ss_root subspace_of_root].
    replace (lv_new pb) with (lv_new (build b)) by (rewrite Hpb'; reflexivity).
    assert (TR : subspace_of_root pb path = trs b path (periodic_transformation m num (pb_desc (build b)))) by (rewrite Hpb'; reflexivity).
    rewrite TR, W1. now rewrite X1. }
  intros k Hk. destruct (flat_entry t FT _ k HF0) as (v & E1 & E2 & y & E3); [lia|].
  assert (RD : read t c' [k] = at_path c' (k :: sfx t)).
  { unfold read. rewrite (backend_shape t c0 c' [k] (k :: sfx t)); eauto. }
  assert (AD : forall k', k' < num -> backend_at t c0 [k'] = Some (k :: sfx t) -> k' = k).
  { intros k' Hk' HB. destruct (flat_entry t FT _ k' HF0) as (v' & F1 & _); [lia|]. unfold c0 in HB. rewrite F1 in HB. now injection HB. }
  destruct (X3 (k :: sfx t) v E2) as [(mu & x & P1 & P2 & P3 & P4)|[P1 P2]].
  - left. apply W2 in P1 as (e & mu0 & He & Hx & ->). destruct (GL e mu0 x He Hx) as (d & k' & -> & Hd & Hk' & Hlt & Hp). rewrite Hp in *.
    apply AD in P3; auto. subst k'. split; auto. exists x. split; [|congruence]. exists e, d. split; auto. split; auto. apply REN. auto.
  - right. split.
    + rewrite RD, P1. destruct (Nat.lt_ge_cases k (length l)) as [Hkl|Hkl].
      * destruct (read_flat t FT l k HF Hkl) as (v' & -> & Q2). rewrite <- Q2. cbn [at_path] in E2, Q2 |- *.
        rewrite vresize_nth in E2. destruct (Nat.ltb_spec k num); [|lia].
        destruct (nth_error_lt_Some l k Hkl) as [z Hz]. rewrite (nth_error_nth _ _ _ Hz) in E2. rewrite Hz. now rewrite E2.
      * rewrite (read_flat_None t FT l k Hkl). f_equal. cbn [at_path] in E2. rewrite vresize_nth in E2. destruct (Nat.ltb_spec k num); [|lia].
        rewrite nth_overflow in E2 by lia. pose proof (proj2 (flat_default zero t FT) []) as Q. cbn [at_path nth_error] in Q. congruence.
    + intros Hmk x (e & d & He & Hx & HRn). apply REN in HRn as [Hd HRn].
      apply (P2 [k] x); auto. apply W2. exists e, [d]. split; auto. split; auto. unfold phi_of. now rewrite HRn.
Qed.
End Interp.

(** interpolate() into a vector for a periodic basis is defined and sets every marked DOF to
    a value that a visited element delivers for one of the raw DOFs it stands for; it keeps
    (or, if the vector has been too short, makes zero) the unmarked DOFs and those of which
    no raw DOF is visited. *)
Theorem C74_interpolation_into_periodic_bases : forall (E V : Type) (b : bexpr E) (els : E -> Prop) (path : list nat) (calls : list (nat * nat))
    (t : cty) (mask : mi -> bool) (interp : E -> list nat -> list V) (zero : V) (es : list E) (c : cont V),
  wf els b -> flat_basis b -> in_range (pb_dim (build b)) calls -> 0 < pb_dim (build b) ->
  (exists n, descendant (pb_node (build b)) path = Some n) -> interp_ok b path els interp -> flat_vector t ->
  (forall e, In e es -> els e) -> has_ty t c ->
  exists pb num c', periodic_pb (build b) calls = Some pb /\ pb_size pb [] = Some num /\
    interpolate t mask interp zero (subspace_of_root pb path) es c = Done c' /\ has_ty t c' /\
    forall k, k < num ->
      (mask [k] = true /\ exists x, offered b els path interp pb es k x /\ read t c' [k] = Some (CVal x)) \/
      (read t c' [k] = match read t c [k] with Some v => Some v | None => Some (CVal zero) end /\
       (mask [k] = true -> forall x, ~ offered b els path interp pb es k x)).
Proof.
  intros E V b els path calls t mask interp zero es c Hwf Hf HR Hdim Hpath Hint FT Hes Hty.
  destruct (periodic_interp b els path calls t mask interp zero Hwf Hf HR Hdim Hpath Hint FT es c Hes Hty)
    as (m & num & pb & c' & _ & H1 & H2 & _ & _ & H3 & H4 & H5). exists pb, num, c'. auto.
Qed.

(** If what is interpolated has the same values at DOFs that are unified, every marked DOF
    gets the value of each of the raw DOFs it stands for. *)
Theorem C74_periodic_values : forall (E V : Type) (b : bexpr E) (els : E -> Prop) (path : list nat) (calls : list (nat * nat))
    (t : cty) (mask : mi -> bool) (interp : E -> list nat -> list V) (zero : V) (es : list E) (c : cont V),
  wf els b -> flat_basis b -> in_range (pb_dim (build b)) calls -> 0 < pb_dim (build b) ->
  (exists n, descendant (pb_node (build b)) path = Some n) -> interp_ok b path els interp -> flat_vector t ->
  (forall e, In e es -> els e) -> has_ty t c -> periodic_values b path interp (honoured calls) es ->
  exists pb c', periodic_pb (build b) calls = Some pb /\
    interpolate t mask interp zero (subspace_of_root pb path) es c = Done c' /\
    forall e d k x, In e es -> local_value b path interp e [d] x -> renumbered b els pb d k -> mask [k] = true ->
      read t c' [k] = Some (CVal x).
Proof.
  intros E V b els path calls t mask interp zero es c Hwf Hf HR Hdim Hpath Hint FT Hes Hty HP.
  destruct (periodic_interp b els path calls t mask interp zero Hwf Hf HR Hdim Hpath Hint FT es c Hes Hty)
    as (m & num & pb & c' & H0 & H1 & H2 & H6 & _ & H3 & H4 & H5). exists pb, c'. split; auto. split; auto.
  destruct (periodic_numbering _ calls HR) as (m' & num' & Hm' & Hl & Hv & Hsu & Hsh & _). rewrite H0 in Hm'. injection Hm' as <- <-.
  intros e d k x He Hx Hk Hmk. pose proof Hk as Hk'. apply H6 in Hk' as [Hd Hmd].
  assert (Hlt : k < num) by (destruct (Hv d Hd) as (y & Hy & Hlt); congruence).
  destruct (H5 k Hlt) as [[_ (x' & (e' & d' & He' & Hx' & Hk') & ->)]|[_ Hno]].
  - do 2 f_equal. apply H6 in Hk' as [Hd' Hmd']. apply (HP e' e d' d); auto. apply (Hsh d' d Hd' Hd). congruence.
  - exfalso. apply (Hno Hmk x). exists e, d. auto.
Qed.

(** A discrete function over any basis [b1] that is also a function over the raw basis [b]
    with the same coefficient at DOFs that are unified: interpolating it into the periodic
    basis gives the same function. *)
Theorem C74_periodic_functions_are_reproduced : forall (E X : Type) (els : E -> Prop) (b1 : bexpr E) (path1 : list nat) (su1 : setup E X) (c1 : mi -> option (list R))
    (b : bexpr E) (path : list nat) (su : setup E X) (x : mi -> R) (c2 : mi -> option (list R)) (calls : list (nat * nat))
    (t : cty) (asks : list nat -> bool) (interpolation : functional) (es : list E) (c : cont R),
  setup_ok b1 path1 els su1 -> coefs_ok b1 els su1 c1 ->
  setup_ok b path els su -> su_cdim su = 1 -> dual b path els su asks interpolation -> numbers b els c2 x ->
  same_parts els asks b1 path1 su1 c1 b path su c2 ->
  flat_basis b -> in_range (pb_dim (build b)) calls -> 0 < pb_dim (build b) -> respects (honoured calls) (pb_dim (build b)) c2 ->
  flat_vector t -> (forall e, In e es <-> els e) -> has_ty t c ->
  exists pb c', periodic_pb (build b) calls = Some pb /\
    interpolate_discrete su1 t (fun _ => true) asks interpolation (fun _ => c1) (subspace_of_root pb path) es c = Done c' /\
    equal_functions els (over (subspace_of_root pb path) su) (contents t c') su c2.
Proof.
  intros E X els b1 path1 su1 c1 b path su x c2 calls t asks interpolation es c OK1 Hc1 OKS Hcd HD Hx HS Hf HR Hdim HC2 FT Hes Hty.
  pose proof (so_wf _ _ _ _ OKS) as Hwf.
  destruct (periodic_interp b els path calls t (fun _ => true) (interp0 b path x) 0%R Hwf Hf HR Hdim (so_path _ _ _ _ OKS)
              (interp0_ok b path els x) FT es c (fun e He => proj1 (Hes e) He) Hty)
    as (m & num & pb & c' & H0 & H1 & H2 & H6 & Hpb & H3 & H4 & H5). exists pb, c'. split; auto.
  destruct (periodic_numbering _ calls HR) as (m' & num' & Hm' & Hl & Hv & Hsu & Hsh & _). rewrite H0 in Hm'. injection Hm' as <- <-.
  assert (Gx : forall d, d < pb_dim (build b) -> c2 [d] = Some [x [d]]).
  { intros d Hd. apply Hx. apply (flat_global b els _ Hwf Hf). eauto. }
  split.
  - rewrite <- H3. apply (transfer b1 path1 els su1 c1 OK1 Hc1 t (fun _ => true) asks interpolation (interp0 b path x) (subspace_of_root pb path)
      (used_leaf b path)) with (Q := tviews b).
    + eapply contained_interpolates; eauto.
    + intros v e v' Hvw He Hb. eapply (tviews_ok b els path); eauto. intros; eapply bind_tree_of; eauto.
    + rewrite Hpb. reflexivity.
    + intros e He. now apply Hes.
    + rewrite H3. discriminate.
  - intros d0 e y He. destruct (periodic_sim b path els su calls OKS Hf HR) as (m2 & num2 & pb2 & A1 & A2 & _ & A3).
    rewrite H0 in A1. injection A1 as <- <-. rewrite H1 in A2. injection A2 as <-. rewrite A3 by auto.
    unfold at_point. rewrite (bind_same E X b path els su (renamed (phi_of m) (contents t c')) c2 d0 e OKS He); [reflexivity|].
    intros mu Hmu. destruct (dof_flat b path els su OKS Hf e mu He Hmu) as (d & -> & Hd). destruct (Hv d Hd) as (k & Hk & Hlt).
    unfold renamed, phi_of. rewrite Hk. unfold contents.
    assert (HO : offered b els path (interp0 b path x) pb es k (x [d])).
    { exists e, d. split; [now apply Hes|]. split; [eapply (dof_value b path els); eauto|apply H6; auto]. }
    destruct (H5 k Hlt) as [[_ (x' & (e' & d' & He' & Hx' & Hk') & ->)]|[_ Hno]]; [|exfalso; eapply Hno; eauto].
    apply H6 in Hk' as [Hd' Hmd']. rewrite (value_dof b path x e' [d'] x' Hx'). rewrite <- (Gx d' Hd').
    apply HC2; auto. apply (Hsh d' d Hd' Hd). congruence.
Qed.

(** * The hypotheses are met *)
Lemma same_parts_refl {E X} (els : E -> Prop) asks (b : bexpr E) path (su : setup E X) c : su_cdim su = 1 ->
  same_parts els asks b path su c b path su c.
Proof.
  intros Hd e p x He (v & n & L & NZ). split.
  - intros y1 y2 [_ Y1] [_ Y2]. destruct (Y1 v p n L) as (z1 & -> & _ & W1), (Y2 v p n L) as (z2 & -> & _ & W2).
    destruct (W1 NZ) as [L1 V1], (W2 NZ) as [L2 V2]. cbn. f_equal. rewrite Hd in *. apply nth_error_ext. intros k.
    destruct (Nat.lt_ge_cases k (su_vdim su p)) as [Hk|Hk].
    + specialize (V1 0 k ltac:(lia) Hk). specialize (V2 0 k ltac:(lia) Hk). cbn in V1, V2. congruence.
    + rewrite !(proj2 (nth_error_None _ _)); auto; lia.
  - intros _ y1 y2 [_ Y1] [_ Y2]. destruct (Y1 v p n L) as (z1 & -> & _ & W1), (Y2 v p n L) as (z2 & -> & _ & W2).
    destruct (W1 NZ) as [L1 V1], (W2 NZ) as [L2 V2]. cbn. f_equal. rewrite Hd in *. apply nth_error_ext. intros k.
    destruct (Nat.lt_ge_cases k (su_vdim su p * su_gdim su)) as [Hk|Hk].
    + assert (Hg : su_gdim su <> 0) by (intros Z; rewrite Z in Hk; lia).
      pose proof (Nat.div_mod k (su_gdim su) Hg) as DM. pose proof (Nat.mod_upper_bound k (su_gdim su) Hg) as MB.
      assert (DB : k / su_gdim su < su_vdim su p) by (apply Nat.div_lt_upper_bound; lia).
      specialize (V1 0 _ _ ltac:(lia) DB MB). specialize (V2 0 _ _ ltac:(lia) DB MB). cbn [Nat.mul Nat.add] in V1, V2.
      rewrite (Nat.mul_comm (k / su_gdim su)), <- DM in V1, V2. congruence.
    + rewrite !(proj2 (nth_error_None _ _)); auto; lia.
Qed.

(** The two linear components of C72 with requests 0 ~ 4 and 1 ~ 5: the function with the raw
    coefficients [a; b; c; d; a; b] is interpolated into the vector [a; b; c; d]. *)
Definition ex74_number (y : option (cont R)) : option R := y <- y ;; match scalars y with [r] => Some r | _ => None end.
Definition ex74_interpolation : @functional nat R := fun _ p f d =>
  a <- ex74_number (f 0%R) ;; b <- ex74_number (f 1%R) ;; Some [a; b].
Lemma ex74_dual : dual ex72_b [] ex_els ex72_su (fun _ => false) ex74_interpolation.
Proof.
  intros e v p n a f d He L NZ Hf Hd. destruct (ex72_leaf e v p n L) as [Hp Hn]. clear L NZ.
  assert (F : forall x, ex74_number (f x) = Some (rsum (node_size n) (fun i => a i * shape_of ex72_su e p x i 0)%R)).
  { intros x. destruct (Hf x) as (y & H1 & H2 & H3). unfold ex74_number. rewrite H1. cbn [obind]. specialize (H3 0 Nat.lt_0_1). cbn in H2.
    destruct (scalars y) as [|s [|? ?]]; try discriminate. cbn in H3. exact H3. }
  unfold ex74_interpolation. rewrite !F. cbn [obind]. rewrite Hn. cbn. do 2 f_equal; [|f_equal]; unfold shape_of; cbn; ring.
Qed.
Example C74_example (a : nat -> R) : exists pb c',
  periodic_pb (build ex72_b) ex72_calls = Some pb /\
  interpolate_discrete ex72_su (TDyn TScalar) (fun _ => true) (fun _ => false) ex74_interpolation (fun _ m => Some [a (nth 0 m 0 mod 4)])
    (subspace_of_root pb []) [0; 1] (CBlk []) = Done c' /\
  equal_functions ex_els (over (subspace_of_root pb []) ex72_su) (contents (TDyn TScalar) c') ex72_su (fun m => Some [a (nth 0 m 0 mod 4)]).
Proof.
  destruct ex72_requests as (Hf & HR & _). set (c1 := fun m : mi => Some [a (nth 0 m 0 mod 4)]).
  apply (C74_periodic_functions_are_reproduced nat R ex_els ex72_b [] ex72_su c1 ex72_b [] ex72_su (fun m => a (nth 0 m 0 mod 4)) c1 ex72_calls);
    auto using ex72_setup_ok, ex74_dual.
  - intros m _. eexists. split; reflexivity.
  - intros m _. reflexivity.
  - now apply same_parts_refl.
  - cbn. lia.
  - intros d d' Hd Hd' HH. unfold c1. cbn [nth].
    assert (M : d mod 4 = d' mod 4); [|now rewrite M]. clear Hd Hd'.
    induction HH as [u w (L & [H|H] & _)|u|u w _ IH|u w z _ IH1 _ IH2]; auto; try congruence; cbn in H;
      repeat match goal with
             | H : _ \/ _ |- _ => destruct H
             | H : (_, _) = (_, _) |- _ => injection H; clear H; intros; subst; try reflexivity; try lia
             | H : False |- _ => destruct H
             end.
  - left. reflexivity.
  - intros e. unfold ex_els. split; [intros [<-|[<-|[]]]; lia|]. intros He. destruct e as [|[|e]]; cbn; auto; lia.
  - constructor.
Qed.
(** ... and if the values do not agree at unified DOFs, an element decides. *)
Example C74_values_example : exists pb c', periodic_pb (build ex72_b) ex72_calls = Some pb /\
  interpolate (TDyn TScalar) (fun _ => true) (fun e p => [e; e + 1]) 9 (subspace_of_root pb []) [0; 1] (CBlk []) = Done c' /\
  read (TDyn TScalar) c' [0] = Some (CVal 2) /\ read (TDyn TScalar) c' [3] = Some (CVal 1).
Proof. do 2 eexists. split; [reflexivity|]. split; [reflexivity|]. split; reflexivity. Qed.

Print Assumptions C74_interpolation_into_periodic_bases.
Print Assumptions C74_periodic_values.
Print Assumptions C74_periodic_functions_are_reproduced.
