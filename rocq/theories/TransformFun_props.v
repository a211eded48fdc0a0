(** Discrete functions over transformed and periodic bases (C72). *)
From Coq Require Import List Arith Bool Reals Lia Lra Relations.
From Verif Require Import Lib Basis_model Basis_spec Basis_proofs Basis_ok Basis_view Basis_props
  Container_model Container_spec FlatVector_model FlatVector_props
  Interpolate_model DiscreteFunction_model DiscreteFunction_spec DiscreteFunction_proofs DiscreteFunction_props
  LagrangeNodes_functions Independence_spec Independence_props
  Periodic_model Periodic_spec Periodic_proofs Periodic_props TransformFun_spec.
Import ListNotations.
#[local] Arguments Nat.ltb : simpl never.

Section Sim.
Context {E X : Type}.
Variables (b : bexpr E) (path : list nat) (els : E -> Prop) (t : transformation) (phi : mi -> mi) (su : setup E X).
Hypothesis Hwf : wf els b.
Hypothesis Hphi : forall m, global_index els b m -> tr_index t (max (pb_bufmi (build b)) (tr_max t)) m = Some (phi m).
Hypothesis Hsu : su_basis su = subspace_of_root (build b) path.
Notation coefs := (mi -> option (list R)).
Definition tb := transformed_pb t (build b).
Definition tsu := over (subspace_of_root tb path) su.

Definition vsim (v' v : lview E) : Prop :=
  lv_elem v' = lv_elem v /\ lv_tree v' = lv_tree v /\ lv_indices v' = map phi (lv_indices v) /\
  skel (lv_tree v) = skel (pb_node (build b)) /\ (forall e, lv_elem v = Some e -> els e).

Lemma vsim_new : vsim (lv_new tb) (lv_new (build b)).
Proof. repeat split; [apply new_skel|]. intros e. discriminate. Qed.
Lemma vsim_bind v' v e : vsim v' v -> els e -> exists w' w,
  lv_bind tb v' e = Some w' /\ lv_bind (build b) v e = Some w /\ vsim w' w.
Proof.
  intros (S1 & S2 & S3 & S4 & S5) He. pose proof (build_ok b els Hwf) as OK.
  rewrite (bind_ok els _ _ v e OK He S4). set (ix := map (sp_glob (meaning b)) (sp_keys (meaning b) e)).
  assert (GI : forall m, In m ix -> global_index els b m).
  { intros m Hm. apply (global_index_iff b els m Hwf). unfold ix in Hm. apply in_map_iff in Hm as (k & <- & Hk).
    eapply (ok_valid _ _ _ OK); eauto. }
  unfold lv_bind. rewrite S2. cbn [tb transformed_pb pb_indices pb_bufmi].
  rewrite (ok_nsize _ _ _ OK (lv_tree v) e 0 He S4).
  pose proof (ok_ind _ _ _ OK (max (pb_bufmi (build b)) (tr_max t)) (lv_tree v) e 0 []
                (vresize (lv_indices v') (length (sp_keys (meaning b) e)) []) [] He S4 (Nat.le_max_l _ _)
                (vresize_length _ _ _)) as H.
  cbn [app length] in H. rewrite !app_nil_r in H. rewrite H. cbn [obind snd].
  rewrite <- (map_length (sp_glob (meaning b)) (sp_keys (meaning b) e)). fold ix.
  pose proof (tr_loop _ phi ix [] [] (fun m Hm => Hphi m (GI m Hm)) 0) as TL.
  cbn [app length] in TL. rewrite !app_nil_r in TL. rewrite TL. cbn [obind].
  do 2 eexists. split; [reflexivity|]. split; [reflexivity|]. repeat split; cbn.
  - rewrite skel_bind. exact S4.
  - now intros e' [= <-].
Qed.
Lemma vsim_copy v' v : vsim v' v -> exists w' w, lv_copy tb v' = Some w' /\ lv_copy (build b) v = Some w /\ vsim w' w.
Proof.
  intros S. pose proof S as (S1 & _ & _ & _ & S5). unfold lv_copy. rewrite S1. destruct (lv_elem v) as [e|].
  - apply vsim_bind; [apply vsim_new|auto].
  - do 2 eexists. split; [reflexivity|]. split; [reflexivity|]. apply vsim_new.
Qed.

Definition fsim (f' f : lfun E) : Prop :=
  lf_deriv f' = lf_deriv f /\ lf_dofs f' = lf_dofs f /\ lf_geo f' = lf_geo f /\ vsim (lf_view f') (lf_view f).

Lemma fsim_new d : fsim (lf_new tsu d) (lf_new su d).
Proof. unfold lf_new, sv_new. rewrite Hsu. cbn. split; [reflexivity|]. split; [reflexivity|]. split; [reflexivity|]. apply vsim_new. Qed.
Lemma dofs_sim c v' v tree d : vsim v' v -> bind_dofs tsu c v' tree d = bind_dofs su (renamed phi c) v tree d.
Proof.
  intros (S1 & S2 & S3 & _). unfold bind_dofs, sv_size, lv_size. rewrite S2. cbn [tsu over su_cdim].
  generalize (vresize d (node_size (lv_tree v)) (repeat 0%R (su_cdim su))). generalize 0. generalize (node_size tree).
  induction n as [|n IH]; intros k d0; [reflexivity|]. cbn [forl].
  assert (S : (k0 <- Basis_model.local_index tree k ;; m <- lv_index v' k0 ;; x <- c m ;; upd d0 k0 x) =
              (k0 <- Basis_model.local_index tree k ;; m <- lv_index v k0 ;; x <- renamed phi c m ;; upd d0 k0 x)).
  { destruct (Basis_model.local_index tree k) as [q|]; [|reflexivity]. cbn [obind]. unfold lv_index. rewrite S3, nth_error_map_eq.
    destruct (nth_error (lv_indices v) q); reflexivity. }
  rewrite S. destruct (k0 <- Basis_model.local_index tree k ;; m <- lv_index v k0 ;; x <- renamed phi c m ;; upd d0 k0 x); [|reflexivity]. cbn [obind]. apply IH.
Qed.
Definition osim {A B} (Q : A -> B -> Prop) (x : option A) (y : option B) : Prop :=
  match x, y with Some a, Some b => Q a b | None, None => True | _, _ => False end.
Lemma fsim_bind c f' f e : fsim f' f -> els e -> osim fsim (lf_bind tsu c f' e) (lf_bind su (renamed phi c) f e).
Proof.
  intros (F1 & F2 & F3 & F4) He. unfold lf_bind, sv_bind, sv_tree. rewrite Hsu. cbn [tsu over su_basis ss_root ss_path subspace_of_root].
  destruct (vsim_bind _ _ e F4 He) as (w' & w & -> & -> & S). cbn [obind]. pose proof S as (_ & -> & _).
  destruct (descendant (lv_tree w) path) as [tree|]; [|exact I]. cbn [obind]. rewrite F2.
  pose proof (dofs_sim c w' w tree (lf_dofs f) S) as D. rewrite D.
  destruct (bind_dofs su (renamed phi c) w tree (lf_dofs f)); [|exact I]. cbn. rewrite F1. split; [reflexivity|]. split; [reflexivity|]. split; [reflexivity|]. exact S.
Qed.
Lemma fsim_unbind f' f : fsim f' f -> fsim (lf_unbind f') (lf_unbind f).
Proof.
  intros (F1 & F2 & F3 & S1 & S2 & S3 & S4 & S5). unfold lf_unbind, lv_unbind. rewrite F1, F2. split; [reflexivity|]. split; [reflexivity|]. split; [reflexivity|].
  split; [reflexivity|]. split; [exact S2|]. split; [exact S3|]. split; [exact S4|]. intros e. discriminate.
Qed.
Lemma fsim_copy f' f : fsim f' f -> osim fsim (lf_copy tsu f') (lf_copy su f).
Proof.
  intros (F1 & F2 & F3 & F4). unfold lf_copy. rewrite Hsu. cbn [tsu over su_basis ss_root subspace_of_root].
  destruct (vsim_copy _ _ F4) as (w' & w & -> & -> & S). cbn [obind osim]. pose proof S as (S1 & _). unfold lv_bound. rewrite S1, F1, F2, F3.
  split; [reflexivity|]. split; [reflexivity|]. split; [reflexivity|]. exact S.
Qed.
Lemma fsim_assign f' f g' g : fsim f' f -> fsim g' g -> fsim (lf_assign f' g') (lf_assign f g).
Proof.
  intros (F1 & F2 & F3 & F4) (G1 & G2 & G3 & G4). unfold lf_assign, lv_bound. pose proof G4 as (S1 & _). rewrite S1, F2, G1, G2, G3.
  split; [reflexivity|]. split; [reflexivity|]. split; [reflexivity|]. exact G4.
Qed.
Lemma fsim_derivative c f' f : fsim f' f -> osim fsim (lf_derivative tsu c f') (lf_derivative su (renamed phi c) f).
Proof.
  intros F. pose proof F as (F1 & F2 & F3 & S1 & _ & _ & _ & S5). unfold lf_derivative, lf_context. rewrite F1, S1. destruct (lf_deriv f); [exact I|].
  destruct (lv_elem (lf_view f)) as [e|] eqn:Ee; [apply fsim_bind; [apply fsim_new|auto]|apply fsim_new].
Qed.
Lemma combine_sim f' f n nb size sv : lf_dofs f' = lf_dofs f -> combine_leaf tsu f' n nb size sv = combine_leaf su f n nb size sv.
Proof. intros F. unfold combine_leaf. rewrite F. reflexivity. Qed.
Lemma eval_sim f' f x : fsim f' f -> lf_eval tsu f' x = lf_eval su f x.
Proof.
  intros (F1 & F2 & F3 & F4). unfold lf_eval, sv_tree. rewrite Hsu. cbn [tsu over su_basis ss_path subspace_of_root].
  pose proof F4 as (_ & -> & _). rewrite F1, F3. destruct (descendant (lv_tree (lf_view f)) path) as [tree|]; [|reflexivity]. cbn [obind].
  assert (EL : forall B B' l y, (forall pn y, B pn y = B' pn y) -> each_leaf (E := E) B l y = each_leaf B' l y).
  { induction l as [|pn l IH]; intros y HB; [reflexivity|]. cbn. rewrite HB. destruct (B' pn y); cbn; auto. }
  destruct (lf_deriv f).
  - destruct (lf_geo f) as [g|]; [|reflexivity]. cbn [obind su_drange over tsu]. apply EL. intros [p n] y. unfold deriv_leaf.
    destruct (node_size n =? 0); [reflexivity|]. destruct n as [? ? fe [e|]|]; try reflexivity.
    rewrite (combine_sim f' f _ _ _ _ F2). reflexivity.
  - cbn [obind su_range over tsu]. apply EL. intros [p n] y. unfold eval_leaf.
    destruct (node_size n =? 0); [reflexivity|]. destruct n as [? ? fe [e|]|]; try reflexivity.
    rewrite (combine_sim f' f _ _ _ _ F2). reflexivity.
Qed.

Definition wsim (w' w : world E) : Prop :=
  Forall2 fsim (w_pool w') (w_pool w) /\ w_coefs w = renamed phi (w_coefs w').
Lemma nth_sim {A B} (Q : A -> B -> Prop) l l' i : Forall2 Q l l' -> osim Q (nth_error l i) (nth_error l' i).
Proof. intros H. revert i. induction H as [|? ? ? ? H1 H2 IH]; intros [|i]; cbn; auto. Qed.
Lemma upd_sim {A B} (Q : A -> B -> Prop) l l' i x y : Forall2 Q l l' -> Q x y -> osim (Forall2 Q) (upd l i x) (upd l' i y).
Proof.
  intros H Hx. revert i. induction H as [|? ? ? ? H1 H2 IH]; intros [|i]; cbn; auto.
  specialize (IH i). destruct (upd l i x), (upd l' i y); cbn in *; try contradiction; auto.
Qed.
Lemma step_sim w' w o : wsim w' w -> (forall i e, o = OpBind i e -> els e) -> osim wsim (lf_step tsu w' o) (lf_step su w (renamed_op phi o)).
Proof.
  intros [P C] He. destruct o as [d|i e|i|i|i j|i|c]; cbn [lf_step renamed_op].
  - cbn. split; [|exact C]. apply Forall2_app; [exact P|]. constructor; [apply fsim_new|constructor].
  - pose proof (nth_sim _ _ _ i P) as N. destruct (nth_error (w_pool w') i) as [f'|], (nth_error (w_pool w) i) as [f|]; cbn [osim obind] in *; try contradiction; auto.
    rewrite C. pose proof (fsim_bind (w_coefs w') f' f e N (He i e eq_refl)) as B.
    destruct (lf_bind tsu (w_coefs w') f' e), (lf_bind su (renamed phi (w_coefs w')) f e); cbn [osim obind] in *; try contradiction; auto.
    pose proof (upd_sim _ _ _ i _ _ P B) as U. destruct (upd (w_pool w') i l), (upd (w_pool w) i l0); cbn [osim obind] in *; try contradiction; auto. split; auto.
  - pose proof (nth_sim _ _ _ i P) as N. destruct (nth_error (w_pool w') i) as [f'|], (nth_error (w_pool w) i) as [f|]; cbn [osim obind] in *; try contradiction; auto.
    pose proof (upd_sim _ _ _ i _ _ P (fsim_unbind _ _ N)) as U. destruct (upd (w_pool w') i _), (upd (w_pool w) i _); cbn [osim obind] in *; try contradiction; auto. split; auto.
  - pose proof (nth_sim _ _ _ i P) as N. destruct (nth_error (w_pool w') i) as [f'|], (nth_error (w_pool w) i) as [f|]; cbn [osim obind] in *; try contradiction; auto.
    pose proof (fsim_copy f' f N) as B. destruct (lf_copy tsu f'), (lf_copy su f); cbn [osim obind] in *; try contradiction; auto.
    split; [|exact C]. apply Forall2_app; [exact P|]. constructor; [exact B|constructor].
  - pose proof (nth_sim _ _ _ i P) as N. destruct (nth_error (w_pool w') i) as [f'|], (nth_error (w_pool w) i) as [f|]; cbn [osim obind] in *; try contradiction; auto.
    pose proof (nth_sim _ _ _ j P) as M. destruct (nth_error (w_pool w') j) as [g'|], (nth_error (w_pool w) j) as [g|]; cbn [osim obind] in *; try contradiction; auto.
    pose proof N as (-> & _). pose proof M as (-> & _). destruct (Bool.eqb (lf_deriv f) (lf_deriv g)); [|exact I].
    pose proof (upd_sim _ _ _ i _ _ P (fsim_assign _ _ _ _ N M)) as U. destruct (upd (w_pool w') i _), (upd (w_pool w) i _); cbn [osim obind] in *; try contradiction; auto. split; auto.
  - pose proof (nth_sim _ _ _ i P) as N. destruct (nth_error (w_pool w') i) as [f'|], (nth_error (w_pool w) i) as [f|]; cbn [osim obind] in *; try contradiction; auto.
    rewrite C. pose proof (fsim_derivative (w_coefs w') f' f N) as B. destruct (lf_derivative tsu (w_coefs w') f'), (lf_derivative su (renamed phi (w_coefs w')) f); cbn [osim obind] in *; try contradiction; auto.
    split; [|reflexivity]. apply Forall2_app; [exact P|]. constructor; [exact B|constructor].
  - cbn. split; [exact P|reflexivity].
Qed.
Lemma run_sim h : binds_to els h -> forall w' w, wsim w' w -> osim wsim (lf_run tsu w' h) (lf_run su w (map (renamed_op phi) h)).
Proof.
  induction h as [|o h IH]; intros Hh w' w HW; [exact HW|]. cbn [lf_run map].
  pose proof (step_sim w' w o HW (fun i e Ho => Hh i e (or_introl Ho))) as S.
  destruct (lf_step tsu w' o), (lf_step su w (renamed_op phi o)); cbn [osim obind] in *; try contradiction; auto.
  apply IH; auto. intros i e Hi. eapply Hh. right. exact Hi.
Qed.
End Sim.

(** A discrete function over a transformed basis is the discrete function over the raw basis
    whose coefficients are looked up at the transformed index: for every program using its
    local functions and derivatives, everything the program sees is the same. *)
Theorem C72_transformed_basis_renames_coefficients E X (b : bexpr E) path els (t : transformation) phi (su : setup E X) c h i x :
  wf els b -> (forall m, global_index els b m -> tr_index t (max (pb_bufmi (build b)) (tr_max t)) m = Some (phi m)) ->
  su_basis su = subspace_of_root (build b) path -> binds_to els h ->
  seen (over (subspace_of_root (transformed_pb t (build b)) path) su) c h i x =
  seen su (renamed phi c) (map (renamed_op phi) h) i x.
Proof.
  intros Hwf Hphi Hsu Hh.
  pose proof (run_sim b path els t phi su Hwf Hphi Hsu h Hh (W [] c) (W [] (renamed phi c)) (conj (Forall2_nil _) eq_refl)) as S.
  unfold seen. unfold tsu, tb in S.
  destruct (lf_run (over (subspace_of_root (transformed_pb t (build b)) path) su) (W [] c) h) as [w'|],
    (lf_run su (W [] (renamed phi c)) (map (renamed_op phi) h)) as [w|]; cbn [osim obind] in *; try contradiction; [|reflexivity].
  destruct S as [P _]. pose proof (nth_sim _ _ _ i P) as N.
  destruct (nth_error (w_pool w') i) as [f'|], (nth_error (w_pool w) i) as [f|]; cbn [osim obind] in *; try contradiction; [|reflexivity].
  pose proof N as (N1 & _ & _ & N4 & _). unfold lf_context. rewrite N1, N4. do 3 f_equal. eapply (eval_sim b path els t phi su); eauto.
Qed.

Lemma at_point_sim E X (b : bexpr E) path els (t : transformation) phi (su : setup E X) d c e x :
  wf els b -> (forall m, global_index els b m -> tr_index t (max (pb_bufmi (build b)) (tr_max t)) m = Some (phi m)) ->
  su_basis su = subspace_of_root (build b) path -> els e ->
  at_point (over (subspace_of_root (transformed_pb t (build b)) path) su) d c e x = at_point su d (renamed phi c) e x.
Proof.
  intros Hwf Hphi Hsu He. unfold at_point.
  pose proof (fsim_bind b path els t phi su Hwf Hphi Hsu c (lf_new (tsu b path t su) d) (lf_new su d) e (fsim_new b path els t phi su Hsu d) He) as S.
  unfold tsu, tb in S.
  destruct (lf_bind _ c _ e) as [f'|], (lf_bind su (renamed phi c) _ e) as [f|]; cbn [osim obind] in *; try contradiction; [|reflexivity].
  eapply (eval_sim b path els t phi su); eauto.
Qed.

Section Periodic.
Context {E X : Type}.
Variables (b : bexpr E) (path : list nat) (els : E -> Prop) (su : setup E X) (calls : list (nat * nat)).
Hypothesis OKS : setup_ok b path els su.
Hypothesis Hf : flat_basis b.
Hypothesis HR : in_range (pb_dim (build b)) calls.
Notation coefs := (mi -> option (list R)).

Definition phi_of (m : list (option nat)) (mu : mi) : mi :=
  match mu with d :: _ => match nth_error m d with Some (Some x) => [x] | _ => [] end | [] => [] end.

Lemma periodic_sim : exists m num pb,
  periodic_map (pb_dim (build b)) calls = Some (m, num) /\ periodic_pb (build b) calls = Some pb /\ pb_size pb [] = Some num /\
  forall d c e x, els e -> at_point (over (subspace_of_root pb path) su) d c e x = at_point su d (renamed (phi_of m) c) e x.
Proof.
  pose proof (so_wf _ _ _ _ OKS) as Hwf. destruct (flat_global b els [] Hwf Hf) as [_ Hs].
  destruct (periodic_numbering _ calls HR) as (m & num & Hm & Hl & Hv & _).
  exists m, num. unfold periodic_pb. rewrite Hs. cbn [obind]. rewrite Hm. cbn [obind].
  eexists. split; [reflexivity|]. split; [reflexivity|]. split; [reflexivity|]. intros d c e x He.
  apply (at_point_sim E X b path els); auto; [|apply (so_basis _ _ _ _ OKS)].
  intros mu Gm. apply (flat_global b els mu Hwf Hf) in Gm as (k & -> & Hd).
  destruct (Hv k Hd) as (y & Hy & _). unfold phi_of, periodic_transformation, digit. cbn [tr_index nth_error obind tr_max].
  rewrite Hy. cbn [obind]. destruct (Nat.ltb_spec (max (pb_bufmi (build b)) 1) 1); [lia|]. reflexivity.
Qed.

Lemma dof_flat e mu : els e -> Projection_spec.dof_on b path e mu -> exists d, mu = [d] /\ d < pb_dim (build b).
Proof.
  intros He (v & p & n & i & k & L & Hk & Hm). apply (flat_global b els mu (so_wf _ _ _ _ OKS) Hf).
  destruct (Projection_props.view_of_leaf b path els su OKS e v p n He L) as [V1 V2].
  eapply (vinv_global b path els su OKS); eauto.
Qed.
Lemma at_point_dofs c c' : (forall d, d < pb_dim (build b) -> c [d] = c' [d]) -> equal_functions els su c su c'.
Proof.
  intros H d e x He. unfold at_point. rewrite (bind_same E X b path els su c c' d e OKS He); [reflexivity|].
  intros mu Hd. destruct (dof_flat e mu He Hd) as (k & -> & Hk). auto.
Qed.

Lemma periodic_space : exists pb num, periodic_pb (build b) calls = Some pb /\ pb_size pb [] = Some num /\
  is_subspace els (honoured calls) num (pb_dim (build b)) (over (subspace_of_root pb path) su) su.
Proof.
  destruct periodic_sim as (m & num & pb & Hm & Hpb & Hs & HA). exists pb, num. split; auto. split; auto.
  destruct (periodic_numbering _ calls HR) as (m' & num' & Hm' & Hl & Hv & Hsu & Hsh & _).
  rewrite Hm in Hm'. injection Hm' as <- <-.
  split.
  - intros c Hc. exists (renamed (phi_of m) c). split; [|split].
    + intros d Hd. destruct (Hv d Hd) as (y & Hy & Hlt). unfold renamed, phi_of. rewrite Hy. auto.
    + intros d d' Hd Hd' HH. unfold renamed, phi_of. apply (Hsh d d' Hd Hd') in HH. now rewrite HH.
    + intros d e x He. apply HA. exact He.
  - intros c Hc HE.
    pose (hit := fun x d => match nth_error m d with Some (Some y) => y =? x | _ => false end).
    pose (c' := fun k : mi => match k with
                 | [x] => match find (hit x) (seq 0 (pb_dim (build b))) with Some d => c [d] | None => None end
                 | _ => None end).
    assert (F : forall x, x < num -> exists d, find (hit x) (seq 0 (pb_dim (build b))) = Some d /\ d < pb_dim (build b) /\ nth_error m d = Some (Some x)).
    { intros x Hx. destruct (find (hit x) (seq 0 (pb_dim (build b)))) as [d|] eqn:Ef.
      - exists d. split; auto. apply find_some in Ef as [H1 H2]. apply in_seq in H1. split; [lia|]. unfold hit in H2.
        destruct (nth_error m d) as [[y|]|]; try discriminate. apply Nat.eqb_eq in H2. now subst.
      - exfalso. destruct (Hsu x Hx) as (d & Hd & Hd'). assert (Hn : hit x d = false) by (apply (find_none _ _ Ef); apply in_seq; lia).
        unfold hit in Hn. rewrite Hd', Nat.eqb_refl in Hn. discriminate. }
    exists c'. split.
    + intros x Hx. destruct (F x Hx) as (d & Ed & Hd & _). unfold c'. rewrite Ed. auto.
    + intros d e x He. rewrite HA by auto. apply at_point_dofs; auto. intros k Hk. destruct (Hv k Hk) as (y & Hy & Hlt).
      destruct (F y Hlt) as (d0 & Ed & Hd & Hd0). unfold renamed, phi_of. rewrite Hy. unfold c'. rewrite Ed. apply HE; auto.
      apply (Hsh d0 k Hd Hk). congruence.
Qed.
End Periodic.

(** The functions of a periodic basis are exactly the functions of the raw basis whose
    coefficients agree at DOFs connected by honoured requests ... *)
Theorem C72_periodic_functions_are_raw_functions E X (b : bexpr E) path els (su : setup E X) calls :
  setup_ok b path els su -> flat_basis b -> in_range (pb_dim (build b)) calls ->
  exists pb num, periodic_pb (build b) calls = Some pb /\ pb_size pb [] = Some num /\
    is_subspace els (honoured calls) num (pb_dim (build b)) (over (subspace_of_root pb path) su) su.
Proof. apply periodic_space. Qed.
(** ... and if any two smaller partners of a DOF are requested to be unified too (for example
    if no DOF has two), at all DOFs connected by requests. *)
Theorem C72_periodic_functions_agree_at_unified_dofs_partial E X (b : bexpr E) path els (su : setup E X) calls :
  setup_ok b path els su -> flat_basis b -> in_range (pb_dim (build b)) calls -> partners_requested calls ->
  exists pb num, periodic_pb (build b) calls = Some pb /\ pb_size pb [] = Some num /\
    is_subspace els (unified calls) num (pb_dim (build b)) (over (subspace_of_root pb path) su) su.
Proof.
  intros OKS Hf HR HP. destruct (periodic_space b path els su calls OKS Hf HR) as (pb & num & H1 & H2 & H3 & H4).
  exists pb, num. split; auto. split; auto. split.
  - intros c' Hc. destruct (H3 c' Hc) as (c & C1 & C2 & C3). exists c. split; auto. split; auto. intros d d' Hd Hd' HU. apply C2; auto. now apply unified_honoured.
  - intros c Hc HE. apply H4; auto. intros d d' Hd Hd' HU. apply HE; auto. now apply honoured_unified.
Qed.
(** Whatever the requests are: a raw function with equal coefficients at requested pairs is
    a function of the periodic basis. *)
Theorem C72_requested_periodicity_suffices E X (b : bexpr E) path els (su : setup E X) calls pb num c :
  setup_ok b path els su -> flat_basis b -> in_range (pb_dim (build b)) calls ->
  periodic_pb (build b) calls = Some pb -> pb_size pb [] = Some num ->
  filled (pb_dim (build b)) (su_cdim su) c -> (forall d d', In (d, d') calls -> c [d] = c [d']) ->
  exists c', filled num (su_cdim su) c' /\ equal_functions els (over (subspace_of_root pb path) su) c' su c.
Proof.
  intros OKS Hf HR Hpb Hn Hc HE. destruct (periodic_space b path els su calls OKS Hf HR) as (pb' & num' & H1 & H2 & _ & H4).
  rewrite Hpb in H1. injection H1 as <-. rewrite Hn in H2. injection H2 as <-.
  apply H4; auto. intros d d' _ _ HU. apply honoured_unified in HU. induction HU as [x y [H|H]|x|x y _ IH|x y z _ IH1 _ IH2]; auto; [symmetry; auto|congruence].
Qed.

(** The coefficients of a function of a periodic basis are unique if the shape functions of
    the raw basis are independent. *)
Theorem C72_periodic_coefficients_are_unique E X (b : bexpr E) els (su : setup E X) calls pb num c c' :
  setup_ok b [] els su -> independent b [] els (fun _ _ => True) su -> flat_basis b -> in_range (pb_dim (build b)) calls ->
  periodic_pb (build b) calls = Some pb -> pb_size pb [] = Some num ->
  filled num (su_cdim su) c -> filled num (su_cdim su) c' ->
  (forall e x, els e -> value (over (subspace_of_root pb []) su) c e x = value (over (subspace_of_root pb []) su) c' e x) ->
  forall k, k < num -> c [k] = c' [k].
Proof.
  intros OKS HI Hf HR Hpb Hn Hc Hc' HV k Hk.
  destruct (periodic_sim b [] els su calls OKS Hf HR) as (m & num' & pb' & Hm & Hpb' & Hs & HA).
  rewrite Hpb in Hpb'. injection Hpb' as <-. rewrite Hn in Hs. injection Hs as <-.
  destruct (periodic_numbering _ calls HR) as (m' & num' & Hm' & Hl & Hv & Hsu & Hsh & _).
  rewrite Hm in Hm'. injection Hm' as <- <-.
  destruct (Hsu k Hk) as (d & Hd & Hmd).
  assert (OKC : forall c, filled num (su_cdim su) c -> coefs_ok b els su (renamed (phi_of m) c)).
  { intros c0 Hc0 mu Gm. apply (flat_global b els mu (so_wf _ _ _ _ OKS) Hf) in Gm as (q & -> & Hq). destruct (Hv q Hq) as (y & Hy & Hlt).
    unfold renamed, phi_of. rewrite Hy. auto. }
  pose proof (C69_coefficients_are_unique E X b els (fun _ _ => True) su (renamed (phi_of m) c) (renamed (phi_of m) c') [d] OKS HI (OKC c Hc) (OKC c' Hc')) as U.
  unfold renamed, phi_of in U. rewrite Hmd in U. apply U.
  - intros e x He _. specialize (HV e x He). pose proof (HA false c e x He) as A1. pose proof (HA false c' e x He) as A2.
    unfold at_point in A1, A2. unfold value in *. unfold renamed, phi_of in A1, A2. rewrite <- A1, <- A2. exact HV.
  - apply (flat_global b els _ (so_wf _ _ _ _ OKS) Hf). eauto.
Qed.

(** Functions of a periodic basis of Lagrange elements take the same values in the nodes of
    DOFs that are connected by honoured requests. *)
Theorem C72_periodic_in_the_nodes E X (b : bexpr E) path els pts (su : setup E X) node calls pb num c e v p n i k d e' v' p' n' i' k' d' j :
  setup_ok b path els su -> flat_basis b -> nodal b path els pts su node -> in_range (pb_dim (build b)) calls ->
  periodic_pb (build b) calls = Some pb -> pb_size pb [] = Some num -> filled num (su_cdim su) c ->
  els e -> leaf_of b path e v p n -> Basis_model.local_index n i = Some k -> lv_index v k = Some [d] ->
  els e' -> leaf_of b path e' v' p' n' -> Basis_model.local_index n' i' = Some k' -> lv_index v' k' = Some [d'] ->
  honoured calls d d' -> j < su_cdim su ->
  exists y y' z z' r, value (over (subspace_of_root pb path) su) c e (node e p i) = Some y /\
    value (over (subspace_of_root pb path) su) c e' (node e' p' i') = Some y' /\
    node_to_range p y = Some z /\ node_to_range p' y' = Some z' /\
    nth_error (scalars z) (j * su_vdim su p) = Some r /\ nth_error (scalars z') (j * su_vdim su p') = Some r.
Proof.
  intros OKS Hf HN HR Hpb Hn Hc He L Hk Hd He' L' Hk' Hd' HH Hj.
  destruct (periodic_space b path els su calls OKS Hf HR) as (pb' & num' & H1 & H2 & H3 & _).
  rewrite Hpb in H1. injection H1 as <-. rewrite Hn in H2. injection H2 as <-.
  destruct (H3 c Hc) as (c0 & C1 & C2 & C3).
  assert (OKC : coefs_ok b els su c0).
  { intros mu Gm. apply (flat_global b els mu (so_wf _ _ _ _ OKS) Hf) in Gm as (q & -> & Hq). auto. }
  assert (V : forall e v p n i k d, els e -> leaf_of b path e v p n -> Basis_model.local_index n i = Some k -> lv_index v k = Some [d] ->
    exists y z l, value (over (subspace_of_root pb path) su) c e (node e p i) = Some y /\ node_to_range p y = Some z /\ d < pb_dim (build b) /\
      c0 [d] = Some l /\ nth_error (scalars z) (j * su_vdim su p) = Some (nth j l 0%R)).
  { clear - OKS Hf HN C3 OKC Hj. intros e v p n i k d He L Hk Hd.
    destruct (dof_coef b path els su OKS c0 e v n i k [d] p He OKC L Hk Hd) as (l & L1 & L2 & Hi & L3).
    destruct (value_is b path els su OKS c0 e (node e p i) He OKC) as (y & Y1 & _ & Y2).
    destruct (Y2 v p n L) as (z & Z1 & _ & Z2). assert (NZ : node_size n <> 0) by lia. destruct (Z2 NZ) as [_ Q].
    destruct (HN e v p n He L NZ) as [Hv0 HS].
    exists y, z, l. split; [|split; auto; split; [|split; auto]].
    - specialize (C3 false e (node e p i) He). unfold at_point in C3. unfold value. rewrite C3. exact Y1.
    - destruct (dof_flat b path els su OKS Hf e [d] He) as (q & [= <-] & Hq); auto. exists v, p, n, i, k. auto.
    - rewrite <- (Nat.add_0_r (j * su_vdim su p)). rewrite (Q j 0 Hj Hv0). f_equal.
      rewrite (rsum_ext _ _ (fun q => (coef_of c0 v n q j * (if q =? i then 1 else 0))%R)).
      + rewrite rsum_pick by auto. apply L3.
      + intros q Hq. f_equal. now apply HS. }
  destruct (V e v p n i k d He L Hk Hd) as (y & z & l & A1 & A2 & A3 & A4 & A5).
  destruct (V e' v' p' n' i' k' d' He' L' Hk' Hd') as (y' & z' & l' & B1 & B2 & B3 & B4 & B5).
  assert (l' = l) as -> by (specialize (C2 d d' A3 B3 HH); congruence).
  exists y, y', z, z', (nth j l 0%R). auto 8.
Qed.

(** * The hypotheses are met *)

(** Two linear components on two intervals, six flat indices; both components are periodic:
    the requests unify 0 with 4 and 1 with 5. *)
Definition ex72_b : bexpr nat := BPower true 2 FlatInterleaved (BLeaf ex_p1).
Definition ex72_calls : list (nat * nat) := [(4, 0); (1, 5); (3, 3)].
Definition ex72_su : setup nat R := SU (subspace_of_root (build ex72_b) []) 1 (fun _ => 1) 1 1
  (fun _ _ x => [[1 - x]; [x]]%R) (fun _ _ _ => [[- (1)]; [1]]%R) (fun _ _ _ _ => 2%R)
  (CBlk [CVal 0; CVal 0])%R (fun _ => FScalar) (CBlk [CBlk [CVal 0]; CBlk [CVal 0]])%R (fun _ => FVec (Some 1) FScalar).
Definition ex72_node (_ : nat) (_ : list nat) (i : nat) : R := INR i.

Lemma ex72_leaf e v p n : leaf_of ex72_b [] e v p n -> (p = [0] \/ p = [1]) /\ node_size n = 2.
Proof.
  intros (H1 & H2 & H3). injection H1 as <-. cbn [app] in H2. destruct p as [|[|[|i]] p]; cbn in H2.
  - injection H2 as <-. discriminate.
  - destruct p; cbn in H2; [|destruct n0; discriminate]. injection H2 as <-. cbn. auto.
  - destruct p; cbn in H2; [|destruct n0; discriminate]. injection H2 as <-. cbn. auto.
  - destruct i; discriminate.
Qed.
Example ex72_setup_ok : setup_ok ex72_b [] ex_els ex72_su.
Proof.
  constructor.
  - cbn. split; [lia|]. split; [apply ex_p1_ok|]. discriminate.
  - cbn. eauto.
  - reflexivity.
  - intros e v p n x He L. destruct (ex72_leaf e v p n L) as [[ -> | -> ] ->]; cbn; repeat constructor.
  - intros e v p n x He L. destruct (ex72_leaf e v p n L) as [[ -> | -> ] ->]; cbn; repeat constructor.
  - intros e v p n He L. destruct (ex72_leaf e v p n L) as [[ -> | -> ] _]; (split; [|right; cbn; eauto]); eexists; repeat split; reflexivity.
  - intros e v p n He L. destruct (ex72_leaf e v p n L) as [[ -> | -> ] _]; (split; [|right; cbn; eauto]); eexists; (split; [reflexivity|]); repeat split; repeat constructor.
Qed.
Example ex72_requests : flat_basis ex72_b /\ in_range (pb_dim (build ex72_b)) ex72_calls /\ partners_requested ex72_calls /\
  honoured ex72_calls 4 0 /\ exists pb, periodic_pb (build ex72_b) ex72_calls = Some pb /\ pb_size pb [] = Some 4.
Proof.
  split; [split; [reflexivity|]; unfold no_empty_blocks; cbn; repeat constructor|]. split; [|split; [|split]].
  - intros x y [[= <- <-]|[[= <- <-]|[[= <- <-]|[]]]]; cbn; lia.
  - intros x y z L1 L2 [H|H] [H'|H']; cbn in H, H';
      repeat match goal with
             | H : _ \/ _ |- _ => destruct H
             | H : (_, _) = (_, _) |- _ => injection H; clear H; intros
             | H : False |- _ => destruct H
             end; lia.
  - apply rst_step. split; [lia|]. split; [right; cbn; auto|]. intros a' Ha [H|H]; cbn in H;
      repeat match goal with
             | H : _ \/ _ |- _ => destruct H
             | H : (_, _) = (_, _) |- _ => injection H; clear H; intros
             | H : False |- _ => destruct H
             end; lia.
  - eexists. split; reflexivity.
Qed.
Example ex72_nodal : nodal ex72_b [] ex_els (fun _ x => 0 <= x <= 1)%R ex72_su ex72_node.
Proof.
  intros e v p n He L NZ. destruct (ex72_leaf e v p n L) as [_ ->]. split; [cbn; lia|]. intros i j Hi Hj. unfold shape_of, ex72_node. cbn.
  do 2 (destruct i as [|i]; [do 2 (destruct j as [|j]; [cbn; split; lra|]); lia|]). lia.
Qed.
Example ex72_independent : independent ex72_b [] ex_els (fun _ _ => True) ex72_su.
Proof.
  intros e v p n a He L H0 i Hi. destruct (ex72_leaf e v p n L) as [_ Hn]. rewrite Hn in *.
  pose proof (H0 0%R 0 I Nat.lt_0_1) as A. pose proof (H0 1%R 0 I Nat.lt_0_1) as B. cbn in A, B. unfold shape_of in A, B. cbn in A, B.
  do 2 (destruct i as [|i]; [lra|]). lia.
Qed.
(** Functions over this periodic basis have the same value in both components at both ends. *)
Example ex72_case c : filled 4 1 c -> exists pb, periodic_pb (build ex72_b) ex72_calls = Some pb /\
  exists y y' z z' r, value (over (subspace_of_root pb []) ex72_su) c 0 0%R = Some y /\
    value (over (subspace_of_root pb []) ex72_su) c 1 1%R = Some y' /\ node_to_range [0] y = Some z /\ node_to_range [0] y' = Some z' /\
    nth_error (scalars z) 0 = Some r /\ nth_error (scalars z') 0 = Some r.
Proof.
  intros Hc. destruct ex72_requests as (Hf & HR & HP & HH & pb & Hpb & Hn). exists pb. split; auto.
  assert (H0 : forall e, ex_els e -> exists v n, leaf_of ex72_b [] e v [0] n /\ forall i, i < 2 -> Basis_model.local_index n i = Some i /\ lv_index v i = Some [2 * (e + i)]).
  { intros e He. unfold ex_els in He. destruct e as [|[|e]]; [| |lia]; (do 2 eexists; split; [split; [reflexivity|]; split; reflexivity|]);
      intros [|[|i]] Hi; try (split; reflexivity); lia. }
  destruct (H0 0) as (v & n & L & Q); [unfold ex_els; lia|]. destruct (H0 1) as (v' & n' & L' & Q'); [unfold ex_els; lia|].
  destruct (Q 0) as [Q1 Q2]; [lia|]. destruct (Q' 1) as [Q1' Q2']; [lia|].
  destruct (C72_periodic_in_the_nodes nat R ex72_b [] ex_els (fun _ x => 0 <= x <= 1)%R ex72_su ex72_node ex72_calls pb 4 c
    1 v' [0] n' 1 1 4 0 v [0] n 0 0 0 0 ex72_setup_ok Hf ex72_nodal HR Hpb Hn Hc) as (y & y' & z & z' & r & R); auto; try (unfold ex_els; lia).
  unfold ex72_node in R. cbn [INR] in R. exists y', y, z', z, r. tauto.
Qed.
(** A transformation that reverses the indices, and a program using a function over it. *)
Example ex72_reversed c x :
  let phi := fun m : mi => match m with [d] => [5 - d] | _ => m end in
  let t := TR (fun _ m => Some (phi m)) (pb_size (build ex72_b)) 6 None 1 1 in
  let h := [OpNew false; OpBind 0 1; OpDerivative 0; OpUnbind 0; OpBind 0 0] in
  seen (over (subspace_of_root (transformed_pb t (build ex72_b)) []) ex72_su) c h 1 x =
  seen ex72_su (renamed phi c) (map (renamed_op phi) h) 1 x.
Proof.
  apply (C72_transformed_basis_renames_coefficients nat R ex72_b [] ex_els).
  - apply ex72_setup_ok.
  - intros m _. reflexivity.
  - reflexivity.
  - intros i e [H|[H|[H|[H|[H|[]]]]]]; try discriminate H; injection H as <- <-; unfold ex_els; lia.
Qed.

Print Assumptions C72_transformed_basis_renames_coefficients.
Print Assumptions C72_periodic_functions_are_raw_functions.
Print Assumptions C72_periodic_functions_agree_at_unified_dofs_partial.
Print Assumptions C72_requested_periodicity_suffices.
Print Assumptions C72_periodic_coefficients_are_unique.
Print Assumptions C72_periodic_in_the_nodes.
