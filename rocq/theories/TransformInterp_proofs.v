(** interpolate() over a basis with transformed indices is a sequence of writes (C74). *)
From Coq Require Import List Arith Bool Lia.
From Verif Require Import Lib Basis_model Basis_spec Basis_proofs Basis_ok Basis_view Basis_props
  Container_model Container_spec Container_proofs Container_desc Container_props Interpolate_model Interpolate_props.
Import ListNotations.

Section Writes.
Context {E V : Type}.
Notation cont := (cont V).
Variables (t : cty) (mask : mi -> bool) (interp : E -> list nat -> list V).
Variables (b : bexpr E) (els : E -> Prop) (path : list nat) (tr : transformation) (phi : mi -> mi).
Hypothesis Hwf : wf els b.
Hypothesis Hphi : forall m, global_index els b m -> tr_index tr (max (pb_bufmi (build b)) (tr_max tr)) m = Some (phi m).
Hypothesis Hpath : exists n, descendant (pb_node (build b)) path = Some n.
Hypothesis Hint : interp_ok b path els interp.
Definition trs : subspace E := subspace_of_root (transformed_pb tr (build b)) path.

Lemma tr_bind v e : skel (lv_tree v) = skel (pb_node (build b)) -> els e ->
  lv_bind (transformed_pb tr (build b)) v e =
  Some (LV (Some e) (bind_tree e 0 (lv_tree v)) (map phi (map (sp_glob (meaning b)) (sp_keys (meaning b) e)))).
Proof.
  intros S4 He. pose proof (build_ok b els Hwf) as OK. set (ix := map (sp_glob (meaning b)) (sp_keys (meaning b) e)).
  assert (GI : forall m, In m ix -> global_index els b m).
  { intros m Hm. apply (global_index_iff b els m Hwf). unfold ix in Hm. apply in_map_iff in Hm as (k & <- & Hk).
    eapply (ok_valid _ _ _ OK); eauto. }
  unfold lv_bind. cbn [transformed_pb pb_indices pb_bufmi].
  rewrite (ok_nsize _ _ _ OK (lv_tree v) e 0 He S4).
  pose proof (ok_ind _ _ _ OK (max (pb_bufmi (build b)) (tr_max tr)) (lv_tree v) e 0 []
                (vresize (lv_indices v) (length (sp_keys (meaning b) e)) []) [] He S4 (Nat.le_max_l _ _)
                (vresize_length _ _ _)) as H.
  cbn [app length] in H. rewrite !app_nil_r in H. rewrite H. cbn [obind snd].
  rewrite <- (map_length (sp_glob (meaning b)) (sp_keys (meaning b) e)). fold ix.
  pose proof (tr_loop _ phi ix [] [] (fun m Hm => Hphi m (GI m Hm)) 0) as TL.
  cbn [app length] in TL. rewrite !app_nil_r in TL. rewrite TL. reflexivity.
Qed.

Lemma tr_element_writes v e : view_ok b v -> els e ->
  exists v' ws, sv_bind trs v e = Some v' /\ view_ok b v' /\
    (forall c, interpolate_local t mask interp trs v' c = writes t mask ws c) /\
    (forall m x, In (m, x) ws <-> exists m0, local_value b path interp e m0 x /\ m = phi m0).
Proof.
  intros Hv He. pose proof (build_ok b els Hwf) as OK. unfold sv_bind, trs. cbn [ss_root subspace_of_root].
  assert (Hsk : skel (lv_tree v) = skel (pb_node (build b))) by (rewrite (tskel_skel _ _ Hv); apply new_skel).
  rewrite (tr_bind v e Hsk He). set (v' := LV _ _ _). exists v'.
  set (ix := map (sp_glob (meaning b)) (sp_keys (meaning b) e)) in *.
  assert (Hnew : lv_bind (build b) (lv_new (build b)) e = Some (LV (Some e)
            (bind_tree e 0 (fst (init_tree 0 (pb_node (build b))))) ix)).
  { apply (bind_new_ok els _ _ e OK He). }
  set (v1 := LV (Some e) (bind_tree e 0 (fst (init_tree 0 (pb_node (build b))))) ix) in Hnew.
  assert (HST : same_tree (lv_tree v') (lv_tree v1)) by (apply same_bind; exact Hv).
  assert (Hix : forall k, lv_index v' k = option_map phi (lv_index v1 k)).
  { intros k. unfold lv_index. cbn [v' v1 lv_indices]. apply nth_error_map_eq. }
  assert (Hsz : length (lv_indices v1) = node_size (lv_tree v')).
  { cbn [v' v1 lv_indices lv_tree]. unfold ix. rewrite map_length. symmetry. apply (ok_nsize _ _ _ OK _ e 0 He Hsk). }
  destruct (descendant (lv_tree v') path) as [tn|] eqn:Etr.
  2:{ exfalso. destruct Hpath as [n0 Hn0]. cbn in Etr.
      apply (skel_descendant mask path _ (pb_node (build b)) path) in Etr; [congruence|]. rewrite skel_bind. exact Hsk. }
  assert (HL : forall p n, In (p, n) (leaf_nodes tn) ->
    exists ws, (forall c, interpolate_leaf t mask interp v' (p, n) c = writes t mask ws c) /\
      forall m x, In (m, x) ws <-> exists j k, local_index n j = Some k /\ lv_index v' k = Some m /\ nth_error (interp e p) j = Some x).
  { intros p n Hn. unfold interpolate_leaf. destruct (Nat.eqb_spec (node_size n) 0) as [Hz|Hnz].
    - exists []. split; auto. intros m x. split; [intros []|]. intros (j & k & H1 & _). apply local_index_Some in H1. lia.
    - pose proof Hn as Hn'. apply leaf_nodes_descendant in Hn' as [Hd Hlf].
      assert (Hd' : descendant (lv_tree v') (path ++ p) = Some n) by (rewrite descendant_app', Etr; exact Hd).
      assert (HI : In (path ++ p, n) (leaf_nodes (lv_tree v'))) by (apply leaf_nodes_descendant; auto).
      destruct (bound_leaf e (lv_tree v) 0 (path ++ p) n HI Hnz) as (mx & g & fe & -> & Hfe).
      assert (HR : forall i k, local_index (NLeaf mx g fe (Some e)) i = Some k -> exists m, lv_index v' k = Some m).
      { intros i k Hk. pose proof (C12_leaf_indices_in_range (lv_tree v) e 0 (path ++ p) _ i k Hd' Hlf Hk) as Hr. cbn in Hr.
        rewrite Hix. destruct (nth_error_lt_Some (lv_indices v1) k) as [m0 Hm0]; [rewrite Hsz; cbn; lia|].
        unfold lv_index. rewrite Hm0. cbn. eauto. }
      assert (HX : fe e <= length (interp e p)).
      { pose proof (HST (path ++ p)) as Q. rewrite Hd' in Q. destruct (descendant (lv_tree v1) (path ++ p)) as [n1|] eqn:En1; [|contradiction].
        destruct Q as (Q1 & Q2 & _ & _ & Q3 & _). rewrite <- Hfe, Q2. eapply Hint; eauto. }
      destruct (forl_writes t mask (fe e) 0 (fun i c =>
          k <- local_index (NLeaf mx g fe (Some e)) i ;; m <- lv_index v' k ;;
          if mask m then x <- nth_error (interp e p) i ;; backend_write t c m x else Some c)
        (fun i w => exists k, local_index (NLeaf mx g fe (Some e)) i = Some k /\ lv_index v' k = Some (fst w) /\
                              nth_error (interp e p) i = Some (snd w))) as (ws & W1 & W2).
      { intros i Hi.
        assert (Hk : local_index (NLeaf mx g fe (Some e)) i = Some (node_offset (NLeaf mx g fe (Some e)) + i)).
        { apply local_index_Some. rewrite Hfe. split; [lia|reflexivity]. }
        destruct (HR _ _ Hk) as [m Hm]. destruct (nth_error_lt_Some (interp e p) i) as [x Hx]; [lia|].
        exists (m, x). split; [eauto|]. intros c. rewrite Hk. cbn [obind]. rewrite Hm. cbn [obind].
        unfold write1. cbn [fst snd]. destruct (mask m); [|reflexivity]. now rewrite Hx. }
      exists ws. split; [exact W1|]. intros m x. split.
      + intros HI2. apply In_nth_error in HI2 as [i Hi].
        destruct (Forall2_nth_r _ _ _ _ _ W2 Hi) as (i' & _ & k & P1 & P2 & P3). exists i', k. auto.
      + intros (j & k & P1 & P2 & P3). pose proof P1 as P1'. apply local_index_Some in P1' as [Hj _]. rewrite Hfe in Hj.
        destruct (Forall2_nth_l _ _ _ j j W2) as ([m' x'] & Hw & k' & R1 & R2 & R3).
        { rewrite nth_error_seq. destruct (Nat.ltb_spec j (fe e)); [f_equal; lia|lia]. }
        cbn [fst snd] in *. assert (k' = k) as -> by congruence.
        assert (m' = m) as -> by congruence. assert (x' = x) as -> by congruence.
        eapply nth_error_In; eauto. }
  assert (HA : forall l, (forall p n, In (p, n) l -> In (p, n) (leaf_nodes tn)) ->
    exists ws, (forall c, interpolate_leaves t mask interp v' l c = writes t mask ws c) /\
      forall m x, In (m, x) ws <-> exists p n j k, In (p, n) l /\ local_index n j = Some k /\ lv_index v' k = Some m /\ nth_error (interp e p) j = Some x).
  { induction l as [|[p n] l IHl]; intros Hl.
    - exists []. split; [reflexivity|]. intros m x. split; [intros []|]. intros (p & n & j & k & [] & _).
    - destruct (HL p n (Hl p n (or_introl eq_refl))) as (ws1 & A1 & A2).
      destruct IHl as (ws2 & B1 & B2); [intros; apply Hl; now right|].
      exists (ws1 ++ ws2). split.
      + intros c. cbn [interpolate_leaves]. rewrite A1, writes_app. destruct (writes t mask ws1 c); cbn; auto.
      + intros m x. rewrite in_app_iff, A2, B2. split.
        * intros [(j & k & P)|(p' & n' & j & k & P1 & P2)].
          -- exists p, n, j, k. split; [now left|]. exact P.
          -- exists p', n', j, k. split; [now right|]. exact P2.
        * intros (p' & n' & j & k & [[= <- <-]|P1] & P2); [left; eauto|right; eauto 8]. }
  destruct (HA (leaf_nodes tn)) as (ws & W1 & W2); [auto|].
  exists ws. split; [reflexivity|]. split.
  { unfold view_ok. cbn [v' lv_tree]. rewrite tskel_bind. exact Hv. }
  split.
  { intros c. unfold interpolate_local, sv_tree. cbn [ss_path subspace_of_root]. rewrite Etr. cbn [obind].
    rewrite for_each_leaf_eq. apply W1. }
  intros m x. rewrite W2. split.
  - intros (p & n & j & k & Hn & P1 & P2 & P3). apply leaf_nodes_descendant in Hn as [Hd Hlf].
    assert (Hd' : descendant (lv_tree v') (path ++ p) = Some n) by (rewrite descendant_app', Etr; exact Hd).
    pose proof (HST (path ++ p)) as Q. rewrite Hd' in Q. destruct (descendant (lv_tree v1) (path ++ p)) as [n1|] eqn:En1; [|contradiction].
    destruct Q as (Q1 & Q2 & _ & _ & Q3 & _). rewrite Hix in P2. destruct (lv_index v1 k) as [m0|] eqn:Em0; [|discriminate].
    cbn in P2. injection P2 as <-. exists m0. split; [|reflexivity].
    exists v1, p, n1, j, k. split; [exact Hnew|]. split; auto. split; [congruence|].
    split; [|split; auto]. apply local_index_Some. apply local_index_Some in P1. lia.
  - intros (m0 & (v2 & p & n & j & k & P0 & P1 & P2 & P3 & P4 & P5) & ->). rewrite Hnew in P0. injection P0 as <-.
    pose proof (HST (path ++ p)) as Q. rewrite P1 in Q. destruct (descendant (lv_tree v') (path ++ p)) as [n1|] eqn:En1; [|contradiction].
    destruct Q as (Q1 & Q2 & _ & _ & Q3 & _). rewrite descendant_app', Etr in En1.
    exists p, n1, j, k. split; [apply leaf_nodes_descendant; split; [exact En1|congruence]|].
    split; [|split; auto]. { apply local_index_Some. apply local_index_Some in P3. lia. } rewrite Hix, P4. reflexivity.
Qed.

Lemma tr_elements_writes es : forall v, view_ok b v -> (forall e, In e es -> els e) ->
  exists ws, (forall c, interpolate_elements t mask interp trs v es c = writes t mask ws c) /\
    forall m x, In (m, x) ws <-> exists e m0, In e es /\ local_value b path interp e m0 x /\ m = phi m0.
Proof.
  induction es as [|e es IH]; intros v Hv Hes.
  - exists []. split; [reflexivity|]. intros m x. split; [intros []|]. intros (e & m0 & [] & _).
  - destruct (tr_element_writes v e Hv (Hes e (or_introl eq_refl))) as (v' & ws & H1 & H2 & H3 & H4).
    destruct (IH v' H2) as (wss & H5 & H6); [intros; apply Hes; now right|].
    exists (ws ++ wss). split.
    + intros c. cbn [interpolate_elements]. rewrite H1. cbn [obind]. rewrite H3, writes_app. destruct (writes t mask ws c); cbn; auto.
    + intros m x. rewrite in_app_iff, H4, H6. split.
      * intros [(m0 & Q)|(e' & m0 & Q1 & Q2)]; [exists e, m0; split; [now left|auto]|exists e', m0; split; [now right|auto]].
      * intros (e' & m0 & [<-|Q1] & Q2); [left; eauto|right; eauto].
Qed.
End Writes.
