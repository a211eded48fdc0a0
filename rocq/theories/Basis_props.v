(** Theorems about global bases: C04-C14, C16, C20 (every nesting of leaf, power,
    composite, restricted and Taylor-Hood bases), and C15, C17. *)
From Coq Require Import List Arith Bool Lia.
From Verif Require Import Lib Basis_model Basis_spec Basis_proofs Basis_ok Basis_view.
Import ListNotations.

Section Props.
Context {E : Type}.
Implicit Types (b : bexpr E) (els : E -> Prop) (e : E) (v : lview E).

Lemma prefix_subtree b els p q :
  wf els b -> global_index els b (p ++ q) ->
  exists t, subtree (sp_tree (meaning b)) p = Some t /\ subtree t q = Some DOF.
Proof.
  intros Hwf H. apply (global_index_iff b els _ Hwf) in H. rewrite subtree_app in H.
  destruct (subtree (sp_tree (meaning b)) p) as [t|]; [|discriminate]. eauto.
Qed.

(** ** C04 *)

(** size(prefix) is the number of children of the prefix in the documented tree. *)
Theorem C04_size_is_the_index_tree b els p t :
  wf els b -> subtree (sp_tree (meaning b)) p = Some t ->
  pb_size (build b) p = Some (degree t).
Proof. intros Hwf. apply (ok_size _ _ _ (build_ok b els Hwf)). Qed.

(** The same without the tree: for every prefix of an occurring index (and for the
    empty prefix), the digits that can follow are exactly 0..size(prefix)-1. *)
Theorem C04_size_counts_next_digits b els p q :
  wf els b -> no_empty_blocks b -> p = [] \/ global_index els b (p ++ q) ->
  exists s, pb_size (build b) p = Some s /\
            forall d, d < s <-> exists r, global_index els b (p ++ d :: r).
Proof.
  intros Hwf Hne H.
  assert (HT : exists t, subtree (sp_tree (meaning b)) p = Some t).
  { destruct H as [->|H]; [cbn; eauto|]. apply (prefix_subtree b els p q Hwf) in H as (t & Ht & _). eauto. }
  destruct HT as [t Ht]. exists (degree t). split; [now apply (C04_size_is_the_index_tree b els p t)|].
  intros d. split.
  - intros Hd. destruct t as [|f]; cbn in Hd; [lia|].
    destruct (nth_error_lt_Some f d Hd) as [x Hx].
    assert (Fx : full x).
    { apply (full_below_root (sp_forest (meaning b)) (p ++ [d])); auto.
      - change (Blk (sp_forest (meaning b))) with (sp_tree (meaning b)).
        rewrite subtree_app, Ht. cbn. now rewrite Hx.
      - destruct p; discriminate. }
    destruct (full_has_dof x Fx) as [r Hr]. exists r.
    apply (global_index_iff b els _ Hwf). rewrite subtree_app, Ht. cbn. now rewrite Hx.
  - intros [r Hr]. apply (global_index_iff b els _ Hwf) in Hr. rewrite subtree_app, Ht in Hr.
    destruct t as [|f]; [discriminate|]. cbn in Hr |- *.
    destruct (nth_error f d) eqn:N; [|discriminate]. now apply nth_error_Some_lt in N.
Qed.

(** size(prefix) is 0 exactly at complete indices. *)
Theorem C04_size_zero_iff_complete b els p q :
  wf els b -> global_index els b (p ++ q) ->
  (pb_size (build b) p = Some 0 <-> q = []).
Proof.
  intros Hwf H. destruct (prefix_subtree b els p q Hwf H) as (t & Ht & Hq).
  rewrite (C04_size_is_the_index_tree b els p t Hwf Ht). split.
  - destruct q as [|d q]; auto. destruct t as [|[|x f]]; cbn in Hq; try discriminate.
    now destruct d.
  - intros ->. cbn in Hq. injection Hq as ->. reflexivity.
Qed.

(** ** C05 *)

(** dimension() is the number of distinct multi-indices of the basis. *)
Theorem C05_dimension_counts_global_indices b els :
  wf els b ->
  exists L, NoDup L /\ length L = pb_dim (build b) /\ forall m, In m L <-> global_index els b m.
Proof.
  intros Hwf. exists (dof_paths (sp_tree (meaning b))). split; [apply dof_paths_NoDup|]. split.
  - rewrite dof_paths_length. symmetry. apply (ok_dim _ _ _ (build_ok b els Hwf)).
  - intros m. rewrite in_dof_paths. symmetry. now apply global_index_iff.
Qed.

Lemma admitted_iff b els m :
  wf els b -> no_empty_blocks b ->
  admitted (pb_size (build b)) m <-> global_index els b m.
Proof.
  intros Hwf Hne. rewrite (global_index_iff b els m Hwf). split.
  - intros (Hm0 & Hd & Hz).
    assert (G : forall q p, m = p ++ q -> exists t, subtree (sp_tree (meaning b)) p = Some t).
    { intros q p. revert q. induction p as [|d p IH] using rev_ind; intros q Hm; [cbn; eauto|].
      rewrite <- app_assoc in Hm. cbn in Hm. destruct (IH _ Hm) as [t Ht].
      destruct (Hd p d q Hm) as (s & Hs & Hlt).
      rewrite (C04_size_is_the_index_tree b els p t Hwf Ht) in Hs. injection Hs as <-.
      rewrite subtree_app, Ht. destruct t as [|f]; cbn in Hlt; [lia|].
      cbn. destruct (nth_error_lt_Some f d Hlt) as [x ->]. eauto. }
    destruct (G [] m (eq_sym (app_nil_r m))) as [t Ht].
    rewrite (C04_size_is_the_index_tree b els m t Hwf Ht) in Hz. injection Hz as Hz.
    destruct t as [|f]; auto. cbn in Hz. destruct f; [|discriminate]. exfalso.
    pose proof (full_below_root (sp_forest (meaning b)) m _ Hne Ht Hm0) as F.
    apply full_Blk in F as [F _]. congruence.
  - intros H. split; [|split].
    + intros ->. discriminate.
    + intros p d q ->. rewrite subtree_app in H.
      destruct (subtree (sp_tree (meaning b)) p) as [t|] eqn:Ht; [|discriminate].
      exists (degree t). split; [now apply (C04_size_is_the_index_tree b els)|].
      destruct t as [|f]; [discriminate|]. cbn in H |- *.
      destruct (nth_error f d) eqn:N; [|discriminate]. now apply nth_error_Some_lt in N.
    + now rewrite (C04_size_is_the_index_tree b els m DOF Hwf H).
Qed.

(** dimension() is also the number of complete indices admitted by size(prefix). *)
Theorem C05_dimension_counts_admitted_indices b els :
  wf els b -> no_empty_blocks b ->
  exists L, NoDup L /\ length L = pb_dim (build b) /\
            forall m, In m L <-> admitted (pb_size (build b)) m.
Proof.
  intros Hwf Hne. destruct (C05_dimension_counts_global_indices b els Hwf) as (L & H1 & H2 & H3).
  exists L. split; [|split]; auto. intros m. rewrite H3. symmetry. now apply admitted_iff.
Qed.

(** ** C06 *)
Theorem C06_local_index_is_valid b els e v i m :
  wf els b -> els e -> lv_bind (build b) (lv_new (build b)) e = Some v ->
  i < lv_size v -> lv_index v i = Some m ->
  (forall p d q, m = p ++ d :: q -> exists s, pb_size (build b) p = Some s /\ d < s) /\
  pb_size (build b) m = Some 0.
Proof.
  intros Hwf He Hv Hi Hm.
  assert (G : global_index els b m) by (exists e, i; split; auto; exists v; auto).
  apply (global_index_iff b els m Hwf) in G. split.
  - intros p d q ->. rewrite subtree_app in G.
    destruct (subtree (sp_tree (meaning b)) p) as [t|] eqn:Ht; [|discriminate].
    exists (degree t). split; [now apply (C04_size_is_the_index_tree b els)|].
    destruct t as [|f]; [discriminate|]. cbn in G |- *.
    destruct (nth_error f d) eqn:N; [|discriminate]. now apply nth_error_Some_lt in N.
  - now rewrite (C04_size_is_the_index_tree b els m DOF Hwf G).
Qed.

(** Every local index below size() has a multi-index: bind never fails, and the
    index array has exactly size() entries. *)
Theorem C06_every_local_dof_has_an_index b els e :
  wf els b -> els e ->
  exists v, lv_bind (build b) (lv_new (build b)) e = Some v /\
            forall i, i < lv_size v <-> exists m, lv_index v i = Some m.
Proof.
  intros Hwf He. pose proof (build_ok b els Hwf) as OK.
  rewrite (bind_new_ok els _ _ e OK He). eexists. split; [reflexivity|].
  intros i. unfold lv_index, lv_size. cbn [lv_indices lv_tree].
  change (fst (init_tree 0 (pb_node (build b)))) with (lv_tree (lv_new (build b))).
  rewrite (ok_nsize _ _ _ OK _ e 0 He (new_skel _)).
  rewrite <- (map_length (sp_glob (meaning b))). split.
  - apply nth_error_lt_Some.
  - intros [m Hm]. now apply nth_error_Some_lt in Hm.
Qed.

(** ** C07 *)

(** Every local index belongs to exactly one leaf node and one DOF of its basis. *)
Theorem C07_every_local_dof_is_a_leaf_dof b els e v i :
  wf els b -> els e -> lv_bind (build b) (lv_new (build b)) e = Some v -> i < lv_size v ->
  exists p g, dof_of b e v i p g /\ forall p' g', dof_of b e v i p' g' -> p' = p /\ g' = g.
Proof.
  intros Hwf He Hv Hi. pose proof (build_ok b els Hwf) as OK.
  rewrite (bind_new_ok els _ _ e OK He) in Hv. injection Hv as <-.
  set (n0 := fst (init_tree 0 (pb_node (build b)))) in *.
  assert (Hsk : skel n0 = skel (pb_node (build b))) by apply new_skel.
  unfold lv_size in Hi. cbn [lv_tree] in Hi.
  destruct (good_partition (bind_tree e 0 n0) (bind_good e n0 0) i) as (p & n & j & (D & L & LI) & U).
  { rewrite bind_offset. lia. }
  destruct (key_at b els e n0 p n j i Hwf He Hsk D L LI) as (l & g & H1 & H2 & H3).
  exists p, g. split.
  - exists n, l, j. auto.
  - intros p' g' (n' & l' & j' & D' & L' & LI' & A' & N'). cbn [lv_tree] in D'.
    destruct (U p' n' j' D' L' LI') as (-> & -> & ->). rewrite H1 in A'. injection A' as <-.
    rewrite H2 in N'. injection N' as <-. auto.
Qed.

(** Same multi-index exactly if same leaf and same flat index there. *)
Theorem C07_indices_identify_dofs b els e e' v v' i i' p g p' g' :
  wf els b -> els e -> els e' ->
  lv_bind (build b) (lv_new (build b)) e = Some v ->
  lv_bind (build b) (lv_new (build b)) e' = Some v' ->
  dof_of b e v i p g -> dof_of b e' v' i' p' g' ->
  (lv_index v i = lv_index v' i' <-> p = p' /\ g = g').
Proof.
  intros Hwf He He' Hv Hv'. pose proof (build_ok b els Hwf) as OK.
  rewrite (bind_new_ok els _ _ e OK He) in Hv. injection Hv as <-.
  rewrite (bind_new_ok els _ _ e' OK He') in Hv'. injection Hv' as <-.
  set (n0 := fst (init_tree 0 (pb_node (build b)))) in *.
  assert (Hsk : skel n0 = skel (pb_node (build b))) by apply new_skel.
  intros (n & l & j & D & L & LI & A & N) (n' & l' & j' & D' & L' & LI' & A' & N').
  cbn [lv_tree] in D, D'. unfold lv_index. cbn [lv_indices].
  destruct (key_at b els e n0 p n j i Hwf He Hsk D L LI) as (l1 & g1 & B1 & B2 & B3).
  destruct (key_at b els e' n0 p' n' j' i' Hwf He' Hsk D' L' LI') as (l2 & g2 & C1 & C2 & C3).
  rewrite A in B1. injection B1 as <-. rewrite A' in C1. injection C1 as <-.
  rewrite N in B2. injection B2 as <-. rewrite N' in C2. injection C2 as <-.
  rewrite !nth_error_map_eq, B3, C3. cbn [option_map]. split.
  - intros [= H]. apply nth_error_In in B3, C3.
    pose proof (ok_inj _ _ _ OK e e' _ _ He He' B3 C3 H) as K. injection K as -> ->. auto.
  - intros [-> ->]. reflexivity.
Qed.

(** ** C08 *)
Theorem C08_admitted_indices_occur b els m :
  wf els b -> no_empty_blocks b -> admitted (pb_size (build b)) m -> global_index els b m.
Proof. intros Hwf Hne. now apply admitted_iff. Qed.

(** Without the block condition: every DOF of the documented index tree occurs. *)
Theorem C08_index_tree_is_covered b els m :
  wf els b -> (subtree (sp_tree (meaning b)) m = Some DOF <-> global_index els b m).
Proof. intros Hwf. symmetry. now apply global_index_iff. Qed.

(** ** C09 *)
Lemma walk_describes p : forall d t u,
  describes d t -> subtree t p = Some u -> exists c, desc_walk d p = Some c /\ describes c u.
Proof.
  induction p as [|i p IH]; intros d t u Hd Ht.
  - cbn in Ht. injection Ht as <-. cbn. eauto.
  - cbn in Ht. destruct t as [|f]; [discriminate|].
    destruct (nth_error f i) as [x|] eqn:N; [|discriminate]. cbn [desc_walk].
    assert (U : d = DUnknown \/ d <> DUnknown) by (destruct d; auto; right; discriminate).
    destruct U as [->|U]; [exists DUnknown; cbn; auto|].
    assert (C : exists c, desc_child d i = Some c /\ describes c x).
    { destruct (desc_children d) as [cs|] eqn:EC.
      - apply (describes_list d cs (Blk f) EC) in Hd as (f' & [= <-] & F).
        destruct (Forall2_nth_r _ _ _ i x F N) as (c & Nc & Hc). exists c. split; auto.
        destruct d; try discriminate; cbn in EC; injection EC as ->; exact Nc.
      - destruct d as [| | | | |n c|n c]; try discriminate EC; try congruence; cbn in Hd.
        + apply (describes_uniform true) in Hd as [HL HF]. exists c. cbn [desc_child].
          apply nth_error_Some_lt in N as N'. rewrite HL in N'.
          destruct (Nat.ltb_spec i n); [|lia]. split; auto.
          rewrite Forall_forall in HF. apply HF. now apply nth_error_In in N.
        + apply (describes_uniform false) in Hd as [HL HF]. exists c. cbn [desc_child].
          apply nth_error_Some_lt in N as N'. rewrite HL in N'.
          destruct (Nat.ltb_spec i n); [|lia]. split; auto.
          rewrite Forall_forall in HF. apply HF. now apply nth_error_In in N. }
    destruct C as (c & C1 & C2).
    destruct (IH c x u C2 Ht) as (c' & W1 & W2). exists c'. rewrite C1.
    destruct d; try congruence; auto.
Qed.

Lemma describes_size d t : describes d t -> d <> DUnknown ->
  desc_size d = Some (degree t) /\ (d = DValue <-> t = DOF).
Proof.
  intros H U. destruct (desc_children d) as [cs|] eqn:EC.
  - apply (describes_list d cs t EC) in H as (f & -> & F). apply Forall2_len in F.
    destruct d; try discriminate; cbn in EC; injection EC as ->; cbn; (split; [auto|split; discriminate]).
  - destruct d as [| | | | |n c|n c]; try discriminate EC; try congruence; cbn in H.
    + subst t. cbn. split; auto. tauto.
    + destruct H as (f & -> & HL & _). cbn. split; [auto|split; discriminate].
    + destruct H as (f & -> & HL & _). cbn. split; [auto|split; discriminate].
Qed.

(** For every prefix p of an occurring index p++q: walking the descriptor succeeds,
    and unless it is Unknown there, the node reached has size size(p), and is a value
    placeholder exactly if the index is complete. *)
Theorem C09_descriptor_agrees_with_size b els d p q :
  wf els b -> pb_desc (build b) = Some d -> global_index els b (p ++ q) ->
  exists c, desc_walk d p = Some c /\
            (c = DUnknown \/
             pb_size (build b) p = desc_size c /\ (c = DValue <-> q = [])).
Proof.
  intros Hwf Hd H. destruct (prefix_subtree b els p q Hwf H) as (t & Ht & Hq).
  pose proof (ok_desc _ _ _ (build_ok b els Hwf) d Hd) as HD.
  destruct (walk_describes p d _ t HD Ht) as (c & W1 & W2). exists c. split; auto.
  assert (U : c = DUnknown \/ c <> DUnknown) by (destruct c; auto; right; discriminate).
  destruct U as [->|U]; [auto|]. right.
  destruct (describes_size c t W2 U) as [S1 S2].
  rewrite (C04_size_is_the_index_tree b els p t Hwf Ht), S1. split; auto. rewrite S2. split.
  - intros ->. destruct q; [auto|discriminate].
  - intros ->. cbn in Hq. now injection Hq as ->.
Qed.

(** The same at every node of the documented tree, empty blocks included. *)
Theorem C09_descriptor_describes_index_tree b els d p t :
  wf els b -> pb_desc (build b) = Some d -> subtree (sp_tree (meaning b)) p = Some t ->
  exists c, desc_walk d p = Some c /\
            (c = DUnknown \/ desc_size c = Some (degree t) /\ (c = DValue <-> t = DOF)).
Proof.
  intros Hwf Hd Ht. pose proof (ok_desc _ _ _ (build_ok b els Hwf) d Hd) as HD.
  destruct (walk_describes p d _ t HD Ht) as (c & W1 & W2). exists c. split; auto.
  assert (U : c = DUnknown \/ c <> DUnknown) by (destruct c; auto; right; discriminate).
  destruct U as [->|U]; [auto|]. right. now apply describes_size.
Qed.

(** ** C10 *)
Theorem C10_index_lengths b els m :
  wf els b -> global_index els b m ->
  pb_minmi (build b) <= length m <= pb_maxmi (build b) /\
  pb_maxmi (build b) <= pb_bufmi (build b).
Proof.
  intros Hwf H. apply (global_index_iff b els m Hwf) in H.
  pose proof (build_ok b els Hwf) as OK. pose proof (ok_len _ _ _ OK m H). pose proof (ok_buf _ _ _ OK). lia.
Qed.

(** Filling the index array with multi-indices of capacity multiIndexBufferSize never
    overflows one of them (an overflow would be [None]), for any reused view. *)
Theorem C10_buffer_never_overflows b els h :
  wf els b -> (forall e, In (LBind e) h -> els e) ->
  exists v, lv_run (build b) (lv_new (build b)) h = Some v.
Proof.
  intros Hwf Hh. eapply run_defined; eauto using build_ok, new_skel. cbn. discriminate.
Qed.

(** ** C11 *)
Theorem C11_size_at_most_maxsize b els e v :
  wf els b -> els e -> lv_bind (build b) (lv_new (build b)) e = Some v ->
  lv_size v <= lv_maxsize (build b).
Proof.
  intros Hwf He Hv. pose proof (build_ok b els Hwf) as OK.
  rewrite (bind_new_ok els _ _ e OK He) in Hv. injection Hv as <-.
  unfold lv_size. cbn [lv_tree].
  change (fst (init_tree 0 (pb_node (build b)))) with (lv_tree (lv_new (build b))).
  rewrite (ok_nsize _ _ _ OK _ e 0 He (new_skel _)). now apply (ok_maxn _ _ _ OK).
Qed.

(** ** C12 *)

(** For every tree (any shape, any previous binding state), element and offset. *)
Theorem C12_children_are_consecutive (n0 : node E) e off path n :
  descendant (bind_tree e off n0) path = Some n -> is_leaf n = false ->
  node_size n = fold_right plus 0 (map node_size (children n)) /\
  forall i c, nth_error (children n) i = Some c ->
    node_offset c = node_offset n + fold_right plus 0 (map node_size (firstn i (children n))).
Proof.
  intros D L.
  assert (G : good n).
  { clear L. pose proof (bind_good e n0 off) as G. revert D G. generalize (bind_tree e off n0) as t.
    induction path as [|i p IH]; intros t D G; cbn in D.
    - now injection D as <-.
    - destruct t as [m g fe el|m g cs]; unfold child in D; cbn in D; [now destruct i|].
      destruct (nth_error cs i) as [c|] eqn:N; [|discriminate].
      apply good_inner in G as (_ & _ & G). rewrite Forall_forall in G.
      eapply IH; [exact D|]. apply G. now apply nth_error_In in N. }
  destruct n as [|m g cs]; [discriminate|]. apply good_inner in G as (G1 & G2 & _). cbn [children]. split.
  - exact G1.
  - unfold node_offset at 2. cbn [node_mixin]. revert G2. generalize (mx_offset m) as o. clear.
    induction cs as [|x cs IH]; intros o G2 i c N; [now destruct i|].
    destruct G2 as [Go G2]. destruct i as [|i].
    + injection N as ->. cbn. lia.
    + cbn in N. cbn. rewrite (IH _ G2 i c N). lia.
Qed.

Theorem C12_leaves_partition_the_local_indices (n0 : node E) e off k :
  let t := bind_tree e off n0 in
  off <= k < off + node_size t ->
  exists path l i,
    (descendant t path = Some l /\ is_leaf l = true /\ local_index l i = Some k) /\
    forall path' l' i', descendant t path' = Some l' -> is_leaf l' = true ->
      local_index l' i' = Some k -> path' = path /\ l' = l /\ i' = i.
Proof.
  intros t Hk. apply good_partition; [apply bind_good|]. unfold t. now rewrite bind_offset.
Qed.

(** No leaf has a local index outside the root's range. *)
Theorem C12_leaf_indices_in_range (n0 : node E) e off path l i k :
  let t := bind_tree e off n0 in
  descendant t path = Some l -> is_leaf l = true -> local_index l i = Some k ->
  off <= k < off + node_size t.
Proof.
  intros t D L LI. pose proof (bind_good e n0 off) as G. destruct (good_leaves _ G) as [S1 S2].
  fold t in S1, S2. assert (HI : In (path, l) (leaf_nodes t)) by (apply leaf_nodes_descendant; auto).
  apply In_nth_error in HI as [j N]. pose proof (lcons_offset _ _ _ _ S2 N) as O.
  unfold t in O at 1. rewrite bind_offset in O. cbn [snd] in O.
  pose proof (lsizes_firstn_mono (leaf_nodes t) j (length (leaf_nodes t)) (path, l)
                (nth_error_Some_lt _ _ _ N) N) as M.
  rewrite firstn_all, S1 in M. cbn [snd] in M. apply local_index_Some in LI. lia.
Qed.

(** ** C13 *)

(** Tree indices in preorder are 0, 1, ..., whatever was bound, in any order. *)
Theorem C13_tree_indices_number_the_tree (n0 : node E) :
  map node_tix (preorder (fst (init_tree 0 n0))) = seq 0 (length (preorder n0)).
Proof. apply init_preorder. Qed.
Theorem C13_tree_indices_survive_bind (n0 : node E) e off :
  map node_tix (preorder (bind_tree e off n0)) = map node_tix (preorder n0).
Proof. apply bind_tix. Qed.
Theorem C13_tree_indices_of_a_view b els h v :
  wf els b -> (forall e, In (LBind e) h -> els e) ->
  lv_run (build b) (lv_new (build b)) h = Some v ->
  map node_tix (preorder (lv_tree v)) = seq 0 (length (preorder (pb_node (build b)))).
Proof.
  intros Hwf Hh. 
  assert (G : forall h v0 v, map node_tix (preorder (lv_tree v0)) = seq 0 (length (preorder (pb_node (build b)))) ->
    lv_run (build b) v0 h = Some v ->
    map node_tix (preorder (lv_tree v)) = seq 0 (length (preorder (pb_node (build b))))).
  { clear. induction h as [|o h IH]; intros v0 v H R; cbn in R; [now injection R as <-|].
    apply obind_Some in R as (v1 & S1 & R). eapply IH; [|exact R].
    assert (B : forall u e, map node_tix (preorder (lv_tree u)) = seq 0 (length (preorder (pb_node (build b)))) ->
       lv_bind (build b) u e = Some v1 ->
       map node_tix (preorder (lv_tree v1)) = seq 0 (length (preorder (pb_node (build b))))).
    { intros u e Hu Hb. unfold lv_bind in Hb. apply obind_Some in Hb as ([b' ?] & _ & Hb).
      injection Hb as <-. cbn [lv_tree]. now rewrite bind_tix. }
    destruct o as [e| |]; cbn in S1.
    - eapply B; eauto.
    - injection S1 as <-. exact H.
    - unfold lv_copy in S1. destruct (lv_elem v0).
      + eapply B; [|exact S1]. apply init_preorder.
      + injection S1 as <-. apply init_preorder. }
  apply G. apply init_preorder.
Qed.

(** ** C14 *)

(** After any history, a view bound to [e] shows what a fresh view bound to [e] shows. *)
Theorem C14_bound_view_is_history_independent b els h v e v1 :
  wf els b -> (forall e, In (LBind e) h -> els e) ->
  lv_run (build b) (lv_new (build b)) h = Some v -> lv_elem v = Some e ->
  lv_bind (build b) (lv_new (build b)) e = Some v1 ->
  lv_size v = lv_size v1 /\ lv_indices v = lv_indices v1 /\ same_tree (lv_tree v) (lv_tree v1).
Proof.
  intros Hwf Hh R He Hv1. pose proof (build_ok b els Hwf) as OK.
  destruct (run_tskel els _ _ OK h (lv_new (build b)) v Hh) as (T & G); auto; try discriminate.
  destruct (G e He) as (Hels & HI & n0 & Hn0 & Ht).
  rewrite (bind_new_ok els _ _ e OK Hels) in Hv1. injection Hv1 as <-. cbn [lv_indices lv_tree].
  assert (S : same_tree (lv_tree v) (bind_tree e 0 (fst (init_tree 0 (pb_node (build b)))))).
  { rewrite Ht. apply same_bind. exact Hn0. }
  split; [|split]; auto. now apply same_tree_sizes.
Qed.

(** The element a view is bound to is the one of the last bind, if any, unless
    unbind came after it; copies do not change it. *)
Fixpoint last_bound (h : list (lvop E)) (cur : option E) : option E :=
  match h with
  | [] => cur
  | LBind e :: h' => last_bound h' (Some e)
  | LUnbind :: h' => last_bound h' None
  | LCopy :: h' => last_bound h' cur
  end.
Theorem C14_bound_element b h v :
  lv_run (build b) (lv_new (build b)) h = Some v -> lv_elem v = last_bound h None.
Proof.
  change (@None E) with (lv_elem (lv_new (build b))). generalize (lv_new (build b)) as v0.
  induction h as [|o h IH]; intros v0 R; cbn in R; [now injection R as <-|].
  apply obind_Some in R as (v1 & S1 & R). rewrite (IH _ R). clear IH R.
  assert (B : forall u e, lv_bind (build b) u e = Some v1 -> lv_elem v1 = Some e).
  { intros u e Hb. unfold lv_bind in Hb. apply obind_Some in Hb as ([b' ?] & _ & Hb). now injection Hb as <-. }
  destruct o as [e| |]; cbn in *.
  - now rewrite (B _ _ S1).
  - now injection S1 as <-.
  - unfold lv_copy in S1. destruct (lv_elem v0) as [e|] eqn:E0; f_equal.
    + now apply B in S1.
    + now injection S1 as <-.
Qed.

(** index(node.localIndex(i)) is the multi-index of the i-th DOF of that leaf: two
    views, on any elements, reached by any histories, agree on a DOF of the same
    leaf with the same flat index. *)
Theorem C14_index_of_a_leaf_dof b els h h' v v' e e' path n n' j j' i i' l g :
  wf els b -> (forall e, In (LBind e) h -> els e) -> (forall e, In (LBind e) h' -> els e) ->
  lv_run (build b) (lv_new (build b)) h = Some v -> lv_elem v = Some e ->
  lv_run (build b) (lv_new (build b)) h' = Some v' -> lv_elem v' = Some e' ->
  leaf_at b path = Some l ->
  descendant (lv_tree v) path = Some n -> is_leaf n = true -> local_index n j = Some i ->
  nth_error (lf_indices l e) j = Some g ->
  descendant (lv_tree v') path = Some n' -> is_leaf n' = true -> local_index n' j' = Some i' ->
  nth_error (lf_indices l e') j' = Some g ->
  exists m, lv_index v i = Some m /\ lv_index v' i' = Some m.
Proof.
  intros Hwf Hh Hh' R He R' He' Hl D L LI N D' L' LI' N'. pose proof (build_ok b els Hwf) as OK.
  destruct (run_tskel els _ _ OK h (lv_new (build b)) v Hh) as (T & G); auto; try discriminate.
  destruct (run_tskel els _ _ OK h' (lv_new (build b)) v' Hh') as (T' & G'); auto; try discriminate.
  destruct (G e He) as (Hels & HI & n0 & Hn0 & Ht).
  destruct (G' e' He') as (Hels' & HI' & n0' & Hn0' & Ht').
  rewrite Ht in D. rewrite Ht' in D'. unfold lv_index. rewrite HI, HI'.
  assert (S0 : skel n0 = skel (pb_node (build b))) by (rewrite (tskel_skel _ _ Hn0); apply new_skel).
  assert (S0' : skel n0' = skel (pb_node (build b))) by (rewrite (tskel_skel _ _ Hn0'); apply new_skel).
  destruct (key_at b els e n0 path n j i Hwf Hels S0 D L LI) as (l1 & g1 & B1 & B2 & B3).
  destruct (key_at b els e' n0' path n' j' i' Hwf Hels' S0' D' L' LI') as (l2 & g2 & C1 & C2 & C3).
  rewrite Hl in B1, C1. injection B1 as <-. injection C1 as <-.
  rewrite N in B2. injection B2 as <-. rewrite N' in C2. injection C2 as <-.
  rewrite !nth_error_map_eq, B3, C3. cbn. eauto.
Qed.

(** ** C15 *)

(** Nesting subspace bases is concatenating their paths (any depth). *)
Theorem C15_nesting_concatenates (pb : prebasis E) path paths :
  fold_left subspace_of_subspace paths (subspace_of_root pb path)
  = subspace_of_root pb (path ++ concat paths).
Proof.
  revert path. induction paths as [|p ps IH]; intros path; cbn.
  - now rewrite app_nil_r.
  - unfold subspace_of_subspace at 2. cbn. rewrite app_assoc. apply (IH (path ++ p)).
Qed.

Lemma descendant_app (t : node E) p q :
  descendant t (p ++ q) = match descendant t p with Some n => descendant n q | None => None end.
Proof.
  revert t. induction p as [|i p IH]; intros t; cbn; auto. destruct (child t i); auto.
Qed.

(** The tree of a subspace of a subspace is the descendant of the inner one's tree. *)
Theorem C15_nested_tree (s : subspace E) path v :
  sv_tree (subspace_of_subspace s path) v =
  match sv_tree s v with Some n => descendant n path | None => None end.
Proof. unfold sv_tree, subspace_of_subspace. cbn. apply descendant_app. Qed.

(** Binding the subspace view gives the root view's indices, the root tree's
    descendant, and every leaf DOF below it has the index the root basis gives it. *)
Theorem C15_subspace_view_is_the_root_view b els path e v vr :
  wf els b -> els e ->
  let s := subspace_of_root (build b) path in
  sv_bind s (sv_new s) e = Some v ->
  lv_bind (build b) (lv_new (build b)) e = Some vr ->
  (forall i, sv_index v i = lv_index vr i) /\ sv_size v = lv_size vr /\
  sv_tree s v = descendant (lv_tree vr) path /\
  forall t q n j i l g,
    sv_tree s v = Some t -> descendant t q = Some n -> is_leaf n = true ->
    local_index n j = Some i -> leaf_at b (path ++ q) = Some l ->
    nth_error (lf_indices l e) j = Some g ->
    i < sv_size v /\ dof_of b e vr i (path ++ q) g /\
    exists m, sv_index v i = Some m /\ lv_index vr i = Some m.
Proof.
  intros Hwf He s Hv Hvr. unfold sv_bind, sv_new in Hv. subst s. cbn in Hv. rewrite Hvr in Hv. injection Hv as <-.
  split; [reflexivity|]. split; [reflexivity|]. split; [reflexivity|].
  intros t q n j i l g Ht Hq Ln LI Al N. unfold sv_tree in Ht. cbn in Ht.
  assert (D : descendant (lv_tree vr) (path ++ q) = Some n) by (now rewrite descendant_app, Ht).
  pose proof (build_ok b els Hwf) as OK.
  destruct (C06_every_local_dof_has_an_index b els e Hwf He) as (v' & Hv' & HI). rewrite Hvr in Hv'. injection Hv' as <-.
  assert (R : i < lv_size vr).
  { rewrite (bind_new_ok els _ _ e OK He) in Hvr. injection Hvr as <-. unfold lv_size. cbn [lv_tree] in *.
    apply (C12_leaf_indices_in_range _ e 0 (path ++ q) n j i); auto. }
  split; [exact R|]. split.
  - exists n, l, j. auto.
  - apply HI in R as [m Hm]. exists m. auto.
Qed.

(** ** C16 *)

(** The flat-interleaved Taylor-Hood basis gives exactly the indices and sizes of
    composite(power<dim>(Q2, flatInterleaved), Q1, blockedLexicographic). *)
Theorem C16_taylor_hood_is_the_documented_composite els dim (q2 q1 : leaf E) :
  0 < dim -> leaf_ok els q2 -> leaf_ok els q1 ->
  let th := BTaylorHood false dim q2 q1 in
  let doc := BComposite CBlockedLexicographic [BPower true dim FlatInterleaved (BLeaf q2); BLeaf q1] in
  pb_dim (build th) = pb_dim (build doc) /\
  (forall e, els e -> forall v v', lv_bind (build th) (lv_new (build th)) e = Some v ->
     lv_bind (build doc) (lv_new (build doc)) e = Some v' -> lv_indices v = lv_indices v') /\
  (forall p q, global_index els th (p ++ q) -> pb_size (build th) p = pb_size (build doc) p).
Proof.
  intros Hd H2 H1 th doc.
  assert (Wt : wf els th) by (cbn; auto).
  assert (Wd : wf els doc).
  { cbn. repeat split; auto; try discriminate; try apply H2; try apply H1. }
  pose proof (build_ok th els Wt) as Ot. pose proof (build_ok doc els Wd) as Od.
  assert (EQ : meaning th = meaning doc) by reflexivity.
  split; [|split].
  - rewrite (ok_dim _ _ _ Ot), (ok_dim _ _ _ Od), EQ. reflexivity.
  - intros e He v v' Hv Hv'. rewrite (bind_new_ok els _ _ e Ot He) in Hv. injection Hv as <-.
    rewrite (bind_new_ok els _ _ e Od He) in Hv'. injection Hv' as <-. reflexivity.
  - intros p q H. destruct (prefix_subtree th els p q Wt H) as (t & Ht & _).
    rewrite (C04_size_is_the_index_tree th els p t Wt Ht).
    rewrite EQ in Ht. now rewrite (C04_size_is_the_index_tree doc els p t Wd Ht).
Qed.

(** Valid, unique, gap free: instances of C06, C07 and C08. *)
Theorem C16_taylor_hood_valid_and_gap_free els dim (q2 q1 : leaf E) m :
  0 < dim -> leaf_ok els q2 -> leaf_ok els q1 ->
  let th := BTaylorHood false dim q2 q1 in
  admitted (pb_size (build th)) m /\ 2 <= length m <-> global_index els th m.
Proof.
  intros Hd H2 H1 th. assert (Wt : wf els th) by (cbn; auto).
  rewrite (global_index_iff th els m Wt).
  pose proof (C04_size_is_the_index_tree th els) as SZ.
  split.
  - intros [(Hm & Hdig & Hz) HL].
    destruct m as [|a [|c [|x r]]]; cbn in HL; try lia.
    + destruct (Hdig [] a [c] eq_refl) as (s0 & Hs0 & Ha). cbn in Hs0. injection Hs0 as <-.
      destruct (Hdig [a] c [] eq_refl) as (s1 & Hs1 & Hc). cbn [th build meaning taylorhood_spec].
      destruct a as [|[|a]]; [| |lia].
      * cbn in Hs1. injection Hs1 as <-. cbn.
        match goal with |- context [nth_error ?l c] => destruct (nth_error l c) as [x|] eqn:N end.
        -- apply nth_error_In, in_concat in N as (l & Hl & Hx). apply in_map_iff in Hl as (y & <- & Hy).
           apply repeat_spec in Hx. apply repeat_spec in Hy. congruence.
        -- apply nth_error_None in N. rewrite concat_map_repeat_length, repeat_length in N. lia.
      * cbn in Hs1. injection Hs1 as <-. cbn. rewrite nth_error_repeat_eq.
        destruct (Nat.ltb_spec c (lf_dim q1)); [reflexivity|lia].
    + destruct (Hdig [a; c] x r eq_refl) as (s2 & Hs2 & Hx). cbn in Hs2.
      exfalso. destruct a as [|[|a]]; injection Hs2 as <-; lia.
  - intros H. pose proof (ok_len _ _ _ (build_ok th els Wt) m H) as HL. cbn [th build taylorhood_pb pb_minmi] in HL.
    split; [|lia]. split; [|split].
    + intros ->. discriminate.
    + intros p d q ->. rewrite subtree_app in H.
      destruct (subtree (sp_tree (meaning th)) p) as [t|] eqn:Ht; [|discriminate].
      exists (degree t). split; [now apply SZ|].
      destruct t as [|f]; [discriminate|]. cbn in H |- *.
      destruct (nth_error f d) eqn:N; [|discriminate]. now apply nth_error_Some_lt in N.
    + now rewrite (SZ m DOF Wt H).
Qed.

(** The hybrid variant (HI = true): what indices() actually writes.  Every velocity
    component gets [0; g; i] with i the position in the element, not the component. *)
Lemma th_hybrid_velocity_eq els (dim : nat) (q2 : leaf E) cap e c00 o :
  leaf_ok els q2 -> els e -> 3 <= cap -> skel c00 = NLeaf mx0 [] (lf_fe q2) None ->
  forall k s pre mid post,
  length mid = k * length (lf_indices q2 e) ->
  forl k s (fun c st =>
    let subsz := node_size (bind_tree e o c00) in
    let it := snd st in
    obind (pb_indices (leaf_pb q2) cap (bind_tree e o c00) st) (fun x => let '(z, _) := x in
    obind (forl subsz 0 (fun i bf => buf_modify bf (it + i) (fun m =>
            obind (mi_push_front cap m 0) (fun m1 => mi_push_back cap m1 i))) z) (fun y =>
    Some (y, it + subsz)))) (pre ++ mid ++ post, length pre)
  = Some (pre ++ concat (repeat (map (fun ig => [0; snd ig; fst ig])
              (combine (seq 0 (length (lf_indices q2 e))) (lf_indices q2 e))) k) ++ post,
          length pre + length mid).
Proof.
  intros OK He Hcap Hsk. pose proof (leaf_pb_ok els q2 OK) as LO.
  assert (Hsk' : skel c00 = skel (pb_node (leaf_pb q2))) by exact Hsk.
  pose proof (ok_nsize _ _ _ LO c00 e o He Hsk') as NS.
  cbn [leaf_spec sp_keys] in NS. rewrite map_length in NS.
  set (K := length (lf_indices q2 e)) in *.
  induction k as [|k IH]; intros s pre mid post Hmid.
  - destruct mid; [|discriminate]. cbn. now rewrite Nat.add_0_r.
  - cbn [forl repeat concat]. rewrite NS. cbn zeta. cbn [snd].
    assert (Hsp : exists m0 t, mid = m0 ++ t /\ length m0 = K /\ length t = k * K).
    { exists (firstn K mid), (skipn K mid). split; [now rewrite firstn_skipn|].
      rewrite firstn_length, skipn_length, Hmid. cbn. lia. }
    destruct Hsp as (m0 & tl & -> & Hm0 & Ht). rewrite <- !app_assoc.
    rewrite (ok_ind _ _ _ LO cap c00 e o pre m0 (tl ++ post)); auto.
    2:{ cbn. lia. }
    2:{ cbn. now rewrite map_length. }
    cbn [obind]. cbn [leaf_spec sp_keys sp_glob]. rewrite map_map. cbn [snd].
    rewrite (modify_loop_i (fun i m => obind (mi_push_front cap m 0) (fun m1 => mi_push_back cap m1 i))
               (fun i m => 0 :: m ++ [i])
               (map (fun g => [g]) (lf_indices q2 e)) pre (tl ++ post) 0 (length pre) K); try lia.
    2:{ now rewrite map_length. }
    2:{ intros i m Hm. apply nth_error_In, in_map_iff in Hm as (g & <- & _).
        rewrite push_front_eq by (cbn; lia). cbn [obind]. apply push_back_eq. cbn. lia. }
    cbn [obind].
    set (X := map (fun ig => [0; snd ig; fst ig]) (combine (seq 0 K) (lf_indices q2 e))) in *.
    assert (EX : map (fun im => 0 :: snd im ++ [fst im]) (combine (seq 0 K) (map (fun g => [g]) (lf_indices q2 e))) = X).
    { unfold X. generalize (seq 0 K) as l1, (lf_indices q2 e) as l2. clear.
      induction l1 as [|a l1 IH]; intros [|b l2]; cbn; auto. now rewrite IH. }
    rewrite EX.
    assert (LX : length X = K) by (unfold X; rewrite map_length, combine_length, seq_length; unfold K; lia).
    specialize (IH (s + 1) (pre ++ X) tl post Ht).
    rewrite NS in IH. cbn zeta in IH. rewrite app_length, LX, <- !app_assoc in IH.
    etransitivity; [exact IH|]. f_equal. f_equal.
    rewrite app_length. lia.
Qed.

Theorem C16_hybrid_indices els dim (q2 q1 : leaf E) e v :
  0 < dim -> leaf_ok els q2 -> leaf_ok els q1 -> els e ->
  let th := build (BTaylorHood true dim q2 q1) in
  lv_bind th (lv_new th) e = Some v ->
  lv_indices v =
    concat (repeat (map (fun ig => [0; snd ig; fst ig])
                        (combine (seq 0 (length (lf_indices q2 e))) (lf_indices q2 e))) dim)
    ++ map (fun g => [1; g]) (lf_indices q1 e).
Proof.
  intros Hd H2 H1 He th Hv.
  assert (Hdoc : wf els (BTaylorHood false dim q2 q1)) by (cbn; auto).
  pose proof (build_ok _ els Hdoc) as OK.
  unfold lv_bind in Hv. set (n0 := lv_tree (lv_new th)) in *.
  assert (Hsk : skel n0 = skel (pb_node (build (BTaylorHood false dim q2 q1)))) by exact (new_skel th).
  rewrite (ok_nsize _ _ _ OK n0 e 0 He Hsk) in Hv. clearbody n0.
  cbn in Hsk. apply skel_inner in Hsk as (m & cs & En0 & Hcs).
  destruct cs as [|w [|c1 [|]]]; try discriminate. cbn in Hcs. injection Hcs as Hv0 Hc1.
  apply skel_inner in Hv0 as (mv & vs & -> & Hvs).
  destruct dim as [|dim']; [lia|]. destruct vs as [|c00 vs]; [discriminate|].
  cbn in Hvs. injection Hvs as Hc00 Hvs. set (D := S dim') in *.
  rewrite En0 in Hv. rewrite bind_inner in Hv.
  assert (exists o1 o2, exists ms,
    snd (bind_children e 0 [NInner mv [] (c00 :: vs); c1]) =
    [NInner ms [] (bind_tree e o1 c00 :: snd (bind_children e (o1 + node_size (bind_tree e o1 c00)) vs));
     bind_tree e o2 c1]) as (o1 & o2 & ms & EB).
  { cbn [bind_children snd]. rewrite bind_inner. cbn [forallb bind_children].
    destruct (bind_children e (0 + node_size (bind_tree e 0 c00)) vs) eqn:B. cbn [snd fst].
    exists 0. eexists. eexists. rewrite B. reflexivity. }
  cbn [forallb] in Hv. rewrite EB in Hv.
  cbn [th build taylorhood_pb pb_indices pb_bufmi] in Hv. unfold th_indices in Hv.
  cbn [child children nth_error obind] in Hv.
  set (K := length (lf_indices q2 e)) in *. set (K1 := length (lf_indices q1 e)).
  set (LEN := length (sp_keys (meaning (BTaylorHood false D q2 q1)) e)) in *.
  set (mid := vresize (lv_indices (lv_new (taylorhood_pb true D q2 q1))) LEN []) in *.
  assert (LM : length mid = D * K + K1).
  { unfold mid. rewrite vresize_length. unfold LEN. cbn [meaning]. unfold taylorhood_spec. cbn [composite_spec sp_keys].
    rewrite composite_keys_length. cbn [map sum_list].
    rewrite power_keys_length. cbn [leaf_spec sp_keys]. rewrite !map_length. fold K K1. lia. }
  assert (Hsp : exists m0 t, mid = m0 ++ t /\ length m0 = D * K /\ length t = K1).
  { exists (firstn (D * K) mid), (skipn (D * K) mid). split; [now rewrite firstn_skipn|].
    rewrite firstn_length, skipn_length, LM. lia. }
  destruct Hsp as (m0 & tl & Hmid & Hm0 & Ht). rewrite Hmid in Hv.
  assert (Hcap : 3 <= 3) by lia.
  pose proof (th_hybrid_velocity_eq els D q2 3 e c00 o1 H2 He Hcap Hc00 D 0 [] m0 tl Hm0) as TV.
  match type of TV with _ = ?r =>
    assert (TV' : th_velocity true D q2 3 (bind_tree e o1 c00) (m0 ++ tl, 0) = r) by exact TV end.
  rewrite TV' in Hv. clear TV TV'. cbn [obind snd app length Nat.add] in Hv.
  pose proof (leaf_pb_ok els q1 H1) as LO.
  assert (Hsk1 : skel c1 = skel (pb_node (leaf_pb q1))) by exact Hc1.
  rewrite (ok_nsize _ _ _ LO c1 e o2 He Hsk1) in Hv. cbn [leaf_spec sp_keys] in Hv. rewrite map_length in Hv. fold K1 in Hv.
  fold K in Hv. set (V := concat _) in Hv.
  assert (LV : length V = D * K).
  { unfold V. rewrite concat_repeat_length, map_length, combine_length, seq_length. unfold K. lia. }
  replace (length m0) with (length V) in Hv by lia.
  pose proof (ok_ind _ _ _ LO 3 c1 e o2 V tl [] He Hsk1) as OI. rewrite !app_nil_r in OI.
  rewrite OI in Hv.
  2:{ cbn. lia. }
  2:{ cbn. now rewrite map_length. }
  cbn [obind leaf_spec sp_keys sp_glob] in Hv. rewrite map_map in Hv. cbn [snd] in Hv.
  pose proof (modify_loop (fun m => mi_push_front 3 m 1) (fun m => 1 :: m) (map (fun g => [g]) (lf_indices q1 e)) V [] 0
             (length V) K1) as ML. rewrite !app_nil_r in ML.
  rewrite ML in Hv; try lia.
  2:{ now rewrite map_length. }
  2:{ intros x Hx. apply in_map_iff in Hx as (g & <- & _). apply push_front_eq. cbn. lia. }
  cbn [obind] in Hv. injection Hv as <-. cbn [lv_indices]. f_equal.
  rewrite map_map. reflexivity.
Qed.

(** Hence, from two components on, the DOFs of different velocity components share
    their indices: local DOF j of component c has the index of local DOF j of
    component c', although they are different leaves of the tree. *)
Theorem C16_hybrid_refuted els dim (q2 q1 : leaf E) e v c c' j :
  leaf_ok els q2 -> leaf_ok els q1 -> els e -> c < dim -> c' < dim -> j < length (lf_indices q2 e) ->
  let th := build (BTaylorHood true dim q2 q1) in
  let K := length (lf_indices q2 e) in
  lv_bind th (lv_new th) e = Some v ->
  exists g, lv_index v (c * K + j) = Some [0; g; j] /\ lv_index v (c' * K + j) = Some [0; g; j].
Proof.
  intros H2 H1 He Hc Hc' Hj th K Hv.
  pose proof (C16_hybrid_indices els dim q2 q1 e v ltac:(lia) H2 H1 He Hv) as HI.
  unfold lv_index. rewrite HI.
  destruct (nth_error_lt_Some _ _ Hj) as [g Hg]. exists g.
  assert (G : forall c, c < dim -> nth_error (concat (repeat (map (fun ig : nat * nat => [0; snd ig; fst ig])
                        (combine (seq 0 (length (lf_indices q2 e))) (lf_indices q2 e))) dim)
    ++ map (fun g => [1; g]) (lf_indices q1 e)) (c * K + j) = Some [0; g; j]).
  { clear c c' Hc Hc'. intros c Hc. set (X := map _ (combine _ _)).
    assert (LX : length X = K) by (unfold X; rewrite map_length, combine_length, seq_length; unfold K; lia).
    rewrite nth_error_app1 by (rewrite concat_repeat_length, LX; unfold K in *; nia).
    rewrite nth_error_concat_repeat, LX.
    assert (c * K + j < dim * K) by (unfold K in *; nia).
    destruct (Nat.ltb_spec (c * K + j) (dim * K)); [|lia].
    rewrite mod_mul_add by exact Hj. unfold X. rewrite nth_error_map_eq.
    assert (NC : forall (l2 : list nat) s j g, nth_error l2 j = Some g -> nth_error (combine (seq s (length l2)) l2) j = Some (s + j, g)).
    { clear. induction l2 as [|b l2 IH]; intros s [|j] g H; cbn in *; try discriminate.
      - injection H as ->. now rewrite Nat.add_0_r.
      - rewrite (IH (S s) j g H). f_equal. f_equal. lia. }
    rewrite (NC _ 0 j g Hg). reflexivity. }
  split; apply G; auto.
Qed.

(** ** C17 *)

(** A transformed basis applies the transformation to each raw index, in order. *)
Theorem C17_indices_are_transformed_in_order b els e (t : transformation) phi vr :
  wf els b -> els e ->
  lv_bind (build b) (lv_new (build b)) e = Some vr ->
  (forall m, In m (lv_indices vr) -> tr_index t (max (pb_bufmi (build b)) (tr_max t)) m = Some (phi m)) ->
  exists v, lv_bind (transformed_pb t (build b)) (lv_new (transformed_pb t (build b))) e = Some v /\
            lv_indices v = map phi (lv_indices vr) /\ lv_size v = lv_size vr.
Proof.
  intros Hwf He Hv Ht. pose proof (build_ok b els Hwf) as OK.
  rewrite (bind_new_ok els _ _ e OK He) in Hv. injection Hv as <-. cbn [lv_indices] in Ht.
  unfold lv_bind, lv_new. cbn [lv_tree lv_indices transformed_pb pb_node pb_indices pb_bufmi].
  set (n0 := fst (init_tree 0 (pb_node (build b)))).
  assert (Hsk : skel n0 = skel (pb_node (build b))) by apply new_skel.
  rewrite (ok_nsize _ _ _ OK n0 e 0 He Hsk).
  pose proof (ok_ind _ _ _ OK (max (pb_bufmi (build b)) (tr_max t)) n0 e 0 []
                (vresize [] (length (sp_keys (meaning b) e)) []) [] He Hsk (Nat.le_max_l _ _)
                (vresize_length _ _ _)) as H.
  cbn [app length] in H. rewrite !app_nil_r in H. rewrite H. cbn [obind snd].
  rewrite <- (map_length (sp_glob (meaning b)) (sp_keys (meaning b) e)).
  pose proof (tr_loop _ phi (map (sp_glob (meaning b)) (sp_keys (meaning b) e)) [] [] Ht 0) as TL.
  cbn [app length] in TL. rewrite !app_nil_r in TL. rewrite TL. cbn [obind].
  eexists. split; [reflexivity|]. cbn [lv_indices lv_tree]. split; reflexivity.
Qed.

(** If the transformation maps the raw indices one-to-one onto the indices its own
    size() admits, the transformed basis is valid, unique and gap free. *)
Theorem C17_bijections_carry_over b els (t : transformation) phi :
  wf els b ->
  (forall m, global_index els b m ->
     tr_index t (max (pb_bufmi (build b)) (tr_max t)) m = Some (phi m)) ->
  (forall m, global_index els b m -> admitted (tr_size t) (phi m)) ->
  (forall m m', global_index els b m -> global_index els b m' -> phi m = phi m' -> m = m') ->
  (forall m', admitted (tr_size t) m' -> exists m, global_index els b m /\ phi m = m') ->
  let tb := transformed_pb t (build b) in
  (* valid *)
  (forall e i m v, els e -> lv_bind tb (lv_new tb) e = Some v -> lv_index v i = Some m ->
     admitted (pb_size tb) m) /\
  (* gap free *)
  (forall m, admitted (pb_size tb) m ->
     exists e i v, els e /\ lv_bind tb (lv_new tb) e = Some v /\ lv_index v i = Some m) /\
  (* unique: same index exactly if the raw indices are the same *)
  (forall e e' v v' vr vr' i i', els e -> els e' ->
     lv_bind tb (lv_new tb) e = Some v -> lv_bind tb (lv_new tb) e' = Some v' ->
     lv_bind (build b) (lv_new (build b)) e = Some vr ->
     lv_bind (build b) (lv_new (build b)) e' = Some vr' ->
     i < lv_size v -> i' < lv_size v' ->
     (lv_index v i = lv_index v' i' <-> lv_index vr i = lv_index vr' i')).
Proof.
  intros Hwf Ht Hval Hinj Hsurj tb.
  assert (V : forall e, els e -> exists v vr, lv_bind tb (lv_new tb) e = Some v /\
     lv_bind (build b) (lv_new (build b)) e = Some vr /\ lv_size v = lv_size vr /\
     lv_indices v = map phi (lv_indices vr) /\
     (forall i, i < lv_size vr <-> exists m, lv_index vr i = Some m) /\
     (forall m, In m (lv_indices vr) -> global_index els b m)).
  { intros e He. destruct (C06_every_local_dof_has_an_index b els e Hwf He) as (vr & Hvr & HI).
    assert (GI : forall m, In m (lv_indices vr) -> global_index els b m).
    { intros m Hm. apply In_nth_error in Hm as [i Hi]. exists e, i. split; auto. exists vr. split; auto.
      split; auto. apply HI. eauto. }
    destruct (C17_indices_are_transformed_in_order b els e t phi vr Hwf He Hvr) as (v & H1 & H2 & H3).
    { intros m Hm. apply Ht, GI, Hm. }
    exists v, vr. auto 8. }
  assert (IX : forall e v (vr : lview E) i, lv_indices v = map phi (lv_indices vr) -> els e ->
     lv_index v i = option_map phi (lv_index vr i)).
  { intros e v vr i H _. unfold lv_index. now rewrite H, nth_error_map_eq. }
  split; [|split].
  - intros e i m v He Hv Hm. destruct (V e He) as (v1 & vr & E1 & E2 & E3 & E4 & E5 & E6).
    rewrite Hv in E1. injection E1 as <-. rewrite (IX e v vr i E4 He) in Hm.
    destruct (lv_index vr i) as [m0|] eqn:M0; [|discriminate]. cbn in Hm. injection Hm as <-.
    apply Hval, E6. unfold lv_index in M0. now apply nth_error_In in M0.
  - intros m' Hm'. destruct (Hsurj m' Hm') as (m & (e & i & He & vr0 & Hvr & Hi & Hs) & <-).
    destruct (V e He) as (v & vr & E1 & E2 & E3 & E4 & E5 & E6). rewrite Hvr in E2. injection E2 as <-.
    exists e, i, v. repeat split; auto. rewrite (IX e v vr0 i E4 He), Hi. reflexivity.
  - intros e e' v v' vr vr' i i' He He' Hv Hv' Hvr Hvr' Hi Hi'.
    destruct (V e He) as (v1 & vr1 & E1 & E2 & E3 & E4 & E5 & E6).
    rewrite Hv in E1. injection E1 as <-. rewrite Hvr in E2. injection E2 as <-.
    destruct (V e' He') as (v2 & vr2 & F1 & F2 & F3 & F4 & F5 & F6).
    rewrite Hv' in F1. injection F1 as <-. rewrite Hvr' in F2. injection F2 as <-.
    rewrite (IX e v vr i E4 He), (IX e' v' vr' i' F4 He').
    rewrite E3 in Hi. rewrite F3 in Hi'. apply E5 in Hi as [m Hm]. apply F5 in Hi' as [m' Hm'].
    rewrite Hm, Hm'. cbn. split.
    + intros [= H]. f_equal. apply Hinj; auto.
      * apply E6. unfold lv_index in Hm. now apply nth_error_In in Hm.
      * apply F6. unfold lv_index in Hm'. now apply nth_error_In in Hm'.
    + now intros [= ->].
Qed.

(** ** C20 *)

(** Outside the sub-domain every node is empty and no index is produced, for any
    previous state of the view; this needs no assumption on the wrapped basis. *)
Theorem C20_nothing_outside_the_subdomain dom b e v v' h :
  dom e = false -> lv_run (build (BRestricted dom b)) (lv_new (build (BRestricted dom b))) h = Some v ->
  lv_bind (build (BRestricted dom b)) v e = Some v' ->
  lv_indices v' = [] /\ lv_size v' = 0 /\
  forall path n, descendant (lv_tree v') path = Some n -> node_size n = 0.
Proof.
  intros D R Hv.
  assert (SK : skel (lv_tree v) = skel (add_guard dom (pb_node (build b)))).
  { assert (G : forall h v0 v, skel (lv_tree v0) = skel (pb_node (build (BRestricted dom b))) ->
        lv_run (build (BRestricted dom b)) v0 h = Some v ->
        skel (lv_tree v) = skel (pb_node (build (BRestricted dom b)))).
    { clear. induction h as [|o h IH]; intros v0 v H R; cbn in R; [now injection R as <-|].
      apply obind_Some in R as (v1 & S1 & R). eapply IH; [|exact R].
      assert (B : forall u e, skel (lv_tree u) = skel (pb_node (build (BRestricted dom b))) ->
         lv_bind (build (BRestricted dom b)) u e = Some v1 ->
         skel (lv_tree v1) = skel (pb_node (build (BRestricted dom b)))).
      { intros u e Hu Hb. unfold lv_bind in Hb. apply obind_Some in Hb as ([b' ?] & _ & Hb).
        injection Hb as <-. cbn [lv_tree]. now rewrite skel_bind. }
      destruct o as [e| |]; cbn in S1.
      - eapply B; eauto.
      - injection S1 as <-. exact H.
      - unfold lv_copy in S1. destruct (lv_elem v0).
        + eapply B; [|exact S1]. apply new_skel.
        + injection S1 as <-. apply new_skel. }
    eapply (G h); [|exact R]. apply new_skel. }
  rewrite skel_guard in SK. apply skel_guard_inv in SK as (n1 & Hn1 & _).
  unfold lv_bind in Hv. rewrite Hn1, bind_guard, D in Hv.
  cbn [build restricted_pb pb_indices] in Hv.
  rewrite zero_size in Hv. cbn [Nat.eqb] in Hv. unfold vresize in Hv. cbn [firstn app] in Hv.
  rewrite Nat.sub_0_l in Hv. cbn in Hv. injection Hv as <-. cbn [lv_indices lv_tree].
  unfold lv_size. cbn [lv_tree]. rewrite zero_size. repeat split; auto.
  intros path n. generalize (add_guard dom n1) as t. clear.
  induction path as [|i p IH]; intros t H; cbn in H.
  - injection H as <-. apply zero_size.
  - unfold child in H. destruct t as [m g fe el|m g cs]; cbn in H; [now destruct i|].
    rewrite nth_error_map_eq in H. destruct (nth_error cs i) as [c|]; [|discriminate]. cbn in H. now apply (IH c).
Qed.

(** Inside, the view equals that of the sub-domain basis, and size(), dimension()
    and the descriptor are the sub-domain basis' own. *)
Theorem C20_inside_equals_subdomain_basis dom b els e v v' :
  wf (fun e => els e /\ dom e = true) b -> els e -> dom e = true ->
  lv_bind (build b) (lv_new (build b)) e = Some v ->
  lv_bind (build (BRestricted dom b)) (lv_new (build (BRestricted dom b))) e = Some v' ->
  lv_indices v' = lv_indices v /\ lv_size v' = lv_size v /\ same_tree (lv_tree v') (lv_tree v) /\
  pb_size (build (BRestricted dom b)) = pb_size (build b) /\
  pb_dim (build (BRestricted dom b)) = pb_dim (build b) /\
  pb_desc (build (BRestricted dom b)) = pb_desc (build b).
Proof.
  intros Hwf He D Hv Hv'.
  pose proof (build_ok b _ Hwf) as OK.
  pose proof (build_ok (BRestricted dom b) els Hwf) as OR.
  rewrite (bind_new_ok _ _ _ e OK (conj He D)) in Hv. injection Hv as <-.
  rewrite (bind_new_ok _ _ _ e OR He) in Hv'. injection Hv' as <-.
  cbn [lv_indices lv_tree meaning restricted_spec sp_keys sp_glob]. rewrite D.
  assert (GI : forall n : node E, fst (init_tree 0 (add_guard dom n)) = add_guard dom (fst (init_tree 0 n))).
  { intros [m g fe el|m g cs]; [reflexivity|]. cbn [add_guard]. rewrite !init_inner.
    reflexivity. }
  assert (T : same_tree (bind_tree e 0 (fst (init_tree 0 (pb_node (build (BRestricted dom b))))))
                        (bind_tree e 0 (fst (init_tree 0 (pb_node (build b)))))).
  { cbn [build restricted_pb pb_node]. rewrite GI, bind_guard, D.
    generalize (bind_tree e 0 (fst (init_tree 0 (pb_node (build b))))) as t. clear.
    intros t [|i p].
    - cbn. destruct t; unfold same_node; cbn; auto 7.
    - cbn [descendant]. rewrite child_guard. destruct (child t i) as [c|]; [|exact I].
      destruct (descendant c p) as [n|]; [|exact I]. unfold same_node. auto 7. }
  repeat split; auto. unfold lv_size. cbn [lv_tree]. now apply same_tree_sizes.
Qed.

End Props.

(** * A concrete grid and nesting meeting the hypotheses *)

(** Two interval elements 0 and 1; continuous P1 (3 vertices), P0, and one DOF on
    the sub-domain consisting of element 1. *)
Definition ex_els (e : nat) : Prop := e < 2.
Definition ex_p1 : leaf nat := {| lf_dim := 3; lf_maxnode := 2; lf_fe := fun _ => 2; lf_indices := fun e => [e; e + 1] |}.
Definition ex_p0 : leaf nat := {| lf_dim := 2; lf_maxnode := 1; lf_fe := fun _ => 1; lf_indices := fun e => [e] |}.
Definition ex_sub : leaf nat := {| lf_dim := 1; lf_maxnode := 1; lf_fe := fun _ => 1; lf_indices := fun _ => [0] |}.
Definition ex_dom (e : nat) : bool := e =? 1.
Definition ex_b : bexpr nat :=
  BComposite CBlockedLexicographic
    [ BPower true 2 BlockedInterleaved (BLeaf ex_p1);
      BRestricted ex_dom (BLeaf ex_sub);
      BPower false 3 FlatLexicographic (BComposite CFlatLexicographic [BLeaf ex_p0; BLeaf ex_p1]) ].

Lemma ex_p1_ok : leaf_ok ex_els ex_p1.
Proof.
  constructor; cbn; unfold ex_els; auto.
  - intros e g He [<-|[<-|[]]]; lia.
  - intros g Hg. destruct (Nat.le_gt_cases g 1).
    + exists g. split; [lia|auto].
    + exists 1. split; [lia|]. right. left. lia.
Qed.
Lemma ex_p0_ok : leaf_ok ex_els ex_p0.
Proof.
  constructor; cbn; unfold ex_els; auto.
  - intros e g He [<-|[]]; lia.
  - intros g Hg. exists g. auto.
Qed.
Lemma ex_sub_ok : leaf_ok (fun e => ex_els e /\ ex_dom e = true) ex_sub.
Proof.
  constructor; cbn; unfold ex_els, ex_dom; auto.
  - intros e g He [<-|[]]; lia.
  - intros g Hg. exists 1. repeat split; auto. left. lia.
Qed.
Lemma ex_wf : wf ex_els ex_b.
Proof.
  cbn. repeat split; auto; try discriminate; try lia; try apply ex_p1_ok; try apply ex_p0_ok; try apply ex_sub_ok.
  intros _. repeat constructor.
Qed.
Lemma ex_no_empty : no_empty_blocks ex_b.
Proof. unfold no_empty_blocks. cbn. repeat constructor; discriminate. Qed.

Example C04_hypotheses_met : (* the index of local DOF 4 on element 1, and its sizes *)
  local_dof ex_b 1 4 [1; 0] /\ pb_size (build ex_b) [] = Some 3 /\
  pb_size (build ex_b) [0] = Some 3 /\ pb_size (build ex_b) [0; 2] = Some 2 /\
  pb_size (build ex_b) [2] = Some 15.
Proof. split; [|vm_compute; auto]. eexists. split; [reflexivity|]. split; [reflexivity|]. vm_compute. lia. Qed.
Example C05_hypotheses_met : pb_dim (build ex_b) = 22. Proof. reflexivity. Qed.
Example C06_C07_C11_hypotheses_met :
  exists v, lv_bind (build ex_b) (lv_new (build ex_b)) 1 = Some v /\
    lv_size v = 14 /\ lv_maxsize (build ex_b) = 14 /\ lv_index v 13 = Some [2; 14] /\
    dof_of ex_b 1 v 13 [2; 2; 1] 2.
Proof.
  eexists. split; [reflexivity|]. repeat split; try reflexivity.
  eexists. exists ex_p1, 1. repeat split; reflexivity.
Qed.
Example C09_hypotheses_met : (* a fully known descriptor *)
  pb_desc (build ex_b) = Some (DTuple [DUVector 3 (DUArray 2 DValue); DUVector 1 DValue; DUVector 15 DValue]).
Proof. reflexivity. Qed.
Example C14_hypotheses_met :
  exists v, lv_run (build ex_b) (lv_new (build ex_b)) [LBind 1; LBind 0; LCopy; LUnbind; LBind 1; LBind 0] = Some v /\
            lv_elem v = Some 0 /\ lv_size v = 13.
Proof. eexists. split; [vm_compute; reflexivity|]. split; reflexivity. Qed.
Example C15_hypotheses_met :
  exists v t n, sv_bind (subspace_of_root (build ex_b) [2; 1]) (sv_new (subspace_of_root (build ex_b) [2; 1])) 1 = Some v /\
    sv_tree (subspace_of_root (build ex_b) [2; 1]) v = Some t /\ descendant t [1] = Some n /\
    is_leaf n = true /\ local_index n 0 = Some 9 /\ leaf_at ex_b [2; 1; 1] = Some ex_p1 /\
    sv_index v 9 = Some [2; 8].
Proof. do 3 eexists. split; [vm_compute; reflexivity|]. repeat split; reflexivity. Qed.
Example C16_hypotheses_met : wf ex_els (BTaylorHood false 2 ex_p1 ex_p0).
Proof. cbn. auto using ex_p1_ok, ex_p0_ok. Qed.
Example C16_hybrid_collision :
  exists v, lv_bind (build (BTaylorHood true 2 ex_p1 ex_p0)) (lv_new (build (BTaylorHood true 2 ex_p1 ex_p0))) 0 = Some v /\
            lv_indices v = [[0;0;0];[0;1;1];[0;0;0];[0;1;1];[1;0]].
Proof. eexists. split; [vm_compute; reflexivity|reflexivity]. Qed.
Example C20_hypotheses_met :
  wf ex_els (BRestricted ex_dom (BLeaf ex_sub)) /\
  exists v, lv_run (build (BRestricted ex_dom (BLeaf ex_sub))) (lv_new (build (BRestricted ex_dom (BLeaf ex_sub)))) [LBind 1] = Some v.
Proof. split; [apply ex_sub_ok|]. eexists. vm_compute. reflexivity. Qed.
(** Reversing a flat numbering is a bijection as C17 asks for. *)
Example C17_hypotheses_met :
  let b := BLeaf ex_p1 in
  let phi := fun m : mi => match m with [d] => [2 - d] | _ => m end in
  let t := TR (fun _ m => Some (phi m)) (pb_size (build b)) 3 None 1 1 in
  (forall m, global_index ex_els b m -> admitted (tr_size t) (phi m)) /\
  (forall m m', global_index ex_els b m -> global_index ex_els b m' -> phi m = phi m' -> m = m') /\
  (forall m', admitted (tr_size t) m' -> exists m, global_index ex_els b m /\ phi m = m').
Proof.
  assert (W : wf ex_els (BLeaf ex_p1)) by apply ex_p1_ok.
  assert (N : no_empty_blocks (BLeaf ex_p1)) by (unfold no_empty_blocks; cbn; repeat constructor).
  assert (G : forall m, global_index ex_els (BLeaf ex_p1) m <-> exists d, d < 3 /\ m = [d]).
  { intros m. rewrite (global_index_iff _ _ _ W). cbn. split.
    - destruct m as [|d m]; [discriminate|]. destruct d as [|[|[|d]]]; cbn;
        try (destruct m; [|discriminate]; intros _; eexists; split; [|reflexivity]; lia).
      destruct d; discriminate.
    - intros (d & Hd & ->). destruct d as [|[|[|d]]]; [reflexivity..|lia]. }
  assert (A : forall m, admitted (pb_size (build (BLeaf ex_p1))) m <-> exists d, d < 3 /\ m = [d]).
  { intros m. rewrite <- G. apply admitted_iff; auto. }
  cbn [tr_size]. split; [|split].
  - intros m Hm. apply A. apply G in Hm as (d & Hd & ->). exists (2 - d). split; [lia|reflexivity].
  - intros m m' Hm Hm'. apply G in Hm as (d & Hd & ->), Hm' as (d' & Hd' & ->). intros [= H]. f_equal. lia.
  - intros m' Hm'. apply A in Hm' as (d & Hd & ->). exists [2 - d]. split; [apply G; exists (2 - d); split; [lia|reflexivity]|].
    cbn. f_equal. lia.
Qed.

(** BlockedInterleaved over a basis with an empty block: size() reports children
    below the empty block although no index starts there, and the block has no
    entry.  (So [wf] excludes it.)  The empty block comes from a leaf without DOFs. *)
Definition ex_none : leaf nat := {| lf_dim := 0; lf_maxnode := 0; lf_fe := fun _ => 0; lf_indices := fun _ => [] |}.
Theorem C04_blocked_interleaved_empty_block_refuted :
  let sub := BComposite CBlockedLexicographic [BLeaf ex_none; BLeaf ex_p0] in
  let b := BPower true 2 BlockedInterleaved sub in
  wf ex_els sub /\
  pb_size (build sub) [0] = Some 0 /\ pb_size (build b) [0] = Some 2 /\
  (forall e i m, ex_els e -> local_dof b e i m -> exists r, m = 1 :: r).
Proof.
  cbn zeta. split; [|split; [reflexivity|split; [reflexivity|]]].
  - cbn. repeat split; auto; try discriminate; try apply ex_p0_ok; cbn; try lia; intros; try contradiction.
  - intros e i m He (v & Hv & Hm & _). unfold ex_els in He.
    destruct e as [|[|e]]; [| |lia]; vm_compute in Hv; injection Hv as <-;
      (destruct i as [|[|i]]; cbn in Hm; [injection Hm as <-; eauto..|destruct i; discriminate]).
Qed.

Print Assumptions C04_size_is_the_index_tree.
Print Assumptions C04_size_counts_next_digits.
Print Assumptions C04_size_zero_iff_complete.
Print Assumptions C04_blocked_interleaved_empty_block_refuted.
Print Assumptions C05_dimension_counts_global_indices.
Print Assumptions C05_dimension_counts_admitted_indices.
Print Assumptions C06_local_index_is_valid.
Print Assumptions C06_every_local_dof_has_an_index.
Print Assumptions C07_every_local_dof_is_a_leaf_dof.
Print Assumptions C07_indices_identify_dofs.
Print Assumptions C08_admitted_indices_occur.
Print Assumptions C08_index_tree_is_covered.
Print Assumptions C09_descriptor_agrees_with_size.
Print Assumptions C09_descriptor_describes_index_tree.
Print Assumptions C10_index_lengths.
Print Assumptions C10_buffer_never_overflows.
Print Assumptions C11_size_at_most_maxsize.
Print Assumptions C12_children_are_consecutive.
Print Assumptions C12_leaves_partition_the_local_indices.
Print Assumptions C12_leaf_indices_in_range.
Print Assumptions C13_tree_indices_number_the_tree.
Print Assumptions C13_tree_indices_survive_bind.
Print Assumptions C13_tree_indices_of_a_view.
Print Assumptions C14_bound_view_is_history_independent.
Print Assumptions C14_bound_element.
Print Assumptions C14_index_of_a_leaf_dof.
Print Assumptions C15_nesting_concatenates.
Print Assumptions C15_nested_tree.
Print Assumptions C15_subspace_view_is_the_root_view.
Print Assumptions C16_taylor_hood_is_the_documented_composite.
Print Assumptions C16_taylor_hood_valid_and_gap_free.
Print Assumptions C16_hybrid_indices.
Print Assumptions C16_hybrid_refuted.
Print Assumptions C17_indices_are_transformed_in_order.
Print Assumptions C17_bijections_carry_over.
Print Assumptions C20_nothing_outside_the_subdomain.
Print Assumptions C20_inside_equals_subdomain_basis.
