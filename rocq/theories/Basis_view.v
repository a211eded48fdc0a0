(** Local views: what bind leaves behind, for every basis satisfying the contract. *)
From Coq Require Import List Arith Bool Lia FinFun.
From Verif Require Import Lib Basis_model Basis_spec Basis_proofs Basis_ok.
Import ListNotations.

Section View.
Context {E : Type}.
Notation node := (node E).

Lemma vresize_length {A} (l : list A) n d : length (vresize l n d) = n.
Proof. unfold vresize. rewrite app_length, firstn_length, repeat_length. lia. Qed.

Lemma bind_ok (els : E -> Prop) pb (W : bspec E) v e :
  pb_ok els pb W -> els e -> skel (lv_tree v) = skel (pb_node pb) ->
  lv_bind pb v e = Some (LV (Some e) (bind_tree e 0 (lv_tree v)) (map (sp_glob W) (sp_keys W e))).
Proof.
  intros OK He Hsk. unfold lv_bind.
  rewrite (ok_nsize _ _ _ OK _ e 0 He Hsk).
  pose proof (ok_ind _ _ _ OK (pb_bufmi pb) (lv_tree v) e 0 []
                (vresize (lv_indices v) (length (sp_keys W e)) []) [] He Hsk (le_n _)
                (vresize_length _ _ _)) as H.
  cbn [app length] in H. rewrite !app_nil_r in H. rewrite H. reflexivity.
Qed.

Lemma new_skel (pb : prebasis E) : skel (lv_tree (lv_new pb)) = skel (pb_node pb).
Proof. apply skel_init. Qed.

Lemma bind_new_ok (els : E -> Prop) pb (W : bspec E) e :
  pb_ok els pb W -> els e ->
  lv_bind pb (lv_new pb) e =
  Some (LV (Some e) (bind_tree e 0 (fst (init_tree 0 (pb_node pb)))) (map (sp_glob W) (sp_keys W e))).
Proof. intros. erewrite bind_ok; eauto using new_skel. Qed.

Lemma local_dof_iff (b : bexpr E) (els : E -> Prop) e i m :
  wf els b -> els e ->
  local_dof b e i m <-> exists k, nth_error (sp_keys (meaning b) e) i = Some k /\ sp_glob (meaning b) k = m.
Proof.
  intros Hwf He. pose proof (build_ok b els Hwf) as OK. unfold local_dof.
  rewrite (bind_new_ok els _ _ e OK He). split.
  - intros (v & [= <-] & Hi & _). unfold lv_index in Hi. cbn in Hi. rewrite nth_error_map_eq in Hi.
    destruct (nth_error (sp_keys (meaning b) e) i) as [k|]; [|discriminate]. cbn in Hi.
    injection Hi as <-. eauto.
  - intros (k & Hk & <-). eexists. split; [reflexivity|]. unfold lv_index, lv_size. cbn.
    rewrite nth_error_map_eq, Hk. split; [reflexivity|].
    change (fst (init_tree 0 (pb_node (build b)))) with (lv_tree (lv_new (build b))).
    rewrite (ok_nsize _ _ _ OK _ e 0 He (new_skel _)).
    now apply nth_error_Some_lt in Hk.
Qed.

Lemma global_index_iff (b : bexpr E) (els : E -> Prop) m :
  wf els b -> global_index els b m <-> subtree (sp_tree (meaning b)) m = Some DOF.
Proof.
  intros Hwf. pose proof (build_ok b els Hwf) as OK. split.
  - intros (e & i & He & H). apply (local_dof_iff b els e i m Hwf He) in H as (k & Hk & <-).
    apply (ok_valid _ _ _ OK e); auto. now apply nth_error_In in Hk.
  - intros Hm. destruct (ok_surj _ _ _ OK m Hm) as (e & k & He & Hk & <-).
    apply In_nth_error in Hk as [i Hi]. exists e, i. split; auto.
    apply (local_dof_iff b els e i _ Hwf He). eauto.
Qed.

(** * All DOF paths of an index tree *)
Fixpoint number {A} (i : nat) (l : list A) : list (nat * A) :=
  match l with [] => [] | x :: r => (i, x) :: number (i + 1) r end.
Fixpoint dof_paths (t : itree) : list mi :=
  match t with
  | DOF => [[]]
  | Blk f => (fix go i l := match l with
                            | [] => []
                            | x :: r => map (cons i) (dof_paths x) ++ go (i + 1) r
                            end) 0 f
  end.
Fixpoint dof_paths_from (i : nat) (l : list itree) : list mi :=
  match l with [] => [] | x :: r => map (cons i) (dof_paths x) ++ dof_paths_from (i + 1) r end.
Lemma dof_paths_Blk f : dof_paths (Blk f) = dof_paths_from 0 f.
Proof. reflexivity. Qed.

Lemma dof_paths_length t : length (dof_paths t) = ndofs t.
Proof.
  induction t as [|f IH] using itree_ind'; [reflexivity|].
  rewrite dof_paths_Blk. cbn [ndofs]. generalize 0 as i.
  induction IH as [|x f Hx _ IHf]; intros i; [reflexivity|].
  cbn. now rewrite app_length, map_length, Hx, IHf.
Qed.

Lemma in_dof_paths_from l m : (forall t, In t l -> forall m, In m (dof_paths t) <-> subtree t m = Some DOF) ->
  forall i, In m (dof_paths_from i l) <->
  exists d r t, m = (i + d) :: r /\ nth_error l d = Some t /\ subtree t r = Some DOF.
Proof.
  induction l as [|x l IH]; intros H i; cbn.
  - split; [intros []|]. intros (d & r & t & _ & N & _). now destruct d.
  - rewrite in_app_iff, in_map_iff, IH by (intros; apply H; now right). split.
    + intros [(r & <- & Hr)|(d & r & t & -> & N & Hr)].
      * exists 0, r, x. rewrite Nat.add_0_r. repeat split; auto. apply H; [now left|auto].
      * exists (S d), r, t. repeat split; auto. f_equal. lia.
    + intros (d & r & t & -> & N & Hr). destruct d as [|d].
      * left. injection N as ->. exists r. rewrite Nat.add_0_r. split; auto. apply H; [now left|auto].
      * right. exists d, r, t. repeat split; auto. f_equal. lia.
Qed.

Lemma in_dof_paths t : forall m, In m (dof_paths t) <-> subtree t m = Some DOF.
Proof.
  induction t as [|f IH] using itree_ind'; intros m.
  - cbn. split.
    + intros [<-|[]]. reflexivity.
    + destruct m; [auto|discriminate].
  - rewrite dof_paths_Blk, in_dof_paths_from by (now rewrite Forall_forall in IH).
    cbn [Nat.add]. split.
    + intros (d & r & t & -> & N & H). cbn. now rewrite N.
    + destruct m as [|d r]; [discriminate|]. cbn. destruct (nth_error f d) as [t|] eqn:N; [|discriminate].
      intros H. exists d, r, t. auto.
Qed.

Lemma dof_paths_NoDup t : NoDup (dof_paths t).
Proof.
  induction t as [|f IH] using itree_ind'; [repeat constructor; auto|].
  rewrite dof_paths_Blk.
  assert (G : forall i, NoDup (dof_paths_from i f)).
  { induction IH as [|x f Hx _ IHf]; intros i; cbn; [constructor|].
    assert (M : NoDup (map (cons i) (dof_paths x))).
    { apply Injective_map_NoDup; auto. intros a b [= ->]. reflexivity. }
    specialize (IHf (i + 1)). revert M IHf.
    assert (D : forall m, In m (map (cons i) (dof_paths x)) -> ~ In m (dof_paths_from (i + 1) f)).
    { intros m H1 H2. apply in_map_iff in H1 as (r & <- & _).
      apply in_dof_paths_from in H2 as (d & r' & t & [= H _] & _); [lia|].
      intros; apply in_dof_paths. }
    revert D. generalize (map (cons i) (dof_paths x)) as l1, (dof_paths_from (i + 1) f) as l2.
    induction l1 as [|a l1 IHl]; intros l2 D N1 N2; [exact N2|].
    inversion N1; subst. cbn. constructor.
    - rewrite in_app_iff. intros [H|H]; [auto|]. apply (D a); [now left|auto].
    - apply IHl; auto. intros m Hm. apply D. now right. }
  apply G.
Qed.

Lemma full_has_dof t : full t -> exists q, subtree t q = Some DOF.
Proof.
  induction t as [|f IH] using itree_ind'; intros H.
  - exists []. reflexivity.
  - apply full_Blk in H as [Hne H]. destruct f as [|x f]; [congruence|].
    inversion IH; inversion H; subst. destruct H2 as [q Hq]; auto. exists (0 :: q). exact Hq.
Qed.

Lemma full_below t p u : full t -> subtree t p = Some u -> full u.
Proof.
  revert t. induction p as [|d p IH]; intros t Hf; cbn.
  - now intros [= <-].
  - destruct t as [|g]; [discriminate|]. destruct (nth_error g d) eqn:N; [|discriminate].
    apply full_Blk in Hf as [_ Hf]. rewrite Forall_forall in Hf. apply IH, Hf.
    now apply nth_error_In in N.
Qed.

Lemma full_below_root F p u : Forall full F -> subtree (Blk F) p = Some u -> p <> [] -> full u.
Proof.
  destruct p as [|d p]; [congruence|]. intros Hf. cbn.
  destruct (nth_error F d) eqn:N; [|discriminate]. intros H _.
  eapply full_below; [|exact H]. rewrite Forall_forall in Hf. apply Hf. now apply nth_error_In in N.
Qed.

(** * Leaf nodes: offsets, partition *)

(** Children of a bound tree are consecutive. *)
Fixpoint consecutive (o : nat) (l : list node) : Prop :=
  match l with [] => True | c :: r => node_offset c = o /\ consecutive (o + node_size c) r end.

Fixpoint good (n : node) : Prop :=
  match n with
  | NLeaf _ _ _ _ => True
  | NInner m _ cs => mx_size m = sizes_sum cs /\ consecutive (mx_offset m) cs /\
                     (fix go l := match l with [] => True | c :: r => good c /\ go r end) cs
  end.
Lemma good_inner m g cs :
  good (NInner m g cs) <-> mx_size m = sizes_sum cs /\ consecutive (mx_offset m) cs /\ Forall good cs.
Proof.
  cbn. enough (((fix go l := match l with [] => True | c :: r => good c /\ go r end) cs) <-> Forall good cs) by tauto.
  induction cs as [|c cs IH]; split; intros H; auto; [constructor; tauto|]. inversion H; tauto.
Qed.

Lemma zero_good off (n : node) : good (zero_tree off n).
Proof.
  induction n as [m g fe e|m g cs IH] using node_ind'; [exact I|].
  cbn [zero_tree]. apply good_inner. cbn.
  assert (S0 : forall l : list node, sizes_sum (map (zero_tree off) l) = 0).
  { induction l as [|c l IHl]; [reflexivity|]. unfold sizes_sum in *. cbn. now rewrite zero_size, IHl. }
  repeat split.
  - now rewrite S0.
  - clear IH. induction cs as [|c cs IHc]; cbn; auto. now rewrite zero_offset, zero_size, Nat.add_0_r.
  - apply Forall_forall. intros x Hx. apply in_map_iff in Hx as (y & <- & Hy).
    rewrite Forall_forall in IH. auto.
Qed.

Lemma bind_good e (n : node) : forall off, good (bind_tree e off n).
Proof.
  induction n as [m g fe el|m g cs IH] using node_ind'; intros off.
  - cbn. destruct (forallb _ g); exact I.
  - rewrite bind_inner. destruct (forallb _ g); [|apply zero_good].
    apply good_inner. cbn [mx_size mx_offset]. split; [|split].
    + rewrite bind_children_fst. lia.
    + revert off. clear IH. induction cs as [|c cs IHc]; intros off; cbn; auto.
      specialize (IHc (off + node_size (bind_tree e off c))).
      destruct (bind_children e (off + node_size (bind_tree e off c)) cs). cbn.
      split; [apply bind_offset|exact IHc].
    + revert off. induction IH as [|c cs Hc _ IHc]; intros off; cbn; [constructor|].
      specialize (IHc (off + node_size (bind_tree e off c))).
      destruct (bind_children e (off + node_size (bind_tree e off c)) cs). cbn.
      constructor; auto.
Qed.

(** Offsets of the leaves of a good tree. *)
Definition lsizes (l : list (list nat * node)) : nat := sum_list (map (fun pl => node_size (snd pl)) l).
Lemma lsizes_app a b : lsizes (a ++ b) = lsizes a + lsizes b.
Proof. unfold lsizes. now rewrite map_app, sum_list_app. Qed.
Lemma lsizes_map f l : lsizes (map (fun pl => (f pl, snd pl)) l) = lsizes l.
Proof. unfold lsizes. rewrite map_map. reflexivity. Qed.

Fixpoint lconsecutive (o : nat) (l : list (list nat * node)) : Prop :=
  match l with [] => True | pl :: r => node_offset (snd pl) = o /\ lconsecutive (o + node_size (snd pl)) r end.
Lemma lconsecutive_app o a b :
  lconsecutive o (a ++ b) <-> lconsecutive o a /\ lconsecutive (o + lsizes a) b.
Proof.
  revert o. induction a as [|x a IH]; intros o; cbn.
  - rewrite Nat.add_0_r. tauto.
  - rewrite IH. unfold lsizes. cbn. rewrite Nat.add_assoc. tauto.
Qed.
Lemma lconsecutive_map f o l :
  lconsecutive o (map (fun pl => (f pl, snd pl)) l) <-> lconsecutive o l.
Proof. revert o. induction l; intros o; cbn; [tauto|]. now rewrite IHl. Qed.

Lemma good_leaves (n : node) :
  good n -> lsizes (leaf_nodes n) = node_size n /\ lconsecutive (node_offset n) (leaf_nodes n).
Proof.
  induction n as [m g fe e|m g cs IH] using node_ind'; intros G.
  - unfold lsizes. cbn. split; [lia|auto].
  - apply good_inner in G as (Gs & Gc & Gf). rewrite leaf_nodes_inner.
    unfold node_size, node_offset. cbn [node_mixin]. rewrite Gs. clear Gs.
    generalize 0 as i. revert Gc. generalize (mx_offset m) as o.
    induction IH as [|c cs Hc _ IHc]; intros o Gc i; [cbn; auto|].
    inversion Gf; subst. cbn in Gc. destruct Gc as [Go Gc]. destruct (Hc H1) as [A1 A2].
    cbn [leaf_nodes_from].
    destruct (IHc H2 _ Gc (i + 1)) as [B1 B2].
    rewrite lsizes_app, lconsecutive_app, lconsecutive_map, lsizes_map, A1, B1.
    unfold sizes_sum. cbn. rewrite <- Go in *. auto.
Qed.

(** Position of an index in a consecutive list of blocks. *)
Lemma lcons_locate l : forall o k, lconsecutive o l -> o <= k < o + lsizes l ->
  exists j pl i, nth_error l j = Some pl /\ local_index (snd pl) i = Some k.
Proof.
  induction l as [|x l IH]; intros o k Hc Hk; cbn in *; [unfold lsizes in Hk; cbn in Hk; lia|].
  destruct Hc as [Ho Hc]. unfold lsizes in Hk. cbn in Hk.
  destruct (Nat.lt_ge_cases k (o + node_size (snd x))).
  - exists 0, x, (k - o). split; [reflexivity|]. unfold local_index.
    destruct (Nat.ltb_spec (k - o) (node_size (snd x))); [|lia]. f_equal. lia.
  - destruct (IH (o + node_size (snd x)) k Hc) as (j & pl & i & N & L); [unfold lsizes; lia|].
    exists (S j), pl, i. auto.
Qed.
Lemma local_index_Some (n : node) i k :
  local_index n i = Some k <-> i < node_size n /\ k = node_offset n + i.
Proof.
  unfold local_index. destruct (Nat.ltb_spec i (node_size n)); split; intros H1; try discriminate; try lia.
  - injection H1 as <-. auto.
  - destruct H1 as [_ ->]. reflexivity.
Qed.
Lemma lcons_offset l : forall o j pl, lconsecutive o l -> nth_error l j = Some pl ->
  node_offset (snd pl) = o + lsizes (firstn j l).
Proof.
  induction l as [|x l IH]; intros o j pl Hc N; [now destruct j|].
  destruct Hc as [Ho Hc]. destruct j as [|j].
  - injection N as ->. unfold lsizes. cbn. lia.
  - cbn in N. rewrite (IH _ _ _ Hc N). unfold lsizes. cbn. lia.
Qed.
Lemma lsizes_firstn_mono l : forall j j' pl, j < j' -> nth_error l j = Some pl ->
  lsizes (firstn j l) + node_size (snd pl) <= lsizes (firstn j' l).
Proof.
  induction l as [|x l IH]; intros j j' pl Hj N; [now destruct j|].
  destruct j' as [|j']; [lia|]. destruct j as [|j].
  - injection N as ->. unfold lsizes. cbn. lia.
  - cbn in N. specialize (IH j j' pl ltac:(lia) N). unfold lsizes in *. cbn. lia.
Qed.
Lemma lcons_unique l o j j' pl pl' i i' k :
  lconsecutive o l -> nth_error l j = Some pl -> nth_error l j' = Some pl' ->
  local_index (snd pl) i = Some k -> local_index (snd pl') i' = Some k -> j = j' /\ i = i'.
Proof.
  intros Hc N N' L L'. apply local_index_Some in L as [L1 L2], L' as [L1' L2'].
  pose proof (lcons_offset _ _ _ _ Hc N). pose proof (lcons_offset _ _ _ _ Hc N').
  destruct (Nat.lt_trichotomy j j') as [J|[J|J]].
  - pose proof (lsizes_firstn_mono l j j' pl J N). lia.
  - subst j'. rewrite N in N'. injection N' as <-. split; [auto|lia].
  - pose proof (lsizes_firstn_mono l j' j pl' J N'). lia.
Qed.

(** Leaf nodes and tree paths. *)
Lemma leaf_nodes_descendant (n : node) : forall p l,
  In (p, l) (leaf_nodes n) <-> descendant n p = Some l /\ is_leaf l = true.
Proof.
  induction n as [m g fe e|m g cs IH] using node_ind'; intros p l.
  - cbn. split.
    + intros [[= <- <-]|[]]. auto.
    + destruct p as [|i p]; cbn.
      * intros [[= <-] _]. auto.
      * destruct i; intros [H _]; discriminate.
  - rewrite leaf_nodes_inner.
    assert (G : forall i, In (p, l) (leaf_nodes_from i cs) <->
      exists j q c, p = (i + j) :: q /\ nth_error cs j = Some c /\ In (q, l) (leaf_nodes c)).
    { clear IH. induction cs as [|c cs IHc]; intros i; cbn [leaf_nodes_from].
      - split; [intros []|]. intros (j & q & c & _ & N & _). now destruct j.
      - rewrite in_app_iff, IHc, in_map_iff. split.
        + intros [([q l'] & [= <- <-] & H)|(j & q & c' & -> & N & H)].
          * exists 0, q, c. rewrite Nat.add_0_r. auto.
          * exists (S j), q, c'. repeat split; auto. f_equal. lia.
        + intros (j & q & c' & -> & N & H). destruct j as [|j].
          * left. injection N as ->. exists (q, l). rewrite Nat.add_0_r. auto.
          * right. exists j, q, c'. repeat split; auto. f_equal. lia. }
    rewrite G. cbn [Nat.add]. split.
    + intros (j & q & c & -> & N & H). rewrite Forall_forall in IH.
      apply IH in H; [|now apply nth_error_In in N]. cbn. unfold child. cbn. now rewrite N.
    + intros [H L]. destruct p as [|j q]; cbn in H.
      * injection H as <-. discriminate.
      * unfold child in H. cbn in H. destruct (nth_error cs j) as [c|] eqn:N; [|discriminate].
        exists j, q, c. repeat split; auto. rewrite Forall_forall in IH.
        apply IH; [now apply nth_error_In in N|]. auto.
Qed.

Lemma leaf_nodes_paths_NoDup (n : node) : NoDup (map fst (leaf_nodes n)).
Proof.
  induction n as [m g fe e|m g cs IH] using node_ind'; [repeat constructor; auto|].
  rewrite leaf_nodes_inner.
  assert (K : forall (l : list node) i p x, In (p, x) (leaf_nodes_from i l) -> exists j q, p = (i + j) :: q).
  { clear. induction l as [|c l IHl]; intros i p x; cbn; [intros []|].
    rewrite in_app_iff, in_map_iff. intros [([q y] & [= <- <-] & H)|H].
    - exists 0, q. now rewrite Nat.add_0_r.
    - apply IHl in H as (j & q & ->). exists (S j), q. f_equal. lia. }
  generalize 0 as i. induction IH as [|c cs Hc _ IHc]; intros i; cbn [leaf_nodes_from]; [constructor|].
  rewrite map_app, map_map. cbn [fst].
  assert (M : NoDup (map (fun pl => i :: fst pl) (leaf_nodes c))).
  { rewrite <- (map_map fst (cons i)). apply Injective_map_NoDup; auto.
    intros a b [= ->]. reflexivity. }
  specialize (IHc (i + 1)).
  assert (D : forall p, In p (map (fun pl => i :: fst pl) (leaf_nodes c)) ->
                        ~ In p (map fst (leaf_nodes_from (i + 1) cs))).
  { intros p H1 H2. apply in_map_iff in H1 as ([q x] & <- & _).
    apply in_map_iff in H2 as ([q' x'] & E1 & H2). apply K in H2 as (j & q'' & ->).
    cbn in E1. injection E1 as E1 _. lia. }
  revert D M IHc. generalize (map (fun pl => i :: fst pl) (leaf_nodes c)) as l1,
    (map fst (leaf_nodes_from (i + 1) cs)) as l2. clear.
  induction l1 as [|a l1 IHl]; intros l2 D N1 N2; [exact N2|].
  inversion N1; subst. cbn. constructor.
  - rewrite in_app_iff. intros [H|H]; [auto|]. apply (D a); [now left|auto].
  - apply IHl; auto. intros m Hm. apply D. now right.
Qed.

(** A good tree partitions its index range among its leaves. *)
Lemma good_partition (t : node) : good t ->
  forall k, node_offset t <= k < node_offset t + node_size t ->
  exists p l i, (descendant t p = Some l /\ is_leaf l = true /\ local_index l i = Some k) /\
  forall p' l' i', descendant t p' = Some l' -> is_leaf l' = true -> local_index l' i' = Some k ->
     p' = p /\ l' = l /\ i' = i.
Proof.
  intros G k Hk. destruct (good_leaves t G) as [S1 S2]. rewrite <- S1 in Hk.
  destruct (lcons_locate _ _ _ S2 Hk) as (j & [p l] & i & N & L). cbn in L.
  exists p, l, i. pose proof (nth_error_In _ _ N) as HI. apply leaf_nodes_descendant in HI as [H1 H2].
  split; [auto|]. intros p' l' i' D' F' L'.
  assert (HI' : In (p', l') (leaf_nodes t)) by (apply leaf_nodes_descendant; auto).
  apply In_nth_error in HI' as [j' N'].
  destruct (lcons_unique _ _ _ _ _ _ i i' k S2 N N' L L') as [-> ->].
  rewrite N in N'. injection N' as <- <-. auto.
Qed.

(** * Tree indices *)
Lemma init_preorder (n : node) : forall t,
  map node_tix (preorder (fst (init_tree t n))) = seq t (length (preorder n)) /\
  snd (init_tree t n) = t + length (preorder n).
Proof.
  induction n as [m g fe e|m g cs IH] using node_ind'; intros t.
  - cbn. auto.
  - rewrite init_inner, !preorder_inner. cbn [fst snd map length seq].
    rewrite preorder_inner. cbn [map]. change (node_tix (NInner _ _ _)) with t.
    assert (G : forall u, map node_tix (preorder_list (fst (init_children u cs)))
                = seq u (length (preorder_list cs)) /\
                snd (init_children u cs) = u + length (preorder_list cs)).
    { induction IH as [|c cs Hc _ IHc]; intros u; [cbn; auto|].
      cbn [init_children preorder_list]. destruct (Hc u) as [A1 A2].
      destruct (init_tree u c) as [c' t1]. cbn [fst snd] in A1, A2. subst t1.
      destruct (IHc (u + length (preorder c))) as [B1 B2].
      destruct (init_children (u + length (preorder c)) cs) as [r t2]. cbn [fst snd] in *.
      cbn [preorder_list]. rewrite map_app, A1, B1, app_length, seq_app. split; [reflexivity|lia]. }
    destruct (G (t + 1)) as [G1 G2]. rewrite G1, G2, Nat.add_1_r. split; [reflexivity|lia].
Qed.

Lemma zero_tix off (n : node) : map node_tix (preorder (zero_tree off n)) = map node_tix (preorder (n : node)).
Proof.
  induction n as [m g fe e|m g cs IH] using node_ind'; [reflexivity|].
  cbn [zero_tree]. rewrite !preorder_inner. cbn [map]. f_equal.
  induction IH as [|c cs Hc _ IHc]; [reflexivity|]. cbn. now rewrite !map_app, Hc, IHc.
Qed.
Lemma bind_tix e (n : node) : forall off, map node_tix (preorder (bind_tree e off n)) = map node_tix (preorder n).
Proof.
  induction n as [m g fe el|m g cs IH] using node_ind'; intros off.
  - cbn. destruct (forallb _ g); reflexivity.
  - rewrite bind_inner. destruct (forallb _ g); [|apply zero_tix].
    rewrite !preorder_inner. cbn [map]. f_equal. revert off.
    induction IH as [|c cs Hc _ IHc]; intros off; [reflexivity|].
    cbn. specialize (IHc (off + node_size (bind_tree e off c))).
    destruct (bind_children e (off + node_size (bind_tree e off c)) cs). cbn in *.
    now rewrite !map_app, Hc, IHc.
Qed.

(** * Trees that differ only in state *)
(** Same shape and same tree indices. *)
Fixpoint tskel (n : node) : node :=
  match n with
  | NLeaf m g fe e => NLeaf (MX 0 0 (mx_tix m)) g fe None
  | NInner m g cs => NInner (MX 0 0 (mx_tix m)) g (map tskel cs)
  end.
Lemma tskel_zero off (n : node) : tskel (zero_tree off n) = tskel n.
Proof.
  induction n as [m g fe e|m g cs IH] using node_ind'; cbn; auto.
  f_equal. rewrite map_map. apply map_ext_in. intros a Ha. rewrite Forall_forall in IH. auto.
Qed.
Lemma tskel_bind e (n : node) : forall off, tskel (bind_tree e off n) = tskel n.
Proof.
  induction n as [m g fe el|m g cs IH] using node_ind'; intros off.
  - cbn. destruct (forallb _ g); reflexivity.
  - rewrite bind_inner. destruct (forallb _ g); [|apply tskel_zero].
    cbn. f_equal. revert off. induction IH as [|c cs Hc Hcs IH]; intros off; [reflexivity|].
    cbn. specialize (IH (off + node_size (bind_tree e off c))).
    destruct (bind_children e (off + node_size (bind_tree e off c)) cs). cbn in *. now rewrite Hc, IH.
Qed.
Lemma tskel_skel (n n' : node) : tskel n = tskel n' -> skel n = skel n'.
Proof.
  revert n'. induction n as [m g fe e|m g cs IH] using node_ind'; intros [m' g' fe' e'|m' g' cs']; cbn; intros H;
    inversion H; subst; auto.
  f_equal. clear H H1. revert cs' H3. induction IH as [|c cs Hc _ IHc]; intros [|c' cs'] H; try discriminate; auto.
  cbn in *. injection H as H1 H2. f_equal; auto.
Qed.

Lemma same_zero off off' (n n' : node) : off = off' -> tskel n = tskel n' ->
  same_tree (zero_tree off n) (zero_tree off' n').
Proof.
  intros <-. revert n'. induction n as [m g fe e|m g cs IH] using node_ind';
    intros [m' g' fe' e'|m' g' cs'] H; inversion H; subst.
  - intros [|i p]; cbn.
    + unfold same_node. cbn. repeat split; auto. unfold node_size. cbn. lia.
    + destruct i; exact I.
  - intros [|i p].
    + cbn. unfold same_node. cbn. repeat split; auto.
      apply (f_equal (@length _)) in H3. rewrite !map_length in *. auto.
    + cbn [descendant]. unfold child. cbn [zero_tree children]. rewrite !nth_error_map_eq.
      apply (f_equal (fun l => nth_error l i)) in H3. rewrite !nth_error_map_eq in H3.
      destruct (nth_error cs i) as [c|] eqn:N, (nth_error cs' i) as [c'|] eqn:N'; try discriminate; cbn; auto.
      cbn in H3. injection H3 as H3. rewrite Forall_forall in IH.
      apply (IH c (nth_error_In _ _ N) c' H3 p).
Qed.

Lemma same_tree_sizes (t t' : node) : same_tree t t' -> node_size t = node_size t'.
Proof. intros H. specialize (H []). cbn in H. apply H. Qed.

Lemma same_bind e (n : node) : forall n' off, tskel n = tskel n' ->
  same_tree (bind_tree e off n) (bind_tree e off n').
Proof.
  induction n as [m g fe el|m g cs IH] using node_ind'; intros [m' g' fe' el'|m' g' cs'] off H; inversion H; subst.
  - cbn. destruct (forallb (fun c => c e) g').
    + intros [|i p]; cbn; [|destruct i; exact I]. unfold same_node. cbn. auto 7.
    + apply (same_zero off off (NLeaf m g' fe' el) (NLeaf m' g' fe' el')); auto.
  - rewrite !bind_inner. destruct (forallb (fun c => c e) g'); [|now apply same_zero].
    assert (G : forall off, length (snd (bind_children e off cs)) = length (snd (bind_children e off cs')) /\
      fst (bind_children e off cs) = fst (bind_children e off cs') /\
      forall i, match nth_error (snd (bind_children e off cs)) i, nth_error (snd (bind_children e off cs')) i with
                | Some c, Some c' => same_tree c c' | None, None => True | _, _ => False end).
    { clear H H1. revert cs' H3. induction IH as [|c cs Hc _ IHc]; intros [|c' cs'] H; try discriminate; intros o.
      - cbn. repeat split; auto. intros [|i]; exact I.
      - cbn in H. injection H as H1 H2. cbn [bind_children].
        pose proof (Hc c' o H1) as SC. rewrite (same_tree_sizes _ _ SC).
        specialize (IHc cs' H2 (o + node_size (bind_tree e o c'))). destruct IHc as (I1 & I2 & I3).
        destruct (bind_children e (o + node_size (bind_tree e o c')) cs),
                 (bind_children e (o + node_size (bind_tree e o c')) cs'). cbn in *.
        repeat split; auto. intros [|i]; cbn; [exact SC|apply I3]. }
    destruct (G off) as (G1 & G2 & G3). intros [|i p].
    + cbn. unfold same_node. cbn. rewrite G2. repeat split; auto.
    + cbn [descendant]. unfold child. cbn [children]. specialize (G3 i).
      destruct (nth_error (snd (bind_children e off cs)) i), (nth_error (snd (bind_children e off cs')) i); try contradiction; auto.
      apply (G3 p).
Qed.

Lemma run_tskel (els : E -> Prop) pb (W : bspec E) : pb_ok els pb W -> forall h v v',
  (forall e, In (LBind e) h -> els e) -> (forall e, lv_elem v = Some e -> els e) ->
  tskel (lv_tree v) = tskel (lv_tree (lv_new pb)) ->
  (forall e, lv_elem v = Some e -> lv_indices v = map (sp_glob W) (sp_keys W e) /\
     exists n0, tskel n0 = tskel (lv_tree (lv_new pb)) /\ lv_tree v = bind_tree e 0 n0) ->
  lv_run pb v h = Some v' ->
  tskel (lv_tree v') = tskel (lv_tree (lv_new pb)) /\
  (forall e, lv_elem v' = Some e -> els e /\ lv_indices v' = map (sp_glob W) (sp_keys W e) /\
     exists n0, tskel n0 = tskel (lv_tree (lv_new pb)) /\ lv_tree v' = bind_tree e 0 n0).
Proof.
  intros OK. induction h as [|o h IH]; intros v v' Hh Hv Ht Hi R.
  - cbn in R. injection R as <-. split; auto.
  - cbn in R. apply obind_Some in R as (v1 & S1 & R).
    assert (Hh' : forall e, In (LBind e) h -> els e) by (intros; apply Hh; now right).
    assert (B : forall u e, els e -> tskel (lv_tree u) = tskel (lv_tree (lv_new pb)) ->
       lv_bind pb u e = Some v1 ->
       (forall e, lv_elem v1 = Some e -> els e) /\ tskel (lv_tree v1) = tskel (lv_tree (lv_new pb)) /\
       (forall e, lv_elem v1 = Some e -> lv_indices v1 = map (sp_glob W) (sp_keys W e) /\
         exists n0, tskel n0 = tskel (lv_tree (lv_new pb)) /\ lv_tree v1 = bind_tree e 0 n0)).
    { intros u e He Hu Hb. rewrite (bind_ok els pb W u e OK He) in Hb.
      2:{ rewrite (tskel_skel _ _ Hu). apply new_skel. }
      injection Hb as <-. cbn. repeat split.
      - intros ? [= <-]. auto.
      - now rewrite tskel_bind.
      - injection H as <-. auto.
      - injection H as <-. eauto. }
    destruct o as [e| |]; cbn in S1.
    + destruct (B v e (Hh e (or_introl eq_refl)) Ht S1) as (B1 & B2 & B3). eapply (IH v1); eauto.
    + injection S1 as <-. eapply (IH (lv_unbind v)); eauto; cbn; discriminate.
    + unfold lv_copy in S1. destruct (lv_elem v) as [e|] eqn:Ev.
      * destruct (B (lv_new pb) e (Hv e eq_refl) eq_refl S1) as (B1 & B2 & B3). eapply (IH v1); eauto.
      * injection S1 as <-. eapply (IH (lv_new pb)); eauto; cbn; discriminate.
Qed.

Lemma run_defined (els : E -> Prop) pb (W : bspec E) : pb_ok els pb W -> forall h v,
  (forall e, In (LBind e) h -> els e) -> (forall e, lv_elem v = Some e -> els e) ->
  skel (lv_tree v) = skel (pb_node pb) -> exists v', lv_run pb v h = Some v'.
Proof.
  intros OK. induction h as [|o h IH]; intros v Hh Hv Hs; [cbn; eauto|].
  assert (Hh' : forall e, In (LBind e) h -> els e) by (intros; apply Hh; now right).
  destruct o as [e| |]; cbn.
  - rewrite (bind_ok els pb W v e OK (Hh e (or_introl eq_refl)) Hs). cbn. apply IH; auto; cbn.
    + intros ? [= <-]. apply Hh. now left.
    + rewrite skel_bind. auto.
  - apply IH; auto. cbn. discriminate.
  - unfold lv_copy. destruct (lv_elem v) as [e|] eqn:Ev.
    + rewrite (bind_ok els pb W (lv_new pb) e OK (Hv e eq_refl) (new_skel pb)). cbn. apply IH; auto; cbn.
      rewrite skel_bind. apply new_skel.
    + cbn. apply IH; auto; apply new_skel.
Qed.

(** * Keys leaf by leaf *)
Definition leaf_keys (b : bexpr E) (e : E) (pl : list nat * node) : list key :=
  if node_size (snd pl) =? 0 then [] else
  match leaf_at b (fst pl) with
  | Some l => map (fun g => (fst pl, g)) (lf_indices l e)
  | None => []
  end.

Lemma flat_map_nil {A B} (f : A -> list B) l : (forall a, In a l -> f a = []) -> flat_map f l = [].
Proof. induction l; cbn; intros H; auto. rewrite H by now left. apply IHl. intros; apply H; now right. Qed.

Lemma leaf_nodes_zero off (n : node) : forall pl, In pl (leaf_nodes (zero_tree off n)) -> node_size (snd pl) = 0.
Proof.
  induction n as [m g fe e|m g cs IH] using node_ind'; intros pl.
  - cbn. intros [<-|[]]. reflexivity.
  - cbn [zero_tree]. rewrite leaf_nodes_inner.
    enough (G : forall i, In pl (leaf_nodes_from i (map (zero_tree off) cs)) -> node_size (snd pl) = 0) by apply G.
    induction IH as [|c cs Hc _ IHc]; intros i; cbn; [intros []|].
    rewrite in_app_iff, in_map_iff. intros [(x & <- & H)|H]; [exact (Hc x H)|]. now apply (IHc (i + 1)).
Qed.

Lemma leaf_nodes_guard g (n : node) :
  map (fun pl => (fst pl, node_size (snd pl))) (leaf_nodes (add_guard g n)) =
  map (fun pl => (fst pl, node_size (snd pl))) (leaf_nodes n).
Proof. destruct n; [reflexivity|]. cbn [add_guard]. now rewrite !leaf_nodes_inner. Qed.

Lemma flat_map_sizes {B} (f : list nat * nat -> list B) (l : list (list nat * node)) :
  flat_map (fun pl => f (fst pl, node_size (snd pl))) l =
  flat_map f (map (fun pl => (fst pl, node_size (snd pl))) l).
Proof. induction l; cbn; congruence. Qed.

Definition leaf_keys' (b : bexpr E) (e : E) (ps : list nat * nat) : list key :=
  if snd ps =? 0 then [] else
  match leaf_at b (fst ps) with
  | Some l => map (fun g => (fst ps, g)) (lf_indices l e)
  | None => []
  end.
Definition leaf_sizes (n : node) := map (fun pl => (fst pl, node_size (snd pl))) (leaf_nodes n).
Lemma leaf_keys_sizes b e (n : node) : flat_map (leaf_keys b e) (leaf_nodes n) = flat_map (leaf_keys' b e) (leaf_sizes n).
Proof. apply (flat_map_sizes (leaf_keys' b e)). Qed.

Definition leaf_at_list (bs : list (bexpr E)) (i : nat) (p : list nat) : option (leaf E) :=
  match nth_error bs i with Some b => leaf_at b p | None => None end.
Lemma leaf_at_composite s bs i p : leaf_at (BComposite s bs) (i :: p) = leaf_at_list bs i p.
Proof.
  unfold leaf_at_list. cbn. revert i. induction bs as [|b bs IH]; intros [|i]; cbn; auto.
Qed.

Fixpoint leaf_sizes_from (i : nat) (l : list node) : list (list nat * nat) :=
  match l with [] => [] | c :: r => map (fun ps => (i :: fst ps, snd ps)) (leaf_sizes c) ++ leaf_sizes_from (i + 1) r end.
Lemma leaf_sizes_inner m g cs : leaf_sizes (NInner m g cs) = leaf_sizes_from 0 cs.
Proof.
  unfold leaf_sizes. rewrite leaf_nodes_inner. generalize 0 as i.
  induction cs as [|c cs IH]; intros i; [reflexivity|]. cbn. rewrite map_app, IH. f_equal.
  unfold leaf_sizes. rewrite !map_map. reflexivity.
Qed.

Lemma down_leaf_keys b' b e i l :
  (forall p, leaf_at b' (i :: p) = leaf_at b p) ->
  flat_map (leaf_keys' b' e) (map (fun ps => (i :: fst ps, snd ps)) l) =
  map (down i) (flat_map (leaf_keys' b e) l).
Proof.
  intros H. induction l as [|[p k] l IH]; [reflexivity|].
  cbn [map flat_map]. rewrite map_app, IH. f_equal. unfold leaf_keys'. cbn [fst snd].
  destruct (k =? 0); [reflexivity|]. rewrite H. destruct (leaf_at b p); [|reflexivity].
  rewrite map_map. reflexivity.
Qed.

Lemma leaf_keys_leaf (b : bexpr E) (els : E -> Prop) l n0 off e :
  leaf_ok els l -> els e -> leaf_at b [] = Some l -> skel n0 = NLeaf mx0 [] (lf_fe l) None ->
  flat_map (leaf_keys' b e) (leaf_sizes (bind_tree e off n0)) = map (fun g => ([], g)) (lf_indices l e).
Proof.
  intros Hl He Hat Hsk. apply skel_leaf in Hsk as (m & el & ->). cbn. rewrite app_nil_r.
  unfold leaf_keys'. cbn. unfold node_size. cbn. rewrite <- (lok_size _ _ Hl e He), Hat.
  destruct (lf_indices l e); reflexivity.
Qed.

Lemma keys_by_leaf (b : bexpr E) : forall (els : E -> Prop) e n0 off, wf els b -> els e -> skel n0 = skel (pb_node (build b)) ->
  flat_map (leaf_keys' b e) (leaf_sizes (bind_tree e off n0)) = sp_keys (meaning b) e.
Proof.
  induction b as [l|st n s b IH|s bs IH|dom b IH|hi dim q2 q1] using bexpr_ind'; intros els e n0 off H He Hsk.
  - eapply leaf_keys_leaf; eauto.
  - destruct H as (Hn & Hb & _). cbn in Hsk. rewrite map_repeat_eq in Hsk.
    apply skel_inner in Hsk as (m & cs & -> & Hcs). apply map_repeat_in in Hcs as [Hlen Hcs].
    rewrite bind_inner. cbn [forallb]. rewrite leaf_sizes_inner. cbn [meaning power_spec sp_keys].
    replace n with (length cs) at 2 by auto.
    assert (Hi : 0 + length cs <= n) by lia. clear Hlen. revert Hi. generalize 0 as i. revert off.
    induction cs as [|c cs IHc]; intros off i Hi; [reflexivity|].
    cbn [bind_children].
    specialize (IHc (fun a Ha => Hcs a (or_intror Ha)) (off + node_size (bind_tree e off c)) (S i)).
    destruct (bind_children e (off + node_size (bind_tree e off c)) cs) as [o' r'].
    cbn [snd leaf_sizes_from length seq flat_map] in *. rewrite flat_map_app.
    rewrite Nat.add_1_r, IHc by lia. f_equal.
    rewrite (down_leaf_keys _ b).
    + rewrite (IH els); auto. apply Hcs. now left.
    + intros p. cbn [leaf_at]. destruct (Nat.ltb_spec i n); [reflexivity|lia].
  - destruct H as (_ & H). cbn in Hsk. apply skel_inner in Hsk as (m & cs & -> & Hcs).
    rewrite bind_inner. cbn [forallb]. rewrite leaf_sizes_inner. cbn [meaning composite_spec sp_keys].
    assert (Hat : forall j p, leaf_at (BComposite s bs) ((0 + j) :: p) = leaf_at_list bs j p)
      by (intros; apply leaf_at_composite).
    revert Hat. generalize (BComposite s bs) as B. generalize 0 as i. revert off cs Hcs.
    induction IH as [|b bs Hb _ IHb]; intros off cs Hcs i B Hat; [now destruct cs|].
    destruct cs as [|c cs]; [discriminate|]. cbn in Hcs. injection Hcs as Hc Hcs. destruct H as [Hb1 Hbs].
    cbn [bind_children map composite_keys].
    specialize (IHb Hbs (off + node_size (bind_tree e off c)) cs Hcs (i + 1) B).
    destruct (bind_children e (off + node_size (bind_tree e off c)) cs) as [o' r'].
    cbn [snd leaf_sizes_from] in *. rewrite flat_map_app, IHb.
    + f_equal. rewrite (down_leaf_keys _ b).
      * rewrite (Hb els); auto.
      * intros p. specialize (Hat 0 p). now rewrite Nat.add_0_r in Hat.
    + intros j p. specialize (Hat (S j) p). replace (i + 1 + j) with (i + S j) by lia. exact Hat.
  - cbn [build pb_node restricted_pb] in Hsk. rewrite skel_guard in Hsk.
    apply skel_guard_inv in Hsk as (n1 & -> & Hsk). rewrite bind_guard. cbn [meaning restricted_spec sp_keys].
    destruct (dom e) eqn:D.
    + rewrite <- (IH (fun e => els e /\ dom e = true) e n1 off); auto.
      unfold leaf_sizes. rewrite leaf_nodes_guard. reflexivity.
    + apply flat_map_nil. intros [p k] Hp. unfold leaf_sizes in Hp. apply in_map_iff in Hp as (pl & [= <- <-] & Hp).
      unfold leaf_keys'. cbn. now rewrite (leaf_nodes_zero _ _ pl Hp).
  - destruct H as (-> & Hd & H2 & H1). cbn in Hsk. apply skel_inner in Hsk as (m & cs & -> & Hcs).
    destruct cs as [|v [|c1 [|]]]; try discriminate. cbn in Hcs. injection Hcs as Hv Hc1.
    apply skel_inner in Hv as (mv & vs & -> & Hvs). rewrite map_repeat_eq in Hvs.
    apply map_repeat_in in Hvs as [Hlen Hvs].
    rewrite bind_inner. cbn [forallb]. rewrite leaf_sizes_inner. cbn [bind_children].
    rewrite bind_inner. cbn [forallb].
    cbn [snd leaf_sizes_from]. rewrite app_nil_r, flat_map_app. rewrite leaf_sizes_inner.
    unfold taylorhood_spec. cbn [meaning taylorhood_spec composite_spec sp_keys composite_keys].
    rewrite app_nil_r. f_equal.
    + (* velocity *)
      rewrite (down_leaf_keys _ (BPower true dim FlatInterleaved (BLeaf q2))).
      2:{ intros [|c [|? ?]]; cbn [leaf_at]; auto; now destruct (c <? dim). }
      f_equal. cbn [power_spec sp_keys]. replace dim with (length vs) at 2 by auto.
      assert (Hi : 0 + length vs <= dim) by lia. clear Hlen. revert Hi. generalize 0 as i. generalize off as o.
      induction vs as [|c vs IHc]; intros o i Hi; [reflexivity|].
      cbn [bind_children].
      specialize (IHc (fun a Ha => Hvs a (or_intror Ha)) (o + node_size (bind_tree e o c)) (S i)).
      destruct (bind_children e (o + node_size (bind_tree e o c)) vs) as [o' r'].
      cbn [snd leaf_sizes_from length seq flat_map] in *. rewrite flat_map_app.
      rewrite Nat.add_1_r, IHc by lia. f_equal.
      rewrite (down_leaf_keys _ (BLeaf q2)).
      * f_equal. eapply leaf_keys_leaf; eauto. apply Hvs. now left.
      * intros p. cbn [leaf_at]. destruct (Nat.ltb_spec i dim); [reflexivity|lia].
    + rewrite (down_leaf_keys _ (BLeaf q1)).
      * f_equal. eapply leaf_keys_leaf; eauto.
      * intros [|? ?]; reflexivity.
Qed.

(** Each local index has its key at the leaf it belongs to. *)
Lemma blocks_nth {A} (f : list nat * node -> list A) l : forall o k j pl i,
  (forall pl, In pl l -> length (f pl) = node_size (snd pl)) ->
  lconsecutive o l -> nth_error l j = Some pl -> local_index (snd pl) i = Some k ->
  nth_error (flat_map f l) (k - o) = nth_error (f pl) i.
Proof.
  induction l as [|x l IH]; intros o k j pl i Hf Hc N L; [now destruct j|].
  destruct Hc as [Ho Hc]. apply local_index_Some in L as L'. destruct L' as [L1 L2].
  cbn. rewrite nth_error_app_eq, (Hf x (or_introl eq_refl)). destruct j as [|j].
  - injection N as ->. destruct (Nat.ltb_spec (k - o) (node_size (snd pl))); [|lia]. f_equal. lia.
  - cbn in N. pose proof (lcons_offset _ _ _ _ Hc N) as O1.
    destruct (Nat.ltb_spec (k - o) (node_size (snd x))); [lia|].
    rewrite <- (IH (o + node_size (snd x)) k j pl i); auto.
    + f_equal. lia.
    + intros; apply Hf; now right.
Qed.

Lemma leaf_block_length (b : bexpr E) (els : E -> Prop) e n0 : wf els b -> els e -> skel n0 = skel (pb_node (build b)) ->
  forall off pl, In pl (leaf_nodes (bind_tree e off n0)) -> node_size (snd pl) <> 0 ->
  exists l, leaf_at b (fst pl) = Some l /\ length (lf_indices l e) = node_size (snd pl).
Proof.
  revert els e n0.
  induction b as [l|st n s b IH|s bs IH|dom b IH|hi dim q2 q1] using bexpr_ind'; intros els e n0 H He Hsk off pl Hpl Hnz.
  - apply skel_leaf in Hsk as (m & el & ->). cbn in Hpl. destruct Hpl as [<-|[]].
    exists l. cbn. split; auto. now apply (lok_size _ _ H).
  - destruct H as (Hn & Hb & _). cbn in Hsk. rewrite map_repeat_eq in Hsk.
    apply skel_inner in Hsk as (m & cs & -> & Hcs). apply map_repeat_in in Hcs as [Hlen Hcs].
    destruct pl as [p x]. apply leaf_nodes_descendant in Hpl as [D L]. cbn [fst snd] in *.
    rewrite bind_inner in D. cbn [forallb] in D. destruct p as [|i p].
    + cbn in D. injection D as <-. discriminate.
    + cbn [descendant] in D. unfold child in D. cbn [children] in D.
      destruct (nth_error cs i) as [c|] eqn:N.
      * destruct (bind_children_nth e cs off i c N) as [o Ho]. rewrite Ho in D.
        destruct (IH els e c Hb He (Hcs c (nth_error_In _ _ N)) o (p, x)) as (l & H1 & H2); auto.
        { apply leaf_nodes_descendant. auto. }
        exists l. cbn [leaf_at]. apply nth_error_Some_lt in N. rewrite Hlen in N.
        destruct (Nat.ltb_spec i n); [auto|lia].
      * apply nth_error_None in N. rewrite <- (bind_children_length e cs off) in N.
        apply nth_error_None in N. rewrite N in D. discriminate.
  - destruct H as (_ & H). cbn in Hsk. apply skel_inner in Hsk as (m & cs & -> & Hcs).
    destruct pl as [p x]. apply leaf_nodes_descendant in Hpl as [D L]. cbn [fst snd] in *.
    rewrite bind_inner in D. cbn [forallb] in D. destruct p as [|i p].
    + cbn in D. injection D as <-. discriminate.
    + rewrite leaf_at_composite. unfold leaf_at_list. cbn [descendant] in D. unfold child in D. cbn [children] in D.
      destruct (nth_error cs i) as [c|] eqn:N.
      * destruct (bind_children_nth e cs off i c N) as [o Ho]. rewrite Ho in D.
        assert (NB : exists b, nth_error bs i = Some b /\ skel c = skel (pb_node (build b))).
        { apply (f_equal (fun l => nth_error l i)) in Hcs. rewrite !nth_error_map_eq, N in Hcs.
          destruct (nth_error bs i) as [b|]; [|discriminate]. cbn in Hcs. exists b. split; auto. congruence. }
        destruct NB as (b & NB & Sb). rewrite NB. rewrite Forall_forall in IH.
        apply (IH b (nth_error_In _ _ NB) els e c) with (off := o) (pl := (p, x)); auto.
        { clear - H NB. revert i NB. induction bs as [|b0 bs IH]; intros [|i] NB; try discriminate; cbn in NB.
          - injection NB as ->. apply H.
          - eapply IH; [apply H|eauto]. }
        apply leaf_nodes_descendant. auto.
      * apply nth_error_None in N. rewrite <- (bind_children_length e cs off) in N.
        apply nth_error_None in N. rewrite N in D. discriminate.
  - cbn [build pb_node restricted_pb] in Hsk. rewrite skel_guard in Hsk.
    apply skel_guard_inv in Hsk as (n1 & -> & Hsk). rewrite bind_guard in Hpl. cbn [leaf_at].
    destruct (dom e) eqn:D.
    + assert (Hpl' : In (fst pl, node_size (snd pl)) (leaf_sizes (bind_tree e off n1))).
      { unfold leaf_sizes. rewrite <- (leaf_nodes_guard dom). now apply (in_map (fun pl => (fst pl, node_size (snd pl)))). }
      unfold leaf_sizes in Hpl'. apply in_map_iff in Hpl' as (pl' & [= E1 E2] & Hpl').
      destruct (IH (fun e => els e /\ dom e = true) e n1 H (conj He D) Hsk off pl' Hpl') as (l & A1 & A2); [lia|].
      exists l. split; congruence.
    + exfalso. apply Hnz. eapply leaf_nodes_zero; eauto.
  - destruct H as (-> & Hd & H2 & H1). cbn in Hsk. apply skel_inner in Hsk as (m & cs & -> & Hcs).
    destruct cs as [|v [|c1 [|]]]; try discriminate. cbn in Hcs. injection Hcs as Hv Hc1.
    apply skel_inner in Hv as (mv & vs & -> & Hvs). rewrite map_repeat_eq in Hvs.
    apply map_repeat_in in Hvs as [Hlen Hvs].
    destruct pl as [p x]. apply leaf_nodes_descendant in Hpl as [D L]. cbn [fst snd] in *.
    rewrite bind_inner in D. cbn [forallb bind_children] in D. rewrite bind_inner in D. cbn [forallb] in D.
    destruct p as [|i p]; [cbn in D; injection D as <-; discriminate|].
    cbn [descendant] in D. unfold child in D. cbn [children snd] in D.
    destruct i as [|[|i]]; cbn [nth_error] in D.
    + destruct p as [|c p]; [cbn in D; injection D as <-; discriminate|].
      cbn [descendant] in D. unfold child in D. cbn [children] in D.
      destruct (nth_error vs c) as [w|] eqn:N.
      * destruct (bind_children_nth e vs off c w N) as [o Ho]. rewrite Ho in D.
        pose proof (Hvs w (nth_error_In _ _ N)) as Sw. apply skel_leaf in Sw as (mw & ew & ->).
        cbn in D. destruct p as [|z p].
        { cbn in D. injection D as <-. exists q2. cbn [leaf_at fst]. apply nth_error_Some_lt in N. rewrite Hlen in N.
          destruct (Nat.ltb_spec c dim); [|lia]. split; auto. apply (lok_size _ _ H2); auto. }
        { cbn in D. unfold child in D. cbn in D. now destruct z. }
      * apply nth_error_None in N. rewrite <- (bind_children_length e vs off) in N.
        apply nth_error_None in N. rewrite N in D. discriminate.
    + apply skel_leaf in Hc1 as (mw & ew & ->). cbn in D. destruct p as [|z p].
      * cbn in D. injection D as <-. exists q1. cbn. split; auto. apply (lok_size _ _ H1); auto.
      * cbn in D. unfold child in D. cbn in D. now destruct z.
    + cbn in D. now destruct i.
Qed.

Lemma leaf_keys_length (b : bexpr E) (els : E -> Prop) e n0 off : wf els b -> els e -> skel n0 = skel (pb_node (build b)) ->
  forall pl, In pl (leaf_nodes (bind_tree e off n0)) -> length (leaf_keys b e pl) = node_size (snd pl).
Proof.
  intros H He Hsk pl Hpl. unfold leaf_keys. destruct (Nat.eqb_spec (node_size (snd pl)) 0) as [Z|Z]; [now rewrite Z|].
  destruct (leaf_block_length b els e n0 H He Hsk off pl Hpl Z) as (l & -> & L). now rewrite map_length.
Qed.

(** The i-th local DOF of the leaf at [p] has the key (p, i-th index of the leaf basis). *)
Lemma key_at (b : bexpr E) (els : E -> Prop) e n0 p n j k :
  wf els b -> els e -> skel n0 = skel (pb_node (build b)) ->
  descendant (bind_tree e 0 n0) p = Some n -> is_leaf n = true -> local_index n j = Some k ->
  exists l g, leaf_at b p = Some l /\ nth_error (lf_indices l e) j = Some g /\
              nth_error (sp_keys (meaning b) e) k = Some (p, g).
Proof.
  intros H He Hsk D L LI.
  assert (HI : In (p, n) (leaf_nodes (bind_tree e 0 n0))) by (apply leaf_nodes_descendant; auto).
  pose proof (bind_good e n0 0) as G. destruct (good_leaves _ G) as [_ C]. rewrite bind_offset in C.
  apply In_nth_error in HI as HN. destruct HN as [x HN].
  pose proof (blocks_nth (leaf_keys b e) _ 0 k x (p, n) j
                (leaf_keys_length b els e n0 0 H He Hsk) C HN LI) as B.
  rewrite leaf_keys_sizes, (keys_by_leaf b els e n0 0 H He Hsk), Nat.sub_0_r in B.
  apply local_index_Some in LI as [L1 L2].
  destruct (leaf_block_length b els e n0 H He Hsk 0 (p, n) HI) as (l & A1 & A2); [cbn; lia|].
  cbn [fst snd] in *. unfold leaf_keys in B. cbn [fst snd] in B.
  destruct (Nat.eqb_spec (node_size n) 0); [lia|]. rewrite A1, nth_error_map_eq in B.
  destruct (nth_error_lt_Some (lf_indices l e) j) as [g Hg]; [lia|]. rewrite Hg in B. cbn in B.
  exists l, g. auto.
Qed.

End View.
