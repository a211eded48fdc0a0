(** C34: subEntityDOFs and forEachBoundaryDOF. *)
From Coq Require Import List Arith Bool Lia Sorted.
From Verif Require Import Lib Basis_model Basis_spec Basis_proofs Basis_ok Basis_view Basis_props
  SubDomain_proofs SubEntityDOFs_model SubEntityDOFs_spec.
Import ListNotations.

Section Proofs.
Context {E : Type}.

(** * forEachLeafNode is a fold over the leaves *)
Fixpoint foldo {A St} (f : A -> St -> option St) (l : list A) (s : St) : option St :=
  match l with [] => Some s | a :: r => s' <- f a s ;; foldo f r s' end.
Lemma foldo_app {A St} (f : A -> St -> option St) l r : forall s,
  foldo f (l ++ r) s = obind (foldo f l s) (foldo f r).
Proof. induction l as [|a l IH]; intros s; cbn; [reflexivity|]. destruct (f a s); cbn; auto. Qed.
Lemma foldo_map {A B St} (f : B -> St -> option St) (g : A -> B) l : forall s,
  foldo f (map g l) s = foldo (fun a => f (g a)) l s.
Proof. induction l as [|a l IH]; intros s; cbn; [reflexivity|]. destruct (f (g a) s); cbn; auto. Qed.
Lemma foldo_ext {A St} (f g : A -> St -> option St) l : (forall a s, f a s = g a s) -> forall s,
  foldo f l s = foldo g l s.
Proof. intros H. induction l as [|a l IH]; intros s; cbn; [reflexivity|]. rewrite H. destruct (g a s); cbn; auto. Qed.

Lemma visit_fold {St} (f : list nat -> node E -> St -> option St) (n : node E) : forall path s,
  visit_leaves f path n s = foldo (fun pl => f (path ++ fst pl) (snd pl)) (leaf_nodes n) s.
Proof.
  induction n as [m g fe e|m g cs IH] using node_ind'; intros path s.
  - cbn. rewrite app_nil_r. now destruct (f path _ s).
  - rewrite leaf_nodes_inner. cbn [visit_leaves].
    match goal with |- ?go 0 cs s = _ =>
      enough (G : forall i s, go i cs s =
        foldo (fun pl => f (path ++ fst pl) (snd pl)) (leaf_nodes_from i cs) s) by apply G end.
    clear s. induction IH as [|c cs Hc _ IHc]; intros i s; cbn; [reflexivity|].
    rewrite foldo_app, Hc, foldo_map. cbn [fst snd].
    rewrite (foldo_ext (fun pl => f ((path ++ [i]) ++ fst pl) (snd pl))
               (fun pl => f (path ++ i :: fst pl) (snd pl))).
    + destruct (foldo _ (leaf_nodes c) s); cbn [obind]; [apply IHc|reflexivity].
    + intros a s'. now rewrite <- app_assoc.
Qed.

(** * State with a list of distinct indices *)
Definition sdst (sz : nat) (L : list nat) : sdofs := SD L (map (fun k => mem k L) (seq 0 sz)).
Lemma sdst_nil sz : sdst sz [] = SD [] (repeat false sz).
Proof. unfold sdst. now rewrite repeat_map_seq. Qed.
Lemma mem_snoc k L x : mem k (L ++ [x]) = mem k L || (k =? x).
Proof. unfold mem. rewrite existsb_app. cbn. now rewrite orb_false_r. Qed.

Definition sel (co : coeffs E) (e : E) (si sc : nat) (keys : list (nat * nat)) (i : nat) : bool :=
  match nth_error keys i with Some (j, c) => co_sub co e si sc c j | None => false end.
Definition picks co e si sc (path : list nat) (n : node E) : list nat :=
  map (fun i => node_offset n + i)
      (filter (sel co e si sc (co_keys co path e)) (seq 0 (node_size n))).

Lemma key_loop co e si sc (n : node E) keys sz k : forall s L,
  s + k = length keys -> length keys = node_size n -> node_offset n + node_size n <= sz ->
  forl k s (se_key co e si sc n keys) (sdst sz L) =
  Some (sdst sz (L ++ map (fun i => node_offset n + i) (filter (sel co e si sc keys) (seq s k)))).
Proof.
  induction k as [|k IH]; intros s L Hk Hl Hsz; cbn [forl seq filter].
  - cbn. now rewrite app_nil_r.
  - unfold se_key at 1, sel at 1. destruct (nth_error_lt_Some keys s) as [[j c] N]; [lia|].
    rewrite N. cbn [obind fst snd]. destruct (co_sub co e si sc c j).
    + unfold local_index. destruct (Nat.ltb_spec s (node_size n)); [|lia]. cbn [obind].
      set (x := node_offset n + s).
      assert (U : upd (sd_flags (sdst sz L)) x true =
                  Some (map (fun k => mem k (L ++ [x])) (seq 0 sz))).
      { cbn [sdst sd_flags].
        assert (T : mem x (L ++ [x]) = true) by (apply mem_In; rewrite in_app_iff; cbn; auto).
        rewrite <- T at 1. apply (upd_map_seq _ (fun k => mem k (L ++ [x]))); [unfold x; lia|].
        intros y _ Hy. rewrite mem_snoc. destruct (Nat.eqb_spec y x); [congruence|]. apply orb_false_r. }
      rewrite U. cbn [obind].
      change (SD (sd_list (sdst sz L) ++ [x]) (map (fun k => mem k (L ++ [x])) (seq 0 sz)))
        with (sdst sz (L ++ [x])).
      rewrite IH by lia. replace (s + 1) with (S s) by lia.
      cbn [map]. rewrite <- app_assoc. reflexivity.
    + cbn [obind]. rewrite IH by lia. now replace (s + 1) with (S s) by lia.
Qed.

(** A non-empty leaf of a bound tree is bound to the element. *)
Lemma bound_leaf e (n0 : node E) : forall off q m g fe el,
  descendant (bind_tree e off n0) q = Some (NLeaf m g fe el) -> mx_size m <> 0 -> el = Some e.
Proof.
  assert (Z : forall (n : node E) off q m g fe el,
    descendant (zero_tree off n) q = Some (NLeaf m g fe el) -> mx_size m = 0).
  { induction n as [m g fe el|m g cs IH] using node_ind'; intros off q m' g' fe' el' H.
    - destruct q as [|i q]; cbn in H; [now injection H as <- <- <- <-|now destruct i].
    - destruct q as [|i q]; cbn in H; [discriminate|]. unfold child in H. cbn in H.
      rewrite nth_error_map_eq in H. destruct (nth_error cs i) as [c|] eqn:N; [|discriminate].
      cbn in H. rewrite Forall_forall in IH. eapply IH; eauto. now apply nth_error_In in N. }
  induction n0 as [m g fe el|m g cs IH] using node_ind'; intros off q m' g' fe' el' H Hs.
  - cbn in H. destruct (forallb _ g).
    + destruct q as [|i q]; cbn in H; [now injection H as <- <- <- <-|now destruct i].
    + exfalso. apply Hs. apply (Z (NLeaf m g fe el) off q m' g' fe' el'). exact H.
  - rewrite bind_inner in H. destruct (forallb _ g).
    + destruct q as [|i q]; cbn in H; [discriminate|]. unfold child in H. cbn [children] in H.
      assert (G : forall off c, nth_error (snd (bind_children e off cs)) i = Some c ->
        descendant c q = Some (NLeaf m' g' fe' el') -> el' = Some e).
      { clear H. revert i. induction IH as [|c cs Hc _ IHc]; intros i o c' N D; [now destruct i|].
        cbn in N. specialize (IHc (i - 1) (o + node_size (bind_tree e o c)) c').
        destruct (bind_children e (o + node_size (bind_tree e o c)) cs) as [a b]. cbn in N.
        destruct i as [|i]; cbn in N.
        - injection N as <-. eapply Hc; eauto.
        - replace (S i - 1) with i in IHc by lia. auto. }
      destruct (nth_error _ i) as [c|] eqn:N; [|discriminate]. eapply G; eauto.
    + exfalso. apply Hs. apply (Z (NInner m g cs) off q m' g' fe' el'). exact H.
Qed.

Lemma good_sub (t : node E) p : forall n, good t -> descendant t p = Some n -> good n.
Proof.
  revert t. induction p as [|i p IH]; intros t n G D; cbn in D.
  - now injection D as <-.
  - destruct t as [m g fe el|m g cs]; unfold child in D; cbn in D; [now destruct i|].
    destruct (nth_error cs i) as [c|] eqn:N; [|discriminate].
    apply good_inner in G as (_ & _ & G). rewrite Forall_forall in G.
    eapply IH; [|exact D]. apply G. now apply nth_error_In in N.
Qed.

Definition all_picks co e si sc (prefix : list nat) (n : node E) : list nat :=
  flat_map (fun pl => picks co e si sc (prefix ++ fst pl) (snd pl)) (leaf_nodes n).

Lemma leaf_in_range (t : node E) q l : good t -> descendant t q = Some l -> is_leaf l = true ->
  node_offset t <= node_offset l /\ node_offset l + node_size l <= node_offset t + node_size t.
Proof.
  intros G D L. destruct (good_leaves t G) as [S1 S2].
  assert (HI : In (q, l) (leaf_nodes t)) by (apply leaf_nodes_descendant; auto).
  apply In_nth_error in HI as [j N]. pose proof (lcons_offset _ _ _ _ S2 N) as O. cbn in O.
  pose proof (lsizes_firstn_mono (leaf_nodes t) j (length (leaf_nodes t)) (q, l)
                (nth_error_Some_lt _ _ _ N) N) as M.
  rewrite firstn_all, S1 in M. cbn in M. lia.
Qed.

Lemma se_bind_closed co v prefix si sc s0 e n0 n :
  lv_elem v = Some e -> lv_tree v = bind_tree e 0 n0 -> keys_ok co e (lv_tree v) ->
  descendant (lv_tree v) prefix = Some n ->
  se_bind co v prefix si sc s0 = Some (sdst (lv_size v) (all_picks co e si sc prefix n)).
Proof.
  intros He Ht KO D. unfold se_bind. rewrite He, D. cbn [obind]. unfold vclear, vassign.
  rewrite <- sdst_nil, visit_fold. unfold all_picks.
  pose proof (bind_good e n0 0) as G0. rewrite <- Ht in G0.
  assert (P : forall pl, In pl (leaf_nodes n) ->
    descendant (lv_tree v) (prefix ++ fst pl) = Some (snd pl) /\ is_leaf (snd pl) = true).
  { intros [q l] H. apply leaf_nodes_descendant in H as [H1 H2]. cbn. rewrite descendant_app, D. auto. }
  revert P. set (Lf := leaf_nodes n). clearbody Lf.
  assert (Gl : forall Lf L, (forall pl, In pl Lf ->
      descendant (lv_tree v) (prefix ++ fst pl) = Some (snd pl) /\ is_leaf (snd pl) = true) ->
    foldo (fun pl => se_leaf co e si sc (prefix ++ fst pl) (snd pl)) Lf (sdst (lv_size v) L) =
    Some (sdst (lv_size v) (L ++ flat_map (fun pl => picks co e si sc (prefix ++ fst pl) (snd pl)) Lf))).
  { clear Lf. induction Lf as [|[q l] Lf IH]; intros L P; cbn [foldo flat_map].
    - now rewrite app_nil_r.
    - destruct (P (q, l) (or_introl eq_refl)) as [P1 P2]. cbn [fst snd] in *.
      assert (ST : se_leaf co e si sc (prefix ++ q) l (sdst (lv_size v) L) =
                   Some (sdst (lv_size v) (L ++ picks co e si sc (prefix ++ q) l))).
      { unfold se_leaf, node_empty. destruct (Nat.eqb_spec (node_size l) 0) as [Z|Z].
        - unfold picks. rewrite Z. cbn. now rewrite app_nil_r.
        - destruct l as [m g fe el|]; [|discriminate].
          assert (el = Some e). { rewrite Ht in P1. eapply bound_leaf; eauto. }
          subst el. unfold picks. pose proof (KO _ _ P1 eq_refl Z) as KL.
          rewrite key_loop; auto.
          + now rewrite KL.
          + pose proof (leaf_in_range (lv_tree v) (prefix ++ q) _ G0 P1 eq_refl) as [_ R].
            rewrite Ht in R at 1. rewrite bind_offset in R. exact R. }
      rewrite ST. cbn [obind]. rewrite IH by (intros; apply P; now right). now rewrite app_assoc. }
  intros P. now rewrite (Gl Lf [] P).
Qed.

(** Elements of the picked list. *)
Lemma in_picks co e si sc prefix (t n : node E) k : keys_ok co e t -> descendant t prefix = Some n ->
  In k (all_picks co e si sc prefix n) <-> dof_on co e t prefix si sc k.
Proof.
  intros KO D. unfold all_picks, dof_on. rewrite in_flat_map. split.
  - intros ([q l] & HL & HK). apply leaf_nodes_descendant in HL as [D2 L].
    unfold picks in HK. cbn [fst snd] in HK. apply in_map_iff in HK as (i & <- & Hi).
    apply filter_In in Hi as [Hi Hs]. apply in_seq in Hi. unfold sel in Hs.
    destruct (nth_error (co_keys co (prefix ++ q) e) i) as [[j c]|] eqn:N; [|discriminate].
    exists q, l, i, j, c. rewrite descendant_app, D. repeat split; auto.
    apply local_index_Some. split; [lia|reflexivity].
  - intros (q & l & i & j & c & D2 & L & LI & N & S1). rewrite descendant_app, D in D2.
    exists (q, l). split; [now apply leaf_nodes_descendant|]. unfold picks. cbn [fst snd].
    apply local_index_Some in LI as [Hi ->]. apply in_map_iff. exists i. split; auto.
    apply filter_In. split; [apply in_seq; lia|]. unfold sel. now rewrite N.
Qed.

Lemma sorted_app l l' b : StronglySorted lt l -> StronglySorted lt l' ->
  (forall x, In x l -> x < b) -> (forall x, In x l' -> b <= x) -> StronglySorted lt (l ++ l').
Proof.
  intros H H' B B'. induction H as [|a l Hs IH Hf]; cbn; auto. constructor.
  - apply IH. intros; apply B; now right.
  - apply Forall_app. split; auto. apply Forall_forall. intros x Hx.
    specialize (B a (or_introl eq_refl)). specialize (B' x Hx). lia.
Qed.
Lemma sorted_filter_seq (p : nat -> bool) o k : forall s,
  StronglySorted lt (map (fun i => o + i) (filter p (seq s k))).
Proof.
  induction k as [|k IH]; intros s; cbn; [constructor|]. destruct (p s); cbn; auto.
  constructor; auto. apply Forall_forall. intros x Hx. apply in_map_iff in Hx as (i & <- & Hi).
  apply filter_In in Hi as [Hi _]. apply in_seq in Hi. lia.
Qed.
Lemma picks_sorted co e si sc prefix (n : node E) : good n ->
  StronglySorted lt (all_picks co e si sc prefix n).
Proof.
  intros G. destruct (good_leaves n G) as [_ S2]. unfold all_picks. revert S2.
  generalize (node_offset n) as o. induction (leaf_nodes n) as [|[q l] Lf IH]; intros o HC; cbn; [constructor|].
  destruct HC as [Ho HC]. cbn [fst snd] in *.
  apply (sorted_app _ _ (o + node_size l)).
  - apply sorted_filter_seq.
  - now apply (IH (o + node_size l)).
  - intros x Hx. apply in_map_iff in Hx as (i & <- & Hi). apply filter_In in Hi as [Hi _].
    apply in_seq in Hi. lia.
  - intros x Hx. revert HC Hx. generalize (o + node_size l) as o'. clear.
    induction Lf as [|[q l] Lf IH]; intros o' HC Hx; [destruct Hx|]. cbn in Hx, HC.
    destruct HC as [Ho HC]. apply in_app_or in Hx as [Hx|Hx].
    + apply in_map_iff in Hx as (i & <- & Hi). lia.
    + specialize (IH _ HC Hx). lia.
Qed.

(** ** C34.  After binding to a view (of a basis, or of a subspace basis at
    [prefix]) that is bound to e, and whatever the object was bound to before:
    the range is strictly increasing (so nothing is repeated), it contains exactly
    the DOFs on the subentity's closure, contains() says the same for every local
    index, and the result does not depend on the earlier bindings. *)
Theorem C34_subentity_dofs co (v : lview E) prefix si sc e n0 n :
  lv_elem v = Some e -> lv_tree v = bind_tree e 0 n0 -> keys_ok co e (lv_tree v) ->
  descendant (lv_tree v) prefix = Some n ->
  exists s, (forall s0, se_bind co v prefix si sc s0 = Some s) /\
    StronglySorted lt (sd_list s) /\ NoDup (sd_list s) /\
    (forall k, In k (sd_list s) <-> dof_on co e (lv_tree v) prefix si sc k) /\
    (forall k, k < lv_size v -> se_contains s k = Some true \/ se_contains s k = Some false) /\
    (forall k, se_contains s k = Some true <-> dof_on co e (lv_tree v) prefix si sc k).
Proof.
  intros He Ht KO D. exists (sdst (lv_size v) (all_picks co e si sc prefix n)).
  split; [intros s0; now apply (se_bind_closed co v prefix si sc s0 e n0 n)|].
  assert (G : good n).
  { eapply good_sub; [|exact D]. rewrite Ht. apply bind_good. }
  pose proof (picks_sorted co e si sc prefix n G) as SS. cbn [sdst sd_list].
  split; [exact SS|]. split; [|split; [|split]].
  - clear - SS. induction SS as [|a l Hs IH Hf]; constructor; auto.
    intros H. rewrite Forall_forall in Hf. specialize (Hf a H). lia.
  - intros k. now apply in_picks.
  - intros k Hk. unfold se_contains, sdst. cbn [sd_flags]. rewrite nth_error_map_seq by exact Hk.
    destruct (mem k _); auto.
  - intros k. unfold se_contains, sdst. cbn [sd_flags].
    rewrite <- (in_picks co e si sc prefix (lv_tree v) n k KO D), <- mem_In. split.
    + intros H. pose proof (nth_error_Some_lt _ _ _ H) as HL. rewrite map_length, seq_length in HL.
      rewrite nth_error_map_seq in H by exact HL. congruence.
    + intros H. rewrite nth_error_map_seq; [congruence|].
      apply mem_In, (in_picks co e si sc prefix (lv_tree v) n k KO D) in H.
      destruct H as (q & l & i & j & c & D2 & L & LI & _).
      pose proof (bind_good e n0 0) as G0. rewrite <- Ht in G0.
      pose proof (leaf_in_range (lv_tree v) _ _ G0 D2 L) as [_ R].
      rewrite Ht in R at 1. rewrite bind_offset in R. apply local_index_Some in LI as [Hi ->].
      unfold lv_size. lia.
Qed.

(** * Boundary *)
Lemma bd_inters_closed co prefix v e n0 n xs :
  lv_elem v = Some e -> lv_tree v = bind_tree e 0 n0 -> keys_ok co e (lv_tree v) ->
  descendant (lv_tree v) prefix = Some n ->
  forall s, exists s', bd_inters co prefix v xs s =
    Some (flat_map (fun x => if fst x : bool then map (fun k => (k, v, x)) (all_picks co e (snd x) 1 prefix n) else []) xs, s').
Proof.
  intros He Ht KO D. induction xs as [|x xs IH]; intros s; cbn [bd_inters flat_map]; [eauto|].
  destruct (fst x).
  - unfold se_bind_inter. rewrite (se_bind_closed co v prefix (snd x) 1 s e n0 n); auto. cbn [obind].
    destruct (IH (sdst (lv_size v) (all_picks co e (snd x) 1 prefix n))) as [s' ->]. cbn [obind sdst sd_list]. eauto.
  - apply IH.
Qed.

Lemma same_tree_sym (t t' : node E) : same_tree t t' -> same_tree t' t.
Proof.
  intros H p. specialize (H p). destruct (descendant t p), (descendant t' p); auto.
  unfold same_node in *. intuition. symmetry. apply H5. intros Z. apply H4. congruence.
Qed.
Lemma dof_on_same co e (t t' : node E) prefix si sc k : same_tree t t' ->
  dof_on co e t prefix si sc k -> dof_on co e t' prefix si sc k.
Proof.
  intros H (q & l & i & j & c & D & L & LI & N & S1). specialize (H (prefix ++ q)). rewrite D in H.
  destruct (descendant t' (prefix ++ q)) as [l'|] eqn:D'; [|destruct H].
  destruct H as (H1 & H2 & _ & _ & H3 & _). exists q, l', i, j, c.
  repeat split; auto; [congruence|]. unfold local_index in *. now rewrite <- H1, <- H2.
Qed.
Lemma keys_ok_same co e (t t' : node E) : same_tree t t' -> keys_ok co e t -> keys_ok co e t'.
Proof.
  intros H KO q l D L NZ. specialize (H q). rewrite D in H.
  destruct (descendant t q) as [l0|] eqn:D0; [|destruct H].
  destruct H as (H1 & H2 & _ & _ & H3 & _). rewrite <- H2. apply (KO q l0); auto; congruence.
Qed.

Definition group := (E * (bool * nat) * lview E * list nat)%type.
Definition group_calls (gr : group) : list (@call E) :=
  let '(_, x, v, ks) := gr in map (fun k => (k, v, x)) ks.

Lemma new_bind (b : bexpr E) els e : wf els b -> els e ->
  exists v, lv_bind (build b) (lv_new (build b)) e = Some v /\ lv_elem v = Some e /\
            lv_tree v = bind_tree e 0 (lv_tree (lv_new (build b))) /\
            lv_indices v = map (sp_glob (meaning b)) (sp_keys (meaning b) e).
Proof.
  intros Hwf He. pose proof (build_ok b els Hwf) as OK.
  rewrite (bind_ok els _ _ _ e OK He (new_skel _)). eexists. split; [reflexivity|]. auto.
Qed.

Definition group_ok (b : bexpr E) (co : coeffs E) (prefix : list nat) (gr : group) : Prop :=
  let '(e, x, v, ks) := gr in
  (exists v0, lv_bind (build b) v0 e = Some v) /\ lv_elem v = Some e /\
  StronglySorted lt ks /\
  forall vf, lv_bind (build b) (lv_new (build b)) e = Some vf ->
    (forall k, lv_index v k = lv_index vf k) /\
    (forall k, In k ks <-> dof_on co e (lv_tree vf) prefix (snd x) 1 k).

Lemma bd_elements_closed (b : bexpr E) els co g prefix :
  wf els b ->
  (exists n, descendant (lv_tree (lv_new (build b))) prefix = Some n) ->
  forall es v s,
  (forall e, In e es -> els e) ->
  (forall e, In e es -> bg_hasbnd g e = false -> forall x, In x (bg_inters g e) -> fst x = false) ->
  (forall e v, In e es -> lv_bind (build b) (lv_new (build b)) e = Some v -> keys_ok co e (lv_tree v)) ->
  tskel (lv_tree v) = tskel (lv_tree (lv_new (build b))) ->
  exists groups : list group,
    bd_elements co (build b) prefix g es v s = Some (flat_map group_calls groups) /\
    map (fun gr => fst (fst gr)) groups = flat_map (fun e => map (pair e) (filter fst (bg_inters g e))) es /\
    Forall (group_ok b co prefix) groups.
Proof.
  intros Hwf HP. pose proof (build_ok b els Hwf) as OK.
  induction es as [|e es IH]; intros v s Hels Hb KO Hv; cbn [bd_elements flat_map].
  { exists []. cbn. auto. }
  assert (Hels' : forall e, In e es -> els e) by (intros; apply Hels; now right).
  assert (Hb' : forall e, In e es -> bg_hasbnd g e = false -> forall x, In x (bg_inters g e) -> fst x = false).
  { intros; eapply Hb; eauto. now right. }
  assert (KO' : forall e v, In e es -> lv_bind (build b) (lv_new (build b)) e = Some v -> keys_ok co e (lv_tree v)).
  { intros; eapply KO; eauto. now right. }
  destruct (bg_hasbnd g e) eqn:HB.
  - assert (He : els e) by (apply Hels; now left).
    assert (Hsk : skel (lv_tree v) = skel (pb_node (build b))).
    { rewrite (tskel_skel _ _ Hv). apply new_skel. }
    rewrite (bind_ok els _ _ v e OK He Hsk). cbn [obind].
    set (v' := LV (Some e) (bind_tree e 0 (lv_tree v)) (map (sp_glob (meaning b)) (sp_keys (meaning b) e))).
    destruct (new_bind b els e Hwf He) as (vf & F1 & F2 & F3 & F4).
    assert (ST : same_tree (lv_tree vf) (lv_tree v')).
    { rewrite F3. cbn [v' lv_tree]. apply same_bind. now symmetry. }
    assert (KO1 : keys_ok co e (lv_tree v')).
    { apply (keys_ok_same co e (lv_tree vf)); auto. apply (KO e vf); auto. now left. }
    assert (HT : tskel (lv_tree v') = tskel (lv_tree (lv_new (build b)))).
    { cbn [v' lv_tree]. now rewrite tskel_bind. }
    assert (HD : exists n, descendant (lv_tree v') prefix = Some n).
    { assert (SB : same_tree (bind_tree e 0 (lv_tree v)) (bind_tree e 0 (lv_tree (lv_new (build b))))) by (now apply same_bind).
      assert (SS : forall (t t' : node E) p, tskel t = tskel t' -> (exists n, descendant t p = Some n) -> exists n, descendant t' p = Some n).
      { clear. intros t t' p. revert t t'. induction p as [|i p IHp]; intros t t' H [n D]; cbn in *; [eauto|].
        destruct t as [m gg fe el|m gg cs]; unfold child in D; cbn in D; [now destruct i|].
        destruct t' as [m' gg' fe' el'|m' gg' cs']; [discriminate|]. cbn in H. injection H as _ _ H.
        destruct (nth_error cs i) as [c|] eqn:N; [|discriminate].
        apply (f_equal (fun l => nth_error l i)) in H. rewrite !nth_error_map_eq, N in H. unfold child. cbn.
        destruct (nth_error cs' i) as [c'|]; [|discriminate]. cbn in H. injection H as H. eapply IHp; eauto. }
      eapply SS; [|exact HP]. now symmetry. }
    destruct HD as [n D].
    destruct (bd_inters_closed co prefix v' e (lv_tree v) n (bg_inters g e) eq_refl eq_refl KO1 D s) as [s' ->].
    cbn [obind]. destruct (IH v' s' Hels' Hb' KO' HT) as (gs & G1 & G2 & G3). rewrite G1. cbn [obind].
    exists (map (fun x => (e, x, v', all_picks co e (snd x) 1 prefix n)) (filter fst (bg_inters g e)) ++ gs).
    split; [|split].
    + f_equal. rewrite flat_map_app. f_equal. clear. induction (bg_inters g e) as [|x xs IHx]; [reflexivity|].
      cbn [flat_map filter]. destruct (fst x); cbn; now rewrite IHx.
    + rewrite map_app, map_map, G2. reflexivity.
    + apply Forall_app. split; auto. apply Forall_forall. intros gr Hg. apply in_map_iff in Hg as (x & <- & Hx).
      cbn [group_ok]. repeat split.
      * exists v. now rewrite (bind_ok els _ _ v e OK He Hsk).
      * apply picks_sorted. eapply good_sub; [|exact D]. apply bind_good.
      * intros k. rewrite F1 in H. injection H as <-. unfold lv_index. now rewrite F4.
      * rewrite F1 in H. injection H as <-. intros K. apply (in_picks co e (snd x) 1 prefix (lv_tree v') n k KO1 D) in K.
        eapply dof_on_same; [|exact K]. now apply same_tree_sym.
      * rewrite F1 in H. injection H as <-. intros K. apply (in_picks co e (snd x) 1 prefix (lv_tree v') n k KO1 D).
        eapply dof_on_same; [|exact K]. exact ST.
  - destruct (IH v s Hels' Hb' KO' Hv) as (gs & G1 & G2 & G3). exists gs. split; auto. split; auto.
    rewrite G2. assert (Z : filter fst (bg_inters g e) = []).
    { specialize (Hb e (or_introl eq_refl) HB). revert Hb. clear. induction (bg_inters g e) as [|x xs IHx]; intros H; [reflexivity|].
      cbn. rewrite (H x) by now left. apply IHx. intros; apply H; now right. }
    now rewrite Z.
Qed.

(** forEachBoundaryDOF of a basis, or of its subspace basis at [prefix], on any
    grid, with the view and the SubEntityDOFs object reused throughout: it runs to
    the end; its calls come in groups, one for each boundary intersection of each
    element, in grid order; a group passes, in increasing order, exactly the local
    indices of the DOFs on the closure of the intersection's face, with that
    intersection and a view bound to that element, which has the same
    multi-indices as a freshly bound one. *)
Theorem C34_boundary_dofs (b : bexpr E) els co g prefix :
  wf els b -> (forall e, In e (bg_elements g) -> els e) ->
  (forall e, In e (bg_elements g) -> bg_hasbnd g e = false -> forall x, In x (bg_inters g e) -> fst x = false) ->
  (forall e v, In e (bg_elements g) -> lv_bind (build b) (lv_new (build b)) e = Some v -> keys_ok co e (lv_tree v)) ->
  (exists n, descendant (lv_tree (lv_new (build b))) prefix = Some n) ->
  exists groups : list (E * (bool * nat) * lview E * list nat),
    for_each_boundary_dof co (build b) prefix g =
      Some (flat_map (fun '(e, x, v, ks) => map (fun k => (k, v, x)) ks) groups) /\
    for_each_boundary_dof2 co (build b) prefix g =
      Some (flat_map (fun '(e, x, v, ks) => map (fun k => (k, v)) ks) groups) /\
    map fst (map fst groups) = flat_map (fun e => map (pair e) (filter fst (bg_inters g e))) (bg_elements g) /\
    forall e x v ks, In (e, x, v, ks) groups ->
      (exists v0, lv_bind (build b) v0 e = Some v) /\ lv_elem v = Some e /\
      StronglySorted lt ks /\
      forall vf, lv_bind (build b) (lv_new (build b)) e = Some vf ->
        (forall k, lv_index v k = lv_index vf k) /\
        (forall k, In k ks <-> dof_on co e (lv_tree vf) prefix (snd x) 1 k).
Proof.
  intros Hwf Hels Hb KO HP.
  destruct (bd_elements_closed b els co g prefix Hwf HP (bg_elements g) (lv_new (build b)) sd_new Hels Hb KO eq_refl)
    as (gs & G1 & G2 & G3).
  assert (EQ : forall gs : list group, flat_map group_calls gs = flat_map (fun '(e, x, v, ks) => map (fun k => (k, v, x)) ks) gs).
  { intros l. apply flat_map_ext. intros [[[e x] v] ks]. reflexivity. }
  exists gs. split; [|split; [|split]].
  - unfold for_each_boundary_dof. rewrite G1. reflexivity.
  - unfold for_each_boundary_dof2, for_each_boundary_dof. rewrite G1. cbn [obind]. f_equal. clear.
    induction gs as [|[[[e x] v] ks] gs IH]; [reflexivity|]. cbn. rewrite map_app, map_map. f_equal. exact IH.
  - rewrite map_map. exact G2.
  - intros e x v ks H. rewrite Forall_forall in G3. apply (G3 _ H).
Qed.

(** The one-argument overload gets exactly the global indices of the DOFs on the
    faces of boundary intersections. *)
Theorem C34_boundary_indices (b : bexpr E) els co g prefix :
  wf els b -> (forall e, In e (bg_elements g) -> els e) ->
  (forall e, In e (bg_elements g) -> bg_hasbnd g e = false -> forall x, In x (bg_inters g e) -> fst x = false) ->
  (forall e v, In e (bg_elements g) -> lv_bind (build b) (lv_new (build b)) e = Some v -> keys_ok co e (lv_tree v)) ->
  (exists n, descendant (lv_tree (lv_new (build b))) prefix = Some n) ->
  exists ms, for_each_boundary_dof1 co (build b) prefix g = Some ms /\
    forall m, In m ms <-> exists e x v k,
      In e (bg_elements g) /\ In x (bg_inters g e) /\ fst x = true /\
      lv_bind (build b) (lv_new (build b)) e = Some v /\
      dof_on co e (lv_tree v) prefix (snd x) 1 k /\ lv_index v k = Some m.
Proof.
  intros Hwf Hels Hb KO HP.
  destruct (C34_boundary_dofs b els co g prefix Hwf Hels Hb KO HP) as (gs & G1 & _ & G2 & G3).
  unfold for_each_boundary_dof1. rewrite G1. cbn [obind].
  match goal with |- exists ms, ?F _ = _ /\ _ => set (go := F) end.
  assert (GO : forall l : list (@call E), (forall k v x, In (k, v, x) l -> exists m, lv_index v k = Some m) ->
    exists ms, go l = Some ms /\ forall m, In m ms <-> exists k v x, In (k, v, x) l /\ lv_index v k = Some m).
  { induction l as [|[[k v] x] l IH]; intros H.
    - exists []. split; [reflexivity|]. intros m. split; [intros []|]. intros (k & v & x & [] & _).
    - destruct (H k v x (or_introl eq_refl)) as [m Hm].
      destruct IH as (ms & M1 & M2); [intros; eapply H; right; eauto|].
      exists (m :: ms). change (go ((k, v, x) :: l)) with (m <- lv_index v k ;; ms <- go l ;; Some (m :: ms)).
      rewrite Hm. cbn [obind]. rewrite M1. split; [reflexivity|]. intros m'. cbn [In]. rewrite M2. split.
      + intros [<-|(k' & v' & x' & K1 & K2)]; [exists k, v, x; auto|exists k', v', x'; auto].
      + intros (k' & v' & x' & [[= <- <- <-]|K1] & K2); [left; congruence|right; exists k', v', x'; auto]. }
  assert (MEM : forall k v x, In (k, v, x) (flat_map (fun '(e, x, v, ks) => map (fun k => (k, v, x)) ks) gs) <->
    exists e ks, In (e, x, v, ks) gs /\ In k ks).
  { intros k v x. rewrite in_flat_map. split.
    - intros ([[[e x'] v'] ks] & H1 & H2). apply in_map_iff in H2 as (k' & [= <- <- <-] & H2). eauto.
    - intros (e & ks & H1 & H2). exists (e, x, v, ks). split; auto. apply in_map_iff. eauto. }
  assert (GRP : forall e x v ks, In (e, x, v, ks) gs -> In e (bg_elements g) /\ In x (bg_inters g e) /\ fst x = true).
  { intros e x v ks H. apply (in_map fst), (in_map fst) in H. rewrite G2 in H. cbn in H.
    apply in_flat_map in H as (e' & H1 & H2). apply in_map_iff in H2 as (x' & [= -> ->] & H2).
    apply filter_In in H2. tauto. }
  assert (IDX : forall e v k, In e (bg_elements g) -> lv_bind (build b) (lv_new (build b)) e = Some v ->
    forall si, dof_on co e (lv_tree v) prefix si 1 k -> exists m, lv_index v k = Some m).
  { intros e v k He Hv si (q & l & i & j & c & D & L & LI & _).
    destruct (new_bind b els e Hwf (Hels e He)) as (vf & F1 & F2 & F3 & F4). rewrite Hv in F1. injection F1 as <-.
    pose proof (bind_good e (lv_tree (lv_new (build b))) 0) as G0. rewrite <- F3 in G0.
    pose proof (leaf_in_range (lv_tree v) _ _ G0 D L) as [_ R].
    assert (O0 : node_offset (lv_tree v) = 0) by (rewrite F3; apply bind_offset).
    rewrite O0 in R. apply local_index_Some in LI as [Hi ->].
    destruct (C06_every_local_dof_has_an_index b els e Hwf (Hels e He)) as (v2 & V2 & V3).
    rewrite Hv in V2. injection V2 as <-. apply V3. unfold lv_size. lia. }
  destruct (GO (flat_map (fun '(e, x, v, ks) => map (fun k => (k, v, x)) ks) gs)) as (ms & M1 & M2).
  { intros k v x H. apply MEM in H as (e & ks & H1 & H2). destruct (GRP e x v ks H1) as (He & _).
    destruct (G3 e x v ks H1) as (_ & _ & _ & G4). destruct (new_bind b els e Hwf (Hels e He)) as (vf & F1 & _).
    destruct (G4 vf F1) as [G5 G6]. rewrite G5. eapply IDX; eauto. now apply G6. }
  exists ms. split; [exact M1|]. intros m. rewrite M2. split.
  - intros (k & v & x & H & Hm). apply MEM in H as (e & ks & H1 & H2). destruct (GRP e x v ks H1) as (He & Hx & Hf).
    destruct (G3 e x v ks H1) as (_ & _ & _ & G4). destruct (new_bind b els e Hwf (Hels e He)) as (vf & F1 & _).
    destruct (G4 vf F1) as [G5 G6]. exists e, x, vf, k. repeat split; auto; [now apply G6|]. now rewrite <- G5.
  - intros (e & x & vf & k & He & Hx & Hf & F1 & HD & Hm).
    assert (K : In (e, x) (map fst (map fst gs))).
    { rewrite G2. apply in_flat_map. exists e. split; auto. apply in_map, filter_In. auto. }
    apply in_map_iff in K as ([[e' x'] v] & K1 & K2). cbn in K1. injection K1 as -> ->.
    apply in_map_iff in K2 as ([[[e' x'] v'] ks] & K1 & K2). cbn in K1. injection K1 as -> -> ->.
    destruct (G3 e x v ks K2) as (_ & _ & _ & G4). destruct (G4 vf F1) as [G5 G6].
    exists k, v, x. rewrite G5. split; auto. apply MEM. exists e, ks. split; auto. now apply G6.
Qed.
End Proofs.

(** The nesting of Basis_props on its two interval elements: vertex DOFs for the
    P1 leaves, an interior DOF for the others; the outer vertices are boundary. *)
Definition ex_co : coeffs nat :=
  {| co_keys := fun path _ => match path with
                  | [0; _] => [(0, 1); (1, 1)]
                  | [2; _; 1] => [(0, 1); (1, 1)]
                  | _ => [(0, 0)]
                  end;
     co_sub := fun _ si sc cc j => match sc with
                  | 0 => true
                  | _ => (cc =? 1) && (j =? si)
                  end |}.
Definition ex_bg : bgrid nat :=
  {| bg_elements := [0; 1]; bg_hasbnd := fun _ => true;
     bg_inters := fun e => if e =? 0 then [(true, 0); (false, 1)] else [(false, 0); (true, 1)] |}.
Example C34_hypotheses_met :
  (forall e, In e (bg_elements ex_bg) -> ex_els e) /\
  (forall e v, In e (bg_elements ex_bg) -> lv_bind (build ex_b) (lv_new (build ex_b)) e = Some v ->
     keys_ok ex_co e (lv_tree v)) /\
  for_each_boundary_dof1 ex_co (build ex_b) [] ex_bg =
    Some [[0; 0; 0]; [0; 0; 1]; [2; 2]; [2; 7]; [2; 12];
          [0; 2; 0]; [0; 2; 1]; [2; 4]; [2; 9]; [2; 14]] /\
  for_each_boundary_dof1 ex_co (build ex_b) [2; 1] ex_bg = Some [[2; 7]; [2; 9]].
Proof.
  split; [intros e [<-|[<-|[]]]; unfold ex_els; lia|]. split.
  - intros e v [<-|[<-|[]]] Hv.
    all: vm_compute in Hv; injection Hv as <-; intros q l D L NZ.
    all: assert (HI : In (q, l) (leaf_nodes (lv_tree _))) by (apply leaf_nodes_descendant; split; [exact D|exact L]).
    all: cbn in HI; repeat (destruct HI as [HI|HI]; [injection HI as <- <-; try reflexivity; exfalso; apply NZ; reflexivity|]);
      destruct HI.
  - split; vm_compute; reflexivity.
Qed.
(** Binding the same object again to another face and view leaves nothing behind. *)
Example C34_ex :
  exists v0 v1 s,
    lv_bind (build ex_b) (lv_new (build ex_b)) 1 = Some v0 /\ lv_bind (build ex_b) v0 0 = Some v1 /\
    (s1 <- se_bind ex_co v0 [] 0 0 sd_new ;; se_bind ex_co v1 [] 1 1 s1) = Some s /\
    sd_list s = [1; 3; 6; 9; 12] /\ se_contains s 6 = Some true /\ se_contains s 0 = Some false.
Proof.
  do 3 eexists. split; [vm_compute; reflexivity|]. split; [vm_compute; reflexivity|].
  split; [vm_compute; reflexivity|]. repeat split; reflexivity.
Qed.

Print Assumptions C34_subentity_dofs.
Print Assumptions C34_boundary_dofs.
Print Assumptions C34_boundary_indices.
