(** C18, C19: periodic bases. *)
From Coq Require Import List Arith Bool Lia Relations FinFun Sorted.
From Verif Require Import Lib Basis_model Basis_spec Basis_proofs Basis_ok Basis_view Basis_props.
From Verif Require Import Periodic_model Periodic_spec Periodic_proofs.
Import ListNotations.

Section Props.
Context {E : Type}.
Implicit Types (b : bexpr E) (els : E -> Prop) (e : E) (v : lview E) (pb : prebasis E).

(** A flat basis, as PeriodicIndexingTransformation requires (static_assert). *)
Definition flat_basis b : Prop := pb_maxmi (build b) = 1 /\ no_empty_blocks b.

(** [i] is a local DOF of [pb] on [e] with index [m]. *)
Definition local_index pb e i (m : mi) : Prop :=
  exists v, lv_bind pb (lv_new pb) e = Some v /\ i < lv_size v /\ lv_index v i = Some m.

Lemma flat_global b els m : wf els b -> flat_basis b ->
  (global_index els b m <-> exists d, m = [d] /\ d < pb_dim (build b)) /\
  pb_size (build b) [] = Some (pb_dim (build b)).
Proof.
  intros Hwf [Hmax Hne].
  destruct (C04_size_counts_next_digits b els [] [] Hwf Hne (or_introl eq_refl)) as (s & Hs & HS).
  assert (G : forall m, global_index els b m <-> exists d, m = [d] /\ d < s).
  { intros m'. split.
    - intros H. destruct (C10_index_lengths b els m' Hwf H) as [HL _].
      assert (m' <> []).
      { intros ->. apply (global_index_iff b els _ Hwf) in H. discriminate. }
      destruct m' as [|d [|]]; cbn in HL; [congruence| |lia]. exists d. split; auto. apply HS. eauto.
    - intros (d & -> & Hd). apply HS in Hd as [r Hr]. cbn in Hr.
      destruct (C10_index_lengths b els _ Hwf Hr) as [HL _]. destruct r; cbn in HL; [exact Hr|lia]. }
  destruct (C05_dimension_counts_global_indices b els Hwf) as (L & N & HL & HI).
  assert (Hd : pb_dim (build b) = s).
  { rewrite <- HL. rewrite <- (seq_length s 0), <- (map_length (fun d => [d]) (seq 0 s)).
    apply Nat.le_antisymm; (apply NoDup_incl_length; [|intros x Hx]).
    - exact N.
    - apply HI, G in Hx as (d & -> & Hd). apply in_map_iff. exists d. split; auto. apply in_seq. lia.
    - apply FinFun.Injective_map_NoDup; [intros ? ? [= ->]; auto|apply seq_NoDup].
    - apply in_map_iff in Hx as (d & <- & Hd). apply HI, G. exists d. split; auto. apply in_seq in Hd. lia. }
  rewrite Hd. split; auto.
Qed.

(** The periodic basis and its local indices. *)
Lemma periodic_basis b els calls :
  wf els b -> flat_basis b -> in_range (pb_dim (build b)) calls ->
  exists m num pb,
    periodic_map (pb_dim (build b)) calls = Some (m, num) /\
    periodic_pb (build b) calls = Some pb /\
    (forall p, pb_size pb p = Some (if length p =? 1 then 0 else num)) /\ pb_dim pb = num /\
    pb_desc pb = pb_desc (build b) /\
    forall e i k, els e ->
      (local_index pb e i k <-> exists d x, local_index (build b) e i [d] /\
                                            nth_error m d = Some (Some x) /\ k = [x]).
Proof.
  intros Hwf Hf HR. destruct (flat_global b els [] Hwf Hf) as [_ Hs].
  destruct (periodic_numbering _ calls HR) as (m & num & Hm & Hl & Hv & _).
  exists m, num. unfold periodic_pb. rewrite Hs. cbn [obind]. rewrite Hm. cbn [obind].
  eexists. split; [reflexivity|]. split; [reflexivity|]. split; [reflexivity|]. split; [reflexivity|].
  split; [reflexivity|].
  intros e i k He.
  destruct (C06_every_local_dof_has_an_index b els e Hwf He) as (vr & Hvr & HI).
  set (phi := fun mu : mi => match mu with d :: _ => match nth_error m d with Some (Some x) => [x] | _ => [] end | [] => [] end).
  assert (GI : forall mu, In mu (lv_indices vr) -> global_index els b mu).
  { intros mu Hmu. apply In_nth_error in Hmu as [j Hj]. exists e, j. split; auto. exists vr. split; auto.
    split; auto. apply HI. eauto. }
  destruct (C17_indices_are_transformed_in_order b els e
              (periodic_transformation m num (pb_desc (build b))) phi vr Hwf He Hvr) as (v & V1 & V2 & V3).
  { intros mu Hmu. apply GI in Hmu. apply (flat_global b els mu Hwf Hf) in Hmu as (d & -> & Hd).
    destruct (Hv d Hd) as (x & Hx & _). unfold phi, periodic_transformation, digit. cbn [tr_index nth_error obind tr_max].
    rewrite Hx. cbn [obind]. destruct (Nat.ltb_spec (max (pb_bufmi (build b)) 1) 1); [lia|]. reflexivity. }
  split.
  - intros (v' & V1' & Hi & Hk). rewrite V1 in V1'. injection V1' as <-.
    unfold lv_index in Hk. rewrite V2, nth_error_map_eq in Hk.
    destruct (nth_error (lv_indices vr) i) as [mu|] eqn:Emu; [|discriminate]. injection Hk as <-.
    assert (Gm : global_index els b mu) by (apply GI; eapply nth_error_In; eauto).
    apply (flat_global b els mu Hwf Hf) in Gm as (d & -> & Hd). destruct (Hv d Hd) as (x & Hx & _).
    exists d, x. split; [exists vr; rewrite <- V3; auto|]. split; auto. unfold phi. now rewrite Hx.
  - intros (d & x & (v' & V1' & Hi & Hk) & Hx & ->). rewrite Hvr in V1'. injection V1' as <-.
    exists v. split; auto. rewrite V3. split; auto. unfold lv_index in *.
    rewrite V2, nth_error_map_eq, Hk. cbn. now rewrite Hx.
Qed.

(** ** C18 *)

(** Exactly which local DOFs share an index: those connected by honoured requests,
    i.e. for each DOF only the request with its largest smaller partner. *)
Theorem C18_share_an_index_iff_honoured b els calls :
  wf els b -> flat_basis b -> in_range (pb_dim (build b)) calls ->
  exists pb, periodic_pb (build b) calls = Some pb /\
    forall e e' i i' d d', els e -> els e' ->
      local_index (build b) e i [d] -> local_index (build b) e' i' [d'] ->
      exists k k', local_index pb e i k /\ local_index pb e' i' k' /\ (k = k' <-> honoured calls d d').
Proof.
  intros Hwf Hf HR. destruct (periodic_basis b els calls Hwf Hf HR) as (m & num & pb & Hm & Hpb & _ & _ & _ & HL).
  destruct (periodic_numbering _ calls HR) as (m' & num' & Hm' & _ & Hv & _ & Hsh & _).
  rewrite Hm in Hm'. injection Hm' as <- <-.
  exists pb. split; auto. intros e e' i i' d d' He He' Hd Hd'.
  assert (D : forall e i d, els e -> local_index (build b) e i [d] -> d < pb_dim (build b)).
  { intros e0 i0 d0 H1 (v & V1 & V2 & V3).
    assert (G : global_index els b [d0]) by (exists e0, i0; split; auto; exists v; auto).
    apply (flat_global b els _ Hwf Hf) in G as (d1 & [= <-] & G). exact G. }
  pose proof (D _ _ _ He Hd) as Dd. pose proof (D _ _ _ He' Hd') as Dd'.
  destruct (Hv d Dd) as (x & Hx & _). destruct (Hv d' Dd') as (x' & Hx' & _).
  exists [x], [x']. split; [apply HL; eauto|]. split; [apply HL; eauto|].
  rewrite <- (Hsh d d' Dd Dd'), Hx, Hx'. split; [intros [= ->]; auto|congruence].
Qed.

(** DOFs are unified only if the requests connect them. *)
Theorem C18_only_requested_dofs_are_unified b els calls pb :
  wf els b -> flat_basis b -> in_range (pb_dim (build b)) calls -> periodic_pb (build b) calls = Some pb ->
  forall e e' i i' d d' k, els e -> els e' ->
    local_index (build b) e i [d] -> local_index (build b) e' i' [d'] ->
    local_index pb e i k -> local_index pb e' i' k -> unified calls d d'.
Proof.
  intros Hwf Hf HR Hpb e e' i i' d d' k He He' Hd Hd' Hk Hk'.
  destruct (C18_share_an_index_iff_honoured b els calls Hwf Hf HR) as (pb' & Hpb' & H).
  rewrite Hpb in Hpb'. injection Hpb' as <-.
  destruct (H e e' i i' d d' He He' Hd Hd') as (k1 & k2 & L1 & L2 & Hiff).
  assert (U : forall e i k k', local_index pb e i k -> local_index pb e i k' -> k = k').
  { intros ? ? ? ? (v & V1 & V2 & V3) (v' & V1' & V2' & V3'). congruence. }
  apply honoured_unified, Hiff. transitivity k; eauto.
Qed.

(** Partial: the full claim (index shared iff connected by the equivalence closure)
    holds if any two smaller partners of a DOF are requested to be unified too -
    in particular if each DOF has at most one smaller partner, or if all pairs of
    each class are passed.  Missing: arbitrary requests, refuted below. *)
Theorem C18_share_an_index_iff_unified_partial b els calls :
  wf els b -> flat_basis b -> in_range (pb_dim (build b)) calls -> partners_requested calls ->
  exists pb, periodic_pb (build b) calls = Some pb /\
    forall e e' i i' d d', els e -> els e' ->
      local_index (build b) e i [d] -> local_index (build b) e' i' [d'] ->
      exists k k', local_index pb e i k /\ local_index pb e' i' k' /\ (k = k' <-> unified calls d d').
Proof.
  intros Hwf Hf HR HP. destruct (C18_share_an_index_iff_honoured b els calls Hwf Hf HR) as (pb & Hpb & H).
  exists pb. split; auto. intros e e' i i' d d' He He' Hd Hd'.
  destruct (H e e' i i' d d' He He' Hd Hd') as (k & k' & L1 & L2 & Hiff).
  exists k, k'. split; auto. split; auto. rewrite Hiff. split; [apply honoured_unified|now apply unified_honoured].
Qed.

(** Indices are gap free: the indices in use are exactly [0], ..., [size()-1], all
    complete, and size() = dimension() is the number of classes. *)
Theorem C18_gap_free_and_counted b els calls :
  wf els b -> flat_basis b -> in_range (pb_dim (build b)) calls ->
  exists pb num, periodic_pb (build b) calls = Some pb /\
    pb_size pb [] = Some num /\ pb_dim pb = num /\ (forall d, pb_size pb [d] = Some 0) /\
    (forall e i k, els e -> local_index pb e i k -> exists x, k = [x] /\ x < num) /\
    (forall x, x < num -> exists e i, els e /\ local_index pb e i [x]) /\
    counts_classes (honoured calls) (pb_dim (build b)) num.
Proof.
  intros Hwf Hf HR. destruct (periodic_basis b els calls Hwf Hf HR) as (m & num & pb & Hm & Hpb & HS & HD & _ & HL).
  destruct (periodic_numbering _ calls HR) as (m' & num' & Hm' & Hlen & Hv & Hsu & _ & HC & _).
  rewrite Hm in Hm'. injection Hm' as <- <-.
  exists pb, num. split; auto. split; [rewrite HS; reflexivity|]. split; auto.
  split; [intros d; rewrite HS; reflexivity|]. split; [|split; auto].
  - intros e i k He Hk. apply HL in Hk as (d & x & _ & Hx & ->); auto. exists x. split; auto.
    assert (Hd : d < pb_dim (build b)) by (rewrite <- Hlen; eapply nth_error_Some_lt; eauto).
    destruct (Hv d Hd) as (y & Hy & Hlt). congruence.
  - intros x Hx. destruct (Hsu x Hx) as (d & Hd & Hmx).
    assert (G : global_index els b [d]) by (apply (flat_global b els _ Hwf Hf); eauto).
    destruct G as (e & i & He & v & V1 & V2 & V3). exists e, i. split; auto. apply HL; auto.
    exists d, x. split; auto. exists v. auto.
Qed.

(** With partners requested, size() counts the classes of the equivalence closure. *)
Theorem C18_size_counts_unified_classes_partial b els calls :
  wf els b -> flat_basis b -> in_range (pb_dim (build b)) calls -> partners_requested calls ->
  exists pb num, periodic_pb (build b) calls = Some pb /\ pb_size pb [] = Some num /\ pb_dim pb = num /\
    counts_classes (unified calls) (pb_dim (build b)) num.
Proof.
  intros Hwf Hf HR HP. destruct (C18_gap_free_and_counted b els calls Hwf Hf HR)
    as (pb & num & Hpb & Hs & Hd & _ & _ & _ & reps & N & L & R & U).
  exists pb, num. split; auto. split; auto. split; auto. exists reps. split; auto. split; auto. split; auto.
  intros x Hx. destruct (U x Hx) as (r & [R1 R2] & R3). exists r. split.
  - split; auto. now apply honoured_unified.
  - intros s [S1 S2]. apply R3. split; auto. now apply unified_honoured.
Qed.

(** The order and orientation of the unifyIndexPair calls do not matter. *)
Theorem C18_independent_of_call_order (raw : prebasis E) calls calls' :
  (forall x y, x <> y -> (requested calls x y <-> requested calls' x y)) ->
  periodic_pb raw calls = periodic_pb raw calls'.
Proof.
  intros H. unfold periodic_pb, periodic_map. replace (index_pair_set calls') with (index_pair_set calls); auto.
  destruct (pair_set_spec calls) as [S1 I1]. destruct (pair_set_spec calls') as [S2 I2].
  assert (I : forall p, In p (index_pair_set calls) <-> In p (index_pair_set calls')).
  { intros [x y]. rewrite I1, I2. split; intros [L R]; split; auto; (apply H; [lia|auto]). }
  clear -S1 S2 I. revert S1 S2 I.
  generalize (index_pair_set calls) as l, (index_pair_set calls') as l'.
  induction l as [|p l IH]; intros l' S1 S2 I.
  - destruct l' as [|q l']; auto. exfalso. apply (I q). now left.
  - destruct l' as [|q l']; [exfalso; apply (I p); now left|].
    inversion S1 as [|? ? S1' F1]; inversion S2 as [|? ? S2' F2]; subst.
    rewrite Forall_forall in F1, F2.
    assert (p = q).
    { destruct (proj1 (I p) (or_introl eq_refl)) as [->|Hp]; auto.
      destruct (proj2 (I q) (or_introl eq_refl)) as [->|Hq]; auto.
      specialize (F1 _ Hq). specialize (F2 _ Hp). unfold plt in *. lia. }
    subst q. f_equal. apply IH; auto. intros r. specialize (I r). cbn in I.
    assert (Irr : forall r l0, (forall x, In x l0 -> plt p x) -> In r l0 -> p <> r).
    { intros r0 l0 F Hr Heq. subst. specialize (F _ Hr). unfold plt in F. lia. }
    split; intros Hr.
    + destruct (proj1 I (or_intror Hr)) as [Hpr|]; auto. exfalso. eapply Irr; [exact F1|exact Hr|exact Hpr].
    + destruct (proj2 I (or_intror Hr)) as [Hpr|]; auto. exfalso. eapply Irr; [exact F2|exact Hr|exact Hpr].
Qed.

(** Requests naming a DOF outside 0..dim-1 are undefined behaviour, all others are defined. *)
Theorem C18_defined_iff_in_range b els calls :
  wf els b -> flat_basis b ->
  ((exists pb, periodic_pb (build b) calls = Some pb) <-> in_range (pb_dim (build b)) calls).
Proof.
  intros Hwf Hf. split.
  - intros [pb H]. unfold periodic_pb in H. destruct (flat_global b els [] Hwf Hf) as [_ Hs].
    rewrite Hs in H. cbn [obind] in H.
    destruct (periodic_map (pb_dim (build b)) calls) as [r|] eqn:Em; [|discriminate].
    intros x y Hin Hne. eapply periodic_map_range; [exact Em| |exact Hne]. now left.
  - intros HR. destruct (periodic_basis b els calls Hwf Hf HR) as (_ & _ & pb & _ & H & _). eauto.
Qed.

(** ** C19 *)

(** The descriptor is that of the raw basis: it has the raw dimension, hence agrees
    with size() exactly if no two different DOFs were unified. *)
Theorem C19_descriptor_has_size_iff_nothing_unified_partial b els calls d s :
  wf els b -> flat_basis b -> in_range (pb_dim (build b)) calls ->
  pb_desc (build b) = Some d -> desc_size d = Some s ->
  exists pb num, periodic_pb (build b) calls = Some pb /\ pb_desc pb = Some d /\ pb_size pb [] = Some num /\
    num <= s /\ (num = s <-> forall x y, requested calls x y -> x = y).
Proof.
  intros Hwf Hf HR Hd Hs. destruct (periodic_basis b els calls Hwf Hf HR) as (m & num & pb & Hm & Hpb & HS & HD & HDe & _).
  destruct (periodic_numbering _ calls HR) as (m' & num' & Hm' & Hlen & _ & _ & _ & _ & Hle & Hiff).
  rewrite Hm in Hm'. injection Hm' as <- <-.
  exists pb, num. split; auto. split; [congruence|]. split; [rewrite HS; reflexivity|].
  assert (s = pb_dim (build b)) as ->.
  { destruct (flat_global b els [] Hwf Hf) as [_ Hsz].
    destruct (C09_descriptor_describes_index_tree b els d [] (sp_tree (meaning b)) Hwf Hd eq_refl) as (c & W & HC).
    cbn in W. injection W as <-. destruct HC as [->|[HC _]]; [discriminate|].
    rewrite (C04_size_is_the_index_tree b els [] (sp_tree (meaning b)) Hwf eq_refl) in Hsz. congruence. }
  auto.
Qed.

(** So the claim is false as soon as one pair of different DOFs is unified: the
    described container is too large. *)
Theorem C19_descriptor_too_large_refuted b els calls d s x y :
  wf els b -> flat_basis b -> in_range (pb_dim (build b)) calls ->
  pb_desc (build b) = Some d -> desc_size d = Some s ->
  In (x, y) calls -> x <> y ->
  exists pb num, periodic_pb (build b) calls = Some pb /\ pb_desc pb = Some d /\ pb_size pb [] = Some num /\
    num < s.
Proof.
  intros Hwf Hf HR Hd Hs Hin Hne.
  destruct (C19_descriptor_has_size_iff_nothing_unified_partial b els calls d s Hwf Hf HR Hd Hs)
    as (pb & num & H1 & H2 & H3 & H4 & H5).
  exists pb, num. split; auto. split; auto. split; auto.
  destruct (Nat.eq_dec num s) as [->|]; [|lia].
  exfalso. apply Hne, (proj1 H5 eq_refl). now left.
Qed.
End Props.

(** A concrete case: a P1 basis with 3 DOFs on two line elements. *)
Definition per_leaf : leaf nat := {|
  lf_dim := 3; lf_maxnode := 2; lf_fe := fun _ => 2; lf_indices := fun e => [e; e + 1] |}.
Definition per_els (e : nat) : Prop := e < 2.
Lemma per_leaf_ok : leaf_ok per_els per_leaf.
Proof.
  constructor; cbn; unfold per_els; auto.
  - intros e g He [<-|[<-|[]]]; lia.
  - intros [|[|[|g]]] Hg; [exists 0|exists 0|exists 1|]; cbn; lia.
Qed.
Example per_hypotheses_met :
  wf per_els (BLeaf per_leaf) /\ flat_basis (BLeaf per_leaf) /\ in_range 3 [(2, 0); (1, 1)] /\
  partners_requested [(2, 0); (1, 1)] /\ requested [(2, 0); (1, 1)] 0 2 /\
  (exists d, pb_desc (build (BLeaf per_leaf)) = Some d /\ desc_size d = Some 3).
Proof.
  split; [apply per_leaf_ok|]. split; [split; [reflexivity|]|].
  { unfold no_empty_blocks. cbn. repeat constructor. }
  split; [|split; [|split]].
  - intros a b [[= <- <-]|[[= <- <-]|[]]]; lia.
  - intros a a' b L L' [H|H] [H'|H']; cbn in H, H';
      repeat match goal with
             | H : _ \/ _ |- _ => destruct H
             | H : (_, _) = (_, _) |- _ => injection H as <- <-
             | H : False |- _ => destruct H
             end; lia.
  - right. cbn. auto.
  - eexists. split; reflexivity.
Qed.
(** The periodic basis of that case: the two end points share index 0. *)
Example per_case :
  exists pb, periodic_pb (build (BLeaf per_leaf)) [(2, 0); (1, 1)] = Some pb /\
    pb_size pb [] = Some 2 /\ pb_dim pb = 2 /\
    (v <- lv_bind pb (lv_new pb) 1 ;; Some (lv_indices v)) = Some [[1]; [0]].
Proof. eexists. split; [reflexivity|]. repeat split; reflexivity. Qed.

(** The full C18 fails: requests (0,2) and (1,2) leave DOFs 0 and 2 apart, although
    they were requested to be unified directly. *)
Theorem C18_equivalence_closure_refuted :
  let calls := [(0, 2); (1, 2)] in
  wf per_els (BLeaf per_leaf) /\ flat_basis (BLeaf per_leaf) /\ in_range 3 calls /\
  unified calls 0 2 /\
  exists pb, periodic_pb (build (BLeaf per_leaf)) calls = Some pb /\
    local_index (build (BLeaf per_leaf)) 0 0 [0] /\ local_index (build (BLeaf per_leaf)) 1 1 [2] /\
    local_index pb 0 0 [0] /\ local_index pb 1 1 [1].
Proof.
  cbn zeta. split; [apply per_leaf_ok|]. split; [apply per_hypotheses_met|].
  split; [|split].
  - intros a b [[= <- <-]|[[= <- <-]|[]]]; lia.
  - apply rst_step. left. cbn. auto.
  - eexists. split; [reflexivity|].
    repeat split; (eexists; split; [reflexivity|]; split; [cbn; lia|reflexivity]).
Qed.

Print Assumptions C18_share_an_index_iff_honoured.
Print Assumptions C18_only_requested_dofs_are_unified.
Print Assumptions C18_share_an_index_iff_unified_partial.
Print Assumptions C18_gap_free_and_counted.
Print Assumptions C18_size_counts_unified_classes_partial.
Print Assumptions C18_independent_of_call_order.
Print Assumptions C18_defined_iff_in_range.
Print Assumptions C18_equivalence_closure_refuted.
Print Assumptions C19_descriptor_has_size_iff_nothing_unified_partial.
Print Assumptions C19_descriptor_too_large_refuted.
