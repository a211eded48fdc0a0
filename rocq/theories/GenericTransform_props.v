(** C17, C95: transformations given by callbacks, wrapped around a basis any number of times. *)
From Coq Require Import List Arith Bool Lia.
From Verif Require Import Lib Basis_model Basis_spec Basis_proofs Basis_ok Basis_view Basis_props
  GenericTransform_model GenericTransform_spec.
Import ListNotations.

Section Props.
Context {E : Type}.
Implicit Types (b : bexpr E) (els : E -> Prop) (e : E) (v : lview E).

Lemma stacked_ok els b pb psi :
  wf els b -> stacked els b pb psi ->
  pb_node pb = pb_node (build b) /\ pb_bufmi (build b) <= pb_bufmi pb /\
  pb_dim pb = pb_dim (build b) /\ pb_maxnode pb = pb_maxnode (build b) /\
  (forall cap n0 e off pre mid post, els e -> skel n0 = skel (pb_node (build b)) ->
      pb_bufmi pb <= cap -> length mid = length (sp_keys (meaning b) e) ->
      pb_indices pb cap (bind_tree e off n0) (pre ++ mid ++ post, length pre)
      = Some (pre ++ map (fun k => psi (sp_glob (meaning b) k)) (sp_keys (meaning b) e) ++ post,
              length pre + length mid)).
Proof.
  intros Hwf S. pose proof (build_ok b els Hwf) as OK.
  induction S as [|raw psi c phi S (IN & IB & ID & IM & II) Hc].
  - repeat split; auto. intros. now apply (ok_ind _ _ _ OK).
  - cbn [generic_pb transformed_pb pb_node pb_bufmi pb_dim pb_maxnode pb_indices
         generic_transformation tr_dim tr_max].
    split; [auto|]. split; [lia|]. split; [auto|]. split; [auto|].
    intros cap n0 e off pre mid post He Hsk Hcap Hmid.
    rewrite (II cap n0 e off pre mid post He Hsk) by (auto; lia). cbn [obind snd].
    rewrite (ok_nsize _ _ _ OK n0 e off He Hsk).
    set (ks := sp_keys (meaning b) e) in *.
    rewrite <- (map_length (fun k => psi (sp_glob (meaning b) k)) ks) at 1.
    rewrite (tr_loop _ phi).
    + rewrite map_map, map_length. f_equal. f_equal. lia.
    + intros m Hm. apply in_map_iff in Hm as (k & <- & Hk).
      cbn [generic_transformation tr_index]. apply Hc; [exact Hcap|].
      apply (global_index_iff b els _ Hwf). now apply (ok_valid _ _ _ OK e).
Qed.

(** However many transformations are wrapped around a basis, binding a view succeeds
    whenever it does for the basis itself, the view has the same number of DOFs, and DOF i
    has the index that comes out of all transformations applied, innermost first, to the
    index of DOF i in the basis itself. *)
Theorem C17_nested_transformations_compose els b pb psi e vr :
  wf els b -> stacked els b pb psi -> els e ->
  lv_bind (build b) (lv_new (build b)) e = Some vr ->
  exists v, lv_bind pb (lv_new pb) e = Some v /\ lv_size v = lv_size vr /\
            forall i, lv_index v i = option_map psi (lv_index vr i).
Proof.
  intros Hwf S He Hv. pose proof (build_ok b els Hwf) as OK.
  destruct (stacked_ok els b pb psi Hwf S) as (HN & HB & HD & HM & HI).
  rewrite (bind_new_ok els _ _ e OK He) in Hv. injection Hv as <-.
  unfold lv_bind, lv_new. cbn [lv_tree lv_indices]. rewrite HN.
  set (n0 := fst (init_tree 0 (pb_node (build b)))).
  assert (Hsk : skel n0 = skel (pb_node (build b))) by apply new_skel.
  rewrite (ok_nsize _ _ _ OK n0 e 0 He Hsk).
  pose proof (HI (pb_bufmi pb) n0 e 0 [] (vresize [] (length (sp_keys (meaning b) e)) []) [] He Hsk
                (le_n _) (vresize_length _ _ _)) as H.
  cbn [app length] in H. rewrite !app_nil_r in H. rewrite H. cbn [obind].
  eexists. split; [reflexivity|]. split; [reflexivity|]. intros i. unfold lv_index. cbn [lv_indices].
  rewrite !nth_error_map_eq. now destruct (nth_error (sp_keys (meaning b) e) i).
Qed.

Lemma occurs_iff els b pb psi m :
  wf els b -> stacked els b pb psi ->
  occurs els pb m <-> exists m0, global_index els b m0 /\ psi m0 = m.
Proof.
  intros Hwf S. split.
  - intros (e & i & v & He & Hv & Hi & Hm).
    destruct (C06_every_local_dof_has_an_index b els e Hwf He) as (vr & Hvr & HI).
    destruct (C17_nested_transformations_compose els b pb psi e vr Hwf S He Hvr) as (v' & Hv' & Hs & Hx).
    rewrite Hv in Hv'. injection Hv' as <-. rewrite Hx in Hm.
    destruct (lv_index vr i) as [m0|] eqn:M0; [|discriminate]. cbn in Hm. injection Hm as <-.
    exists m0. split; auto. exists e, i. split; auto. exists vr. split; auto. split; [auto|]. now rewrite <- Hs.
  - intros (m0 & (e & i & He & vr & Hvr & Hi & Hs) & <-).
    destruct (C17_nested_transformations_compose els b pb psi e vr Hwf S He Hvr) as (v & Hv & Hsz & Hx).
    exists e, i, v. split; auto. split; auto. rewrite Hsz. split; auto. rewrite Hx, Hi. reflexivity.
Qed.

(** If the transformations together are one-to-one on the indices of the basis,
    dimension() is the number of multi-indices of the wrapped basis. *)
Theorem C95_dimension_counts_transformed_indices els b pb psi :
  wf els b -> stacked els b pb psi ->
  (forall m m', global_index els b m -> global_index els b m' -> psi m = psi m' -> m = m') ->
  exists L, NoDup L /\ length L = pb_dim pb /\ forall m, In m L <-> occurs els pb m.
Proof.
  intros Hwf S Hinj. destruct (C05_dimension_counts_global_indices b els Hwf) as (L & ND & LL & HL).
  exists (map psi L). split; [|split].
  - assert (Q : forall l, incl l L -> NoDup l -> NoDup (map psi l)).
    { induction l as [|x l IH]; intros Hi Hn; cbn; constructor.
      - intros H. apply in_map_iff in H as (y & Hy & Hin). inversion Hn as [|? ? Hx]; subst.
        apply Hx. rewrite <- (Hinj y x); auto; apply HL, Hi; cbn; auto.
      - inversion Hn; subst. apply IH; auto. intros y Hy. apply Hi. now right. }
    apply Q; auto. apply incl_refl.
  - rewrite map_length, LL. symmetry. apply (stacked_ok els b pb psi Hwf S).
  - intros m. rewrite (occurs_iff els b pb psi m Hwf S), in_map_iff. split.
    + intros (m0 & H & Hin). exists m0. split; auto. now apply HL.
    + intros (m0 & H & <-). exists m0. split; auto. now apply HL.
Qed.

(** Otherwise it is not: GenericIndexingTransformation reports the dimension of the wrapped
    pre-basis, so as soon as two indices are merged dimension() is larger than the number
    of multi-indices, and a vector with dimension() entries has entries no DOF uses. *)
Theorem C95_merging_dimension_refuted els b pb psi m1 m2 :
  wf els b -> stacked els b pb psi ->
  global_index els b m1 -> global_index els b m2 -> m1 <> m2 -> psi m1 = psi m2 ->
  forall L, NoDup L -> (forall m, In m L -> occurs els pb m) -> length L < pb_dim pb.
Proof.
  intros Hwf S G1 G2 Hne Heq L ND HL.
  destruct (C05_dimension_counts_global_indices b els Hwf) as (L0 & ND0 & LL & HL0).
  destruct (stacked_ok els b pb psi Hwf S) as (_ & _ & HD & _). rewrite HD, <- LL.
  apply HL0 in G1 as I1. destruct (in_split m1 L0 I1) as (l1 & l2 & EQ).
  assert (I2 : In m2 (l1 ++ l2)).
  { apply HL0 in G2. rewrite EQ in G2. apply in_app_iff in G2 as [?|[?|?]]; [|contradiction|];
      apply in_app_iff; auto. }
  assert (length L <= length (map psi (l1 ++ l2))).
  { apply NoDup_incl_length; auto. intros m Hm. apply HL in Hm.
    apply (occurs_iff els b pb psi m Hwf S) in Hm as (m0 & Hm0 & <-). apply HL0 in Hm0.
    rewrite EQ in Hm0. apply in_app_iff in Hm0 as [Hm0|[<-|Hm0]].
    - apply in_map, in_app_iff. auto.
    - rewrite Heq. now apply in_map.
    - apply in_map, in_app_iff. auto. }
  rewrite map_length, app_length in H. rewrite EQ, app_length. cbn. lia.
Qed.

(** Without a descriptor callback the container descriptor is unknown. *)
Example C17_fallback_descriptor_unknown {G : Type} (fac : G -> prebasis E) index size mn mx gv :
  pb_desc (transform_indices fac (index_transformation_fallback index size mn mx) gv) = None.
Proof. reflexivity. Qed.

End Props.

(** Two transformations around a P1 basis with three vertices: swap DOFs 0 and 1, then put
    everything below block 1.  The first has to fit a buffer of one digit, the second needs two. *)
Definition ex17_swap : callbacks nat :=
  index_transformation_fallback
    (fun cap m _ => Some (match m with [0] => [1] | [1] => [0] | _ => m end))
    (fun p raw => pb_size raw p) 1 1.
Definition ex17_block : callbacks nat :=
  index_transformation_fallback (fun cap m _ => mi_push_front cap m 1)
    (fun p raw => match p with [] => Some 2 | [0] => Some 0 | 1 :: q => pb_size raw q | _ => Some 0 end) 2 2.
(** Merges DOFs 0 and 2, as for a periodic interval. *)
Definition ex17_merge : callbacks nat :=
  index_transformation_fallback
    (fun cap m _ => Some (match m with [2] => [0] | _ => m end))
    (fun p raw => match p with [] => Some 2 | _ => Some 0 end) 1 1.

Lemma ex17_global m : global_index ex_els (BLeaf ex_p1) m <-> exists d, d < 3 /\ m = [d].
Proof.
  assert (W : wf ex_els (BLeaf ex_p1)) by apply ex_p1_ok.
  rewrite (global_index_iff _ _ _ W). cbn. split.
  - destruct m as [|d m]; [discriminate|]. destruct d as [|[|[|d]]]; cbn;
      try (destruct m; [|discriminate]; intros _; eexists; split; [|reflexivity]; lia).
    destruct d; discriminate.
  - intros (d & Hd & ->). destruct d as [|[|[|d]]]; [reflexivity..|lia].
Qed.

Example C17_stack_hypotheses_met :
  let b := BLeaf ex_p1 in
  let pb := transform_indices (transform_indices (fun _ : unit => build b) ex17_swap) ex17_block tt in
  exists psi, stacked ex_els b pb psi /\ psi [0] = [1;1] /\ psi [1] = [1;0] /\ psi [2] = [1;2] /\
    (forall m m', global_index ex_els b m -> global_index ex_els b m' -> psi m = psi m' -> m = m').
Proof.
  cbn zeta. eexists. split; [|split; [|split; [|split]]].
  - unfold transform_indices.
    eapply (stacked_wrap _ _ _ _ ex17_block (fun m => 1 :: m)).
    + eapply (stacked_wrap _ _ _ _ ex17_swap (fun m => match m with [0] => [1] | [1] => [0] | _ => m end));
        [apply stacked_base|]. intros cap m _ _. reflexivity.
    + intros cap m Hc Hm. apply ex17_global in Hm as (d & Hd & ->). cbn in Hc |- *.
      apply push_front_eq. destruct d as [|[|d]]; cbn; lia.
  - reflexivity.
  - reflexivity.
  - reflexivity.
  - intros m m' Hm Hm'. apply ex17_global in Hm as (d & Hd & ->), Hm' as (d' & Hd' & ->). cbn.
    destruct d as [|[|d]], d' as [|[|d']]; cbn; intros H; try (injection H; intros; subst); try lia; try reflexivity.
Qed.
Example C95_merging_example :
  let b := BLeaf ex_p1 in
  let pb := transform_indices (fun _ : unit => build b) ex17_merge tt in
  (exists psi, stacked ex_els b pb psi /\ psi [0] = psi [2] /\
     global_index ex_els b [0] /\ global_index ex_els b [2]) /\
  pb_dim pb = 3 /\ pb_size pb [] = Some 2.
Proof.
  cbn zeta. split; [|split; reflexivity].
  exists (fun m => match m with [2] => [0] | _ => m end). split; [|split; [reflexivity|]].
  - apply (stacked_wrap _ _ _ (fun m => m) ex17_merge (fun m => match m with [2] => [0] | _ => m end));
      [apply stacked_base|]. reflexivity.
  - split; apply ex17_global; eexists; (split; [|reflexivity]); lia.
Qed.

Print Assumptions C17_nested_transformations_compose.
Print Assumptions C95_dimension_counts_transformed_indices.
Print Assumptions C95_merging_dimension_refuted.
