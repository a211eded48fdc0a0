(** C88 and C89: what Python shows of bases, local views and tree nodes. *)
From Coq Require Import List Arith Bool ZArith Lia.
From Verif Require Import Lib Basis_model Basis_spec Basis_proofs Basis_ok Basis_view Basis_props PyView_model PyView_spec.
Import ListNotations.

Lemma to_int_fits n : fits n -> to_int n = Z.of_nat n.
Proof. unfold fits, to_int. intros H. rewrite Z.mod_small; lia. Qed.

Section Props.
Context {E : Type}.
Implicit Types (b : pybasis E) (v : pyview E) (e : E).

(** * C88 *)

Definition tracked b (w : pyworld E) (x : handle E) (s : list nat * bool) : Prop :=
  (fst s = [] -> x = TheTree /\ snd s = false) /\
  (snd s = false -> forall t, pv_tree b (pw_view w) = Some t -> deref b w x = descendant t (fst s)) .

Lemma tracked_view b v l l' x s : tracked b (PW v l) x s -> tracked b (PW v l') x s.
Proof. intros [H1 H2]. split; [exact H1|]. intros Hs t Ht. cbn in Ht. specialize (H2 Hs t Ht). destruct x; exact H2. Qed.

Lemma unbind_tree b v : pv_tree b (pv_unbind v) = pv_tree b v.
Proof.
  revert v. induction b as [pb|b IH p]; intros [v|v]; cbn; auto. now rewrite IH.
Qed.

Lemma descendant_snoc (t n : node E) p i :
  descendant t p = Some n -> descendant t (p ++ [i]) = child n i.
Proof. intros H. rewrite descendant_app, H. cbn. now destruct (child n i). Qed.

Lemma Forall2_nth_l {A B} (P : A -> B -> Prop) l l' k x :
  Forall2 P l l' -> nth_error l k = Some x -> exists y, nth_error l' k = Some y /\ P x y.
Proof. intros F. revert k. induction F as [|a c l l' H F IH]; intros [|k] N; cbn in *; try discriminate; eauto. injection N as <-. eauto. Qed.

Lemma Forall2_mono {A B} (P Q : A -> B -> Prop) l l' :
  (forall x y, P x y -> Q x y) -> Forall2 P l l' -> Forall2 Q l l'.
Proof. intros H F. induction F; auto. Qed.

Lemma Forall2_map_r {A B C} (P : A -> B -> Prop) (Q : A -> C -> Prop) (f : B -> C) l l' :
  (forall x y, P x y -> Q x (f y)) -> Forall2 P l l' -> Forall2 Q l (map f l').
Proof. intros H F. induction F; cbn; auto. Qed.

Lemma nstep_tracked b w o w' l :
  Forall2 (tracked b w) (pw_nodes w) l -> nstep b w o = Some w' ->
  exists l', spec_step l o = Some l' /\ Forall2 (tracked b w') (pw_nodes w') l'.
Proof.
  intros F S. destruct w as [v hs]. cbn [pw_nodes] in F. destruct o as [e| | |h i]; cbn [nstep pw_view pw_nodes] in S.
  - apply obind_Some in S as (v' & B & S). injection S as <-. eexists. split; [reflexivity|]. cbn [pw_nodes].
    eapply Forall2_map_r; [|exact F]. intros x s [T1 T2].
    destruct s as [[|i p] st]; split; cbn in *; try discriminate.
    + intros _. split; [apply T1|]; auto.
    + intros _ t Ht. destruct T1 as [-> _]; auto.
  - injection S as <-. eexists. split; [reflexivity|]. cbn [pw_nodes]. eapply Forall2_mono; [|exact F].
    intros x s [T1 T2]. split; auto. cbn in *. rewrite unbind_tree. intros Hs t Ht. specialize (T2 Hs t Ht).
    destruct x; cbn in *; auto. now rewrite unbind_tree.
  - injection S as <-. eexists. split; [reflexivity|]. cbn [pw_nodes]. apply Forall2_app.
    + eapply Forall2_mono; [|exact F]. intros x s. apply tracked_view.
    + constructor; [|constructor]. split; cbn; auto.
  - apply obind_Some in S as (x & N & S). apply obind_Some in S as (n & D & S). apply obind_Some in S as (c & C & S).
    injection S as <-. destruct (Forall2_nth_l _ _ _ _ _ F N) as (s & Ns & T1 & T2).
    cbn [spec_step]. rewrite Ns. cbn [obind]. eexists. split; [reflexivity|]. cbn [pw_nodes]. apply Forall2_app.
    + eapply Forall2_mono; [|exact F]. intros ? ?. apply tracked_view.
    + constructor; [|constructor]. split; cbn [fst snd].
      * intros A. now destruct (fst s).
      * intros Hs t Ht. cbn [pw_view] in Ht. specialize (T2 Hs t Ht). rewrite D in T2. cbn [deref].
        rewrite (descendant_snoc t n); auto.
Qed.

Lemma nrun_tracked b h : forall w w' l,
  Forall2 (tracked b w) (pw_nodes w) l -> nrun b w h = Some w' ->
  exists l', spec_run l h = Some l' /\ Forall2 (tracked b w') (pw_nodes w') l'.
Proof.
  induction h as [|o h IH]; intros w w' l F R; cbn in R; [injection R as <-; cbn; eauto|].
  apply obind_Some in R as (w1 & S & R). destruct (nstep_tracked b w o w1 l F S) as (l1 & S1 & F1).
  cbn. rewrite S1. cbn. eauto.
Qed.

(** Whatever a Python program did, view.tree() is the tree of the view, and the nodes taken
    from it since the last bind are its descendants. *)
Theorem C88_nodes_describe_the_view_partial b h w :
  nrun b (nnew b) h = Some w ->
  exists l, spec_run [] h = Some l /\ length l = length (pw_nodes w) /\
    forall k x p t, nth_error (pw_nodes w) k = Some x -> nth_error l k = Some (p, false) ->
      pv_tree b (pw_view w) = Some t -> deref b w x = descendant t p.
Proof.
  intros R. destruct (nrun_tracked b h (nnew b) w [] (Forall2_nil _) R) as (l & S & F).
  exists l. split; [exact S|]. split; [clear -F; induction F; cbn; auto|].
  intros k x p t N Nl Ht. destruct (Forall2_nth_l _ _ _ _ _ F N) as (s & Ns & _ & T2).
  rewrite Nl in Ns. injection Ns as <-. apply T2; auto.
Qed.

(** No node is ever refused: child(i) returns for every node and every child it has. *)
Theorem C88_children_are_available b w k x n i :
  nth_error (pw_nodes w) k = Some x -> deref b w x = Some n -> i < length (children n) ->
  exists w' c, nstep b w (NChild k i) = Some w' /\ child n i = Some c /\
    pw_view w' = pw_view w /\ exists y, pw_nodes w' = pw_nodes w ++ [y] /\ deref b w' y = Some c.
Proof.
  intros N D L. destruct (nth_error_lt_Some (children n) i L) as [c C]. unfold nstep. rewrite N. cbn. rewrite D. cbn.
  change (child n i) with (nth_error (children n) i). rewrite C. cbn. do 2 eexists. split; [reflexivity|].
  split; [reflexivity|]. cbn. split; [reflexivity|]. eexists. split; reflexivity.
Qed.

(** A node taken before the last bind is what it was: later calls on the view never change it. *)
Theorem C88_children_are_snapshots b h w w' k n :
  nth_error (pw_nodes w) k = Some (ACopy n) -> nrun b w h = Some w' ->
  nth_error (pw_nodes w') k = Some (ACopy n).
Proof.
  revert w. induction h as [|o h IH]; intros w N R; cbn in R; [now injection R as <-|].
  apply obind_Some in R as (w1 & S & R). apply (IH w1); auto. clear IH R.
  assert (L : k < length (pw_nodes w)) by (now apply nth_error_Some_lt in N).
  destruct o as [e| | |hd i]; cbn [nstep] in S.
  - apply obind_Some in S as (v' & _ & S). injection S as <-. exact N.
  - injection S as <-. exact N.
  - injection S as <-. cbn. now rewrite nth_error_app1.
  - apply obind_Some in S as (x & _ & S). apply obind_Some in S as (m & _ & S). apply obind_Some in S as (c & _ & S).
    injection S as <-. cbn. now rewrite nth_error_app1.
Qed.

(** * C89 *)

(** Subspace bases of subspace bases *)
Fixpoint inner v : lview E := match v with VDefault v => v | VSubspace v => inner v end.
Fixpoint root b : prebasis E := match b with PGlobal pb => pb | PSubspace b _ => root b end.
Fixpoint path b : list nat := match b with PGlobal _ => [] | PSubspace b p => path b ++ p end.
Fixpoint fits_view b v : Prop :=
  match b, v with PGlobal _, VDefault _ => True | PSubspace b _, VSubspace v => fits_view b v | _, _ => False end.
Definition lop (o : viewop E) : lvop E := match o with OBind e => LBind e | OUnbind => LUnbind end.

Lemma new_fits b : fits_view b (pv_new b). Proof. induction b; cbn; auto. Qed.
Lemma new_inner b : inner (pv_new b) = lv_new (root b). Proof. induction b; cbn; auto. Qed.
Lemma step_inner b v o : fits_view b v ->
  match lv_step (root b) (inner v) (lop o) with
  | Some u => exists v', pv_step b v o = Some v' /\ inner v' = u /\ fits_view b v'
  | None => pv_step b v o = None
  end.
Proof.
  destruct o as [e|]; cbn [lv_step lop pv_step].
  - revert v. induction b as [pb|b IH p]; intros [v|v] H; cbn in H; try contradiction; cbn.
    + destruct (lv_bind pb v e); cbn; auto. eexists. repeat split.
    + specialize (IH v H). destruct (lv_bind (root b) (inner v) e); cbn.
      * destruct IH as (v' & -> & <- & F). cbn. eexists. repeat split; auto.
      * now rewrite IH.
  - intros H. exists (pv_unbind v). split; [reflexivity|]. revert v H.
    induction b as [pb|b IH p]; intros [v|v] H; cbn in *; try contradiction; auto.
Qed.
Lemma run_inner b h : forall v, fits_view b v ->
  match lv_run (root b) (inner v) (map lop h) with
  | Some u => exists v', pv_run b v h = Some v' /\ inner v' = u /\ fits_view b v'
  | None => pv_run b v h = None
  end.
Proof.
  induction h as [|o h IH]; intros v F; cbn [map lv_run pv_run]; [eauto|].
  pose proof (step_inner b v o F) as S. destruct (lv_step (root b) (inner v) (lop o)); cbn [obind].
  - destruct S as (v' & -> & <- & F'). cbn [obind]. now apply IH.
  - now rewrite S.
Qed.
Lemma inner_obs v : pv_element v = lv_elem (inner v) /\ pv_size v = lv_size (inner v) /\ forall i, pv_index v i = lv_index (inner v) i.
Proof. induction v as [v|v (H1 & H2 & H3)]; cbn; auto. Qed.
Lemma inner_tree b v : fits_view b v -> pv_tree b v = descendant (lv_tree (inner v)) (path b).
Proof.
  revert v. induction b as [pb|b IH p]; intros [v|v] H; cbn in H; try contradiction; cbn; auto.
  rewrite (IH v H), descendant_app. now destruct (descendant (lv_tree (inner v)) (path b)).
Qed.
Lemma root_obs b : py_dim b = pb_dim (root b) /\ (forall p, py_size b p = pb_size (root b) p) /\ pv_maxsize b = lv_maxsize (root b).
Proof. induction b as [pb|b (H1 & H2 & H3) p]; cbn; auto. Qed.

Lemma see_root b h ps is :
  see b h ps is =
  match lv_run (root b) (lv_new (root b)) (map lop h) with
  | Some u => Some (Seen (pb_dim (root b)) (map (pb_size (root b)) ps) (lv_elem u) (lv_size u) (lv_maxsize (root b))
                         (descendant (lv_tree u) (path b)) (map (lv_index u) is))
  | None => None
  end.
Proof.
  unfold see. pose proof (run_inner b h (pv_new b) (new_fits b)) as R. rewrite new_inner in R.
  destruct (lv_run (root b) (lv_new (root b)) (map lop h)) as [u|].
  - destruct R as (v' & -> & <- & F). cbn [obind]. destruct (inner_obs v') as (-> & -> & HI).
    destruct (root_obs b) as (-> & HS & ->). rewrite (inner_tree b v' F). do 2 f_equal; apply map_ext; auto.
  - now rewrite R.
Qed.

(** A subspace basis of a subspace basis is the subspace basis for the joined path: no program
    can tell them apart, whatever it does with their local views. *)
Theorem C89_nested_subspaces_join b p q h ps is :
  see (PSubspace (PSubspace b p) q) h ps is = see (PSubspace b (p ++ q)) h ps is.
Proof. rewrite !see_root. cbn [root path]. now rewrite app_assoc. Qed.

(** The subspace basis for the empty path is the basis itself. *)
Theorem C89_trivial_subspace b h ps is : see (PSubspace b []) h ps is = see b h ps is.
Proof. rewrite !see_root. cbn [root path]. now rewrite app_nil_r. Qed.

Lemma nested_root pb paths : root (nested pb paths) = pb.
Proof.
  unfold nested. change pb with (root (PGlobal pb)) at 2. generalize (PGlobal pb) as b.
  induction paths as [|p paths IH]; intros b; cbn; auto. now rewrite IH.
Qed.

(** If all numbers of the basis are below 2^31, then Python reports them: the dimension, the
    numbers of local DOFs, and the indices of the DOFs of the bound element, which are those
    that a new view in C++ finds. *)
Theorem C89_numbers_agree_partial (x : bexpr E) els paths h v e vr :
  wf els x -> small (build x) -> (forall e, In (OBind e) h -> els e) ->
  pv_run (nested (build x) paths) (pv_new (nested (build x) paths)) h = Some v -> pv_element v = Some e ->
  lv_bind (build x) (lv_new (build x)) e = Some vr ->
  let b := nested (build x) paths in
  py_len b = Z.of_nat (pb_dim (build x)) /\ py_dimension b = Z.of_nat (pb_dim (build x)) /\
  py_view_size v = Z.of_nat (lv_size vr) /\ py_view_maxsize b = Z.of_nat (lv_maxsize (build x)) /\
  (forall i m, lv_index vr i = Some m -> py_index v (Z.of_nat i) = Some (map Z.of_nat m)) /\
  (forall z, (z < 0 \/ Z.of_nat (lv_size vr) <= z)%Z -> py_index v z = None).
Proof.
  intros Hwf (Sd & Sm & Sp) Hh R He Hvr b. subst b.
  destruct (root_obs (nested (build x) paths)) as (D1 & _ & D3). rewrite nested_root in D1, D3.
  pose proof (run_inner _ h _ (new_fits (nested (build x) paths))) as Q. rewrite new_inner, nested_root in Q.
  destruct (lv_run (build x) (lv_new (build x)) (map lop h)) as [u|] eqn:Ru; [|congruence].
  destruct Q as (v' & Rv & Iv & _). rewrite R in Rv. injection Rv as <-.
  destruct (inner_obs v) as (O1 & O2 & O3). rewrite Iv in *. rewrite O1 in He.
  assert (Hels : forall e, In (LBind e) (map lop h) -> els e).
  { intros e' H. apply in_map_iff in H as ([e2|] & [= <-] & H). auto. }
  destruct (C14_bound_view_is_history_independent x els _ u e vr Hwf Hels Ru He Hvr) as (S1 & S2 & _).
  assert (Hin : els e).
  { pose proof (build_ok x els Hwf) as OK.
    destruct (run_tskel els _ _ OK (map lop h) (lv_new (build x)) u Hels) as (_ & G); auto; try discriminate.
    now destruct (G e He). }
  destruct (C06_every_local_dof_has_an_index x els e Hwf Hin) as (vr' & Hvr' & HI).
  rewrite Hvr in Hvr'. injection Hvr' as <-.
  pose proof (C11_size_at_most_maxsize x els e vr Hwf Hin Hvr) as Le.
  split; [unfold py_len; now rewrite D1|]. split; [unfold py_dimension; rewrite D1; now apply to_int_fits|].
  split; [unfold py_view_size; rewrite O2, S1; apply to_int_fits; unfold fits, lv_maxsize in *; lia|].
  split; [unfold py_view_maxsize; rewrite D3; now apply to_int_fits|]. split.
  - intros i m Hm. unfold py_index. destruct (Z.ltb_spec (Z.of_nat i) 0) as [?|_]; [lia|].
    rewrite Nat2Z.id, O3. unfold lv_index in *. rewrite S2, Hm. cbn [obind]. f_equal. apply map_ext_in.
    intros d Hd. apply to_int_fits.
    assert (Hi : i < lv_size vr) by (apply HI; exists m; exact Hm).
    destruct (C06_local_index_is_valid x els e vr i m Hwf Hin Hvr Hi Hm) as (V & _).
    apply in_split in Hd as (p & q & Hq). destruct (V p d q Hq) as (s & Hs & Hlt).
    specialize (Sp p s Hs). unfold fits in *. lia.
  - intros z Hz. unfold py_index. destruct (Z.ltb_spec z 0) as [?|Hz0]; [reflexivity|].
    rewrite O3. unfold lv_index in *. rewrite S2. destruct (nth_error (lv_indices vr) (Z.to_nat z)) as [m|] eqn:N; [|reflexivity].
    assert (Z.to_nat z < lv_size vr) by (apply HI; eauto). lia.
Qed.
End Props.

(** * Refutations *)

(** In a power basis on two elements with different numbers of DOFs: a node taken before the
    second bind keeps the numbers of the first element. *)
Definition ex_hp : leaf nat := {| lf_dim := 5; lf_maxnode := 3; lf_fe := fun e => e + 2; lf_indices := fun e => seq (2 * e) (e + 2) |}.
Lemma ex_hp_ok : leaf_ok ex_els ex_hp.
Proof.
  unfold ex_els. constructor; cbn [ex_hp lf_dim lf_maxnode lf_fe lf_indices].
  - intros e _. apply seq_length.
  - intros e He. lia.
  - intros e g He Hg. apply in_seq in Hg. lia.
  - intros g Hg. destruct (Nat.lt_ge_cases g 2); [exists 0|exists 1]; (split; [lia|apply in_seq; lia]).
Qed.
Definition ex_pw : bexpr nat := BPower true 2 BlockedInterleaved (BLeaf ex_hp).
Lemma ex_pw_wf : wf ex_els ex_pw.
Proof. cbn. split; [lia|]. split; [apply ex_hp_ok|]. intros _. repeat constructor. Qed.
Theorem C88_stale_children_refuted :
  exists (x : bexpr nat) h w n t c, wf ex_els x /\
    nrun (PGlobal (build x)) (nnew (PGlobal (build x))) h = Some w /\
    spec_run [] h = Some [([], false); ([1], true)] /\ nth_error (pw_nodes w) 1 = Some (ACopy n) /\
    pv_tree (PGlobal (build x)) (pw_view w) = Some t /\ descendant t [1] = Some c /\
    py_node_size n <> py_node_size c /\ py_local_index n 0 <> py_local_index c 0.
Proof.
  exists ex_pw, [NTree; NBind 0; NChild 0 1; NBind 1]. do 4 eexists. split; [apply ex_pw_wf|].
  split; [vm_compute; reflexivity|]. repeat (split; [reflexivity|]). vm_compute. split; discriminate.
Qed.

(** With 2^31 DOFs, basis.dimension is negative and disagrees with len(basis), and with one
    more, so is the index of the last DOF. *)
Definition line (N : nat) : leaf nat := {| lf_dim := N; lf_maxnode := 1; lf_fe := fun _ => 1; lf_indices := fun e => [e] |}.
Lemma line_ok N : leaf_ok (fun e => e < N) (line N).
Proof.
  constructor; cbn; auto.
  - intros e g He [<-|[]]; auto.
  - intros g Hg. exists g. auto.
Qed.
Theorem C89_large_bases_refuted :
  exists x : bexpr nat, let b := PGlobal (build x) in
    wf (fun e => e < pb_dim (build x)) x /\
    (py_dimension b < 0 < py_len b)%Z /\
    exists e v, e < pb_dim (build x) /\ pv_bind b (pv_new b) e = Some v /\
      pv_index v 0 = Some [e] /\ exists z, py_index v 0 = Some [z] /\ (z < 0)%Z.
Proof.
  set (N := Z.to_nat (2 ^ 31)). assert (HN : Z.of_nat N = (2 ^ 31)%Z) by (unfold N; rewrite Z2Nat.id; lia).
  clearbody N. exists (BLeaf (line (S N))). cbn [build leaf_pb pb_dim line lf_dim].
  split; [apply line_ok|]. split.
  - unfold py_dimension, py_len, to_int. cbn [py_dim leaf_pb pb_dim line lf_dim]. rewrite Nat2Z.inj_succ, HN. split; [now vm_compute|lia].
  - exists N. eexists. split; [lia|]. split; [reflexivity|]. split; [reflexivity|]. eexists. split; [reflexivity|].
    unfold to_int. rewrite Nat.add_0_r, HN || rewrite HN. now vm_compute.
Qed.

(** * The hypotheses are met *)
Example C88_hypotheses_met :
  exists w n, nrun (nested (build ex_b) [[2]]) (nnew (nested (build ex_b) [[2]]))
      [NBind 0; NTree; NChild 0 1; NBind 1; NChild 0 2; NChild 2 1; NUnbind] = Some w /\
    spec_run [] [NBind 0; NTree; NChild 0 1; NBind 1; NChild 0 2; NChild 2 1; NUnbind] =
      Some [([], false); ([1], true); ([2], false); ([2; 1], false)] /\
    nth_error (pw_nodes w) 3 = Some (ACopy n) /\ py_node_size n = 2%Z /\ py_local_index n 1 = Some 13%Z.
Proof. do 2 eexists. split; [vm_compute; reflexivity|]. repeat (split; [reflexivity|]). reflexivity. Qed.
Example C89_hypotheses_met :
  exists v vr, pv_run (nested (build ex_b) [[2]; [1]]) (pv_new (nested (build ex_b) [[2]; [1]])) [OBind 0; OUnbind; OBind 1] = Some v /\
    pv_element v = Some 1 /\ lv_bind (build ex_b) (lv_new (build ex_b)) 1 = Some vr /\
    lv_index vr 9 = Some [2; 8] /\ py_index v 9 = Some [2; 8]%Z.
Proof. do 2 eexists. split; [vm_compute; reflexivity|]. repeat (split; [reflexivity|]). reflexivity. Qed.
(** [small] of a P1 basis *)
Example C89_small_met : small (build (BLeaf ex_p1)).
Proof.
  unfold small, fits. cbn. split; [lia|]. split; [lia|]. intros p n.
  destruct p as [|d [|? ?]]; cbn; intros [= <-]; lia.
Qed.

Print Assumptions C88_nodes_describe_the_view_partial.
Print Assumptions C88_children_are_available.
Print Assumptions C88_children_are_snapshots.
Print Assumptions C88_stale_children_refuted.
Print Assumptions C89_nested_subspaces_join.
Print Assumptions C89_trivial_subspace.
Print Assumptions C89_numbers_agree_partial.
Print Assumptions C89_large_bases_refuted.
