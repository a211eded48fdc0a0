(** C92: local views and subspace bases always show the state of their basis, whatever happens to
    other objects, as long as the objects they refer to exist. *)
From Coq Require Import List Arith Lia Bool.
From Verif Require Import Lib Basis_model GeometryType_model Mapper_model Orientation_model Families_model Update_model Update_spec Update_proofs Update_props.
From Verif Require Import BasisLifetime_model BasisLifetime_spec BasisLifetime_proofs.
From Verif Require BSpline_model.
Import ListNotations.

Section Theorems.
Context {E X H D : Type}.
Variable mcmg : layout -> view E X -> option (mapper X).
Variable dim : nat.
Variables (lk : nat -> gt -> list localkey) (tk : gt -> list localkey) (fk : family -> gt -> list localkey).
Variable etype : E -> gt.
Notation obj := (obj X H D).
Notation world := (world E X H D).
Notation memory := (memory E X H D).
Notation step := (step mcmg dim lk tk fk etype).
Notation run := (BasisLifetime_model.run mcmg dim lk tk fk etype).
Notation view_bind := (view_bind dim lk tk fk etype).
Notation kept := (kept mcmg dim lk tk fk etype).
Notation as_prebasis := (as_prebasis dim lk tk fk).
Notation subview_tree := (subview_tree dim lk tk fk etype).

(** After any program, a local view (or the local view of a subspace basis) of an existing basis
    behaves on bind(e) like a local view made just now from what the basis holds now: the same
    sizes, local and global indices, and undefined in the same cases.  The finite elements of its
    leaves are made of what the basis holds now. *)
Theorem C92_views_follow_their_basis (w0 w : world) (h : list (op E X H D)) (m : memory) (i : nat) (v : vobj E D) (o : obj) (e : E) :
  run (w0, []) h = Some (w, m) ->
  view_at m i = Some v ->
  kept (w0, []) h (vo_basis v) ->
  types_fixed etype w ->
  basis_at m (vo_basis v) = Some o ->
  view_bind w m v e = lv_bind (as_prebasis w o) (lv_new (as_prebasis w o)) e /\
  leaf_data m (vo_tree v) = Some (members dim o).
Proof.
  intros R V K T B. pose proof (run_inv _ _ _ _ _ _ h w0 [] w m (inv_nil dim) R) as I.
  eapply view_bind_good; eauto. exact (run_good _ _ _ _ _ _ h _ w0 [] w m (inv_nil dim) (good_nil dim _) K R).
Qed.

(** In particular, views made before an update show afterwards what a view of a newly made basis
    shows (for the kinds of bases for which update is complete, C58). *)
Theorem C92_updates_reach_views (w0 w : world) (h : list (op E X H D)) (a : nat) (g : H) (m : memory) (i : nat) (v : vobj E D) (o fresh : obj) (e : E) :
  run (w0, []) (h ++ [PUpdate a g]) = Some (w, m) ->
  view_at m i = Some v -> vo_basis v = a ->
  kept (w0, []) (h ++ [PUpdate a g]) a ->
  types_fixed etype w ->
  basis_at m a = Some o -> complete (kind o) ->
  (forall g', no_gaps mcmg (content w g')) ->
  basis_new mcmg dim lk tk fk w (kind o) g = Some fresh ->
  view_bind w m v e = lv_bind (as_prebasis w fresh) (lv_new (as_prebasis w fresh)) e /\
  leaf_data m (vo_tree v) = Some (members dim fresh).
Proof.
  intros R V Q K T B C G N.
  assert (o = fresh) as <-; [|subst a; eapply C92_views_follow_their_basis; eauto].
  rewrite run_app in R. destruct (run (w0, []) h) as [[w1 m1]|] eqn:R1; [|discriminate]. cbn in R.
  destruct (basis_at m1 a) as [o1|] eqn:B1; [|discriminate]. cbn in R.
  destruct (upd m1 a _) as [m2|] eqn:U; [|discriminate]. cbn in R. injection R as -> ->.
  apply basis_at_cell in B. rewrite (cell_at_upd _ _ _ _ a U), Nat.eqb_refl in B. injection B as <-.
  pose proof (run_inv _ _ _ _ _ _ h w0 [] w m1 (inv_nil dim) R1) as I. destruct (inv_basis dim m1 a o1 I B1) as [r F].
  rewrite kind_basis_update in C, N. apply (fits_complete dim _ C) in F; [|reflexivity].
  unfold basis_new in N. destruct (construct _ _ _ _ _ _ _ _) as [o'|] eqn:Z; [|discriminate]. injection N as <-.
  destruct (update_construct mcmg dim lk tk fk w G _ C g _ o' F Z) as (o2 & U2 & I2). unfold basis_update. now rewrite U2, I2.
Qed.

(** Once the basis is destroyed, no program that goes on can bind or copy its views: it is
    undefined.  Reading the finite elements of an already bound view is undefined as well, unless
    all leaves have them by value. *)
Lemma dead_step (w : world) (m : memory) o (w' : world) (m' : memory) a : a < length m -> cell_at m a = None -> step (w, m) o = Some (w', m') -> a < length m' /\ cell_at m' a = None.
Proof.
  intros L N K.
  assert (Pu : forall (m1 : memory) c, a < length m1 -> cell_at m1 a = None -> a < length (push m1 c) /\ cell_at (push m1 c) a = None).
  { intros m1 c L1 N1. rewrite push_length, cell_at_push. destruct (a =? length m1) eqn:Q; [apply Nat.eqb_eq in Q; lia|]. auto. }
  assert (Up : forall j c m1, cell_at m j <> None -> upd m j c = Some m1 -> a < length m1 /\ cell_at m1 a = None).
  { intros j c m1 J U. rewrite (upd_length _ _ _ _ U), (cell_at_upd _ _ _ _ a U). destruct (a =? j) eqn:Q; [apply Nat.eqb_eq in Q; subst; congruence|]. auto. }
  assert (B : forall j o, basis_at m j = Some o -> cell_at m j <> None) by (intros j o1 Q; apply basis_at_cell in Q; congruence).
  destruct o; cbn [BasisLifetime_model.step] in K.
  all: repeat match goal with
  | K : obind ?x _ = Some _ |- _ => let Q := fresh "Q" in destruct x eqn:Q; cbn [obind] in K; [|discriminate]
  | K : Some _ = Some _ |- _ => injection K; clear K; intros; subst
  | K : match ?x with _ => _ end = Some _ |- _ => let Q := fresh "Q" in destruct x eqn:Q; try discriminate
  end; auto; try (destruct (basis_new _ _ _ _ _ _ _ _); auto; fail).
  all: try (match goal with U : upd _ ?j _ = Some _ |- _ => eapply Up; [|exact U]; first [eapply B; eassumption|congruence] end; fail).
  match goal with U : upd _ ?j _ = Some _ |- _ => apply (Up j) in U; [|eapply B; eassumption] end. apply Pu; tauto.
Qed.
Lemma dead_run h : forall (w : world) (m : memory) (w' : world) (m' : memory) a, a < length m -> cell_at m a = None -> run (w, m) h = Some (w', m') -> cell_at m' a = None.
Proof.
  induction h as [|o h IH]; intros w m w' m' a L N K; cbn [BasisLifetime_model.run] in K; [injection K as _ <-; assumption|].
  destruct (step (w, m) o) as [[w1 m1]|] eqn:Q; [|discriminate]. destruct (dead_step w m o w1 m1 a L N Q). eapply (IH w1 m1); eauto.
Qed.
Theorem C92_views_need_their_basis (w0 w : world) (h h' : list (op E X H D)) (a : nat) (m : memory) (i : nat) (v : vobj E D) (e : E) :
  run (w0, []) (h ++ PDestroy a :: h') = Some (w, m) ->
  view_at m i = Some v -> vo_basis v = a ->
  view_bind w m v e = None /\
  step (w, m) (PBind i e) = None /\ step (w, m) (PViewCopy i) = None /\
  (leaf_data m (vo_tree v) = None \/ forall m' : memory, leaf_data m' (vo_tree v) = leaf_data m (vo_tree v)).
Proof.
  intros R V <-. pose proof (run_inv _ _ _ _ _ _ _ w0 [] w m (inv_nil dim) R) as I.
  assert (N : basis_at m (vo_basis v) = None).
  { rewrite run_app in R. destruct (run (w0, []) h) as [[w1 m1]|]; [|discriminate]. cbn in R.
    destruct (cell_at m1 (vo_basis v)) eqn:Q; [|discriminate]. cbn in R. destruct (upd m1 _ None) as [m2|] eqn:U; [|discriminate]. cbn in R.
    unfold basis_at. rewrite (dead_run h' w1 m2 w m (vo_basis v)); auto.
    - rewrite (upd_length _ _ _ _ U). now apply cell_at_lt in Q.
    - rewrite (cell_at_upd _ _ _ _ _ U). now rewrite Nat.eqb_refl. }
  assert (VB : forall u, vo_basis u = vo_basis v -> view_bind w m u e = None).
  { intros u Q. unfold BasisLifetime_model.view_bind. rewrite Q, N. now destruct (resolve _ _ _ _ _ _ _). }
  assert (NV : new_view dim m (vo_basis v) = None) by (unfold new_view; now rewrite N).
  split; [now apply VB|]. unfold view_at in V.
  split; [|split].
  - cbn [BasisLifetime_model.step]. destruct (cell_at m i) as [[]|]; try discriminate; injection V as ->; now rewrite VB.
  - cbn [BasisLifetime_model.step]. destruct (cell_at m i) as [[]|]; try discriminate; injection V as ->; now rewrite NV.
  - destruct (view_at_inv dim m i v I V) as [_ P]. exact (leaf_data_dead m _ N _ P).
Qed.

(** Whatever a program does with other bases (copies of this one included: updating, moving,
    assigning or destroying them), with other views and with subspace bases: a view shows the same. *)
Lemma same_step (w : world) (m : memory) o (w' : world) (m' : memory) i v : inv dim m -> view_at m i = Some v -> basis_at m (vo_basis v) <> None -> concerns o (vo_basis v) i = false -> step (w, m) o = Some (w', m') ->
  w' = w /\ basis_at m' (vo_basis v) = basis_at m (vo_basis v) /\ exists v', view_at m' i = Some v' /\ vo_basis v' = vo_basis v /\ vo_tree v' = vo_tree v.
Proof.
  intros I V B C K. pose proof (view_at_inv dim m i v I V) as [L _].
  assert (Li : i < length m) by (unfold view_at in V; destruct (cell_at m i) eqn:Q; [now apply cell_at_lt in Q|discriminate]).
  assert (Pu : forall c, basis_at (push m c) (vo_basis v) = basis_at m (vo_basis v) /\ exists v', view_at (push m c) i = Some v' /\ vo_basis v' = vo_basis v /\ vo_tree v' = vo_tree v).
  { intros c. unfold basis_at, view_at. rewrite !cell_at_push. destruct (vo_basis v =? length m) eqn:Q; [apply Nat.eqb_eq in Q; lia|]. destruct (i =? length m) eqn:Q'; [apply Nat.eqb_eq in Q'; lia|]. eauto. }
  assert (Up : forall j c m1, upd m j c = Some m1 -> j <> vo_basis v -> j <> i ->
    basis_at m1 (vo_basis v) = basis_at m (vo_basis v) /\ exists v', view_at m1 i = Some v' /\ vo_basis v' = vo_basis v /\ vo_tree v' = vo_tree v).
  { intros j c m1 U N1 N2. unfold basis_at, view_at. rewrite !(cell_at_upd _ _ _ _ _ U). apply Nat.eqb_neq in N1, N2. rewrite Nat.eqb_sym in N1, N2. rewrite N1, N2. eauto. }
  assert (NB : forall j o1, basis_at m j = Some o1 -> j <> i).
  { intros j o1 Q ->. apply basis_at_cell in Q. unfold view_at in V. rewrite Q in V. discriminate. }
  assert (NV : forall j u, view_at m j = Some u -> j <> vo_basis v).
  { intros j u Q ->. apply B. unfold view_at in Q. unfold basis_at. destruct (cell_at m (vo_basis v)) as [[]|]; congruence. }
  assert (Vs : forall j u e m1 c, view_at m j = Some u -> upd m j (Some c) = Some m1 -> (c = CView (VO (vo_basis u) (vo_tree u) e) \/ exists s, c = CSubView s (VO (vo_basis u) (vo_tree u) e)) ->
    basis_at m1 (vo_basis v) = basis_at m (vo_basis v) /\ exists v', view_at m1 i = Some v' /\ vo_basis v' = vo_basis v /\ vo_tree v' = vo_tree v).
  { intros j u e m1 c Q U S. destruct (Nat.eq_dec j i) as [->|N]; [|apply (Up j _ m1 U); eauto].
    rewrite V in Q. injection Q as <-. split.
    - unfold basis_at. rewrite (cell_at_upd _ _ _ _ _ U). destruct (vo_basis v =? i) eqn:Z; [|reflexivity]. apply Nat.eqb_eq in Z. exfalso. apply (NV i v V). congruence.
    - unfold view_at. rewrite (cell_at_upd _ _ _ _ _ U), Nat.eqb_refl. destruct S as [->|[s ->]]; eexists; split; eauto. }
  assert (Sp : forall m1 : memory, basis_at m1 (vo_basis v) = basis_at m (vo_basis v) /\ (exists v', view_at m1 i = Some v' /\ vo_basis v' = vo_basis v /\ vo_tree v' = vo_tree v) ->
    w = w /\ basis_at m1 (vo_basis v) = basis_at m (vo_basis v) /\ exists v', view_at m1 i = Some v' /\ vo_basis v' = vo_basis v /\ vo_tree v' = vo_tree v) by auto.
  assert (Id : basis_at m (vo_basis v) = basis_at m (vo_basis v) /\ exists v', view_at m i = Some v' /\ vo_basis v' = vo_basis v /\ vo_tree v' = vo_tree v) by eauto.
  destruct o; cbn [BasisLifetime_model.step concerns] in K, C; try discriminate.
  - injection K as <- <-. apply Sp. destruct (basis_new _ _ _ _ _ _ _ _); auto.
  - injection K as <- <-. auto.
  - destruct (cell_at m k); [|discriminate]. injection K as <- <-. auto.
  - destruct (cell_at m f) as [[| | | | |k]|]; try discriminate. destruct (cell_at m k) as [[| | | |dirs|]|]; try discriminate. injection K as <- <-. apply Sp. destruct (basis_new _ _ _ _ _ _ _ _); auto.
  - apply Nat.eqb_neq in C. destruct (basis_at m a) eqn:Q; [|discriminate]. cbn in K. destruct (upd m a _) eqn:U; [|discriminate]. injection K as <- <-. apply Sp. eapply Up; eauto.
  - destruct (basis_at m a) eqn:Q; [|discriminate]. injection K as <- <-. auto.
  - apply Nat.eqb_neq in C. destruct (basis_at m a) eqn:Q; [|discriminate]. cbn in K. destruct (upd m a _) as [m1|] eqn:U; [|discriminate]. injection K as <- <-. apply Sp.
    destruct (Up _ _ _ U C ltac:(eauto)) as [P1 (v' & P2 & P3)]. unfold basis_at, view_at in *. rewrite !cell_at_push, (upd_length _ _ _ _ U).
    destruct (vo_basis v =? length m) eqn:Z; [apply Nat.eqb_eq in Z; lia|]. destruct (i =? length m) eqn:Z'; [apply Nat.eqb_eq in Z'; lia|]. eauto.
  - apply Nat.eqb_neq in C. destruct (cell_at m a) as [[]|] eqn:Q; try discriminate. destruct (basis_at m b); [|discriminate]. cbn in K. destruct (upd m a _) eqn:U; [|discriminate]. injection K as <- <-. apply Sp. eapply Up; eauto.
    intros ->. unfold view_at in V. rewrite Q in V. discriminate.
  - destruct (cell_at m a) as [[]|] eqn:Q; match type of K with obind ?x _ = _ => destruct x; [|discriminate] end; injection K as <- <-; auto.
  - destruct (cell_at m i0) as [[]|] eqn:Q; try discriminate; match type of K with obind ?x _ = _ => destruct x; [|discriminate] end; injection K as <- <-; auto.
  - apply Nat.eqb_neq in C. destruct (cell_at m i0) as [[]|] eqn:Q; try discriminate; destruct (cell_at m j) as [[]|] eqn:Q'; try discriminate;
      (destruct (upd m i0 _) eqn:U; [|discriminate]); injection K as <- <-; apply Sp; eapply Up; eauto; eapply NV; unfold view_at; rewrite Q; reflexivity.
  - destruct (cell_at m i0) as [[]|] eqn:Q; try discriminate; (destruct (view_bind _ _ _ _); [|discriminate]); cbn in K; (destruct (upd m i0 _) eqn:U; [|discriminate]); injection K as <- <-; apply Sp; (eapply Vs; [unfold view_at; rewrite Q; reflexivity|exact U|eauto]).
  - destruct (cell_at m i0) as [[]|] eqn:Q; try discriminate; (destruct (upd m i0 _) eqn:U; [|discriminate]); injection K as <- <-; apply Sp; (eapply Vs; [unfold view_at; rewrite Q; reflexivity|exact U|eauto]).
  - destruct (cell_at m a) as [[[]| | | | |]|] eqn:Q; try discriminate; injection K as <- <-; auto.
  - apply orb_false_iff in C as [C1 C2]. apply Nat.eqb_neq in C1, C2. destruct (cell_at m i0); [|discriminate]. cbn in K. destruct (upd m i0 _) eqn:U; [|discriminate]. injection K as <- <-. apply Sp. eapply Up; eauto.
Qed.
Lemma same_run h : forall (w : world) (m : memory) (w' : world) (m' : memory) i v, inv dim m -> view_at m i = Some v -> basis_at m (vo_basis v) <> None -> Forall (fun o => concerns o (vo_basis v) i = false) h -> run (w, m) h = Some (w', m') ->
  w' = w /\ basis_at m' (vo_basis v) = basis_at m (vo_basis v) /\ exists v', view_at m' i = Some v' /\ vo_basis v' = vo_basis v /\ vo_tree v' = vo_tree v.
Proof.
  induction h as [|o h IH]; intros w m w' m' i v I V B C K; cbn [BasisLifetime_model.run] in K; [injection K as <- <-; split; [reflexivity|]; split; [reflexivity|]; exists v; now auto|].
  destruct (step (w, m) o) as [[w1 m1]|] eqn:Q; [|discriminate]. inversion C; subst.
  destruct (same_step w m o w1 m1 i v I V B ltac:(auto) Q) as (-> & B1 & v1 & V1 & Q1 & Q2).
  destruct (IH w m1 w' m' i v1) as (-> & B2 & v2 & V2 & Q3 & Q4); auto; try congruence; [eapply step_inv; eauto|now rewrite Q1|].
  split; [reflexivity|]. split; [congruence|]. exists v2. repeat split; congruence.
Qed.
Theorem C92_other_objects_do_not_matter (w0 w w' : world) (h h' : list (op E X H D)) (m m' : memory) (i : nat) (v : vobj E D) (e : E) :
  run (w0, []) h = Some (w, m) ->
  view_at m i = Some v -> basis_at m (vo_basis v) <> None ->
  Forall (fun o => concerns o (vo_basis v) i = false) h' ->
  run (w, m) h' = Some (w', m') ->
  exists v', view_at m' i = Some v' /\ vo_basis v' = vo_basis v /\
    view_bind w' m' v' e = view_bind w m v e /\ leaf_data m' (vo_tree v') = leaf_data m (vo_tree v).
Proof.
  intros R V B C K. pose proof (run_inv _ _ _ _ _ _ _ w0 [] w m (inv_nil dim) R) as I.
  destruct (same_run h' w m w' m' i v I V B C K) as (-> & B1 & v1 & V1 & Q1 & Q2). exists v1. split; [exact V1|]. split; [exact Q1|].
  eapply view_bind_same; eauto. eapply view_at_inv; eauto.
Qed.

(** tree() of a local view of a subspace basis is the subtree, at the path of the subspace basis, of
    the tree of a new local view of the root basis. *)
Theorem C92_subspace_views (w0 w : world) (h : list (op E X H D)) (m : memory) (i s a : nat) (path : list nat) (v : vobj E D) (o : obj) (e : E) :
  run (w0, []) h = Some (w, m) ->
  cell_at m i = Some (CSubView s v) -> sub_at m s = Some (a, path) ->
  kept (w0, []) h a ->
  types_fixed etype w ->
  basis_at m a = Some o ->
  vo_basis v = a /\
  subview_tree w m i e = (lv <- lv_bind (as_prebasis w o) (lv_new (as_prebasis w o)) e ;; descendant (lv_tree lv) path).
Proof.
  intros R V S K T B. pose proof (run_inv _ _ _ _ _ _ h w0 [] w m (inv_nil dim) R) as I.
  destruct (I _ _ V) as (_ & _ & Z). specialize (Z _ _ S). split; [exact Z|]. subst a.
  destruct (C92_views_follow_their_basis w0 w h m i v o e R) as [Q _]; auto; [unfold view_at; now rewrite V|].
  unfold BasisLifetime_model.subview_tree. rewrite V, S. cbn [obind]. now rewrite Q.
Qed.

(** A subspace basis of a subspace basis refers to the root basis, not to the subspace basis it was
    made from, which may be a temporary.  The tree of its local view is the one at the joined path. *)
Lemma descendant_app {E'} (n : node E') p q : descendant n (p ++ q) = obind (descendant n p) (fun n' => descendant n' q).
Proof. revert n. induction p as [|k p IH]; intros n; [reflexivity|]. cbn. destruct (child n k); [apply IH|reflexivity]. Qed.
Theorem C92_nested_subspaces (w0 w : world) (h : list (op E X H D)) (m : memory) (s a : nat) (path q : list nat) (o : obj) (e : E) :
  run (w0, []) h = Some (w, m) ->
  sub_at m s = Some (a, path) ->
  kept (w0, []) h a ->
  types_fixed etype w ->
  basis_at m a = Some o ->
  exists m', run (w, m) [PSub s q; PDestroy s; PView (length m)] = Some (w, m') /\
    subview_tree w m' (S (length m)) e =
      (lv <- lv_bind (as_prebasis w o) (lv_new (as_prebasis w o)) e ;; n <- descendant (lv_tree lv) path ;; descendant n q).
Proof.
  intros R S K T B. pose proof (run_inv _ _ _ _ _ _ h w0 [] w m (inv_nil dim) R) as I.
  assert (S' : cell_at m s = Some (CSub a path)) by (unfold sub_at in S; destruct (cell_at m s) as [[]|]; congruence).
  assert (L : s < length m) by (eapply cell_at_lt; eauto). assert (La : a < length m) by (eapply basis_at_lt; eauto).
  assert (N : s <> a) by (intros ->; unfold basis_at in B; rewrite S' in B; discriminate).
  cbn [BasisLifetime_model.run BasisLifetime_model.step]. rewrite S'. cbn [obind BasisLifetime_model.run BasisLifetime_model.step].
  rewrite cell_at_push. destruct (s =? length m) eqn:Q; [apply Nat.eqb_eq in Q; lia|]. rewrite S'. cbn [obind].
  destruct (upd (push m (CSub a (path ++ q))) s None) as [m1|] eqn:U; [|exfalso; apply upd_None in U; rewrite push_length in U; lia]. cbn [obind BasisLifetime_model.run BasisLifetime_model.step].
  assert (C1 : forall j, cell_at m1 j = if j =? s then None else if j =? length m then Some (CSub a (path ++ q)) else cell_at m j).
  { intros j. rewrite (cell_at_upd _ _ _ _ j U), cell_at_push. reflexivity. }
  assert (Cn : cell_at m1 (length m) = Some (CSub a (path ++ q))).
  { rewrite C1, Nat.eqb_refl. destruct (length m =? s) eqn:Z; [apply Nat.eqb_eq in Z; lia|reflexivity]. }
  assert (B1 : basis_at m1 a = Some o).
  { unfold basis_at. rewrite C1. destruct (a =? s) eqn:Z; [apply Nat.eqb_eq in Z; lia|]. destruct (a =? length m) eqn:Z'; [apply Nat.eqb_eq in Z'; lia|exact B]. }
  rewrite Cn. unfold new_view. rewrite B1. cbn [obind]. eexists. split; [reflexivity|].
  assert (Lm : length m1 = Datatypes.S (length m)) by (rewrite (upd_length _ _ _ _ U), push_length; reflexivity).
  set (m2 := push m1 _). unfold BasisLifetime_model.subview_tree.
  assert (V2 : cell_at m2 (Datatypes.S (length m)) = Some (CSubView (length m) (VO a (make_node dim a [] o) None))) by (unfold m2; rewrite cell_at_push, Lm, Nat.eqb_refl; reflexivity).
  assert (S2 : sub_at m2 (length m) = Some (a, path ++ q)).
  { unfold sub_at, m2. rewrite cell_at_push, Lm. destruct (length m =? Datatypes.S (length m)) eqn:Z; [apply Nat.eqb_eq in Z; lia|]. now rewrite Cn. }
  assert (B2 : basis_at m2 a = Some o).
  { unfold basis_at, m2. rewrite cell_at_push, Lm. destruct (a =? Datatypes.S (length m)) eqn:Z; [apply Nat.eqb_eq in Z; lia|exact B1]. }
  rewrite V2, S2. cbn [obind snd]. unfold BasisLifetime_model.view_bind. cbn [vo_tree vo_basis].
  destruct (inv_basis dim m a o I B) as [r F]. rewrite (resolve_make dim lk tk fk etype w m2 a o B2 T o r [] F eq_refl), B2. cbn [obind]. fold (lv_new (as_prebasis w o)).
  destruct (lv_bind _ _ e) as [lv|]; [|reflexivity]. cbn [obind]. apply descendant_app.
Qed.

(** The local view itself refers to the subspace basis: once that is destroyed, tree() is undefined,
    although the view can still be bound. *)
Theorem C92_temporary_subspace_basis (w0 w : world) (h : list (op E X H D)) (m : memory) (i s : nat) (v : vobj E D) (o : obj) (e : E) :
  run (w0, []) h = Some (w, m) ->
  cell_at m i = Some (CSubView s v) -> cell_at m s = None ->
  kept (w0, []) h (vo_basis v) ->
  types_fixed etype w ->
  basis_at m (vo_basis v) = Some o ->
  view_bind w m v e = lv_bind (as_prebasis w o) (lv_new (as_prebasis w o)) e /\
  subview_tree w m i e = None.
Proof.
  intros R V S K T B. split.
  - eapply C92_views_follow_their_basis; eauto. unfold view_at. now rewrite V.
  - unfold BasisLifetime_model.subview_tree. rewrite V. unfold sub_at. now rewrite S.
Qed.

(** The factory of bSpline(knotVector, ...) makes the basis from the arguments it was given; it is
    undefined to use it once the vector is destroyed. *)
Theorem C92_spline_factories (w : world) (m : memory) (f k : nat) (h : H) :
  cell_at m f = Some (CFactory k) ->
  (forall dirs, cell_at m k = Some (CKnots dirs) -> step (w, m) (PMake f h) = step (w, m) (PNew (KBSpline dirs) h)) /\
  (cell_at m k = None -> step (w, m) (PMake f h) = None).
Proof. intros F. cbn [BasisLifetime_model.step]. rewrite F. split; [intros dirs ->|intros ->]; reflexivity. Qed.
End Theorems.

(** * Concrete programs, on the grids of Update_props.v *)
Notation ex_op := (op nat (nat * nat * nat) nat unit).
Notation ex_run := (BasisLifetime_model.run ex_mcmg 2 ex_lk ex_tk ex_fk (fun _ : nat => tria)).
Notation ex_bind := (view_bind 2 ex_lk ex_tk ex_fk (fun _ : nat => tria)).
Notation ex_kept := (kept ex_mcmg 2 ex_lk ex_tk ex_fk (fun _ : nat => tria)).
Notation ex_tree := (subview_tree 2 ex_lk ex_tk ex_fk (fun _ : nat => tria)).
Lemma kept_no_assign {E X H D} mcmg dim lk tk fk (etype : E -> gt) a (h : list (op E X H D)) :
  Forall (fun o => match o with PAssign a' _ => a' <> a | _ => True end) h -> forall s, kept mcmg dim lk tk fk etype s h a.
Proof.
  induction 1 as [|o h K _ IH]; intros s; [exact I|]. cbn [BasisLifetime_spec.kept]. split; [|destruct (step _ _ _ _ _ _ s o); auto].
  destruct o; auto. intros; contradiction.
Qed.
Lemma ex_types : types_fixed (fun _ : nat => tria) (ex_world tria).
Proof. intros h. reflexivity. Qed.
Lemma get {A B} (f : A -> B) (x : option A) b : option_map f x = Some b -> exists a, x = Some a /\ f a = b.
Proof. destruct x; [|discriminate]. intros [= <-]. eauto. Qed.
(** A basis with every kind of leaf (0), a view of it (1), which is bound; a copy (2), which is updated and
    destroyed; a subspace basis (3) and its view (4); a subspace basis of that (5); the basis is updated. *)
Definition all_leaves : recipe unit :=
  KComposite CFlatLexicographic
    [KPower true 2 BlockedInterleaved (KLagrange 2); KMapper (RaviartThomas 0 None); KMapper (BDM 1); KMapper (Nedelec None);
     KRestricted tt (KMapper Argyris); KMapper (Hermite false); KRannacherTurek].
Definition ex_start : list ex_op := [PNew all_leaves 0; PView 0; PBind 1 0; PCopy 0; PUpdate 2 1; PDestroy 2; PSub 0 [0]; PView 3; PSub 3 [1]].
Definition ex_prog : list ex_op := ex_start ++ [PUpdate 0 1].
Definition size_of {E} (lv : option (lview E)) : option nat := option_map (fun v => length (lv_indices v)) lv.

Lemma step_world {E X H D} mcmg dim lk tk fk (etype : E -> gt) (w : world E X H D) m o w' m' : match o with PWorld _ => False | _ => True end ->
  step mcmg dim lk tk fk etype (w, m) o = Some (w', m') -> w' = w.
Proof.
  intros F S. destruct o; cbn [step] in S; try contradiction;
  repeat match type of S with
  | obind ?x _ = Some _ => destruct x; cbn [obind] in S; [|discriminate]
  | Some _ = Some _ => fail 1
  | match ?x with _ => _ end = Some _ => destruct x; try discriminate
  end; congruence.
Qed.
Lemma ex_run_world h n : option_map (fun s => length (snd s)) (ex_run (ex_world tria, []) h) = Some n -> Forall (fun o => match o with PWorld _ => False | _ => True end) h ->
  exists m, ex_run (ex_world tria, []) h = Some (ex_world tria, m).
Proof.
  intros K F. destruct (ex_run (ex_world tria, []) h) as [[w m]|] eqn:R; [|discriminate]. exists m. f_equal. f_equal. clear K.
  revert F R. generalize (@nil (option (cell nat (nat * nat * nat) nat unit))). generalize (ex_world tria). induction h as [|o h IH]; intros w0 m0 F K; cbn [BasisLifetime_model.run] in K; [congruence|].
  inversion F; subst. destruct (step _ _ _ _ _ _ (w0, m0) o) as [[w1 m1]|] eqn:S; [|discriminate]. rewrite (IH w1 m1); auto. eapply step_world; eauto.
Qed.
Definition subview_at {E X H D} (m : memory E X H D) (i : nat) : option (nat * vobj E D) := match cell_at m i with Some (CSubView s v) => Some (s, v) | _ => None end.
Lemma subview_cell {E X H D} (m : memory E X H D) i s v : subview_at m i = Some (s, v) -> cell_at m i = Some (CSubView s v).
Proof. unfold subview_at. destruct (cell_at m i) as [[]|]; congruence. Qed.
Example C92_views_follow_their_basis_met :
  exists m v o fresh s,
    ex_run (ex_world tria, []) ex_prog = Some (ex_world tria, m) /\ view_at m 1 = Some v /\ vo_basis v = 0 /\ ex_kept (ex_world tria, []) ex_prog 0 /\
    types_fixed (fun _ : nat => tria) (ex_world tria) /\ basis_at m 0 = Some o /\ complete (kind o) /\
    (forall g, no_gaps ex_mcmg (content (ex_world tria) g)) /\ basis_new ex_mcmg 2 ex_lk ex_tk ex_fk (ex_world tria) (kind o) 1 = Some fresh /\
    size_of (ex_bind (ex_world tria) m v 1) = Some 37 /\ pb_dim (as_prebasis 2 ex_lk ex_tk ex_fk (ex_world tria) o) = 95 /\
    cell_at m 4 = Some (CSubView 3 s) /\ sub_at m 3 = Some (0, [0]) /\ sub_at m 5 = Some (0, [0; 1]) /\
    option_map node_size (ex_tree (ex_world tria) m 4 1) = Some 12.
Proof.
  destruct (ex_run_world ex_prog 6) as [m R]; [vm_compute; reflexivity|repeat constructor|].
  pose proof (seen (fun s => match view_at (snd s) 1, basis_at (snd s) 0, subview_at (snd s) 4 with
    | Some v, Some o, Some u => Some (fst u, vo_basis v, size_of (ex_bind (fst s) (snd s) v 1), pb_dim (as_prebasis 2 ex_lk ex_tk ex_fk (fst s) o), sub_at (snd s) 3, sub_at (snd s) 5, option_map node_size (ex_tree (fst s) (snd s) 4 1), kind o)
    | _, _, _ => None end) R (Some (3, 0, Some 37, 95, Some (0, [0]), Some (0, [0; 1]), Some 12, all_leaves)) ltac:(vm_compute; reflexivity)) as K.
  cbn [fst snd] in K. destruct (view_at m 1) as [v|] eqn:V; [|discriminate K]. destruct (basis_at m 0) as [o|] eqn:B; [|discriminate K].
  destruct (subview_at m 4) as [[s0 s]|] eqn:Q; [|discriminate K]. injection K as K0 K1 K2 K3 K4 K5 K6 K7.
  destruct (get (fun _ => tt) (basis_new ex_mcmg 2 ex_lk ex_tk ex_fk (ex_world tria) all_leaves 1) tt ltac:(vm_compute; reflexivity)) as (fresh & N & _).
  cbn [fst] in K0. subst s0. apply subview_cell in Q. exists m, v, o, fresh, s. rewrite K7.
  split; [exact R|]. split; [exact V|]. split; [exact K1|]. split; [apply kept_no_assign; repeat constructor|]. split; [exact ex_types|]. split; [exact B|].
  split; [repeat constructor; discriminate|]. split; [exact ex_world_ok|]. split; [exact N|]. auto 10.
Qed.
(** A program that goes on with other objects: the copy is updated and assigned another basis, the first
    view is bound, copied, the subspace basis destroyed; view 1 is not concerned. *)
Example C92_other_objects_met :
  let h' : list ex_op := [PCopy 0; PNew (KLagrange 1) 0; PAssign 6 7; PUpdate 6 2; PMove 6; PViewCopy 1; PBind 1 1; PUnbind 1; PDestroy 3; PDestroy 5] in
  Forall (fun o => concerns o 0 1 = false) h' /\
  exists m m', ex_run (ex_world tria, []) ex_prog = Some (ex_world tria, m) /\ ex_run (ex_world tria, m) h' = Some (ex_world tria, m').
Proof.
  intros h'. split; [repeat constructor|]. destruct (ex_run_world (ex_prog ++ h') 10) as [m' R]; [vm_compute; reflexivity|repeat constructor|].
  destruct (ex_run_world ex_prog 6) as [m R1]; [vm_compute; reflexivity|repeat constructor|]. rewrite run_app, R1 in R. cbn [obind] in R. eauto.
Qed.
(** The basis is destroyed: a view with pointers, and one without. *)
Example C92_views_need_their_basis_met :
  exists m, ex_run (ex_world tria, []) [PNew all_leaves 0; PNew (KLagrange 1) 0; PView 0; PView 1; PDestroy 0; PDestroy 1] = Some (ex_world tria, m) /\
  exists v u, view_at m 2 = Some v /\ vo_basis v = 0 /\ leaf_data m (vo_tree v) = None /\
  view_at m 3 = Some u /\ vo_basis u = 1 /\ leaf_data m (vo_tree u) = Some [FValue (VLagrange 1)].
Proof.
  match goal with |- exists m, ex_run _ ?h = _ /\ _ => destruct (ex_run_world h 4) as [m R]; [vm_compute; reflexivity|repeat constructor|] end.
  exists m. split; [exact R|].
  pose proof (seen (fun s => match view_at (snd s) 2, view_at (snd s) 3 with
    | Some v, Some u => Some (vo_basis v, leaf_data (snd s) (vo_tree v), vo_basis u, leaf_data (snd s) (vo_tree u))
    | _, _ => None end) R (Some (0, None, 1, Some [FValue (VLagrange 1)])) ltac:(vm_compute; reflexivity)) as K.
  cbn [fst snd] in K. destruct (view_at m 2) as [v|] eqn:V; [|discriminate K]. destruct (view_at m 3) as [u|] eqn:U; [|discriminate K]. injection K as K1 K2 K3 K4. exists v, u. clear R. auto 10.
Qed.
(** Assignment of an updated copy: allowed by [kept]. *)
Example C92_assignment_met :
  let h : list ex_op := [PNew (KLagrange 1) 0; PView 0; PCopy 0; PUpdate 2 1; PAssign 0 2; PDestroy 2] in
  ex_kept (ex_world tria, []) h 0 /\
  exists m v o, ex_run (ex_world tria, []) h = Some (ex_world tria, m) /\ view_at m 1 = Some v /\ vo_basis v = 0 /\ basis_at m 0 = Some o /\
  size_of (ex_bind (ex_world tria) m v 1) = Some 3 /\ grid_view o = Some 1.
Proof.
  intros h. split.
  - do 4 (split; [exact I|]; vm_compute (step _ _ _ _ _ _ _ _)). split; [intros _; do 2 eexists; split; [reflexivity|]; split; reflexivity|]. vm_compute (step _ _ _ _ _ _ _ _). split; [exact I|]. vm_compute. exact I.
  - destruct (ex_run_world h 3) as [m R]; [vm_compute; reflexivity|repeat constructor|].
    pose proof (seen (fun s => match view_at (snd s) 1, basis_at (snd s) 0 with
      | Some v, Some o => Some (vo_basis v, size_of (ex_bind (fst s) (snd s) v 1), grid_view o)
      | _, _ => None end) R (Some (0, Some 3, Some 1)) ltac:(vm_compute; reflexivity)) as K.
    cbn [fst snd] in K. destruct (view_at m 1) as [v|] eqn:V; [|discriminate K]. destruct (basis_at m 0) as [o|] eqn:B; [|discriminate K]. injection K as K1 K2 K3. exists m, v, o. split; [exact R|]. clear R. auto 10.
Qed.

(** Without the condition on assignments the claim fails: a view of a Lagrange basis keeps the
    finite elements of order 1 when a basis of order 2 (of the same type, the order being a
    run-time argument) is assigned to its basis. *)
Theorem C92_assignment_refuted :
  exists m v o, ex_run (ex_world tria, []) [PNew (KLagrange 1) 0; PNew (KLagrange 2) 0; PView 0; PAssign 0 1] = Some (ex_world tria, m) /\
    view_at m 2 = Some v /\ vo_basis v = 0 /\ basis_at m 0 = Some o /\
    members 2 o = [FValue (VLagrange 2)] /\ leaf_data m (vo_tree v) = Some [FValue (VLagrange 1)].
Proof.
  match goal with |- exists m v o, ex_run _ ?h = _ /\ _ => destruct (ex_run_world h 3) as [m R]; [vm_compute; reflexivity|repeat constructor|] end.
  pose proof (seen (fun s => match view_at (snd s) 2, basis_at (snd s) 0 with
    | Some v, Some o => Some (vo_basis v, members 2 o, leaf_data (snd s) (vo_tree v))
    | _, _ => None end) R (Some (0, [FValue (VLagrange 2)], Some [FValue (VLagrange 1)])) ltac:(vm_compute; reflexivity)) as K.
  cbn [fst snd] in K. destruct (view_at m 2) as [v|] eqn:V; [|discriminate K]. destruct (basis_at m 0) as [o|] eqn:B; [|discriminate K]. injection K as K1 K2 K3. exists m, v, o. split; [exact R|]. clear R. auto 10.
Qed.
(** auto lv = subspaceBasis(basis, 0).localView(); lv.bind(e); lv.tree(): the last call is undefined. *)
Theorem C92_temporary_subspace_basis_refuted :
  exists m v o, ex_run (ex_world tria, []) [PNew all_leaves 0; PSub 0 [0]; PView 1; PDestroy 1; PBind 2 0] = Some (ex_world tria, m) /\
    cell_at m 2 = Some (CSubView 1 v) /\ vo_basis v = 0 /\ vo_elem v = Some 0 /\ basis_at m 0 = Some o /\ size_of (ex_bind (ex_world tria) m v 0) = Some 58 /\
    forall e, ex_tree (ex_world tria) m 2 e = None.
Proof.
  match goal with |- exists m v o, ex_run _ ?h = _ /\ _ => destruct (ex_run_world h 3) as [m R]; [vm_compute; reflexivity|repeat constructor|] end.
  pose proof (seen (fun s => match subview_at (snd s) 2, basis_at (snd s) 0 with
    | Some (s1, v), Some o => Some (s1, vo_basis v, vo_elem v, size_of (ex_bind (fst s) (snd s) v 0), sub_at (snd s) 1)
    | _, _ => None end) R (Some (1, 0, Some 0, Some 58, None)) ltac:(vm_compute; reflexivity)) as K.
  cbn [fst snd] in K. destruct (subview_at m 2) as [[s1 v]|] eqn:Q; [|discriminate K]. destruct (basis_at m 0) as [o|] eqn:B; [|discriminate K]. injection K as K0 K1 K2 K3 K4. subst s1. apply subview_cell in Q. exists m, v, o. split; [exact R|]. clear R.
  repeat (split; [now auto|]). intros e. unfold subview_tree. now rewrite Q, K4.
Qed.
(** auto f = bSpline(knots, ...) with a temporary vector of knots: the factory cannot be used. *)
Theorem C92_spline_factory_refuted (dirs : list BSpline_model.dir) :
  exists m, ex_run (ex_world tria, []) [PKnots dirs; PSpline 0; PDestroy 0] = Some (ex_world tria, m) /\
    forall h, ex_run (ex_world tria, m) [PMake 1 h] = None.
Proof. eexists. split; [reflexivity|]. intros h. reflexivity. Qed.

Print Assumptions C92_views_follow_their_basis.
Print Assumptions C92_updates_reach_views.
Print Assumptions C92_views_need_their_basis.
Print Assumptions C92_other_objects_do_not_matter.
Print Assumptions C92_subspace_views.
Print Assumptions C92_nested_subspaces.
Print Assumptions C92_temporary_subspace_basis.
Print Assumptions C92_spline_factories.
Print Assumptions C92_assignment_refuted.
Print Assumptions C92_temporary_subspace_basis_refuted.
Print Assumptions C92_spline_factory_refuted.
