(** Lemmas for C92. *)
From Coq Require Import List Arith Lia Bool.
From Verif Require Import Lib Basis_model GeometryType_model Mapper_model Orientation_model Families_model Update_model Update_spec Update_proofs Update_props BasisLifetime_model BasisLifetime_spec.
Import ListNotations.

Section Objects.
Context {E X H D : Type}.
Variable mcmg : layout -> view E X -> option (mapper X).
Variable dim : nat.
Variables (lk : nat -> gt -> list localkey) (tk : gt -> list localkey) (fk : family -> gt -> list localkey).
Variable etype : E -> gt.
Notation obj := (obj X H D).
Notation world := (world E X H D).
Notation make_node := (make_node dim).

Definition nodes_of (a : nat) (p : list nat) : nat -> list obj -> list (ntree D) :=
  fix go i os := match os with [] => [] | o :: r => make_node a (p ++ [i]) o :: go (S i) r end.
Lemma make_composite a p s os : make_node a p (OComposite s os) = TInner (nodes_of a p 0 os).
Proof. reflexivity. Qed.

Fixpoint obj_ind' (P : obj -> Prop)
  (p1 : forall l, P (OLagrange l)) (p2 : forall f gv m mx x, P (OMapper f gv m mx x)) (p3 : forall gv, P (ORannacherTurek gv))
  (p4 : forall d gv, P (OBSpline d gv)) (p5 : forall hi gv q1 q2, P (OTaylorHood hi gv q1 q2))
  (p6 : forall st n s o, P o -> P (OPower st n s o)) (p7 : forall s os, Forall P os -> P (OComposite s os))
  (p8 : forall d gv o, P o -> P (ORestricted d gv o)) (p9 : forall m num o, P o -> P (OPeriodic m num o)) (o : obj) : P o :=
  let rec := obj_ind' P p1 p2 p3 p4 p5 p6 p7 p8 p9 in
  match o with
  | OLagrange l => p1 l | OMapper f gv m mx x => p2 f gv m mx x | ORannacherTurek gv => p3 gv | OBSpline d gv => p4 d gv
  | OTaylorHood hi gv q1 q2 => p5 hi gv q1 q2
  | OPower st n s o => p6 st n s o (rec o)
  | OComposite s os => p7 s os ((fix go (os : list obj) : Forall P os := match os with [] => Forall_nil P | r :: l => Forall_cons (P := P) r (rec r) (go l) end) os)
  | ORestricted d gv o => p8 d gv o (rec o)
  | OPeriodic m num o => p9 m num o (rec o)
  end.

(** * The kind of an object *)
Lemma make_node_kind : forall (o o' : obj) a p, kind o = kind o' -> make_node a p o = make_node a p o'.
Proof.
  induction o as [l|f gv m mx x|gv|d gv|hi gv q1 q2|st n s o IH|s os IH|d gv o IH|m num o IH] using obj_ind'; intros o' a p K; destruct o'; try discriminate; cbn [kind] in K; try (injection K; clear K; intros); subst; try reflexivity.
  - cbn. congruence.
  - cbn. f_equal. f_equal. now apply IH.
  - rewrite !make_composite. f_equal. generalize 0. match goal with K : map kind os = map kind ?l |- _ => revert K; generalize l end. induction IH as [|o os I _ J]; intros [|o' os'] K i; try discriminate; [reflexivity|].
    cbn [map] in K. injection K as K1 K2. cbn. rewrite (I o' _ _ K1). f_equal. now apply J.
  - cbn. f_equal. now apply IH.
  - cbn. now apply IH.
Qed.
Lemma kind_init (w : world) (o : obj) : kind (init dim w o) = kind o.
Proof.
  induction o as [l|f gv m mx x|gv|d gv|hi gv q1 q2|st n s o IH|s os IH|d gv o IH|m num o IH] using obj_ind'; cbn [init kind]; try reflexivity; try congruence.
  f_equal. rewrite map_map. apply map_ext_in. intros o I. rewrite Forall_forall in IH. auto.
Qed.
Lemma lagrange_update_order (w : world) h l : lg_order (fst (lagrange_update mcmg w h l)) = lg_order l.
Proof. unfold lagrange_update. destruct (lagrange_check _ _); [|reflexivity]. now destruct (mapper_update _ _ _ _). Qed.
Lemma kind_update (w : world) : forall (o : obj) h, kind (fst (update mcmg w h o)) = kind o.
Proof.
  induction o as [l|f gv m mx x|gv|d gv|hi gv q1 q2|st n s o IH|s os IH|d gv o IH|m num o IH] using obj_ind'; intros h; cbn [update]; try reflexivity.
  - pose proof (lagrange_update_order w h l) as K. destruct (lagrange_update _ _ _ _). cbn in *. congruence.
  - unfold mapper_based_update. destruct (mapper_update _ _ _ _); [|reflexivity]. now destruct (extra_update _ _ _ _ _).
  - destruct (lagrange_update _ _ _ q1) as [? [|]]; [|reflexivity]. now destruct (lagrange_update _ _ _ q2).
  - specialize (IH h). destruct (update _ _ _ o). cbn in *. congruence.
  - fold (update_all mcmg w h os).
    assert (K : map kind (fst (update_all mcmg w h os)) = map kind os).
    { induction IH as [|o os I _ J]; [reflexivity|]. cbn. specialize (I h). destruct (update _ _ _ o) as [o' b]. destruct b; [|cbn in *; congruence].
      destruct (update_all mcmg w h os) as [os' b]. cbn in *. congruence. }
    destruct (update_all mcmg w h os). cbn in *. congruence.
  - specialize (IH (domain w d)). destruct (update _ _ _ o). cbn in *. congruence.
  - specialize (IH h). destruct (update _ _ _ o). cbn in *. congruence.
Qed.
Lemma kind_basis_update (w : world) h (o : obj) : kind (fst (basis_update mcmg dim w h o)) = kind o.
Proof. unfold basis_update. pose proof (kind_update w o h) as K. destruct (update _ _ _ _) as [o' [|]]; cbn in *; [now rewrite kind_init|exact K]. Qed.
Lemma fits_basis_update (w : world) h r (o : obj) : fits dim r o -> fits dim r (fst (basis_update mcmg dim w h o)).
Proof. intros F. unfold basis_update. pose proof (update_fits mcmg dim w r h o F) as K. destruct (update _ _ _ _) as [o' [|]]; cbn in *; [now apply init_fits|exact K]. Qed.

(** The recipe behind a complete kind *)
Lemma fits_complete : forall r, complete r -> forall r' (o : obj), fits dim r' o -> kind o = r -> fits dim r o.
Proof.
  induction r as [n|f| |d|hi|st n s r IH|s rs IH|d r IH|c r IH] using recipe_rect'; intros C r' o F K; inversion C; inversion F; subst; cbn [kind] in *; try discriminate; try (injection K; clear K; intros); subst; try (constructor; now eauto).
  - match goal with L : lfits _ ?l |- _ => let P := fresh in pose proof L as [P _]; rewrite P; now constructor end.
  - constructor. match goal with L : Forall2 _ _ _ |- _ => revert L end. match goal with F : Forall complete _ |- _ => revert F end. clear C F.
    revert IH. match goal with |- _ -> _ -> Forall2 _ ?rs ?os -> _ => revert rs end. induction os as [|o os J]; intros rs IH FC L; [constructor|].
    inversion L; subst. cbn [map] in *. inversion IH; inversion FC; subst. constructor; eauto.
Qed.

(** * Reading through pointers *)
Section Pointers.
Variables (w : world) (m : memory E X H D) (a : nat) (root : obj).
Hypothesis Root : basis_at m a = Some root.
Hypothesis Types : types_fixed etype w.
Lemma sub_obj_app (o : obj) p q : sub_obj o (p ++ q) = obind (sub_obj o p) (fun o' => sub_obj o' q).
Proof. revert o. induction p as [|i p IH]; intros o; [reflexivity|]. cbn. destruct (match o with OPower _ _ _ o' | ORestricted _ _ o' | OPeriodic _ _ o' => _ | OComposite _ os => _ | _ => _ end); [apply IH|reflexivity]. Qed.
Lemma deref_at p o : sub_obj root p = Some o -> deref m a p = Some o.
Proof. intros K. unfold deref. now rewrite Root. Qed.
Lemma sub_child p o i o' : sub_obj root p = Some o -> sub_obj o [i] = Some o' -> sub_obj root (p ++ [i]) = Some o'.
Proof. intros K L. rewrite sub_obj_app, K. exact L. Qed.
Lemma all_some_map {A B} (f : A -> option B) l l' : Forall2 (fun x y => f x = Some y) l l' -> all_some (map f l) = Some l'.
Proof. induction 1 as [|x y l l' K _ IH]; [reflexivity|]. cbn. now rewrite K, IH. Qed.
Lemma Forall2_repeat {A B} (R : A -> B -> Prop) x y n : R x y -> Forall2 R (repeat x n) (repeat y n).
Proof. intros K. induction n; cbn; constructor; auto. Qed.

Lemma resolve_make : forall (o : obj) r p, fits dim r o -> sub_obj root p = Some o ->
  resolve lk tk fk etype w m (make_node a p o) = Some (pb_node (as_prebasis dim lk tk fk w o)).
Proof.
  induction o as [l|f gv mo mx x|gv|d gv|hi gv q1 q2|st n s o IH|s os IH|d gv o IH|mi num o IH] using obj_ind'; intros r p F K; inversion F; subst.
  - cbn. now rewrite Types.
  - assert (V : resolve lk tk fk etype w m (TPtr a p) = Some (NLeaf mx0 [] (value_size lk tk fk etype (VFamily f)) None)).
    { cbn [resolve]. now rewrite (deref_at _ _ K). }
    destruct f; cbn [make_node]; rewrite ?V; cbn; now rewrite Types.
  - cbn. now rewrite Types.
  - cbn [make_node resolve]. rewrite (deref_at _ _ K). reflexivity.
  - repeat match goal with L : lfits _ _ |- _ => destruct L as [? _] end. cbn [make_node resolve as_prebasis taylorhood_pb pb_node map all_some].
    rewrite (all_some_map (resolve lk tk fk etype w m) _ (repeat (NLeaf mx0 [] (lf_fe (lagrange_pb lk w q2)) None) dim)).
    + cbn. now rewrite !Types, H1.
    + apply Forall2_repeat. cbn. now rewrite Types, H0.
  - cbn [make_node resolve as_prebasis power_pb pb_node]. erewrite all_some_map; [cbn; reflexivity|]. apply Forall2_repeat. eapply IH; eauto. eapply sub_child; eauto. 
  - rewrite make_composite. cbn [resolve as_prebasis composite_pb pb_node]. erewrite all_some_map; [cbn; reflexivity|]. rewrite map_map.
    assert (G : forall os' i rs', Forall2 (fits dim) rs' os' -> Forall (fun o => forall r p, fits dim r o -> sub_obj root p = Some o -> resolve lk tk fk etype w m (make_node a p o) = Some (pb_node (as_prebasis dim lk tk fk w o))) os' ->
      (forall k o, nth_error os' k = Some o -> nth_error os (i + k) = Some o) ->
      Forall2 (fun x y => resolve lk tk fk etype w m x = Some y) (nodes_of a p i os') (map (fun x => pb_node (as_prebasis dim lk tk fk w x)) os')).
    { induction os' as [|o os' J]; intros i rs' L A N; [constructor|]. inversion L; inversion A; subst. cbn. constructor.
      - match goal with I : forall r p, _ |- _ => eapply I; eauto end. eapply sub_child; eauto. cbn. specialize (N 0 o eq_refl). rewrite Nat.add_0_r in N. now rewrite N.
      - eapply J; eauto. intros k o' Q. rewrite Nat.add_succ_comm. now apply N. }
    eapply G; eauto.
  - cbn [make_node resolve as_prebasis restricted_pb pb_node].
    assert (C : sub_obj root (p ++ [0]) = Some o) by (eapply sub_child; eauto).
    rewrite (deref_at _ _ C). cbn [obind]. now erewrite IH by eauto.
  - cbn [make_node as_prebasis transformed_pb pb_node]. eapply IH; eauto. eapply sub_child; eauto.
Qed.
Lemma leaf_data_make : forall (o : obj) r p, fits dim r o -> sub_obj root p = Some o -> leaf_data m (make_node a p o) = Some (members dim o).
Proof.
  induction o as [l|f gv mo mx x|gv|d gv|hi gv q1 q2|st n s o IH|s os IH|d gv o IH|mi num o IH] using obj_ind'; intros r p F K; inversion F; subst.
  - reflexivity.
  - assert (V : leaf_data m (TPtr (D := D) a p) = Some [FMembers (OMapper f gv mo mx x)]) by (cbn [leaf_data]; now rewrite (deref_at _ _ K)).
    destruct f; cbn [make_node members]; rewrite ?V; reflexivity.
  - reflexivity.
  - cbn [make_node leaf_data]. rewrite (deref_at _ _ K). reflexivity.
  - repeat match goal with L : lfits _ _ |- _ => destruct L as [? _] end. cbn [make_node leaf_data members map all_some].
    rewrite (all_some_map (leaf_data m) _ (repeat [FValue (VLagrange (lg_order q2))] dim)).
    + cbn. rewrite H1. repeat f_equal. clear. induction dim as [|k IH]; [reflexivity|]. cbn. now rewrite IH.
    + apply Forall2_repeat. cbn. now rewrite H0.
  - cbn [make_node leaf_data members]. erewrite all_some_map; [cbn; reflexivity|]. apply Forall2_repeat. eapply IH; eauto. eapply sub_child; eauto. 
  - rewrite make_composite. cbn [leaf_data members]. erewrite all_some_map; [cbn; reflexivity|].
    assert (G : forall os' i rs', Forall2 (fits dim) rs' os' -> Forall (fun o => forall r p, fits dim r o -> sub_obj root p = Some o -> leaf_data m (make_node a p o) = Some (members dim o)) os' ->
      (forall k o, nth_error os' k = Some o -> nth_error os (i + k) = Some o) ->
      Forall2 (fun x y => leaf_data m x = Some y) (nodes_of a p i os') (map (members dim) os')).
    { induction os' as [|o os' J]; intros i rs' L A N; [constructor|]. inversion L; inversion A; subst. cbn. constructor.
      - match goal with I : forall r p, _ |- _ => eapply I; eauto end. eapply sub_child; eauto. cbn. specialize (N 0 o eq_refl). rewrite Nat.add_0_r in N. now rewrite N.
      - eapply J; eauto. intros k o' Q. rewrite Nat.add_succ_comm. now apply N. }
    eapply G; eauto.
  - cbn [make_node leaf_data members]. eapply IH; eauto. eapply sub_child; eauto.
  - cbn [make_node members]. eapply IH; eauto. eapply sub_child; eauto.
Qed.
End Pointers.
End Objects.

(** * Memory *)
Section Memory.
Context {E X H D : Type}.
Variable mcmg : layout -> view E X -> option (mapper X).
Variable dim : nat.
Variables (lk : nat -> gt -> list localkey) (tk : gt -> list localkey) (fk : family -> gt -> list localkey).
Variable etype : E -> gt.
Notation obj := (obj X H D).
Notation world := (world E X H D).
Notation memory := (memory E X H D).
Notation cell := (cell E X H D).
Notation make_node := (make_node dim).
Notation step := (step mcmg dim lk tk fk etype).
Notation run := (BasisLifetime_model.run mcmg dim lk tk fk etype).
Notation resolve := (resolve lk tk fk etype).
Notation view_bind := (view_bind dim lk tk fk etype).

Fixpoint points (a : nat) (t : ntree D) : Prop :=
  match t with
  | TValue _ => True
  | TPtr a' _ => a' = a
  | TInner cs => fold_right and True (map (points a) cs)
  | TRestricted a' _ _ t => a' = a /\ points a t
  end.
Fixpoint ntree_ind' (P : ntree D -> Prop) (p1 : forall v, P (TValue v)) (p2 : forall a p, P (TPtr a p))
  (p3 : forall cs, Forall P cs -> P (TInner cs)) (p4 : forall a p d t, P t -> P (TRestricted a p d t)) (t : ntree D) : P t :=
  let rec := ntree_ind' P p1 p2 p3 p4 in
  match t with
  | TValue v => p1 v | TPtr a p => p2 a p
  | TInner cs => p3 cs ((fix go (l : list (ntree D)) : Forall P l := match l with [] => Forall_nil P | r :: l => Forall_cons (P := P) r (rec r) (go l) end) cs)
  | TRestricted a p d t => p4 a p d t (rec t)
  end.
Lemma points_make : forall (o : obj) a p, points a (make_node a p o).
Proof.
  induction o as [l|f gv mo mx x|gv|d gv|hi gv q1 q2|st n s o IH|s os IH|d gv o IH|mi num o IH] using obj_ind'; intros a p.
  - exact I.
  - destruct f; cbn; auto.
  - exact I.
  - reflexivity.
  - cbn. repeat split. generalize dim. intros k. induction k; cbn; auto.
  - cbn. induction n; cbn; auto.
  - rewrite make_composite. cbn. generalize 0. induction IH as [|o os I _ J]; intros i; cbn; auto.
  - cbn. auto.
  - cbn. auto.
Qed.
Lemma fold_map_ext {A B} (P : A -> Prop) (f g : A -> B) l : Forall (fun x => P x -> f x = g x) l -> fold_right and True (map P l) -> map f l = map g l.
Proof. induction 1 as [|x l K _ IH]; cbn; [reflexivity|]. intros [L M]. now rewrite K, IH. Qed.
Lemma deref_same (m m' : memory) a p : basis_at m' a = basis_at m a -> deref m' a p = deref m a p.
Proof. unfold deref. now intros ->. Qed.
Lemma resolve_same w (m m' : memory) a : basis_at m' a = basis_at m a -> forall t, points a t -> resolve w m' t = resolve w m t.
Proof.
  intros K. induction t as [v|a' p|cs IH|a' p d t IH] using ntree_ind'; cbn; intros P; auto.
  - subst. now rewrite (deref_same m m').
  - now rewrite (fold_map_ext _ _ _ cs IH P).
  - destruct P as [-> P]. now rewrite (deref_same m m'), IH.
Qed.
Lemma leaf_data_same (m m' : memory) a : basis_at m' a = basis_at m a -> forall t, points a t -> leaf_data m' t = leaf_data m t.
Proof.
  intros K. induction t as [v|a' p|cs IH|a' p d t IH] using ntree_ind'; cbn; intros P; auto.
  - subst. now rewrite (deref_same m m').
  - now rewrite (fold_map_ext _ _ _ cs IH P).
  - destruct P as [-> P]. auto.
Qed.
(** Without the basis: undefined, unless there is no pointer among the leaves *)
Lemma leaf_data_dead (m : memory) a : basis_at m a = None -> forall t, points a t ->
  leaf_data m t = None \/ forall m' : memory, leaf_data m' t = leaf_data m t.
Proof.
  intros K. induction t as [v|a' p|cs IH|a' p d t IH] using ntree_ind'; cbn; intros P; auto.
  - left. subst. unfold deref. now rewrite K.
  - assert (G : all_some (map (leaf_data m) cs) = None \/ forall m' : memory, all_some (map (leaf_data m') cs) = all_some (map (leaf_data m) cs)).
    { induction IH as [|t cs I _ J]; cbn; [auto|]. destruct P as [P1 P2]. destruct (I P1) as [->|I1]; [now left|]. destruct (J P2) as [->|J1].
      - left. now destruct (leaf_data m t).
      - right. intros m'. now rewrite I1, J1. }
    destruct G as [->|G]; [now left|right]. intros m'. now rewrite G.
  - destruct P as [-> P]. auto.
Qed.

Lemma cell_at_push (m : memory) c i : cell_at (push m c) i = if i =? length m then Some c else cell_at m i.
Proof.
  unfold cell_at, push. destruct (i =? length m) eqn:Q.
  - apply Nat.eqb_eq in Q. subst. now rewrite nth_error_app2, Nat.sub_diag by lia.
  - apply Nat.eqb_neq in Q. destruct (Nat.lt_ge_cases i (length m)); [now rewrite nth_error_app1|].
    rewrite (proj2 (nth_error_None m i)) by lia. rewrite (proj2 (nth_error_None _ i)); [reflexivity|]. rewrite app_length. cbn. lia.
Qed.
Lemma cell_at_upd (m m' : memory) a c i : upd m a c = Some m' -> cell_at m' i = if i =? a then c else cell_at m i.
Proof.
  intros K. unfold cell_at. rewrite (upd_nth_error m m' a c i K). now destruct (i =? a).
Qed.
Lemma cell_at_lt (m : memory) i c : cell_at m i = Some c -> i < length m.
Proof. unfold cell_at. destruct (nth_error m i) eqn:Q; [|discriminate]. intros _. apply nth_error_Some. congruence. Qed.
Lemma basis_at_lt (m : memory) i o : basis_at m i = Some o -> i < length m.
Proof. unfold basis_at. destruct (cell_at m i) eqn:Q; [|discriminate]. intros _. eapply cell_at_lt; eauto. Qed.
Lemma basis_at_cell (m : memory) i o : basis_at m i = Some o <-> cell_at m i = Some (CBasis (Some o)).
Proof. unfold basis_at. destruct (cell_at m i) as [[]|]; split; intros K; congruence. Qed.

Definition vok (m : memory) (v : vobj E D) : Prop := vo_basis v < length m /\ points (vo_basis v) (vo_tree v).
Definition cok (m : memory) (c : cell) : Prop :=
  match c with
  | CBasis (Some o) => exists r, fits dim r o
  | CView v => vok m v
  | CSubView s v => vok m v /\ s < length m /\ forall r p, sub_at m s = Some (r, p) -> vo_basis v = r
  | _ => True
  end.
Definition inv (m : memory) : Prop := forall i c, cell_at m i = Some c -> cok m c.
Definition is_sub (c : cell) : bool := match c with CSub _ _ => true | _ => false end.
Lemma push_length (m : memory) c : length (push m c) = S (length m).
Proof. unfold push. rewrite app_length. cbn. lia. Qed.
Lemma sub_at_push (m : memory) c s : s < length m -> sub_at (push m c) s = sub_at m s.
Proof. intros L. unfold sub_at. rewrite cell_at_push. destruct (s =? length m) eqn:Q; [apply Nat.eqb_eq in Q; lia|reflexivity]. Qed.
Lemma cok_push m c c' : cok m c' -> cok (push m c) c'.
Proof.
  destruct c' as [[o|]|v|r p|s v|d|k]; cbn; auto; unfold vok; rewrite push_length.
  - intros [K L]. split; [lia|exact L].
  - intros [[K L] [M N]]. repeat split; auto; try lia. intros r p. rewrite sub_at_push by exact M. apply N.
Qed.
Lemma inv_push m c : inv m -> cok m c -> inv (push m c).
Proof. intros I C i c' K. rewrite cell_at_push in K. apply cok_push. destruct (i =? length m); [injection K as <-; exact C|eapply I; eauto]. Qed.
Lemma cok_upd m m' a c c' : upd m a c = Some m' -> (forall c0, c = Some c0 -> is_sub c0 = false) -> cok m c' -> cok m' c'.
Proof.
  intros U S. assert (L : length m' = length m) by (eapply upd_length; eauto).
  destruct c' as [[o|]|v|r p|s v|d|k]; cbn; auto; unfold vok; rewrite L; auto.
  intros [K [M N]]. repeat split; try tauto. intros r p Q. apply (N r p). revert Q. unfold sub_at. rewrite (cell_at_upd m m' a c s U). destruct (s =? a); [|auto].
  destruct c as [c0|]; [|discriminate]. specialize (S c0 eq_refl). destruct c0; cbn in *; congruence.
Qed.
Lemma inv_upd m m' a c : upd m a c = Some m' -> inv m -> (forall c0, c = Some c0 -> is_sub c0 = false /\ cok m c0) -> inv m'.
Proof.
  intros U I C i c' K. rewrite (cell_at_upd m m' a c i U) in K. eapply (cok_upd m m' a c); eauto; [intros; now apply C|].
  destruct (i =? a); [apply C; exact K|eapply I; eauto].
Qed.

Definition viewok (m : memory) (a : nat) (c : cell) : Prop :=
  match c with
  | CView v | CSubView _ v => vo_basis v = a -> forall o, basis_at m a = Some o -> vo_tree v = make_node a [] o
  | _ => True
  end.
Definition good (m : memory) (a : nat) : Prop := forall i c, cell_at m i = Some c -> viewok m a c.
Lemma good_push m c a : inv m -> cok m c -> good m a -> viewok m a c -> good (push m c) a.
Proof.
  intros I C G V i c' K. rewrite cell_at_push in K.
  assert (W : cok m c' /\ viewok m a c') by (destruct (i =? length m); [injection K as <-; auto|split; [eapply I; eauto|eapply G; eauto]]).
  destruct W as [W1 W2]. unfold viewok in *. destruct c' as [|v| |s v| |]; auto; intros Q o B; apply (W2 Q o); rewrite <- B; unfold basis_at; rewrite cell_at_push.
  - destruct W1 as [L _]. destruct (a =? length m) eqn:T; [apply Nat.eqb_eq in T; lia|reflexivity].
  - destruct W1 as [[L _] _]. destruct (a =? length m) eqn:T; [apply Nat.eqb_eq in T; lia|reflexivity].
Qed.
Lemma good_upd m m' j c a : upd m j c = Some m' -> good m a -> (forall c0, c = Some c0 -> viewok m a c0) ->
  (j = a -> forall o', c = Some (CBasis (Some o')) -> exists o, basis_at m a = Some o /\ kind o = kind o') -> good m' a.
Proof.
  intros U G V B i c' K. rewrite (cell_at_upd m m' j c i U) in K.
  assert (W : viewok m a c') by (destruct (i =? j); [apply V; exact K|eapply G; eauto]).
  assert (Z : forall o, basis_at m' a = Some o -> exists o', basis_at m a = Some o' /\ kind o' = kind o).
  { intros o Q. apply basis_at_cell in Q. rewrite (cell_at_upd m m' j c a U) in Q. destruct (a =? j) eqn:T.
    - apply Nat.eqb_eq in T. eapply B; eauto.
    - exists o. split; [now apply basis_at_cell|reflexivity]. }
  unfold viewok in *. destruct c' as [|v| |s v| |]; auto; intros Q o R; destruct (Z o R) as (o' & R' & T); rewrite (W Q o' R'); now apply make_node_kind.
Qed.

Lemma new_view_ok (m : memory) a v : new_view dim m a = Some v -> exists o, basis_at m a = Some o /\ v = VO a (make_node a [] o) None.
Proof. unfold new_view. destruct (basis_at m a); [|discriminate]. cbn. intros [= <-]. eauto. Qed.
Lemma new_view_cok (m : memory) a v e : new_view dim m a = Some v -> cok m (CView (VO (vo_basis v) (vo_tree v) e)).
Proof. intros K. apply new_view_ok in K as (o & K & ->). cbn. split; cbn; [eapply basis_at_lt; eauto|apply points_make]. Qed.
Lemma new_view_viewok (m : memory) a v e b : new_view dim m a = Some v -> viewok m b (CView (VO (vo_basis v) (vo_tree v) e)).
Proof. intros K. apply new_view_ok in K as (o & K & ->). cbn. intros <- o' K'. congruence. Qed.

Ltac crack := repeat match goal with
  | K : obind ?x _ = Some _ |- _ => let Q := fresh "Q" in destruct x eqn:Q; cbn [obind] in K; [|discriminate]
  | K : Some _ = Some _ |- _ => injection K; clear K; intros; subst
  | K : match ?x with _ => _ end = Some _ |- _ => let Q := fresh "Q" in destruct x eqn:Q; try discriminate
  end.
Lemma basis_new_cok (w : world) r h o m : basis_new mcmg dim lk tk fk w r h = Some o -> cok m (CBasis (Some o)).
Proof. intros K. cbn. exists r. eapply new_fits; eauto. Qed.
Lemma inv_basis m i o : inv m -> basis_at m i = Some o -> exists r, fits dim r o.
Proof. intros I K. apply basis_at_cell in K. apply (I _ _ K). Qed.

(** What every call does to the memory *)
Inductive change (m : memory) : memory -> (nat -> Prop) -> Prop :=
| ch_none : change m m (fun _ => True)
| ch_push c : cok m c -> (forall a, viewok m a c) -> change m (push m c) (fun _ => True)
| ch_upd j c m' : upd m j c = Some m' -> (forall c0, c = Some c0 -> is_sub c0 = false /\ cok m c0) ->
    (forall a, good m a -> forall c0, c = Some c0 -> viewok m a c0) ->
    change m m' (fun a => j = a -> forall o', c = Some (CBasis (Some o')) -> exists o, basis_at m a = Some o /\ kind o = kind o').
Lemma change_inv m m' P : change m m' P -> inv m -> inv m'.
Proof. destruct 1; intros I; auto; [now apply inv_push|eapply inv_upd; eauto]. Qed.
Lemma change_good m m' P a : change m m' P -> inv m -> good m a -> P a -> good m' a.
Proof. destruct 1; intros I G Q; auto; [now apply good_push|eapply good_upd; eauto]. Qed.
Definition allowed (m : memory) (o : op E X H D) (a : nat) : Prop :=
  match o with
  | PAssign a' b => a' = a -> exists oa ob, basis_at m a = Some oa /\ basis_at m b = Some ob /\ kind oa = kind ob
  | _ => True
  end.
Lemma step_change w m o w' m' : inv m -> step (w, m) o = Some (w', m') ->
  exists m1 P1 P2, change m m1 P1 /\ change m1 m' P2 /\ forall a, allowed m o a -> P1 a /\ P2 a.
Proof.
  intros I K.
  assert (One : forall P, change m m' P -> (forall a, allowed m o a -> P a) -> exists m1 P1 P2, change m m1 P1 /\ change m1 m' P2 /\ forall a, allowed m o a -> P1 a /\ P2 a).
  { intros P C A. exists m', P, (fun _ => True). split; [exact C|]. split; [constructor|]. auto. }
  assert (Id : m' = m -> exists m1 P1 P2, change m m1 P1 /\ change m1 m' P2 /\ forall a, allowed m o a -> P1 a /\ P2 a).
  { intros ->. eapply One; [constructor|cbn; auto]. }
  assert (Pu : forall c, m' = push m c -> cok m c -> (forall a, viewok m a c) -> exists m1 P1 P2, change m m1 P1 /\ change m1 m' P2 /\ forall a, allowed m o a -> P1 a /\ P2 a).
  { intros c -> C V. eapply One; [now constructor|cbn; auto]. }
  destruct o; cbn [BasisLifetime_model.step] in K.
  - crack. now apply Id.
  - destruct (basis_new _ _ _ _ _ _ _ _) eqn:B; crack; [|now apply Id]. eapply Pu; [reflexivity|eapply basis_new_cok; eauto|exact (fun _ => Logic.I)].
  - crack. eapply Pu; [reflexivity|exact Logic.I|exact (fun _ => Logic.I)].
  - crack. eapply Pu; [reflexivity|exact Logic.I|exact (fun _ => Logic.I)].
  - destruct (cell_at m f) as [[| | | | |k]|]; try discriminate. destruct (cell_at m k) as [[| | | |dirs|]|]; try discriminate.
    destruct (basis_new _ _ _ _ _ _ _ _) eqn:B; crack; [|now apply Id]. eapply Pu; [reflexivity|eapply basis_new_cok; eauto|exact (fun _ => Logic.I)].
  - crack. eapply One.
    + eapply ch_upd; eauto.
      * intros c0 [= <-]. split; [reflexivity|]. destruct (inv_basis m _ _ I Q) as [r F]. exists r. now apply fits_basis_update.
      * intros a' _ c0 [= <-]. exact Logic.I.
    + intros a' _ <- o' [= <-]. exists o. split; [exact Q|]. now rewrite kind_basis_update.
  - crack. eapply Pu; [reflexivity|eapply inv_basis; eauto|exact (fun _ => Logic.I)].
  - crack. match goal with U : upd m _ _ = Some ?m0 |- _ => exists m0 end. do 2 eexists. split; [|split].
    + eapply ch_upd; eauto.
      * intros c0 [= <-]. split; [reflexivity|exact Logic.I].
      * intros a' _ c0 [= <-]. exact Logic.I.
    + apply ch_push; [eapply inv_basis; eauto|exact (fun _ => Logic.I)].
    + intros a' _. split; [|exact Logic.I]. intros <- o' [= ].
  - crack. eapply One.
    + eapply ch_upd; eauto.
      * intros c0 [= <-]. split; [reflexivity|]. eapply inv_basis; eauto.
      * intros a' _ c0 [= <-]. exact Logic.I.
    + intros a' A <- o' [= <-]. destruct (A eq_refl) as (oa & ob & K1 & K2 & K3). exists oa. split; [exact K1|congruence].
  - destruct (cell_at m a) as [[]|] eqn:Q; crack.
    all: try (eapply Pu; [reflexivity| |]; [eapply (new_view_cok _ _ _ None) in Q0|intros b; eapply (new_view_viewok _ _ _ None b) in Q0]; destruct v; try destruct v0; exact Q0).
    eapply Pu; [reflexivity| |].
    + apply new_view_ok in Q0 as (o & B & ->). cbn. split; [split; cbn; [eapply basis_at_lt; eauto|apply points_make]|]. split; [eapply cell_at_lt; eauto|].
      intros r p S. unfold sub_at in S. rewrite Q in S. congruence.
    + intros b. apply new_view_ok in Q0 as (o & B & ->). cbn. intros <- o' B'. congruence.
  - crack.
    + eapply Pu; [reflexivity|eapply new_view_cok; eauto|intros b; eapply new_view_viewok; eauto].
    + pose proof (I _ _ Q) as [V [S R]]. eapply Pu; [reflexivity| |intros b; apply (new_view_viewok m _ _ (vo_elem v) b) in Q1; exact Q1].
      apply new_view_ok in Q1 as (o & B & ->). cbn. split; [split; cbn; [eapply basis_at_lt; eauto|apply points_make]|]. auto.
  - crack.
    + eapply One; [eapply ch_upd; eauto|].
      * intros c0 [= <-]. split; [reflexivity|]. eapply I; eassumption.
      * intros a' G c0 [= <-]. eapply G; eassumption.
      * intros a' _ _ o' [= ].
    + eapply One; [eapply ch_upd; eauto|].
      * intros c0 [= <-]. split; [reflexivity|]. eapply I; eassumption.
      * intros a' G c0 [= <-]. eapply G; eassumption.
      * intros a' _ _ o' [= ].
  - crack.
    + eapply One; [eapply ch_upd; eauto|].
      * intros c0 [= <-]. split; [reflexivity|]. apply (I _ _ Q).
      * intros a' G c0 [= <-]. apply (G _ _ Q).
      * intros a' _ _ o' [= ].
    + eapply One; [eapply ch_upd; eauto|].
      * intros c0 [= <-]. split; [reflexivity|]. apply (I _ _ Q).
      * intros a' G c0 [= <-]. apply (G _ _ Q).
      * intros a' _ _ o' [= ].
  - crack.
    + eapply One; [eapply ch_upd; eauto|].
      * intros c0 [= <-]. split; [reflexivity|]. apply (I _ _ Q).
      * intros a' G c0 [= <-]. apply (G _ _ Q).
      * intros a' _ _ o' [= ].
    + eapply One; [eapply ch_upd; eauto|].
      * intros c0 [= <-]. split; [reflexivity|]. apply (I _ _ Q).
      * intros a' G c0 [= <-]. apply (G _ _ Q).
      * intros a' _ _ o' [= ].
  - crack; eapply Pu; try reflexivity; try exact Logic.I; exact (fun _ => Logic.I).
  - crack. eapply One; [eapply ch_upd; eauto|].
    + intros c0 [= ].
    + intros a' _ c0 [= ].
    + intros a' _ _ o' [= ].
Qed.
Lemma step_inv w m o w' m' : inv m -> step (w, m) o = Some (w', m') -> inv m'.
Proof. intros I K. destruct (step_change w m o w' m' I K) as (m1 & P1 & P2 & C1 & C2 & _). eapply change_inv; eauto. eapply change_inv; eauto. Qed.
Lemma step_good w m o w' m' a : inv m -> good m a -> allowed m o a -> step (w, m) o = Some (w', m') -> good m' a.
Proof.
  intros I G A K. destruct (step_change w m o w' m' I K) as (m1 & P1 & P2 & C1 & C2 & P). destruct (P a A). 
  eapply change_good; eauto; [eapply change_inv; eauto|]. eapply change_good; eauto.
Qed.
Lemma run_inv h : forall w m w' m', inv m -> run (w, m) h = Some (w', m') -> inv m'.
Proof.
  induction h as [|o h IH]; intros w m w' m' I K; cbn [BasisLifetime_model.run] in K; [injection K as <- <-; assumption|]. destruct (step (w, m) o) as [[w1 m1]|] eqn:Q; [|discriminate].
  eapply IH; [|exact K]. eapply step_inv; eauto.
Qed.
Lemma run_good h a : forall w m w' m', inv m -> good m a -> kept mcmg dim lk tk fk etype (w, m) h a -> run (w, m) h = Some (w', m') -> good m' a.
Proof.
  induction h as [|o h IH]; intros w m w' m' I G A K; cbn [BasisLifetime_model.run] in K; [injection K as <- <-; assumption|]. destruct (step (w, m) o) as [[w1 m1]|] eqn:Q; [|discriminate].
  destruct A as [A B]. rewrite Q in B. eapply (IH w1 m1); eauto; [eapply step_inv; eauto|]. eapply step_good; eauto.
Qed.
Lemma inv_nil : inv [].
Proof. intros i c K. unfold cell_at in K. destruct i; discriminate. Qed.
Lemma good_nil a : good [] a.
Proof. intros i c K. unfold cell_at in K. destruct i; discriminate. Qed.
Lemma run_app h h' (s : world * memory) : run s (h ++ h') = obind (run s h) (fun s' => run s' h').
Proof. revert s. induction h as [|o h IH]; intros s; [reflexivity|]. cbn. destruct (step s o); [apply IH|reflexivity]. Qed.
Lemma view_at_inv m i v : inv m -> view_at m i = Some v -> vok m v.
Proof. intros I K. unfold view_at in K. destruct (cell_at m i) as [[]|] eqn:Q; try discriminate; injection K as <-; apply I in Q; [exact Q|apply Q]. Qed.
Lemma view_at_good m i v o : good m (vo_basis v) -> view_at m i = Some v -> basis_at m (vo_basis v) = Some o -> vo_tree v = make_node (vo_basis v) [] o.
Proof. intros G K. unfold view_at in K. destruct (cell_at m i) as [[]|] eqn:Q; try discriminate; injection K as <-; apply G in Q; cbn in Q; auto. Qed.
Lemma view_bind_good w m i v o e : types_fixed etype w -> inv m -> good m (vo_basis v) -> view_at m i = Some v -> basis_at m (vo_basis v) = Some o ->
  view_bind w m v e = lv_bind (as_prebasis dim lk tk fk w o) (lv_new (as_prebasis dim lk tk fk w o)) e /\ leaf_data m (vo_tree v) = Some (members dim o).
Proof.
  intros T I G K B. destruct (inv_basis m _ _ I B) as [r F]. unfold BasisLifetime_model.view_bind. rewrite (view_at_good m i v o G K B).
  rewrite (resolve_make dim lk tk fk etype w m _ o B T o r [] F eq_refl), B.
  split; [reflexivity|]. exact (leaf_data_make dim m _ o B o r [] F eq_refl).
Qed.
Lemma view_bind_same w (m m' : memory) v v' e : vok m v -> vo_basis v' = vo_basis v -> vo_tree v' = vo_tree v -> basis_at m' (vo_basis v) = basis_at m (vo_basis v) ->
  view_bind w m' v' e = view_bind w m v e /\ leaf_data m' (vo_tree v') = leaf_data m (vo_tree v).
Proof.
  intros [_ P] Q1 Q2 B. unfold BasisLifetime_model.view_bind. rewrite Q1, Q2, (resolve_same w m m' _ B _ P), B, (leaf_data_same m m' _ B _ P). auto.
Qed.
End Memory.
