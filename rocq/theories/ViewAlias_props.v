(** Local views are independent objects (C51). *)
From Coq Require Import List Arith Bool Lia.
From Verif Require Import Lib ViewAlias_model.
Import ListNotations.

(** * Specification: views as values.  Each view has an element or none; operations on
    one view do not touch the others. *)
Section Spec.
Context {E : Type}.
Definition views := list (option (option E)).
Definition alive (s : views) (i : nat) : option (option E) := o <- nth_error s i ;; o.
Definition sstep (s : views) (o : vop E) : option views :=
  match o with
  | VNew => Some (s ++ [Some None])
  | VBind i e => _ <- alive s i ;; upd s i (Some (Some e))
  | VUnbind i => _ <- alive s i ;; upd s i (Some None)
  | VCopy i => v <- alive s i ;; Some (s ++ [Some v])
  | VAssign i j => _ <- alive s i ;; v <- alive s j ;; upd s i (Some v)
  | VDestroy i => _ <- alive s i ;; upd s i None
  end.
Fixpoint srun (s : views) (h : list (vop E)) : option views :=
  match h with [] => Some s | o :: r => s' <- sstep s o ;; srun s' r end.

(** View [i] was assigned from another view and not bound since. *)
Fixpoint assigned (h : list (vop E)) (i : nat) : bool :=
  match h with
  | [] => false
  | VAssign i' j :: r => if i' =? i then negb (j =? i) || assigned r i else assigned r i
  | VBind i' _ :: r => if i' =? i then false else assigned r i
  | _ :: r => assigned r i
  end.
Definition no_assign (o : vop E) : bool := match o with VAssign _ _ => false | _ => true end.

(** * Proofs *)
Definition same (v : option (option E)) (o : option (vobj E)) : Prop :=
  match v, o with Some v, Some o => vo_elem o = v | None, None => True | _, _ => False end.
Definition own (bad : nat -> bool) (s : store E) : Prop :=
  forall i v, obj s i = Some v -> bad i = false -> forall e, vo_elem v = Some e -> vo_ptr v = Some i /\ vo_fe v = Some (i, e).

Lemma Forall2_length {A B} (P : A -> B -> Prop) l l' : Forall2 P l l' -> length l = length l'.
Proof. induction 1; cbn; auto. Qed.
Lemma F2_upd (s : views) (s0 : store E) i v o s' : Forall2 same s s0 -> same v o -> upd s i v = Some s' ->
  exists s0', upd s0 i o = Some s0' /\ Forall2 same s' s0'.
Proof.
  intros H. revert i s'. induction H as [|a b l l0 Hab HF IH]; intros i s' Hs Hu; [destruct i; discriminate|].
  destruct i as [|i]; cbn in *.
  - injection Hu as <-. eauto.
  - destruct (upd l i v) as [l'|] eqn:El; [|discriminate]. injection Hu as <-.
    destruct (IH i l' Hs El) as (l0' & -> & H'). eexists. split; [reflexivity|]. now constructor.
Qed.
Lemma F2_alive (s : views) s0 i v : Forall2 same s s0 -> alive s i = Some v -> exists o, obj s0 i = Some o /\ vo_elem o = v.
Proof.
  intros H Hi. unfold alive, obj in *. apply obind_Some in Hi as (w & Hw & ->).
  revert i Hw. induction H as [|a b l l0 Hab HF IH]; intros [|i] Hw; try discriminate; cbn in *; auto.
  injection Hw as ->. destruct b as [o|]; [|contradiction]. eauto.
Qed.
Lemma obj_upd (s s' : store E) i o j : upd s i o = Some s' -> obj s' j = (if j =? i then o else obj s j).
Proof.
  intros H. unfold obj. rewrite (upd_nth_error _ _ _ _ j H). destruct (Nat.eqb_spec j i); auto.
Qed.
Lemma obj_app (s : store E) o j : obj (s ++ [o]) j = (if j =? length s then o else obj s j).
Proof.
  unfold obj. rewrite nth_error_app_eq. destruct (Nat.ltb_spec j (length s)).
  - destruct (Nat.eqb_spec j (length s)); [lia|auto].
  - destruct (Nat.eqb_spec j (length s)) as [->|].
    + now rewrite Nat.sub_diag.
    + assert (nth_error s j = None) as -> by (apply nth_error_None; lia). destruct (j - length s) as [|q] eqn:Ej; [lia|]. destruct q; reflexivity.
Qed.

(** One step; histories are kept in reverse (latest first). *)
Lemma step_ok (s : views) s0 o s' h :
  Forall2 same s s0 -> own (assigned h) s0 -> (forall i, length s <= i -> assigned h i = false) -> sstep s o = Some s' ->
  exists s0', vstep s0 o = Some s0' /\ Forall2 same s' s0' /\ own (assigned (o :: h)) s0' /\
    (forall i, length s' <= i -> assigned (o :: h) i = false).
Proof.
  intros HS HO HB Hs. assert (HL : length s = length s0) by (eapply Forall2_length; eauto).
  destruct o as [|i e|i|i|i j|i]; cbn [sstep vstep] in *.
  - injection Hs as <-. eexists. split; [reflexivity|]. split; [apply Forall2_app; auto; repeat constructor|]. split.
    + intros k v. rewrite obj_app. destruct (Nat.eqb_spec k (length s0)); [|apply HO]. intros [= <-] _ e2. discriminate.
    + intros k Hk. rewrite app_length in Hk. cbn. apply HB. lia.
  - apply obind_Some in Hs as (v & Hv & Hs). destruct (F2_alive _ _ _ _ HS Hv) as (o & Ho & _). unfold vo_bind. rewrite Ho. cbn [obind].
    destruct (F2_upd s s0 i (Some (Some e)) (Some (VO (Some e) (Some i) (Some (i, e)))) s' HS eq_refl Hs) as (s0' & Hu & HS').
    exists s0'. split; auto. split; auto. split.
    + intros k w. rewrite (obj_upd _ _ _ _ k Hu). cbn [assigned]. destruct (Nat.eqb_spec k i) as [->|Hk].
      * rewrite Nat.eqb_refl. intros [= <-] _ e2 [= <-]. auto.
      * destruct (Nat.eqb_spec i k); [congruence|]. apply HO.
    + intros k Hk. cbn. destruct (i =? k); auto. apply HB. rewrite <- (upd_length _ _ _ _ Hs). exact Hk.
  - apply obind_Some in Hs as (v & Hv & Hs). destruct (F2_alive _ _ _ _ HS Hv) as (o & Ho & _). rewrite Ho. cbn [obind].
    destruct (F2_upd s s0 i (Some None) (Some (VO None (vo_ptr o) (vo_fe o))) s' HS eq_refl Hs) as (s0' & Hu & HS').
    exists s0'. split; auto. split; auto. split.
    + intros k w. rewrite (obj_upd _ _ _ _ k Hu). cbn [assigned]. destruct (Nat.eqb_spec k i) as [->|Hk]; [|apply HO].
      intros [= <-] _ e2. discriminate.
    + intros k Hk. cbn. apply HB. rewrite <- (upd_length _ _ _ _ Hs). exact Hk.
  - apply obind_Some in Hs as (v & Hv & Hs). destruct (F2_alive _ _ _ _ HS Hv) as (o & Ho & Hov). rewrite Ho. cbn [obind].
    injection Hs as <-.
    assert (HA : Forall2 same (s ++ [Some None]) (s0 ++ [Some (VO None None None)])) by (apply Forall2_app; auto; repeat constructor).
    destruct (vo_elem o) as [e|] eqn:Ee; subst v.
    + unfold vo_bind. rewrite obj_app, Nat.eqb_refl. cbn [obind].
      assert (Hu : upd (s0 ++ [Some (VO None None None)]) (length s0) (Some (VO (Some e) (Some (length s0)) (Some (length s0, e)))) =
                   Some (s0 ++ [Some (VO (Some e) (Some (length s0)) (Some (length s0, e)))])).
      { clear. induction s0 as [|a s0 IH]; [reflexivity|]. cbn [app length upd]. 
        assert (G : forall q, q = length s0 -> forall f : nat -> option (vobj E), upd (s0 ++ [Some (VO None None None)]) q (f q) = Some (s0 ++ [f q])).
        { clear. induction s0 as [|a s0 IH]; intros q -> f; [reflexivity|]. cbn. now rewrite (IH (length s0) eq_refl (fun n => f (S n))). }
        rewrite (G (length s0) eq_refl (fun n => Some (VO (Some e) (Some (S n)) (Some (S n, e))))). reflexivity. }
      rewrite Hu. eexists. split; [reflexivity|]. split; [apply Forall2_app; auto; repeat constructor|]. split.
      * intros k w. rewrite obj_app. destruct (Nat.eqb_spec k (length s0)) as [->|]; [|apply HO]. intros [= <-] _ e2 [= <-]. auto.
      * intros k Hk. rewrite app_length in Hk. cbn. apply HB. lia.
    + eexists. split; [reflexivity|]. split; auto. split.
      * intros k w. rewrite obj_app. destruct (Nat.eqb_spec k (length s0)); [|apply HO]. intros [= <-] _ e2. discriminate.
      * intros k Hk. rewrite app_length in Hk. cbn. apply HB. lia.
  - apply obind_Some in Hs as (v & Hv & Hs). apply obind_Some in Hs as (u & Hu' & Hs).
    destruct (F2_alive _ _ _ _ HS Hv) as (o & Ho & _). destruct (F2_alive _ _ _ _ HS Hu') as (o' & Ho' & Hou). rewrite Ho, Ho'. cbn [obind].
    destruct (F2_upd s s0 i (Some u) (Some o') s' HS Hou Hs) as (s0' & Hu & HS').
    exists s0'. split; auto. split; auto. split.
    + intros k w. rewrite (obj_upd _ _ _ _ k Hu). cbn [assigned]. destruct (Nat.eqb_spec k i) as [->|Hk].
      * rewrite Nat.eqb_refl. intros [= <-] Hb. apply orb_false_iff in Hb as [Hb1 Hb2]. apply negb_false_iff, Nat.eqb_eq in Hb1. subst j.
        apply (HO i); auto.
      * destruct (Nat.eqb_spec i k); [congruence|]. apply HO.
    + intros k Hk. assert (Hk' : length s <= k) by (rewrite <- (upd_length _ _ _ _ Hs); exact Hk). cbn.
      destruct (Nat.eqb_spec i k) as [<-|]; [|now apply HB].
      apply upd_lt in Hs. lia.
  - apply obind_Some in Hs as (v & Hv & Hs). destruct (F2_alive _ _ _ _ HS Hv) as (o & Ho & _). rewrite Ho. cbn [obind].
    destruct (F2_upd s s0 i None None s' HS I Hs) as (s0' & Hu & HS').
    exists s0'. split; auto. split; auto. split.
    + intros k w. rewrite (obj_upd _ _ _ _ k Hu). cbn [assigned]. destruct (Nat.eqb_spec k i) as [->|Hk]; [discriminate|apply HO].
    + intros k Hk. cbn. apply HB. rewrite <- (upd_length _ _ _ _ Hs). exact Hk.
Qed.

Lemma run_ok h : forall (s : views) s0 s' h0,
  Forall2 same s s0 -> own (assigned h0) s0 -> (forall i, length s <= i -> assigned h0 i = false) -> srun s h = Some s' ->
  exists s0', vrun s0 h = Some s0' /\ Forall2 same s' s0' /\ own (assigned (rev h ++ h0)) s0'.
Proof.
  induction h as [|o h IH]; intros s s0 s' h0 HS HO HB Hr; cbn in *.
  - injection Hr as <-. eauto.
  - apply obind_Some in Hr as (s1 & H1 & Hr). destruct (step_ok s s0 o s1 h0 HS HO HB H1) as (s2 & -> & A & B & C).
    cbn [obind]. destruct (IH s1 s2 s' (o :: h0) A B C Hr) as (s3 & H3 & H4 & H5). exists s3. rewrite <- app_assoc. auto.
Qed.

(** element() and bound() of every view are those of independent values. *)
Theorem C51_view_state_is_a_value (h : list (vop E)) s' :
  srun [] h = Some s' -> exists s, vrun [] h = Some s /\ length s = length s' /\
    forall i v, alive s' i = Some v -> obj s i <> None /\ view_element s i = v.
Proof.
  intros Hr. destruct (run_ok h [] [] s' []) as (s & H1 & H2 & _); auto.
  - intros i v Hi. destruct i; discriminate.
  - exists s. split; auto. split; [symmetry; eapply Forall2_length; eauto|].
    intros i v Hv. destruct (F2_alive _ _ _ _ H2 Hv) as (o & Ho & He). unfold view_element. rewrite Ho. split; [discriminate|auto].
Qed.
(** The nodes of a bound view refer to the element of that view, unless it was assigned
    from another view and not bound since. *)
Theorem C51_tree_follows_its_view (h : list (vop E)) s' s i e :
  srun [] h = Some s' -> vrun [] h = Some s -> alive s' i = Some (Some e) -> assigned (rev h) i = false ->
  node_element s i = Some e /\ node_fe s i = Some e.
Proof.
  intros Hr Hs Hi Ha. destruct (run_ok h [] [] s' []) as (s1 & H1 & H2 & H3); auto.
  { intros k v Hk. destruct k; discriminate. }
  rewrite Hs in H1. injection H1 as <-. rewrite app_nil_r in H3.
  destruct (F2_alive _ _ _ _ H2 Hi) as (o & Ho & He). destruct (H3 i o Ho Ha e He) as [Hp Hf].
  unfold node_element, node_fe. rewrite Ho. cbn [obind]. rewrite Hp, Hf. cbn [obind fst snd]. rewrite Ho. auto.
Qed.
(** In particular when views are only copy constructed. *)
Theorem C51_copies_are_independent (h : list (vop E)) s' s i e :
  forallb no_assign h = true -> srun [] h = Some s' -> vrun [] h = Some s -> alive s' i = Some (Some e) ->
  node_element s i = Some e /\ node_fe s i = Some e.
Proof.
  intros Hn Hr Hs Hi. apply (C51_tree_follows_its_view h s' s i e); auto.
  assert (G : forall l, forallb no_assign l = true -> assigned l i = false).
  { induction l as [|o l IH]; auto. cbn. rewrite andb_true_iff. intros [A B]. destruct o; try discriminate; auto. destruct (_ =? _); auto. }
  apply G. apply forallb_forall. intros o Ho. apply in_rev in Ho. rewrite forallb_forall in Hn. auto.
Qed.
End Spec.

(** Assigned views are not independent: rebinding, unbinding or destroying the right
    hand side changes, or invalidates, the tree of the left hand side. *)
Theorem C51_assignment_aliases_refuted {E} (a b : E) : a <> b ->
  let h := [VNew; VNew; VBind 0 a; VAssign 1 0] in
  (exists s s', vrun [] (h ++ [VBind 0 b]) = Some s /\ srun [] (h ++ [VBind 0 b]) = Some s' /\
     alive s' 1 = Some (Some a) /\ view_element s 1 = Some a /\ node_element s 1 = Some b) /\
  (exists s s', vrun [] (h ++ [VUnbind 0]) = Some s /\ srun [] (h ++ [VUnbind 0]) = Some s' /\
     alive s' 1 = Some (Some a) /\ view_element s 1 = Some a /\ node_element s 1 = None) /\
  (exists s s', vrun [] (h ++ [VDestroy 0]) = Some s /\ srun [] (h ++ [VDestroy 0]) = Some s' /\
     alive s' 1 = Some (Some a) /\ view_element s 1 = Some a /\ node_element s 1 = None /\ node_fe s 1 = None).
Proof. intros Hab h. repeat split; do 2 eexists; repeat split. Qed.

(** * The hypotheses are met *)
Example C51_hypotheses_met :
  exists s s', let h := [VNew; VBind 0 5; VCopy 0; VBind 0 6; VNew; VAssign 2 1; VBind 2 7; VDestroy 0; VUnbind 1] in
    vrun [] h = Some s /\ srun [] h = Some s' /\ alive s' 2 = Some (Some 7) /\ assigned (rev h) 2 = false.
Proof. do 2 eexists. repeat split. Qed.

Print Assumptions C51_view_state_is_a_value.
Print Assumptions C51_tree_follows_its_view.
Print Assumptions C51_copies_are_independent.
Print Assumptions C51_assignment_aliases_refuted.
