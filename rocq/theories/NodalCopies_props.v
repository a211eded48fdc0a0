(** C56: copies of the finite elements of the Hermite, Morley and Argyris bases. *)
From Coq Require Import List Arith Bool Lia.
From Verif Require Import Lib NodalCopies_model NodalCopies_spec.
Import ListNotations.

Section Copies.
Context {B : Type}.
Definition same (v : option (option B)) (o : option (fobj B)) : Prop :=
  match v, o with Some v, Some o => fo_data o = v | None, None => True | _, _ => False end.
(** the invariant; [h] is the history, latest first *)
Record inv (h : list (fop B)) (s : values B) (s0 : store B) : Prop := {
  iv_same : Forall2 same s s0;
  iv_new : forall i, length s0 <= i -> bound_itself h i = false;
  iv_basis : forall i f, obj s0 i = Some f -> assigned h i = false -> fo_basis f = i;
  iv_sizes : forall i f, obj s0 i = Some f -> bound_itself h i = true -> fo_sizes f = Some i }.

Lemma F2_len {X Y} (P : X -> Y -> Prop) l l' : Forall2 P l l' -> length l = length l'.
Proof. induction 1; cbn; auto. Qed.
Lemma F2_upd (s : values B) (s0 : store B) i v o s' : Forall2 same s s0 -> same v o -> upd s i v = Some s' ->
  exists s0', upd s0 i o = Some s0' /\ Forall2 same s' s0'.
Proof.
  intros H. revert i s'. induction H as [|a b l l0 Hab HF IH]; intros i s' Hs Hu; [destruct i; discriminate|].
  destruct i as [|i]; cbn in *.
  - injection Hu as <-. eauto.
  - destruct (upd l i v) as [l'|] eqn:El; [|discriminate]. injection Hu as <-.
    destruct (IH i l' Hs El) as (l0' & -> & H'). eexists. split; [reflexivity|]. now constructor.
Qed.
Lemma F2_value (s : values B) s0 i v : Forall2 same s s0 -> value s i = Some v -> exists o, obj s0 i = Some o /\ fo_data o = v.
Proof.
  intros H Hi. unfold value, obj in *. apply obind_Some in Hi as (w & Hw & ->).
  revert i Hw. induction H as [|a b l l0 Hab HF IH]; intros [|i] Hw; try discriminate; cbn in *; auto.
  injection Hw as ->. destruct b as [o|]; [|contradiction]. eauto.
Qed.
Lemma obj_upd (s s' : store B) i o j : upd s i o = Some s' -> obj s' j = (if j =? i then o else obj s j).
Proof. intros H. unfold obj. rewrite (upd_nth_error _ _ _ _ j H). destruct (Nat.eqb_spec j i); auto. Qed.
Lemma obj_lt (s : store B) i f : obj s i = Some f -> i < length s.
Proof. unfold obj. intros H. apply nth_error_Some. intros E. rewrite E in H. discriminate. Qed.
Lemma obj_app (s : store B) o j : obj (s ++ [o]) j = (if j =? length s then o else obj s j).
Proof.
  unfold obj. rewrite nth_error_app_eq. destruct (Nat.ltb_spec j (length s)).
  - destruct (Nat.eqb_spec j (length s)); [lia|auto].
  - destruct (Nat.eqb_spec j (length s)) as [->|].
    + now rewrite Nat.sub_diag.
    + assert (nth_error s j = None) as -> by (apply nth_error_None; lia). destruct (j - length s) as [|q] eqn:Ej; [lia|]. destruct q; reflexivity.
Qed.
Lemma step_ok h s s0 o s' : inv h s s0 -> sstep s o = Some s' -> exists s0', fstep s0 o = Some s0' /\ inv (o :: h) s' s0'.
Proof.
  intros [HS HN HB HZ] Hs. assert (HL := F2_len _ _ _ HS). destruct o as [|i b|i|i j|i]; cbn [sstep fstep] in *.
  - injection Hs as <-. eexists. split; [reflexivity|]. constructor; cbn [assigned existsb bound_itself orb].
    + apply Forall2_app; auto. repeat constructor.
    + intros k Hk. rewrite app_length in Hk. apply HN. lia.
    + intros k f. rewrite obj_app. destruct (Nat.eqb_spec k (length s0)) as [->|]; [|now apply HB]. intros [= <-] _. reflexivity.
    + intros k f. rewrite obj_app. destruct (Nat.eqb_spec k (length s0)) as [->|]; [|now apply HZ]. rewrite HN by lia. discriminate.
  - apply obind_Some in Hs as (v & Hv & Hs). destruct (F2_value _ _ _ _ HS Hv) as (o & Ho & _). rewrite Ho. cbn [obind].
    destruct (F2_upd s s0 i (Some (Some b)) (Some (FO (Some b) (fo_basis o) (Some i))) s' HS eq_refl Hs) as (s0' & Hu & HS').
    exists s0'. split; auto. assert (LU := upd_length _ _ _ _ Hu). constructor; cbn [assigned existsb bound_itself orb]; auto.
    + intros k Hk. apply obj_lt in Ho. destruct (Nat.eqb_spec i k); [lia|]. cbn. apply HN. lia.
    + intros k f. rewrite (obj_upd _ _ _ _ k Hu). destruct (Nat.eqb_spec k i) as [->|]; [|now apply HB]. intros [= <-] HA. cbn [fo_basis]. now apply (HB i o).
    + intros k f. rewrite (obj_upd _ _ _ _ k Hu). rewrite Nat.eqb_sym. destruct (Nat.eqb_spec i k) as [->|]; [intros [= <-]; reflexivity|now apply HZ].
  - apply obind_Some in Hs as (v & Hv & Hs). injection Hs as <-. destruct (F2_value _ _ _ _ HS Hv) as (o & Ho & Ev). rewrite Ho. cbn [obind]. eexists. split; [reflexivity|].
    constructor; cbn [assigned existsb bound_itself orb].
    + apply Forall2_app; auto.
    + intros k Hk. rewrite app_length in Hk. apply HN. lia.
    + intros k f. rewrite obj_app. destruct (Nat.eqb_spec k (length s0)) as [->|]; [|now apply HB]. intros [= <-] _. reflexivity.
    + intros k f. rewrite obj_app. destruct (Nat.eqb_spec k (length s0)) as [->|]; [|now apply HZ]. rewrite HN by lia. discriminate.
  - apply obind_Some in Hs as (v & Hv & Hs). apply obind_Some in Hs as (w & Hw & Hs). destruct (F2_value _ _ _ _ HS Hv) as (o & Ho & _). destruct (F2_value _ _ _ _ HS Hw) as (p & Hp & Ep). rewrite Ho, Hp. cbn [obind].
    destruct (F2_upd s s0 i (Some w) (Some p) s' HS Ep Hs) as (s0' & Hu & HS').
    exists s0'. split; auto. assert (LU := upd_length _ _ _ _ Hu). constructor; cbn [assigned existsb bound_itself]; auto.
    + intros k Hk. destruct (i =? k); auto. apply HN. lia.
    + intros k f. rewrite (obj_upd _ _ _ _ k Hu). rewrite Nat.eqb_sym. destruct (Nat.eqb_spec i k) as [->|]; [intros _ X; discriminate|now apply HB].
    + intros k f. rewrite (obj_upd _ _ _ _ k Hu). rewrite Nat.eqb_sym. destruct (Nat.eqb_spec i k) as [->|]; [intros _ X; discriminate|now apply HZ].
  - apply obind_Some in Hs as (v & Hv & Hs). destruct (F2_value _ _ _ _ HS Hv) as (o & Ho & _). rewrite Ho. cbn [obind].
    destruct (F2_upd s s0 i None None s' HS I Hs) as (s0' & Hu & HS').
    exists s0'. split; auto. assert (LU := upd_length _ _ _ _ Hu). constructor; cbn [assigned existsb bound_itself orb]; auto.
    + intros k Hk. apply HN. lia.
    + intros k f. rewrite (obj_upd _ _ _ _ k Hu). destruct (Nat.eqb_spec k i); [discriminate|now apply HB].
    + intros k f. rewrite (obj_upd _ _ _ _ k Hu). destruct (Nat.eqb_spec k i); [discriminate|now apply HZ].
Qed.
Lemma run_ok : forall r h s s0 s', inv h s s0 -> srun s r = Some s' -> exists s0', frun s0 r = Some s0' /\ inv (rev r ++ h) s' s0'.
Proof.
  induction r as [|o r IH]; intros h s s0 s' Hi Hr; cbn [srun frun rev app] in *; [injection Hr as <-; eauto|].
  apply obind_Some in Hr as (s1 & H1 & Hr). destruct (step_ok _ _ _ _ _ Hi H1) as (t1 & -> & Hi1). cbn [obind].
  destruct (IH _ _ _ _ Hi1 Hr) as (t' & -> & Hi'). eexists. split; [reflexivity|]. now rewrite <- app_assoc.
Qed.
Lemma history_ok r s : srun [] r = Some s -> exists t, frun [] r = Some t /\ inv (rev r) s t.
Proof.
  intros H. destruct (run_ok r [] [] [] s) as (t & Ht & Hi); auto; [|rewrite app_nil_r in Hi; eauto].
  constructor; auto; intros i f X; destruct i; discriminate.
Qed.
Lemma assigned_rev r i : assigned (rev r) i = assigned (B := B) r i.
Proof.
  unfold assigned. destruct (existsb _ r) eqn:E.
  - apply existsb_exists in E. destruct E as (o & I & H). apply existsb_exists. exists o. split; auto. now apply -> in_rev.
  - destruct (existsb _ (rev r)) eqn:E'; auto. apply existsb_exists in E'. destruct E' as (o & I & H). rewrite <- E. symmetry. apply existsb_exists. exists o. split; auto. now apply in_rev.
Qed.

(** After every history, the local basis of a finite element that has not been assigned to
    works with its own data, whatever happens to the finite elements it was copied from or
    that were copied from it. *)
Theorem C56_local_basis_partial (h : list (fop B)) s i : srun [] h = Some s -> assigned h i = false ->
  exists t, frun [] h = Some t /\ forall v, value s i = Some v -> basis_data t i = v.
Proof.
  intros H A. destruct (history_ok h s H) as (t & Ht & [HS _ HB _]). exists t. split; auto. intros v Hv.
  destruct (F2_value _ _ _ _ HS Hv) as (f & Hf & Ev). unfold basis_data. rewrite Hf. cbn [obind]. rewrite (HB i f Hf) by now rewrite assigned_rev. now rewrite Hf.
Qed.
(** The interpolation of a finite element that was bound itself since it was made or last
    assigned to works with its own data. *)
Theorem C56_interpolation_partial (h : list (fop B)) s i : srun [] h = Some s -> bound_itself (rev h) i = true ->
  exists t, frun [] h = Some t /\ forall v, value s i = Some v -> sizes_data t i = v /\ nodes_data t i = v.
Proof.
  intros H A. destruct (history_ok h s H) as (t & Ht & [HS _ _ HZ]). exists t. split; auto. intros v Hv.
  destruct (F2_value _ _ _ _ HS Hv) as (f & Hf & Ev). unfold sizes_data, nodes_data. rewrite Hf. cbn [obind]. rewrite (HZ i f Hf A). cbn [obind]. rewrite Hf. cbn [obind]. auto.
Qed.
(** Morley's interpolation always works with its own data. *)
Theorem C56_morley_interpolation (h : list (fop B)) s : srun [] h = Some s ->
  exists t, frun [] h = Some t /\ forall i v, value s i = Some v -> nodes_data t i = v.
Proof.
  intros H. destruct (history_ok h s H) as (t & Ht & [HS _ _ HZ]). exists t. split; auto. intros i v Hv.
  destruct (F2_value _ _ _ _ HS Hv) as (f & Hf & Ev). unfold nodes_data. now rewrite Hf.
Qed.
(** Otherwise not: the interpolation of a copy uses the mesh sizes of the original, also after
    that was bound to another element, and dangles when it is destroyed. *)
Theorem C56_copied_interpolation_refuted (b b' : B) : b <> b' ->
  (exists t, frun [] [FNew; FBind 0 b; FCopy 0; FBind 0 b'] = Some t /\ nodes_data t 1 = Some b /\ sizes_data t 1 = Some b') /\
  (exists t, frun [] [FNew; FBind 0 b; FCopy 0; FDestroy 0] = Some t /\ nodes_data t 1 = Some b /\ sizes_data t 1 = None).
Proof. intros _. split; eexists; (split; [reflexivity|split; reflexivity]). Qed.
(** The local basis of a finite element that was assigned to evaluates the shape functions of
    the right hand side, even after both were bound to other elements. *)
Theorem C56_assignment_refuted (b0 b1 b b' : B) : b <> b' ->
  (exists t, frun [] [FNew; FBind 0 b0; FNew; FBind 1 b1; FAssign 0 1; FBind 0 b; FBind 1 b'] = Some t /\
     nodes_data t 0 = Some b /\ basis_data t 0 = Some b') /\
  (exists t, frun [] [FNew; FBind 0 b0; FNew; FBind 1 b1; FAssign 0 1; FBind 0 b; FDestroy 1] = Some t /\
     nodes_data t 0 = Some b /\ basis_data t 0 = None).
Proof. intros _. split; eexists; (split; [reflexivity|split; reflexivity]). Qed.
End Copies.

(** a history with copies, rebinds and a destroyed original *)
Definition ex_history : list (fop nat) := [FNew; FBind 0 5; FCopy 0; FBind 0 6; FCopy 1; FBind 2 7; FDestroy 0].
Example C56_ex_history : srun [] ex_history = Some [None; Some (Some 5); Some (Some 7)] /\ assigned ex_history 1 = false /\ bound_itself (rev ex_history) 2 = true /\ bound_itself (rev ex_history) 1 = false.
Proof. repeat split. Qed.

Print Assumptions C56_local_basis_partial.
Print Assumptions C56_interpolation_partial.
Print Assumptions C56_morley_interpolation.
Print Assumptions C56_copied_interpolation_refuted.
Print Assumptions C56_assignment_refuted.
