(** C77: copies of the finite elements of the B-spline basis. *)
From Coq Require Import List Arith Bool Lia Reals Lra.
From Verif Require Import Lib BSpline_model BSplineCopies_model.
Import ListNotations.
Open Scope nat_scope.

(** * Specification *)

(** The element that finite element number [i] was itself last bound to, in the history
    [h]; the finite elements are numbered as they are constructed. *)
Fixpoint last_bind (h : list sop) (i : nat) : option nat :=
  match h with
  | [] => None
  | o :: r => match last_bind r i with
              | Some e => Some e
              | None => match o with SBind j e => if j =? i then Some e else None | _ => None end
              end
  end.

Section Proofs.
Variable dirs : list dir.

Definition inv (s : sstore) (b : nat -> option nat) : Prop :=
  (forall i, length s <= i -> b i = None) /\
  forall i f, sobj_at s i = Some f -> so_lfe f = i /\ so_map f = so_span f /\
    forall e, b i = Some e -> so_span f = bind dirs e.

Lemma last_bind_app h o i : last_bind (h ++ [o]) i =
  match o with SBind j e => if j =? i then Some e else last_bind h i | _ => last_bind h i end.
Proof.
  induction h as [|a h IH]; cbn [app last_bind].
  - destruct o; auto.
  - rewrite IH. destruct o as [|j e|j|j]; auto. destruct (j =? i); auto.
Qed.
Lemma at_app (s : sstore) o j : sobj_at (s ++ [o]) j = (if j =? length s then o else sobj_at s j).
Proof.
  unfold sobj_at. rewrite nth_error_app_eq. destruct (Nat.ltb_spec j (length s)).
  - destruct (Nat.eqb_spec j (length s)); [lia|auto].
  - destruct (Nat.eqb_spec j (length s)) as [->|].
    + now rewrite Nat.sub_diag.
    + assert (nth_error s j = None) as -> by (apply nth_error_None; lia). destruct (j - length s) as [|q] eqn:Ej; [lia|]. destruct q; reflexivity.
Qed.
Lemma at_upd (s s' : sstore) i o j : upd s i o = Some s' -> sobj_at s' j = (if j =? i then o else sobj_at s j).
Proof. intros H. unfold sobj_at. rewrite (upd_nth_error _ _ _ _ j H). destruct (Nat.eqb_spec j i); auto. Qed.
Lemma at_lt (s : sstore) i f : sobj_at s i = Some f -> i < length s.
Proof. unfold sobj_at. intros H. apply nth_error_Some. intros E. rewrite E in H. discriminate. Qed.

Lemma run_inv : forall h s h0, inv s (last_bind h0) -> forall s', srun dirs s h = Some s' -> inv s' (last_bind (h0 ++ h)).
Proof.
  induction h as [|o h IH]; intros s h0 HI s' HR; cbn [srun] in HR.
  { injection HR as <-. now rewrite app_nil_r. }
  apply obind_Some in HR as (s1 & H1 & HR). replace (h0 ++ o :: h) with ((h0 ++ [o]) ++ h) by now rewrite <- app_assoc.
  apply (IH s1); auto. clear IH HR. destruct HI as [HN HV]. unfold inv.
  assert (HLB := fun i => last_bind_app h0 o i).
  destruct o as [|i e|i|i]; cbn [sstep] in H1.
  - injection H1 as <-. split.
    + intros i Hi. rewrite app_length in Hi. rewrite HLB. apply HN. lia.
    + intros i f. rewrite at_app, HLB. destruct (Nat.eqb_spec i (length s)) as [->|]; [|apply HV].
      intros [= <-]. cbn. split; auto. split; auto. intros e. rewrite HN by lia. discriminate.
  - apply obind_Some in H1 as (f & Hf & H1). apply obind_Some in H1 as (sp & Hsp & H1).
    assert (Hl := at_lt _ _ _ Hf). assert (LU := upd_length _ _ _ _ H1). split.
    + intros k Hk. rewrite HLB. destruct (Nat.eqb_spec i k); [lia|]. apply HN. lia.
    + intros k g. rewrite (at_upd _ _ _ _ k H1), HLB, Nat.eqb_sym. destruct (Nat.eqb_spec i k) as [->|]; [|apply HV].
      intros [= <-]. cbn. destruct (HV k f Hf) as (A & _ & _). split; auto. split; auto. intros e' [= <-]. auto.
  - apply obind_Some in H1 as (f & Hf & H1). injection H1 as <-. split.
    + intros k Hk. rewrite app_length in Hk. rewrite HLB. apply HN. lia.
    + intros k g. rewrite at_app, HLB. destruct (Nat.eqb_spec k (length s)) as [->|]; [|apply HV].
      intros [= <-]. cbn. split; auto. split; auto. intros e. rewrite HN by lia. discriminate.
  - apply obind_Some in H1 as (f & Hf & H1). assert (LU := upd_length _ _ _ _ H1). split.
    + intros k Hk. rewrite HLB. apply HN. lia.
    + intros k g. rewrite (at_upd _ _ _ _ k H1), HLB. destruct (Nat.eqb_spec k i) as [->|]; [discriminate|apply HV].
Qed.

(** After any history of constructing, binding, copying and destroying finite elements, one
    that exists and was itself bound has the size and the shape functions of the element it
    was last bound to, whatever happened to the others. *)
Theorem C77_bound_finite_elements_partial h s i f e sp x :
  srun dirs [] h = Some s -> sobj_at s i = Some f -> last_bind h i = Some e -> bind dirs e = Some sp ->
  so_size dirs s i = Some (node_size dirs sp) /\ so_evaluate dirs s i x = Some (lb_evaluateFunction dirs sp x).
Proof.
  intros HR Hf Hb Hsp.
  assert (HI : inv s (last_bind ([] ++ h))).
  { apply (run_inv h [] []); auto. split; [reflexivity|]. intros k g Hg. destruct k; discriminate. }
  destruct HI as [_ HV]. destruct (HV i f Hf) as (A & B & C). specialize (C e Hb).
  unfold so_size, so_evaluate. rewrite Hf. cbn [obind]. rewrite A, B, Hf. cbn [obind]. rewrite C, Hsp. cbn [obind]. auto.
Qed.

(** The full claim would be that a copy of a bound finite element is bound, too.  It is
    wrong in every case: whatever a finite element was bound to, until its copy is itself
    bound, size() and the local basis of the copy read uninitialized members. *)
Theorem C77_copies_refuted h s i s' :
  srun dirs [] h = Some s -> sstep dirs s (SCopy i) = Some s' ->
  so_size dirs s' (length s) = None /\ forall x, so_evaluate dirs s' (length s) x = None.
Proof.
  intros _ HS. cbn in HS. apply obind_Some in HS as (f & _ & HS). injection HS as <-.
  unfold so_size, so_evaluate. rewrite at_app, Nat.eqb_refl. auto.
Qed.
End Proofs.

(** * The hypotheses are met: two finite elements on a patch of two elements, the second a
    copy of the first that is bound to another element; then the first is destroyed. *)
Definition ex_dirs : list dir := [DIR [0; 0; 1; 2; 2]%R 1 2].
Definition ex_hist : list sop := [SNew; SBind 0 0; SCopy 0; SBind 1 1; SDestroy 0].
Lemma tol8_bound : (0 < tol8 < 1)%R.
Proof.
  unfold tol8. assert (1 < 10 ^ 8)%R by (cbn [pow]; lra). split; [apply Rinv_0_lt_compat; lra|].
  rewrite <- Rinv_1. apply Rinv_lt_contravar; lra.
Qed.
Lemma ex_binds : bind ex_dirs 0 = Some [1] /\ bind ex_dirs 1 = Some [2].
Proof.
  pose proof tol8_bound as HT.
  unfold bind, ex_dirs. cbn [map d_elements getIJK combine map_opt fst snd d_knots Nat.modulo Nat.divmod Nat.div Nat.sub].
  unfold bind1. cbn [length skip nth_error Nat.add obind].
  destruct (Rlt_dec 0 (0 + tol8)) as [_|N]; [|exfalso; lra]. cbn [skip nth_error Nat.add obind].
  destruct (Rlt_dec 1 (0 + tol8)) as [N|_]; [exfalso; lra|]. change (0 mod 2) with 0. change (1 mod 2) with 1.
  cbn [Basis_model.forl obind nth_error Nat.add]. split; [reflexivity|].
  destruct (Rlt_dec 2 (1 + tol8)) as [N|_]; [exfalso; lra|]. reflexivity.
Qed.
Example C77_hypotheses_met : exists s f,
  srun ex_dirs [] ex_hist = Some s /\ sobj_at s 1 = Some f /\ last_bind ex_hist 1 = Some 1 /\ bind ex_dirs 1 = Some [2] /\
  sobj_at s 0 = None.
Proof.
  destruct ex_binds as [H0 H1]. eexists. eexists. split.
  - unfold ex_hist. cbn [srun sstep app obind sobj_at nth_error length]. rewrite H0. cbn [obind upd so_lfe app nth_error length]. rewrite H1.
    cbn. reflexivity.
  - cbn. auto.
Qed.
(** The copy of a bound finite element exists, and the original is usable. *)
Example C77_copies_met : exists s s',
  srun ex_dirs [] [SNew; SBind 0 0] = Some s /\ sstep ex_dirs s (SCopy 0) = Some s' /\ so_size ex_dirs s' 0 = Some 2.
Proof.
  destruct ex_binds as [H0 _]. eexists. eexists. split.
  - cbn [srun sstep app obind sobj_at nth_error length]. rewrite H0. cbn. reflexivity.
  - split; reflexivity.
Qed.

Print Assumptions C77_bound_finite_elements_partial.
Print Assumptions C77_copies_refuted.
