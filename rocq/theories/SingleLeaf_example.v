(** A basis with one leaf whose coefficients are a vector of numbers: interpolate() can be
    called and returns a vector that a discrete function can use.  For examples. *)
From Coq Require Import List Arith Lia Bool Reals Lra.
From Verif Require Import Lib Basis_model Basis_spec Basis_ok Basis_view Basis_props Container_model Container_spec Container_props
  Interpolate_model Interpolate_props DiscreteFunction_model DiscreteFunction_spec Projection_spec.
Import ListNotations.
Local Open Scope R_scope.

Section Example.
Context {E : Type}.
Variables (l : leaf E) (els : E -> Prop) (es : list E) (interp : E -> list nat -> list R).
Hypothesis LO : leaf_ok els l.
Hypothesis LES : forall e, In e es -> els e.
Hypothesis LD : lf_dim l <> 0%nat.
Hypothesis LI : forall e p, els e -> length (interp e p) = lf_fe l e.
Notation b := (BLeaf l).
Notation t := (TDyn TScalar).
Lemma single_leaf e v p n : els e -> leaf_of b [] e v p n -> p = [] /\ node_size n = lf_fe l e.
Proof.
  intros He (H1 & H2 & H3).
  assert (W : wf els b) by exact LO.
  rewrite (bind_new_ok els _ _ e (build_ok b els W) He) in H1. injection H1 as <-. cbn [lv_tree app] in H2.
  destruct p as [|i p]; [|destruct i; discriminate]. cbn in H2. injection H2 as <-. auto.
Qed.
Lemma single_leaf_ex e : els e -> exists v n, leaf_of b [] e v [] n /\ node_size n = lf_fe l e.
Proof.
  intros He. assert (W : wf els b) by exact LO.
  eexists. eexists. split; [split; [apply (bind_new_ok els _ _ e (build_ok b els W) He)|]|]; [split; reflexivity|reflexivity].
Qed.
Lemma call1_ok : call_ok b els [] t interp (CBlk []) es.
Proof.
  constructor.
  - exact LO.
  - cbn. eauto.
  - intros e v p n He H1 H2 H3. destruct (single_leaf e v p n He) as [_ ->]; [repeat split; auto|]. rewrite LI by auto. auto.
  - exact LES.
  - repeat constructor.
  - intros p u H Hu. destruct p as [|i [|j p]]; cbn in H, Hu.
    + destruct (lf_dim l); cbn in H; discriminate.
    + injection Hu as <-. reflexivity.
    + discriminate.
Qed.
Lemma run1 : exists c', interpolate t (fun _ => true) interp 0 (subspace_of_root (build b) []) es (CBlk []) = Done c'.
Proof.
  pose proof (C25_throws_iff_resize_throws b els [] t (fun _ => true) interp 0 (CBlk []) es call1_ok) as HT.
  destruct (interpolate _ _ _ _ _ _ _) as [c'| |]; [eauto| |contradiction]. exfalso. revert HT. unfold backend_resize. cbn. destruct (lf_dim l) as [|d]; [contradiction|]. cbn [Nat.eqb].
  assert (Q : forall xs k, Forall (fun x => exists r : R, x = CVal r) xs ->
    each (fun (_ : nat) (x : cont R) => match x with CVal _ => Done x | CBlk _ => Undef end) k xs = Done xs).
  { induction xs as [|x xs IH]; intros k F; [reflexivity|]. inversion F as [|? ? (r & ->) F']; subst. cbn. rewrite IH by auto. reflexivity. }
  rewrite Q; [discriminate|]. unfold vresize. apply Forall_forall. intros x Hx. apply in_app_or in Hx as [Hx|Hx]; [now rewrite firstn_nil in Hx|]. apply repeat_spec in Hx as ->. eauto.
Qed.
Lemma contents1_ok {X} (su : setup E X) c' : su_cdim su = 1%nat ->
  interpolate t (fun _ => true) interp 0 (subspace_of_root (build b) []) es (CBlk []) = Done c' -> coefs_ok b els su (contents t c').
Proof.
  intros Hc HI m Hm. pose proof (C25_throws_iff_resize_throws b els [] t (fun _ => true) interp 0 (CBlk []) es call1_ok) as HT.
  rewrite HI in HT. destruct HT as [c0 HR].
  destruct (interpolate_effect b els [] t (fun _ => true) interp 0 (CBlk []) es c0 call1_ok HR) as (c1 & H1 & _ & _ & HB & HV). rewrite HI in H1. injection H1 as <-.
  destruct (addressed b els [] t (fun _ => true) interp 0 (CBlk []) es c0 m call1_ok HR Hm) as (a & v & Ha & Hv).
  unfold contents, read. rewrite (HB m Hm), Ha. destruct (HV a v Hv) as [(e & m' & x & _ & _ & _ & _ & ->)|[-> _]]; eexists; split; eauto.
Qed.
End Example.
