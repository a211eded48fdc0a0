(** Interpolation on the two triangles of NodalFunctions_example. *)
From Coq Require Import List Arith Lia Bool Reals Lra.
From Verif Require Import Lib Basis_model Basis_spec Basis_ok Basis_view Basis_props Container_model Container_spec Container_props
  Interpolate_model Interpolate_props DiscreteFunction_model DiscreteFunction_spec Projection_spec Mapper_spec NodalFunctions_example.
From Verif Require Import Orientation_model Triangle_spec Mapper_model.
From Verif Require Triangle_example.
Import ListNotations.
Local Open Scope R_scope.

Section Example.
Variables (l : leaf bool) (N : nat) (interp : bool -> list nat -> list R).
Hypothesis LO : leaf_ok els2 l.
Hypothesis LN : forall e, lf_fe l e = N.
Hypothesis LD : lf_dim l <> 0%nat.
Hypothesis LI : forall e p, length (interp e p) = N.
Notation b := (BLeaf l).
Notation t := (TDyn TScalar).
Lemma call2_ok : call_ok b els2 [] t interp (CBlk []) [false; true].
Proof.
  constructor.
  - exact LO.
  - cbn. eauto.
  - intros e v p n He H1 H2 H3. destruct (leaf2 l N LN e v p n) as [_ ->]; [repeat split; auto|]. rewrite LI. auto.
  - intros e _. apply all2.
  - repeat constructor.
  - intros p u H Hu. destruct p as [|i [|j p]]; cbn in H, Hu.
    + destruct (lf_dim l); cbn in H; discriminate.
    + injection Hu as <-. reflexivity.
    + discriminate.
Qed.
Lemma run2 : exists c', interpolate t (fun _ => true) interp 0 (subspace_of_root (build b) []) [false; true] (CBlk []) = Done c'.
Proof.
  pose proof (C25_throws_iff_resize_throws b els2 [] t (fun _ => true) interp 0 (CBlk []) [false; true] call2_ok) as HT.
  destruct (interpolate _ _ _ _ _ _ _) as [c'| |]; [eauto| |contradiction]. exfalso. revert HT. unfold backend_resize. cbn. destruct (lf_dim l) as [|d]; [contradiction|]. cbn [Nat.eqb].
  assert (Q : forall xs k, Forall (fun x => exists r : R, x = CVal r) xs ->
    each (fun (_ : nat) (x : cont R) => match x with CVal _ => Done x | CBlk _ => Undef end) k xs = Done xs).
  { induction xs as [|x xs IH]; intros k F; [reflexivity|]. inversion F as [|? ? (r & ->) F']; subst. cbn. rewrite IH by auto. reflexivity. }
  rewrite Q; [discriminate|]. unfold vresize. apply Forall_forall. intros x Hx. apply in_app_or in Hx as [Hx|Hx]; [now rewrite firstn_nil in Hx|]. apply repeat_spec in Hx as ->. eauto.
Qed.
Lemma contents2_ok (su : setup bool (list R)) c' : su_cdim su = 1%nat ->
  interpolate t (fun _ => true) interp 0 (subspace_of_root (build b) []) [false; true] (CBlk []) = Done c' -> coefs_ok b els2 su (contents t c').
Proof.
  intros Hc HI m Hm. pose proof (C25_throws_iff_resize_throws b els2 [] t (fun _ => true) interp 0 (CBlk []) [false; true] call2_ok) as HT.
  rewrite HI in HT. destruct HT as [c0 HR].
  destruct (interpolate_effect b els2 [] t (fun _ => true) interp 0 (CBlk []) [false; true] c0 call2_ok HR) as (c1 & H1 & _ & _ & HB & HV). rewrite HI in H1. injection H1 as <-.
  destruct (addressed b els2 [] t (fun _ => true) interp 0 (CBlk []) [false; true] c0 m call2_ok HR Hm) as (a & v & Ha & Hv).
  unfold contents, read. rewrite (HB m Hm), Ha. destruct (HV a v Hv) as [(e & m' & x & _ & _ & _ & _ & ->)|[-> _]]; eexists; split; eauto.
Qed.
End Example.
Lemma vertices2_num e e' i j : (i < 3)%nat -> (j < 3)%nat -> g_sub grid2 e i 2 = g_sub grid2 e' j 2 -> fg_vidx Triangle_example.two e i = fg_vidx Triangle_example.two e' j.
Proof.
  intros Hi Hj. revert e e'. destruct i as [|[|[|i]]]; [..|lia]; (destruct j as [|[|[|j]]]; [..|lia]); intros [|] [|]; cbn; intros Q; try discriminate; reflexivity.
Qed.
Lemma edges2_ends e e' i j : (i < 3)%nat -> (j < 3)%nat -> g_sub grid2 e i 1 = g_sub grid2 e' j 1 -> same_edge Triangle_example.two e i e' j.
Proof.
  intros Hi Hj. revert e e'. destruct i as [|[|[|i]]]; [..|lia]; (destruct j as [|[|[|j]]]; [..|lia]); intros [|] [|]; cbn; intros Q; try discriminate; ((left; reflexivity) || (right; reflexivity)).
Qed.
