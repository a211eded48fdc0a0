(** The two triangles of Triangle_example, with functions of one of the bases on them. *)
From Coq Require Import List Arith Lia Bool Reals Lra.
From Verif Require Import Lib Basis_model Basis_spec Basis_ok Basis_view Basis_props Container_model Container_spec FlatVector_model FlatVector_props
  DiscreteFunction_model DiscreteFunction_spec DiscreteFunction_proofs DiscreteFunction_props Nodal_spec Nodal_poly NodalFunctions_spec.
From Verif Require Import GeometryType_model Mapper_model Mapper_spec Mapper_props MeshSize_props.
From Verif Require Hermite_props Triangle_example.
Import ListNotations.
Local Open Scope R_scope.

Notation grid2 := Hermite_props.ex_grid2.
Definition els2 (e : bool) : Prop := In e [false; true].
Lemma all2 e : els2 e. Proof. destruct e; cbn; tauto. Qed.
(** 4 vertices, 5 edges and 2 triangles with nv, ne and nc numbers each *)
Definition mapper2 (nv ne nc : nat) : mapper nat :=
  MAP (4 * nv + 5 * ne + 2 * nc)
    (fun x => if x <? 4 then nv * x else if x <? 9 then 4 * nv + ne * (x - 4) else 4 * nv + 5 * ne + nc * (x - 9))%nat.
Section Layout.
Variables (nv ne nc : nat) (lay : gt -> nat).
Hypothesis Lv : lay [] = nv.
Hypothesis Le : lay [true] = ne /\ lay [false] = ne.
Hypothesis Lc : lay [false; true] = nc.
Lemma mapper2_ok : mapper_ok els2 grid2 lay (mapper2 nv ne nc).
Proof.
  destruct Le as [Le1 Le2]. constructor.
  - intros x t i (e & a & c & _ & H & ->) Hi. ex_cases H; rewrite ?Lv, ?Le1, ?Le2, ?Lc in Hi; destruct e; cbn; lia.
  - intros x t i y t' j (e & a & c & _ & H & ->) (e' & a' & c' & _ & H' & ->) Hi Hj Q.
    ex_cases H; rewrite ?Lv, ?Le1, ?Le2, ?Lc in Hi; ex_cases H'; rewrite ?Lv, ?Le1, ?Le2, ?Lc in Hj;
      destruct e, e'; cbn in Q |- *; try (exfalso; lia); split; try reflexivity; lia.
  - intros n Hn. cbn [mapper2 mp_size] in Hn.
    assert (K : forall e i c t, subtype grid2 e i c t -> (mp_off (mapper2 nv ne nc) (g_sub grid2 e i c) <= n < mp_off (mapper2 nv ne nc) (g_sub grid2 e i c) + lay t)%nat ->
      exists x t i, entity els2 grid2 x t /\ (i < lay t)%nat /\ n = (mp_off (mapper2 nv ne nc) x + i)%nat).
    { intros e i c t H L. exists (g_sub grid2 e i c), t, (n - mp_off (mapper2 nv ne nc) (g_sub grid2 e i c))%nat. split; [|lia].
      exists e, i, c. split; [apply all2|]. auto. }
    destruct (le_lt_dec nv n); [|apply (K false 0 2 [])%nat; [reflexivity|rewrite Lv; cbn; lia]].
    destruct (le_lt_dec (2 * nv) n); [|apply (K false 1 2 [])%nat; [reflexivity|rewrite Lv; cbn; lia]].
    destruct (le_lt_dec (3 * nv) n); [|apply (K false 2 2 [])%nat; [reflexivity|rewrite Lv; cbn; lia]].
    destruct (le_lt_dec (4 * nv) n); [|apply (K true 1 2 [])%nat; [reflexivity|rewrite Lv; cbn; lia]].
    destruct (le_lt_dec (4 * nv + ne) n); [|apply (K false 0 1 [true])%nat; [reflexivity|rewrite Le1; cbn; lia]].
    destruct (le_lt_dec (4 * nv + 2 * ne) n); [|apply (K false 1 1 [false])%nat; [reflexivity|rewrite Le2; cbn; lia]].
    destruct (le_lt_dec (4 * nv + 3 * ne) n); [|apply (K false 2 1 [false])%nat; [reflexivity|rewrite Le2; cbn; lia]].
    destruct (le_lt_dec (4 * nv + 4 * ne) n); [|apply (K true 0 1 [true])%nat; [reflexivity|rewrite Le1; cbn; lia]].
    destruct (le_lt_dec (4 * nv + 5 * ne) n); [|apply (K true 2 1 [false])%nat; [reflexivity|rewrite Le2; cbn; lia]].
    destruct (le_lt_dec (4 * nv + 5 * ne + nc) n); [|apply (K false 0 0 [false; true])%nat; [reflexivity|rewrite Lc; cbn; lia]].
    apply (K true 0 0 [false; true])%nat; [reflexivity|rewrite Lc; cbn; lia].
Qed.
End Layout.
Lemma grid2_ok : grid_ok els2 grid2.
Proof.
  destruct C55_ex_grid as [G1 G2 G3]. constructor; [intros e _; now apply G1|intros e i c t i' c' t' _; now apply G2|intros e i c t e' i' c' t' _ _; now apply G3].
Qed.
Lemma types2_ok : types_ok els2 grid2 [[false; true]].
Proof. intros e _. exists [false; true]. split; [now left|]. destruct e; split; reflexivity. Qed.
Lemma edges2 e e' i j : (i < 3)%nat -> (j < 3)%nat -> Triangle_spec.same_edge Triangle_example.two e i e' j -> g_sub grid2 e i 1 = g_sub grid2 e' j 1.
Proof.
  intros Hi Hj. revert e e'. destruct i as [|[|[|i]]]; [..|lia]; (destruct j as [|[|[|j]]]; [..|lia]); intros [|] [|]; cbn; intros [Q|Q]; try discriminate; reflexivity.
Qed.

(** Values and derivatives exist. *)
Lemma values_exist {E X} (b : bexpr E) path els (su : setup E X) c e x : setup_ok b path els su -> coefs_ok b els su c -> els e ->
  exists y dy, is_value b path su e c x y /\ is_derivative b path su e c x dy.
Proof.
  intros OKS Hc He. set (h := [OpNew false; OpBind 0 e; OpDerivative 0]).
  assert (Hh : Forall (op_ok b els su) h) by (repeat constructor; auto).
  assert (R : sf_run ([], c) h = Some ([SF false (Some (e, c)); SF true (Some (e, c))], c)) by reflexivity.
  destruct (C26_histories_are_defined b path els su c h OKS Hc Hh _ _ R) as (w & Hw & L).
  destruct (w_pool w) as [|f [|df [|]]] eqn:W; try discriminate.
  destruct (C26_value_is_the_weighted_sum b path els su c h OKS Hc Hh _ _ w 0%nat e c f x R Hw eq_refl) as (y & _ & Y); [now rewrite W|].
  destruct (C26_derivative_is_the_weighted_sum b path els su c h OKS Hc Hh _ _ w 1%nat e c df x R Hw eq_refl) as (dy & _ & DY); [now rewrite W|].
  eauto.
Qed.
(** inverses of the Jacobians *)
Definition jinv2 (e : bool) : list (list R) := if e then [[3/8; 1/8]; [-1/4; 1/4]] else [[1/2; -1/6]; [0; 1/3]].
Section Setup.
Variables (l : leaf bool) (N : nat) (phi : bool -> list R -> list R) (dphi : bool -> nat -> list R -> list R).
Definition su2 : setup bool (list R) := SU (subspace_of_root (build (BLeaf l)) []) 1 (fun _ => 1%nat) 2 2
  (fun e _ x => map (fun r => [r]) (phi e x))
  (fun e _ x => map (fun i => [nth i (dphi e 0%nat x) 0; nth i (dphi e 1%nat x) 0]) (seq 0 N))
  (fun e _ l g => nth g (nth l (jinv2 e) []) 0)
  (CVal 0) (fun _ => FScalar) (CBlk [CVal 0; CVal 0]) (fun _ => FVec (Some 2%nat) FScalar).
Hypothesis LO : leaf_ok els2 l.
Hypothesis LN : forall e, lf_fe l e = N.
Hypothesis LP : forall e x, length (phi e x) = N.
Hypothesis LD : forall e k x, length (dphi e k x) = N.
Lemma leaf2 e v p n : leaf_of (BLeaf l) [] e v p n -> p = [] /\ node_size n = N.
Proof.
  intros (H1 & H2 & H3). unfold lv_bind in H1. apply obind_Some in H1 as ([b' q] & _ & H1). injection H1 as <-. cbn [lv_tree app] in H2.
  destruct p as [|i p]; cbn in H2; [|destruct i; discriminate]. injection H2 as <-. cbn. split; auto.
Qed.
Lemma leaf2_ex e : exists w n, leaf_of (BLeaf l) [] e w [] n /\ node_size n = N.
Proof.
  pose proof (bind_new_ok els2 _ _ e (build_ok (BLeaf l) els2 LO) (all2 e)) as H. eexists. eexists. split; [split; [exact H|split; reflexivity]|]. cbn. apply LN.
Qed.
Lemma setup2_ok : setup_ok (BLeaf l) [] els2 su2.
Proof.
  constructor.
  - exact LO.
  - cbn. eauto.
  - reflexivity.
  - intros e v p n x He L. destruct (leaf2 e v p n L) as [-> ->]. cbn [su2 su_shape su_vdim]. rewrite map_length. split; [apply LP|].
    apply Forall_forall. intros s Hs. apply in_map_iff in Hs as (r & <- & _). reflexivity.
  - intros e v p n x He L. destruct (leaf2 e v p n L) as [-> ->]. cbn [su2 su_jac su_vdim su_ldim]. rewrite map_length, seq_length. split; auto.
    apply Forall_forall. intros s Hs. apply in_map_iff in Hs as (r & <- & _). reflexivity.
  - intros e v p n He L. destruct (leaf2 e v p n L) as [-> _]. split; [|now left]. eexists. repeat split; reflexivity.
  - intros e v p n He L. destruct (leaf2 e v p n L) as [-> _]. split; [|now left]. eexists. (split; [reflexivity|]). repeat split; repeat constructor.
Qed.
Lemma element2_ok e ef ej : (forall x, is_vec 2 x -> ef x = Some (phi e x)) -> (forall x k, is_vec 2 x -> (k < 2)%nat -> ej x k = Some (dphi e k x)) ->
  leaf_element su2 [] 2 (Triangle_example.P e) e ef ej.
Proof.
  intros EF EJ. constructor; [reflexivity|split; reflexivity| | |].
  - intros x f Hx Hf. rewrite EF in Hf by auto. injection Hf as <-. reflexivity.
  - intros x k J i Hx Hk HJ. rewrite EJ in HJ by auto. injection HJ as <-. unfold jac_of. cbn [su2 su_jac su_ldim].
    destruct (Nat.lt_ge_cases i N) as [Hi|Hi].
    + rewrite (nth_indep _ [] [nth 0 (dphi e 0%nat x) 0; nth 0 (dphi e 1%nat x) 0]) by (rewrite map_length, seq_length; auto).
      rewrite (map_nth (fun i => [nth i (dphi e 0%nat x) 0; nth i (dphi e 1%nat x) 0])), seq_nth by auto.
      destruct k as [|[|k]]; [reflexivity|reflexivity|lia].
    + rewrite (nth_overflow (map _ _)) by (rewrite map_length, seq_length; auto). rewrite (nth_overflow (dphi e k x)) by (rewrite LD; auto). destruct (0 * 2 + k)%nat; reflexivity.
  - intros x m g Hx Hm Hg. rewrite rsum_S, rsum_S. change (rsum 0 _) with 0. destruct e; (destruct m as [|[|m]]; [| |lia]); (destruct g as [|[|g]]; [| |lia]); cbn; lra.
Qed.
End Setup.
