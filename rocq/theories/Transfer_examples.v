(** The hypotheses of C73 are met: two continuous linear components on the two halves of an
    interval, interpolated into the discontinuous linear functions. *)
From Coq Require Import List Arith Bool Reals Lia Lra.
From Verif Require Import Lib Basis_model Basis_spec Basis_proofs Basis_props Container_model Container_spec Container_props
  FlatVector_model FlatVector_props Interpolate_model Interpolate_props DiscreteFunction_model DiscreteFunction_spec DiscreteFunction_proofs DiscreteFunction_props
  Projection_model Projection_spec Projection_props Projection_examples TransformFun_props Transfer_spec Transfer_proofs Transfer_props.
Import ListNotations.
#[local] Arguments Nat.ltb : simpl never.

Definition ex73_dg : leaf nat := {| lf_dim := 4; lf_maxnode := 2; lf_fe := fun _ => 2; lf_indices := fun e => [2 * e; 2 * e + 1] |}.
Lemma ex73_dg_ok : leaf_ok ex_els ex73_dg.
Proof.
  constructor; cbn; unfold ex_els; auto.
  - intros e g He H. repeat destruct H as [<-|H]; try lia; contradiction.
  - intros g Hg. do 4 (destruct g as [|g]; [first [exists 0; split; [lia|tauto] | exists 1; split; [lia|tauto]]|]). lia.
Qed.
Definition ex73_b : bexpr nat := BPower true 2 BlockedInterleaved (BLeaf ex73_dg).
Definition ex73_su : setup nat R := SU (subspace_of_root (build ex73_b) []) 1 (fun _ => 1) 1 1
  (fun _ _ x => [[1 - x]; [x]]%R) (fun _ _ _ => [[- (1)]; [1]]%R) (fun _ _ _ _ => 2%R)
  (CBlk [CVal 0; CVal 0])%R (fun _ => FScalar) (CBlk [CBlk [CVal 0]; CBlk [CVal 0]])%R (fun _ => FVec (Some 1) FScalar).
Definition ex73_t : cty := TDyn (TArr 2 TScalar).
Definition ex73_interpolation : @functional nat R := fun _ p f d =>
  a <- ex66_number (f 0%R) ;; b <- ex66_number (f 1%R) ;; Some [a; b].

Lemma ex73_leaf e v p n : leaf_of ex73_b [] e v p n -> (p = [0] \/ p = [1]) /\ node_size n = 2.
Proof.
  intros (H1 & H2 & H3). injection H1 as <-. cbn [app] in H2. destruct p as [|[|[|i]] p]; cbn in H2.
  - injection H2 as <-. discriminate.
  - destruct p; cbn in H2; [|destruct n0; discriminate]. injection H2 as <-. cbn. auto.
  - destruct p; cbn in H2; [|destruct n0; discriminate]. injection H2 as <-. cbn. auto.
  - destruct i; discriminate.
Qed.
Lemma ex73_setup_ok : setup_ok ex73_b [] ex_els ex73_su.
Proof.
  constructor.
  - cbn. split; [lia|]. split; [apply ex73_dg_ok|]. intros _. repeat constructor; discriminate.
  - cbn. eauto.
  - reflexivity.
  - intros e v p n x He L. destruct (ex73_leaf e v p n L) as [[ -> | -> ] ->]; cbn; repeat constructor.
  - intros e v p n x He L. destruct (ex73_leaf e v p n L) as [[ -> | -> ] ->]; cbn; repeat constructor.
  - intros e v p n He L. destruct (ex73_leaf e v p n L) as [[ -> | -> ] _]; (split; [|right; cbn; eauto]); eexists; repeat split; reflexivity.
  - intros e v p n He L. destruct (ex73_leaf e v p n L) as [[ -> | -> ] _]; (split; [|right; cbn; eauto]); eexists; (split; [reflexivity|]); repeat split; repeat constructor.
Qed.
Lemma ex73_dual : dual ex73_b [] ex_els ex73_su (fun _ => false) ex73_interpolation.
Proof.
  intros e v p n a f d He L NZ Hf Hd. destruct (ex73_leaf e v p n L) as [Hp Hn]. clear L NZ.
  assert (F : forall x, ex66_number (f x) = Some (rsum (node_size n) (fun i => a i * shape_of ex73_su e p x i 0)%R)).
  { intros x. apply ex66_at. destruct (Hf x) as (y & H1 & H2 & H3). exists y. repeat split; auto.
    intros k Hk. rewrite (H3 k Hk). replace k with 0 by lia. reflexivity. }
  unfold ex73_interpolation. rewrite !F. cbn [obind]. rewrite Hn. cbn. do 2 f_equal; [|f_equal]; unfold shape_of; cbn; ring.
Qed.
Lemma ex73_solid : solid_entries ex73_t (sp_tree (meaning ex73_b)).
Proof.
  intros p u H Hu. cbn in H. destruct p as [|i [|j [|? ?]]]; cbn in H, Hu; try discriminate.
  - do 4 (destruct i as [|i]; [discriminate|]). destruct i; discriminate.
  - destruct (j <? 2); [|discriminate]. injection Hu as <-. reflexivity.
  - destruct (j <? 2); discriminate.
Qed.

(** continuous coefficients [a 0 .. a 5], and the same function in the other basis *)
Section Case.
Variable a : nat -> R.
Definition ex73_c1 (m : mi) : option (list R) := Some [a (nth 0 m 0)].
Definition ex73_x (m : mi) : R := a (2 * (nth 0 m 0 / 2 + nth 0 m 0 mod 2) + nth 1 m 0).
Lemma ex73_same : same_parts ex_els (fun _ => false) ex72_b [] ex72_su ex73_c1 ex73_b [] ex73_su (fun m => Some [ex73_x m]).
Proof.
  intros e p x He (v & n & L & NZ). split; [|discriminate]. intros y1 y2 [_ Y1] [_ Y2].
  destruct (ex73_leaf e v p n L) as [Hp Hn].
  destruct (Y2 v p n L) as (z2 & Z2 & _ & W2). destruct (W2 NZ) as [L2 V2]. specialize (V2 0 0 Nat.lt_0_1 Nat.lt_0_1).
  assert (L1 : exists v1 n1, leaf_of ex72_b [] e v1 p n1 /\ node_size n1 = 2 /\ forall i, i < 2 -> coef_of ex73_c1 v1 n1 i 0 = coef_of (fun m => Some [ex73_x m]) v n i 0).
  { destruct L as (K1 & K2 & _). injection K1 as <-.
    unfold ex_els in He. destruct e as [|[|e]]; [| |lia]; destruct Hp as [-> | ->]; cbn in K2; injection K2 as <-;
      (do 2 eexists; split; [split; [reflexivity|split; reflexivity]|]; split; [reflexivity|]; intros [|[|i]] Hi; [reflexivity|reflexivity|lia]). }
  destruct L1 as (v1 & n1 & L1 & N1 & CO).
  destruct (Y1 v1 p n1 L1) as (z1 & Z1 & _ & W1). destruct (W1 ltac:(lia)) as [L1' V1]. specialize (V1 0 0 Nat.lt_0_1 Nat.lt_0_1).
  rewrite Z1, Z2. cbn [option_map]. f_equal. cbn in L1', L2, V1, V2.
  destruct (scalars z1) as [|r1 [|? ?]]; try discriminate. destruct (scalars z2) as [|r2 [|? ?]]; try discriminate. cbn in V1, V2.
  f_equal. injection V1 as ->. injection V2 as ->. rewrite Hn, N1. apply rsum_ext. intros i Hi. rewrite CO by auto. reflexivity.
Qed.
(** Interpolation into an empty vector gives these coefficients. *)
Example C73_example : exists c',
  interpolate_discrete ex72_su ex73_t (fun _ => true) (fun _ => false) ex73_interpolation (fun _ => ex73_c1) (su_basis ex73_su) [1; 0] (CBlk []) = Done c' /\
  read ex73_t c' [1; 0] = Some (CVal (a 2)) /\ read ex73_t c' [2; 0] = Some (CVal (a 2)) /\ read ex73_t c' [3; 1] = Some (CVal (a 5)) /\
  same_parts ex_els (fun _ => false) ex72_b [] ex72_su ex73_c1 ex73_b [] ex73_su (contents ex73_t c').
Proof.
  assert (OC : coefs_ok ex72_b ex_els ex72_su ex73_c1) by (intros m _; eexists; split; reflexivity).
  assert (HE : forall e, In e [1; 0] <-> ex_els e).
  { intros e. unfold ex_els. split; [intros [<-|[<-|[]]]; lia|]. intros He. destruct e as [|[|e]]; cbn; auto; lia. }
  pose proof (C73_contained_functions_are_reproduced nat R ex_els ex72_b [] ex72_su ex73_c1 ex73_b [] ex73_su (fun m => Some [ex73_x m]) ex73_x
    ex73_t (fun _ => true) (fun _ => false) ex73_interpolation [1; 0] (CBlk []) ex72_setup_ok OC ex73_setup_ok eq_refl ex73_dual
    (fun m _ => eq_refl) ex73_same (fun e He => proj1 (HE e) He) ltac:(repeat constructor) ex73_solid) as H.
  assert (R0 : exists c0, backend_resize 0%R (pb_size (build ex73_b)) ex73_t (CBlk []) = Done c0) by (eexists; reflexivity).
  destruct R0 as [c0 R0].
  destruct (interpolate_discrete _ _ _ _ _ _ _ _ _) as [c'| |] eqn:EI; [|congruence|contradiction]. destruct H as [H _].
  exists c'. split; auto.
  assert (D : forall e i j, In e [1; 0] -> In i [0; 1] -> In j [0; 1] -> dof_on ex73_b [] e [2 * e + i; j]).
  { intros e i j He Hi Hj.
    assert (L : exists v n, leaf_of ex73_b [] e v [j] n /\ Basis_model.local_index n i = Some (2 * j + i) /\ lv_index v (2 * j + i) = Some [2 * e + i; j]).
    { destruct He as [<-|[<-|[]]], Hi as [<-|[<-|[]]], Hj as [<-|[<-|[]]]; (do 2 eexists; split; [split; [reflexivity|split; reflexivity]|split; reflexivity]). }
    destruct L as (v & n & L1 & L2 & L3). exists v, [j], n, i, (2 * j + i). auto. }
  split; [|split; [|split]].
  - rewrite (H 0 [1; 0]); [reflexivity|cbn; auto|apply (D 0 1 0); cbn; auto|reflexivity].
  - rewrite (H 1 [2; 0]); [reflexivity|cbn; auto|apply (D 1 0 0); cbn; auto|reflexivity].
  - rewrite (H 1 [3; 1]); [reflexivity|cbn; auto|apply (D 1 1 1); cbn; auto|reflexivity].
  - apply (C73_interpolant_is_the_function nat R ex_els ex72_b [] ex72_su ex73_c1 ex73_b [] ex73_su (fun m => Some [ex73_x m]) ex73_x
      ex73_t (fun _ => false) ex73_interpolation [1; 0] (CBlk []) c'); auto using ex72_setup_ok, ex73_setup_ok, ex73_dual, ex73_same, ex73_solid.
    + intros m _. reflexivity.
    + repeat constructor.
Qed.
End Case.
