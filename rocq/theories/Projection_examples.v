(** The hypotheses of C66 are met: two cubic Hermite components, whose interpolation uses the
    derivative, and a linear one, on the two halves of an interval. *)
From Coq Require Import List Arith Bool Reals Lia Lra.
From Verif Require Import Lib Basis_model Basis_spec Basis_proofs Basis_props Container_model Container_spec Container_props
  FlatVector_model FlatVector_props Interpolate_model Interpolate_props DiscreteFunction_model DiscreteFunction_spec DiscreteFunction_props
  Projection_model Projection_spec Projection_props.
Import ListNotations.
#[local] Arguments Nat.ltb : simpl never.

Definition ex66_hermite : leaf nat :=
  {| lf_dim := 6; lf_maxnode := 4; lf_fe := fun _ => 4; lf_indices := fun e => [2 * e; 2 * e + 1; 2 * e + 2; 2 * e + 3] |}.
Lemma ex66_hermite_ok : leaf_ok ex_els ex66_hermite.
Proof.
  constructor; cbn; unfold ex_els; auto.
  - intros e g He H. repeat destruct H as [<-|H]; try lia; contradiction.
  - intros g Hg. do 6 (destruct g as [|g]; [first [exists 0; split; [lia|tauto] | exists 1; split; [lia|tauto]]|]). lia.
Qed.
Definition ex66_b : bexpr nat :=
  BComposite CBlockedLexicographic [BPower true 2 BlockedInterleaved (BLeaf ex66_hermite); BLeaf ex_p1].
Definition ex66_su : setup nat R := SU (subspace_of_root (build ex66_b) []) 1 (fun _ => 1) 1 1
  (fun _ p x => match p with
    | [1] => [[1 - x]; [x]]
    | _ => [[1 - 3 * x * x + 2 * x * x * x]; [(x - 2 * x * x + x * x * x) / 2]; [3 * x * x - 2 * x * x * x]; [(x * x * x - x * x) / 2]] end%R)
  (fun _ p x => match p with
    | [1] => [[- (1)]; [1]]
    | _ => [[- 6 * x + 6 * x * x]; [(1 - 4 * x + 3 * x * x) / 2]; [6 * x - 6 * x * x]; [(3 * x * x - 2 * x) / 2]] end%R)
  (fun _ _ _ _ => 2%R)
  (CBlk [CBlk [CVal 0; CVal 0]; CVal 0])%R (fun _ => FScalar)
  (CBlk [CBlk [CBlk [CVal 0]; CBlk [CVal 0]]; CBlk [CVal 0]])%R (fun _ => FVec (Some 1) FScalar).
Definition ex66_asks (p : list nat) : bool := match p with [1] => false | _ => true end.
Definition ex66_number (y : option (cont R)) : option R :=
  y <- y ;; match scalars y with [r] => Some r | _ => None end.
Definition ex66_interpolation : @functional nat R := fun _ p f d =>
  a <- ex66_number (f 0%R) ;; b <- ex66_number (f 1%R) ;;
  match p with
  | [1] => Some [a; b]
  | _ => d <- d ;; a' <- ex66_number (d 0%R) ;; b' <- ex66_number (d 1%R) ;; Some [a; a'; b; b']
  end.
Definition ex66_t : cty := TTup [TDyn (TArr 2 TScalar); TDyn TScalar].

Lemma ex66_leaf e v p n : leaf_of ex66_b [] e v p n ->
  (p = [0; 0] \/ p = [0; 1] \/ p = [1]) /\ node_size n = (if list_eq_dec Nat.eq_dec p [1] then 2 else 4).
Proof.
  intros (H1 & H2 & H3). injection H1 as <-. cbn [app] in H2.
  destruct p as [|[|[|i]] p]; cbn in H2.
  - injection H2 as <-. discriminate.
  - destruct p as [|[|[|j]] p]; cbn in H2; try discriminate.
    + injection H2 as <-. discriminate.
    + destruct p; cbn in H2; [|destruct n0; discriminate]. injection H2 as <-. cbn. auto.
    + destruct p; cbn in H2; [|destruct n0; discriminate]. injection H2 as <-. cbn. auto.
    + destruct j; discriminate.
  - destruct p; cbn in H2; [|destruct n0; discriminate]. injection H2 as <-. cbn. auto.
  - destruct i; discriminate.
Qed.
Lemma ex66_setup_ok : setup_ok ex66_b [] ex_els ex66_su.
Proof.
  constructor.
  - cbn. split; [discriminate|]. split; [split; [lia|]; split; [apply ex66_hermite_ok|]|split; [apply ex_p1_ok|exact I]]. intros _. repeat constructor; discriminate.
  - cbn. eauto.
  - reflexivity.
  - intros e v p n x He L. destruct (ex66_leaf e v p n L) as [[ -> | [ -> | -> ]] ->]; cbn; repeat constructor.
  - intros e v p n x He L. destruct (ex66_leaf e v p n L) as [[ -> | [ -> | -> ]] ->]; cbn; repeat constructor.
  - intros e v p n He L. destruct (ex66_leaf e v p n L) as [[ -> | [ -> | -> ]] _]; (split; [|right; cbn; eauto]);
      eexists; repeat split; reflexivity.
  - intros e v p n He L. destruct (ex66_leaf e v p n L) as [[ -> | [ -> | -> ]] _]; (split; [|right; cbn; eauto]);
      eexists; (split; [reflexivity|]); repeat split; repeat constructor.
Qed.
Lemma ex66_at (f : R -> option (cont R)) x (r : R) : (exists y, f x = Some y /\ length (scalars y) = 1 /\
    forall k, k < 1 -> nth_error (scalars y) k = Some r) -> ex66_number (f x) = Some r.
Proof.
  intros (y & H1 & H2 & H3). unfold ex66_number. rewrite H1. cbn. specialize (H3 0 Nat.lt_0_1).
  destruct (scalars y) as [|s [|? ?]]; cbn in *; congruence.
Qed.
Lemma ex66_dual : dual ex66_b [] ex_els ex66_su ex66_asks ex66_interpolation.
Proof.
  intros e v p n a f d He L NZ Hf Hd. destruct (ex66_leaf e v p n L) as [Hp Hn]. clear L NZ.
  assert (F : forall x, ex66_number (f x) = Some (rsum (node_size n) (fun i => a i * shape_of ex66_su e p x i 0)%R)).
  { intros x. apply ex66_at. destruct (Hf x) as (y & H1 & H2 & H3). exists y. repeat split; auto.
    intros k Hk. rewrite (H3 k Hk). replace k with 0 by lia. reflexivity. }
  unfold ex66_interpolation. rewrite !F. cbn [obind].
  assert (P1 : p = [1] \/ (p = [0; 0] \/ p = [0; 1])) by tauto.
  destruct P1 as [-> | Hq].
  - rewrite Hn. cbn. do 2 f_equal; [|f_equal]; unfold shape_of; cbn; ring.
  - assert (A : ex66_asks p = true) by (destruct Hq as [-> | ->]; reflexivity). rewrite A in Hd.
    destruct Hd as (d' & -> & Hd).
    assert (D : forall x, ex66_number (d' x) = Some (rsum (node_size n) (fun i => a i * rsum 1 (fun l => jac_of ex66_su e p x i 0 l * 2))%R)).
    { intros x. apply ex66_at. destruct (Hd x) as (y & H1 & H2 & H3). exists y. repeat split; auto.
      intros k Hk. specialize (H3 0 0 Nat.lt_0_1 Nat.lt_0_1). replace k with 0 by lia. exact H3. }
    destruct Hq as [-> | ->]; cbn [obind]; rewrite !D; cbn [obind]; rewrite Hn; cbn;
      repeat f_equal; unfold shape_of, jac_of; cbn; unfold Rdiv; try field.
Qed.
Lemma ex66_solid : solid_entries ex66_t (sp_tree (meaning ex66_b)).
Proof.
  intros p u H Hu. cbn in H.
  destruct p as [|[|[|d]] p]; cbn in H, Hu; try discriminate; [| |destruct d; discriminate].
  - destruct p as [|i [|j [|? ?]]]; cbn in *; try discriminate.
    + do 6 (destruct i as [|i]; [discriminate|]). destruct i; discriminate.
    + destruct (j <? 2); [|discriminate]. injection Hu as <-. reflexivity.
    + destruct (j <? 2); discriminate.
  - destruct p as [|i [|j p]]; cbn in *; try discriminate. now injection Hu as <-.
Qed.

(** The function with coefficient [10 m_0 + 3 m_1 + m_2] at the index [m], interpolated into an
    empty vector: every coefficient is reproduced. *)
Definition ex66_x (m : mi) : R := INR (10 * nth 0 m 0 + 3 * nth 1 m 0 + nth 2 m 0).
Example C66_reproduces_example : exists c',
  interpolate_discrete ex66_su ex66_t (fun m => nth 0 m 0 =? 0) ex66_asks ex66_interpolation (fun _ m => Some [ex66_x m]) (su_basis ex66_su) [0; 1]
    (CBlk [CBlk []; CBlk []]) = Done c' /\
  read ex66_t c' [0; 3; 1] = Some (CVal (INR 10)) /\ read ex66_t c' [0; 5; 0] = Some (CVal (INR 15)) /\
  read ex66_t c' [1; 2] = Some (CVal 0%R).
Proof.
  pose proof (C66_interpolation_reproduces_coefficients nat R ex66_b [] ex_els ex66_su ex66_t (fun m => nth 0 m 0 =? 0) ex66_asks
    ex66_interpolation (fun m => Some [ex66_x m]) ex66_x [0; 1] (CBlk [CBlk []; CBlk []]) ex66_setup_ok eq_refl ex66_dual) as H.
  assert (R0 : exists c0, backend_resize 0%R (pb_size (build ex66_b)) ex66_t (CBlk [CBlk []; CBlk []]) = Done c0 /\
    read ex66_t c0 [1; 2] = Some (CVal 0%R)) by (eexists; split; reflexivity).
  destruct R0 as (c0 & R0 & R1).
  specialize (H (fun m _ => eq_refl)).
  assert (H0 : forall e, In e [0; 1] -> ex_els e) by (intros e [<-|[<-|[]]]; unfold ex_els; lia).
  specialize (H H0). specialize (H (ltac:(repeat constructor)) ex66_solid).
  destruct (interpolate_discrete _ _ _ _ _ _ _ _ _) as [c'| |].
  - destruct H as [H1 H2].
    exists c'. split; [reflexivity|].
    assert (D : forall i j, In i [1; 3] -> In j [0; 1] -> dof_on ex66_b [] 1 [0; 2 + i; j]).
    { intros i j Hi Hj.
      assert (L : exists v n, leaf_of ex66_b [] 1 v [0; j] n /\ local_index n i = Some (4 * j + i) /\ lv_index v (4 * j + i) = Some [0; 2 + i; j]).
      { destruct Hi as [<-|[<-|[]]], Hj as [<-|[<-|[]]]; (do 2 eexists; split; [split; [reflexivity|split; reflexivity]|split; reflexivity]). }
      destruct L as (v & n & L1 & L2 & L3). exists v, [0; j], n, i, (4 * j + i). auto. }
    split; [|split].
    + rewrite (H1 1 [0; 3; 1]); [reflexivity|right; now left|apply (D 1 1); cbn; auto|reflexivity].
    + rewrite (H1 1 [0; 5; 0]); [reflexivity|right; now left|apply (D 3 0); cbn; auto|reflexivity].
    + destruct (H2 [1; 2]) as (c1 & A & B); [|left; reflexivity|].
      * exists 1, 9. split; [unfold ex_els; lia|]. eexists. split; [reflexivity|]. split; [reflexivity|]. cbn. lia.
      * rewrite B. congruence.
  - congruence.
  - contradiction.
Qed.
(** Interpolating the function with the vector it refers to as target changes nothing. *)
Example C66_in_place_example : forall c, has_ty ex66_t c ->
  interpolate_discrete ex66_su ex66_t (fun _ => true) ex66_asks ex66_interpolation (contents ex66_t) (su_basis ex66_su) [0; 1] c =
  backend_resize 0%R (pb_size (build ex66_b)) ex66_t c.
Proof.
  intros c Hc. apply (C66_interpolation_in_place nat R ex66_b [] ex_els); auto using ex66_setup_ok, ex66_dual, ex66_solid.
  intros e [<-|[<-|[]]]; unfold ex_els; lia.
Qed.
