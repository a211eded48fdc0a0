(** The hypotheses of C94 are met: continuous linear functions on the two intervals of level 1
    of the dyadic grid are taken to the four intervals of level 2 and back. *)
From Coq Require Import List Arith Bool Reals Lia Lra.
From Verif Require Import Lib Basis_model Basis_spec Basis_proofs Basis_ok Basis_view Basis_props
  Container_model Container_spec Container_props FlatVector_model FlatVector_props
  Interpolate_model Interpolate_props DiscreteFunction_model DiscreteFunction_spec DiscreteFunction_proofs DiscreteFunction_props
  Projection_model Projection_spec Projection_props Projection_examples Transfer_spec Transfer_props
  LocalFunction_model LocalFunction_spec LocalFunction_props SingleLeaf_example GridInterp_model GridInterp_spec GridInterp_proofs GridInterp_props.
Import ListNotations.
#[local] Arguments Nat.ltb : simpl never.
#[local] Arguments Nat.eqb : simpl never.

Notation D := LocalFunction_props.ex_grid.
Definition ex94_els (L : nat) (e : nat * nat) : Prop := fst e = L /\ snd e < 2 ^ L.
Definition ex94_p1 (L : nat) : leaf (nat * nat) := {| lf_dim := 2 ^ L + 1; lf_maxnode := 2; lf_fe := fun _ => 2; lf_indices := fun e => [snd e; snd e + 1] |}.
Notation B L := (BLeaf (ex94_p1 L)).
Lemma ex94_leaf_ok L : leaf_ok (ex94_els L) (ex94_p1 L).
Proof.
  assert (H2 : 0 < 2 ^ L) by (apply Nat.neq_0_lt_0, Nat.pow_nonzero; lia).
  constructor; cbn [ex94_p1 lf_dim lf_maxnode lf_fe lf_indices]; auto.
  - intros [l k] g [_ He] [H|[H|[]]]; cbn in *; lia.
  - intros g Hg. destruct (Nat.eq_dec g (2 ^ L)) as [->|Hn].
    + exists (L, 2 ^ L - 1). split; [split; cbn; lia|]. cbn. lia.
    + exists (L, g). split; [split; cbn; lia|]. cbn. auto.
Qed.
Definition ex94_su (L : nat) : setup (nat * nat) R := SU (subspace_of_root (build (B L)) []) 1 (fun _ => 1) 1 1
  (fun _ _ x => [[1 - x]; [x]]%R) (fun _ _ _ => [[- (1)]; [1]]%R) (fun e _ _ _ => (2 ^ fst e)%R)
  (CVal 0%R) (fun _ => FScalar) (CBlk [CVal 0])%R (fun _ => FVec (Some 1) FScalar).
Lemma ex94_leaf L e v p n : leaf_of (B L) [] e v p n -> p = [] /\ node_size n = 2 /\ node_offset n = 0 /\ lv_indices v = [[snd e]; [snd e + 1]].
Proof.
  intros (H1 & H2 & H3). injection H1 as <-. cbn [app] in H2. destruct p as [|[|i] p]; cbn in H2; try discriminate. injection H2 as <-. cbn. auto.
Qed.
Lemma ex94_setup L : setup_ok (B L) [] (ex94_els L) (ex94_su L).
Proof.
  constructor.
  - exact (ex94_leaf_ok L).
  - cbn. eauto.
  - reflexivity.
  - intros e v p n x He H. destruct (ex94_leaf L e v p n H) as (-> & -> & _); cbn; repeat constructor.
  - intros e v p n x He H. destruct (ex94_leaf L e v p n H) as (-> & -> & _); cbn; repeat constructor.
  - intros e v p n He H. destruct (ex94_leaf L e v p n H) as (-> & _); (split; [|now left]); eexists; repeat split; reflexivity.
  - intros e v p n He H. destruct (ex94_leaf L e v p n H) as (-> & _); (split; [|right; cbn; eauto]); eexists; (split; [reflexivity|]); repeat split; repeat constructor.
Qed.
(** Lagrange interpolation: the values at the two end points. *)
Definition ex94_sa : sampling (nat * nat) R := SAMPLING (fun _ _ => [0; 1]%R) (fun _ _ => [])
  (fun _ _ vs _ => match map scalars vs with [[a]; [b]] => Some [a; b] | _ => None end).
Lemma ex94_dual L : dual (B L) [] (ex94_els L) (ex94_su L) (fun _ => false) (sample ex94_sa).
Proof.
  intros e v p n a f d He H NZ Hf Hd. destruct (ex94_leaf L e v p n H) as (_ & Hn & _). clear H NZ.
  assert (F : forall x, exists y, f x = Some y /\ scalars y = [rsum (node_size n) (fun i => a i * shape_of (ex94_su L) e p x i 0)%R]).
  { intros x. destruct (Hf x) as (y & H1 & H2 & H3). exists y. split; auto. specialize (H3 0 Nat.lt_0_1). cbn in H2.
    destruct (scalars y) as [|r [|? ?]]; try discriminate. cbn in H3. now injection H3 as ->. }
  subst d. unfold sample. cbn [obind ex94_sa sa_points sa_combine mapo].
  destruct (F 0%R) as (y0 & -> & H0), (F 1%R) as (y1 & -> & H1). cbn [obind map]. rewrite H0, H1, Hn. cbn. do 2 f_equal; [|f_equal]; unfold shape_of; cbn; ring.
Qed.
Lemma ex94_solid L : solid_entries (TDyn TScalar) (sp_tree (meaning (B L))).
Proof.
  intros p u H Hu. destruct p as [|i [|j p]]; cbn in H, Hu.
  - unfold leaf_spec in H. cbn [ex94_p1 lf_dim] in H. rewrite Nat.add_1_r in H. cbn in H. discriminate H.
  - injection Hu as <-. reflexivity.
  - discriminate.
Qed.
(** The function with values [a] at the end points of the intervals of level [L]. *)
Section Case.
Variable a : nat -> R.
Definition ex94_c (m : mi) : option (list R) := Some [a (nth 0 m 0)].
Definition ex94_v (e : nat * nat) (x : R) : cont R := CVal (a (snd e) * (1 - x) + a (snd e + 1) * x)%R.
Lemma ex94_value L e x : is_value (B L) [] (ex94_su L) e ex94_c x (ex94_v e x).
Proof.
  split; [reflexivity|]. intros v p n H. destruct (ex94_leaf L e v p n H) as (-> & Hn & Ho & Hi). eexists. split; [reflexivity|].
  split; [lia|]. intros _. split; [reflexivity|]. intros j k Hj Hk. cbn in Hj, Hk. assert (j = 0) by lia. assert (k = 0) by lia. subst.
  rewrite Hn. cbn [ex94_v scalars]. cbn. f_equal. unfold coef_of, Basis_model.local_index, lv_index. rewrite Hn, Ho, Hi. unfold shape_of. cbn. change (0 <? 2) with true. change (1 <? 2) with true. cbn. ring.
Qed.
Lemma ex94_numbers L : numbers (B L) (ex94_els L) ex94_c (fun m => a (nth 0 m 0)).
Proof. intros m _. reflexivity. Qed.
Lemma ex94_function L : discrete_function (ex94_els L) (B L) [] (ex94_su L) ex94_c ex94_v None.
Proof. split; [intros; apply ex94_value|discriminate]. Qed.
End Case.
Lemma ex94_used L e : used_leaf (B L) [] e [].
Proof. do 2 eexists. split; [split; [reflexivity|split; reflexivity]|]. discriminate. Qed.
Lemma ex94_used_only L e p : used_leaf (B L) [] e p -> p = [].
Proof. intros (v & n & H & _). apply (ex94_leaf L e v p n H). Qed.

(** Level 1 and level 2. *)
Lemma ex94_nearest e : ex94_els 2 e -> nearest D (ex_level 1) e (1, snd e / 2) [e].
Proof.
  destruct e as [l k]. intros [H _]. cbn in H. subst l. eapply near_up; [reflexivity|reflexivity|]. now apply near_here.
Qed.
Lemma ex94_coarse_view : coarse_view D (ex_level 1).
Proof.
  assert (HL : forall e a l, nearest D (ex_level 1) e a l -> 1 <= fst e).
  { induction 1 as [e He|e f a l He Hf Hn IH]; [apply Nat.eqb_eq in He; lia|]. destruct e as [[|l'] k]; [discriminate|]. cbn. lia. }
  constructor.
  - intros [l k] c. unfold LocalFunction_props.ex_grid; cbn [gr_children gr_father fst snd]. destruct (Nat.ltb_spec l 2); [|intros []].
    intros [<-|[<-|[]]]; cbn [fst snd]; do 2 f_equal; [rewrite Nat.mul_comm; apply Nat.div_mul; lia|].
    rewrite Nat.add_comm, Nat.mul_comm, Nat.div_add by lia. reflexivity.
  - intros [l k] a r c Hn. specialize (HL _ _ _ Hn). unfold LocalFunction_props.ex_grid; cbn [gr_children fst snd] in *. destruct (Nat.ltb_spec l 2); [|intros []].
    intros [<-|[<-|[]]]; unfold ex_level; cbn [fst]; apply Nat.eqb_neq; lia.
  - apply C44_covering_met.
Qed.
Lemma ex94_covered : covered D (ex_level 1) (ex94_els 1) (ex94_els 2) (B 1) [] (B 2) [].
Proof.
  intros e He. exists (1, snd e / 2), [e]. split; [now apply ex94_nearest|]. split.
  - destruct e as [l k], He as [_ He]. cbn in He. split; [reflexivity|]. cbn [snd]. change (2 ^ 1) with 2. apply Nat.div_lt_upper_bound; lia.
  - intros p Hp. rewrite (ex94_used_only 2 e p Hp). apply ex94_used.
Qed.
Lemma ex94_refined e : ex94_els 1 e -> refined D (ex_level 2) (ex94_els 2) e.
Proof.
  destruct e as [l k]. intros [H Hk]. cbn in H, Hk. subst l. apply ref_down; [reflexivity|cbn; discriminate|].
  intros c [<-|[<-|[]]]; (apply ref_here; [reflexivity|split; cbn; lia]).
Qed.
Definition ex94_pol (f : R -> R) : Prop := exists b0 b1, forall x, f x = (b0 + b1 * x)%R.
Definition ex94_node (_ : nat * nat) (_ : list nat) (i : nat) : R := INR i.
Lemma ex94_nested : nested_spaces D ex94_pol (ex94_els 1) (ex94_els 2) (B 1) [] (ex94_su 1) (B 2) [] (ex94_su 2) ex94_node.
Proof.
  constructor; try reflexivity.
  - intros f h H (b0 & b1 & Hf). exists b0, b1. intros x. now rewrite <- H.
  - exists 0%R, 0%R. intros; ring.
  - intros f h (b0 & b1 & Hf) (d0 & d1 & Hh). exists (b0 + d0)%R, (b1 + d1)%R. intros x. rewrite Hf, Hh. ring.
  - intros r f (b0 & b1 & Hf). exists (r * b0)%R, (r * b1)%R. intros x. rewrite Hf. ring.
  - intros e f (b0 & b1 & Hf). exists (b0 + b1 * INR (snd e mod 2) / 2)%R, (b1 / 2)%R. intros x. rewrite Hf. cbn [LocalFunction_props.ex_grid gr_up]. field.
  - intros e p i _ _. unfold shape_of. destruct i as [|[|[|i]]]; cbn.
    + exists 1%R, (-1)%R. intros; ring.
    + exists 0%R, 1%R. intros; ring.
    + exists 0%R, 0%R. intros; ring.
    + exists 0%R, 0%R. intros; ring.
  - intros e w p n f x He H (b0 & b1 & Hf). destruct (ex94_leaf 2 e w p n H) as (-> & -> & _). cbn. unfold shape_of, ex94_node. rewrite !Hf. cbn. ring.
Qed.
Section Values.
Variable a : nat -> R.
Definition ex94_mid (k : nat) : R := if Nat.even k then a (k / 2) else ((a (k / 2) + a (k / 2 + 1)) / 2)%R.
Lemma ex94_node_values : node_values D (ex_level 1) (ex94_els 2) (ex94_v a) (B 2) [] ex94_node (fun m => ex94_mid (nth 0 m 0)).
Proof.
  intros e w p n i k m c l He H Hi Hk Hn. destruct (ex94_leaf 2 e w p n H) as (-> & H1 & H2 & H3).
  destruct (nearest_fun D _ _ _ _ Hn _ _ (ex94_nearest e He)) as [-> ->].
  apply local_index_Some in Hi as [Hi ->]. rewrite H1 in Hi. rewrite H2 in Hk. unfold lv_index in Hk. rewrite H3 in Hk. cbn [Nat.add] in Hk.
  destruct e as [l k], He as [He1 He2]. cbn in He1, He2. subst l. cbn [snd] in *.
  assert (Hm : m = [k + i]). { destruct i as [|[|i]]; [| |lia]; cbn in Hk; injection Hk as <-; f_equal; lia. } clear Hk H3 Hn H. subst m. cbn [nth].
  assert (K : k = 0 \/ k = 1 \/ k = 2 \/ k = 3) by lia. assert (I : i = 0 \/ i = 1) by lia.
  destruct K as [->|[->|[->| ->]]], I as [->| ->]; unfold ex94_mid, ex94_v, ex94_node; cbn; apply f_equal; apply (f_equal (fun r => [r])); repeat match goal with |- context [?u / 2] => lazymatch type of u with nat => let z := eval vm_compute in (u / 2) in change (u / 2) with z end | |- context [?u mod 2] => let z := eval vm_compute in (u mod 2) in change (u mod 2) with z end; cbn [Nat.add INR]; field.
Qed.
(** The vector for level 2 has the values in the middle of the intervals, too; the function is
    the same, and going back to level 1 gives the original vector. *)
Example C94_example : exists c' c'',
  interpolate_grid D (TDyn TScalar) (fun _ => true) (fun _ => false) ex94_sa (GCoarse (ex_level 1) (GDis (ex94_v a) None))
    (su_basis (ex94_su 2)) [(2, 3); (2, 0); (2, 1); (2, 2)] (CBlk []) = Done c' /\
  read (TDyn TScalar) c' [1] = Some (CVal ((a 0 + a 1) / 2))%R /\ read (TDyn TScalar) c' [4] = Some (CVal (a 2)) /\
  interpolate_grid D (TDyn TScalar) (fun _ => true) (fun _ => false) ex94_sa (GFine (ex_level 2) (GDis (ex94_v ex94_mid) None))
    (su_basis (ex94_su 1)) [(1, 1); (1, 0)] (CBlk []) = Done c'' /\
  read (TDyn TScalar) c'' [1] = Some (CVal (a 1)).
Proof.
  assert (HE2 : forall e, In e [(2, 3); (2, 0); (2, 1); (2, 2)] <-> ex94_els 2 e).
  { intros [l k]. unfold ex94_els. cbn [In fst snd]. change (2 ^ 2) with 4. split.
    - intros [[= <- <-]|[[= <- <-]|[[= <- <-]|[[= <- <-]|[]]]]]; lia.
    - intros [-> Hk]. do 4 (destruct k as [|k]; [tauto|]). lia. }
  assert (HE1 : forall e, In e [(1, 1); (1, 0)] -> ex94_els 1 e).
  { intros e [<-|[<-|[]]]; split; cbn; lia. }
  assert (TY : has_ty (TDyn TScalar) (@CBlk R [])) by repeat constructor.
  pose proof (C94_prolongation_is_exact D (ex_level 1) (ex94_els 1) (ex94_els 2) (B 1) [] (ex94_su 1) (ex94_c a) (ex94_v a) None
    (B 2) [] (ex94_su 2) ex94_pol ex94_node ex94_nested (fun m => ex94_mid (nth 0 m 0)) (TDyn TScalar) ex94_sa [(2, 3); (2, 0); (2, 1); (2, 2)] (CBlk [])
    LocalFunction_props.ex_grid_ok (ex94_setup 1) (ex94_setup 2) eq_refl eq_refl (ex94_function a 1) ex94_covered ex94_node_values (ex94_dual 2) HE2 TY (ex94_solid 2)) as H.
  assert (HR : represents D (ex94_els 2) (fun _ => false) (GCoarse (ex_level 1) (GDis (ex94_v a) None)) (B 2) [] (ex94_su 2) (ex94_c ex94_mid)).
  { apply (coarse_is_fine D (ex_level 1) (ex94_els 1) (ex94_els 2) (B 1) [] (ex94_su 1) (ex94_c a) (ex94_v a) None (B 2) [] (ex94_su 2) ex94_pol ex94_node ex94_nested
      (fun _ => false) (ex94_c ex94_mid) (fun m => ex94_mid (nth 0 m 0)) (fun _ => eq_refl) (ex94_setup 2) eq_refl eq_refl (ex94_function a 1) ex94_covered ex94_node_values (ex94_numbers ex94_mid 2)). }
  assert (RT := C94_round_trip D (ex_level 1) (ex_level 2) (ex94_els 1) (ex94_els 2) (B 1) [] (ex94_su 1) (ex94_c a) (ex94_v a) None (B 2) [] (ex94_su 2)
    (ex94_c ex94_mid) (ex94_v ex94_mid) None (fun m => a (nth 0 m 0)) (TDyn TScalar) (fun _ => false) ex94_sa [(1, 1); (1, 0)] (CBlk [])
    LocalFunction_props.ex_grid_ok ex94_coarse_view
    (fun e (He : ex94_els 1 e) => proj2 (Nat.eqb_eq _ _) (proj1 He)) ex94_refined
    (fun d c l p _ _ _ Hu => eq_ind_r (fun p => used_leaf (B 2) [] d p) (ex94_used 2 d) (ex94_used_only 1 c p Hu))
    (ex94_function a 1) (ex94_function ex94_mid 2) (fun Hp => match Hp with ex_intro _ _ K => match Bool.diff_false_true K with end end) HR (ex94_setup 1) eq_refl (ex94_dual 1) (ex94_numbers a 1) HE1 TY (ex94_solid 1)).
  destruct RT as [_ RT].
  destruct (interpolate_grid D _ _ _ _ (GCoarse _ _) _ _ _) as [c'| |] eqn:E2; [|discriminate H|contradiction].
  destruct (interpolate_grid D _ _ _ _ (GFine _ _) _ _ _) as [c''| |] eqn:E1; [|discriminate RT|contradiction].
  exists c', c''. split; auto. destruct H as [H _]. split; [|split; [|split; auto]].
  - rewrite (H (2, 0) [1]); [reflexivity|split; cbn; lia|]. eexists. exists []. eexists. exists 1, 1. split; [split; [reflexivity|split; reflexivity]|split; reflexivity].
  - rewrite (H (2, 3) [4]); [reflexivity|split; cbn; lia|]. eexists. exists []. eexists. exists 1, 1. split; [split; [reflexivity|split; reflexivity]|split; reflexivity].
  - rewrite (RT (1, 0) [1]); [reflexivity|right; now left|]. eexists. exists []. eexists. exists 1, 1. split; [split; [reflexivity|split; reflexivity]|split; reflexivity].
Qed.
End Values.
