(** A discrete function determines its coefficients (C69). *)
From Coq Require Import List Arith Bool Reals Lia Lra.
From Verif Require Import Lib Basis_model Basis_spec Basis_proofs Basis_ok Basis_view Basis_props
  Container_model Container_spec Container_proofs Container_desc Container_props FlatVector_model FlatVector_props
  Interpolate_model Interpolate_props DiscreteFunction_model DiscreteFunction_spec DiscreteFunction_proofs DiscreteFunction_props
  LagrangeNodes_functions Projection_model Projection_spec Projection_props Independence_spec.
Import ListNotations.
#[local] Arguments Nat.ltb : simpl never.

Section Determine.
Context {E X : Type}.
Variables (b : bexpr E) (path : list nat) (els : E -> Prop) (pts : E -> X -> Prop) (su : setup E X).
Hypothesis OKS : setup_ok b path els su.
Notation coefs := (mi -> option (list R)).

Lemma value_is c e x : els e -> coefs_ok b els su c -> exists y, value su c e x = Some y /\ is_value b path su e c x y.
Proof.
  intros He Hc. unfold value. pose proof (new_inv b path els su OKS false) as (N1 & N2 & _).
  destruct (bind_inv b path els su OKS c (lf_new su false) e N2 He Hc) as (f & -> & F1 & F2 & F3). cbn [obind sf_deriv sf_state] in *.
  destruct F3 as (F3 & F4 & F5 & F6). eapply (value_ok b path els su OKS); eauto.
Qed.

Lemma same_coefs c c' e v p n i j : els e -> coefs_ok b els su c -> coefs_ok b els su c' -> independent b path els pts su ->
  (forall x, pts e x -> value su c e x = value su c' e x) -> leaf_of b path e v p n -> i < node_size n -> j < su_cdim su ->
  coef_of c v n i j = coef_of c' v n i j.
Proof.
  intros He Hc Hc' HI HV L Hi Hj.
  enough ((coef_of c v n i j - coef_of c' v n i j = 0)%R) by lra.
  apply (HI e v p n (fun i => coef_of c v n i j - coef_of c' v n i j)%R He L); auto.
  intros x k Hx Hk. destruct (value_is c e x He Hc) as (y & Y1 & _ & Y2). destruct (value_is c' e x He Hc') as (y' & Y1' & _ & Y2').
  assert (y' = y) as -> by (specialize (HV x Hx); congruence).
  destruct (Y2 v p n L) as (en & Z1 & _ & Z2). destruct (Y2' v p n L) as (en' & Z1' & _ & Z2').
  assert (en' = en) as -> by congruence. assert (NZ : node_size n <> 0) by lia.
  destruct (Z2 NZ) as [_ Q]. destruct (Z2' NZ) as [_ Q']. specialize (Q j k Hj Hk). specialize (Q' j k Hj Hk). rewrite Q in Q'.
  injection Q' as Q'.
  transitivity (rsum (node_size n) (fun i => coef_of c v n i j * shape_of su e p x i k)
                - rsum (node_size n) (fun i => coef_of c' v n i j * shape_of su e p x i k))%R; [|lra].
  clear. induction (node_size n) as [|q IH]; [rewrite !rsum_0; lra|]. rewrite !rsum_S, IH. ring.
Qed.

Lemma dof_coef c e v n i k m p : els e -> coefs_ok b els su c -> leaf_of b path e v p n -> local_index n i = Some k -> lv_index v k = Some m ->
  exists l, c m = Some l /\ length l = su_cdim su /\ i < node_size n /\ forall j, coef_of c v n i j = nth j l 0%R.
Proof.
  intros He Hc L Hk Hm. destruct (view_of_leaf b path els su OKS e v p n He L) as [V1 V2].
  destruct (Hc m) as (l & H1 & H2); [eapply (vinv_global b path els su OKS); eauto|].
  exists l. split; auto. split; auto. apply local_index_Some in Hk as Hk'. split; [lia|]. intros j. unfold coef_of. now rewrite Hk, Hm, H1.
Qed.

End Determine.

(** Two coefficient vectors that give the same values on one element have the same entries
    for all degrees of freedom of the (sub)basis on this element. *)
Theorem C69_values_determine_the_coefficients E X (b : bexpr E) path els pts (su : setup E X) c c' e m :
  setup_ok b path els su -> independent b path els pts su -> coefs_ok b els su c -> coefs_ok b els su c' -> els e ->
  (forall x, pts e x -> value su c e x = value su c' e x) -> dof_on b path e m -> c m = c' m.
Proof.
  intros OKS HI Hc Hc' He HV (v & p & n & i & k & L & Hk & Hm).
  destruct (dof_coef b path els su OKS c e v n i k m p He Hc L Hk Hm) as (l & -> & L1 & Hi & L2).
  destruct (dof_coef b path els su OKS c' e v n i k m p He Hc' L Hk Hm) as (l' & -> & L1' & _ & L2').
  f_equal. apply (nth_ext _ _ 0%R 0%R); [congruence|]. intros j Hj. rewrite <- L2, <- L2'.
  eapply same_coefs; eauto. lia.
Qed.

(** Only the entries of these degrees of freedom are used. *)
Lemma bind_same E X (b : bexpr E) path els (su : setup E X) c c' d e :
  setup_ok b path els su -> els e ->
  (forall m, dof_on b path e m -> c m = c' m) -> lf_bind su c (lf_new su d) e = lf_bind su c' (lf_new su d) e.
Proof.
  intros OKS He H. unfold lf_bind, lf_new, sv_new, sv_bind, sv_tree. cbn [lf_view lf_deriv lf_dofs].
  rewrite (so_basis _ _ _ _ OKS). cbn [ss_root ss_path subspace_of_root].
  destruct (vinv_bind b path els su OKS (lv_new (build b)) e (vinv_new b els) He) as (v & Hb & HV & Hel). rewrite Hb. cbn [obind].
  destruct (vinv_tree b path els su OKS v e HV Hel) as [tr Htr]. rewrite Htr. cbn [obind].
  destruct (vinv_good b els v e HV Hel) as [Hg Ho]. destruct (desc_range path _ tr Hg Htr) as (Gt & _ & Hr).
  assert (Q : forall n k d0, k + n <= node_size tr -> 
    forl n k (fun i d1 => k <- local_index tr i ;; m <- lv_index v k ;; x <- c m ;; upd d1 k x) d0 =
    forl n k (fun i d1 => k <- local_index tr i ;; m <- lv_index v k ;; x <- c' m ;; upd d1 k x) d0).
  { induction n as [|n IH]; intros k d0 Hk; [reflexivity|]. cbn [forl].
    assert (S : (k0 <- local_index tr k ;; m <- lv_index v k0 ;; x <- c m ;; upd d0 k0 x) =
                (k0 <- local_index tr k ;; m <- lv_index v k0 ;; x <- c' m ;; upd d0 k0 x)).
    { destruct (local_index tr k) as [q|] eqn:Eq; [|reflexivity]. cbn [obind]. destruct (lv_index v q) as [m|] eqn:Em; [|reflexivity]. cbn [obind].
      rewrite (H m); [reflexivity|]. pose proof Eq as Eq'. apply local_index_Some in Eq'.
      destruct (good_partition tr Gt q) as (p & l & j & (D & Lf & LI) & _); [lia|].
      exists v, p, l, j, q. split; [|auto]. split; [exact Hb|]. split; [|exact Lf]. rewrite descendant_app', Htr. exact D. }
    rewrite S. destruct (k0 <- local_index tr k ;; m <- lv_index v k0 ;; x <- c' m ;; upd d0 k0 x) as [d1|]; [|reflexivity]. cbn [obind].
    apply IH. lia. }
  unfold bind_dofs. rewrite (Q (node_size tr) 0); [reflexivity|lia].
Qed.
Theorem C69_function_depends_on_its_dofs_only E X (b : bexpr E) path els (su : setup E X) c c' e x :
  setup_ok b path els su -> els e ->
  (forall m, dof_on b path e m -> c m = c' m) -> value su c e x = value su c' e x.
Proof. intros OKS He H. unfold value. now rewrite (bind_same E X b path els su c c' false e OKS He H). Qed.

(** Every index of the basis is the index of a degree of freedom on some element. *)
Lemma global_dof E (b : bexpr E) els m : wf els b -> global_index els b m -> exists e, els e /\ dof_on b [] e m.
Proof.
  intros Hwf (e & i & He & v & Hv & Hi & Hs). exists e. split; auto.
  destruct (C07_every_local_dof_is_a_leaf_dof b els e v i Hwf He Hv Hs) as (p & g & (n & l & j & D & L & LI & _) & _).
  exists v, p, n, j, i. split; auto. split; auto.
Qed.

(** Different coefficient vectors of a basis are different functions: two vectors that give
    the same function agree at every index of the basis. *)
Theorem C69_coefficients_are_unique E X (b : bexpr E) els pts (su : setup E X) c c' m :
  setup_ok b [] els su -> independent b [] els pts su -> coefs_ok b els su c -> coefs_ok b els su c' ->
  same_function els pts su c c' -> global_index els b m -> c m = c' m.
Proof.
  intros OKS HI Hc Hc' HV Hm. destruct (global_dof E b els m (so_wf _ _ _ _ OKS) Hm) as (e & He & Hd).
  eapply C69_values_determine_the_coefficients; eauto.
Qed.
(** ... in particular at all indices size() admits. *)
Theorem C69_admitted_coefficients_are_unique E X (b : bexpr E) els pts (su : setup E X) c c' m :
  setup_ok b [] els su -> no_empty_blocks b -> independent b [] els pts su -> coefs_ok b els su c -> coefs_ok b els su c' ->
  same_function els pts su c c' -> admitted (pb_size (build b)) m -> c m = c' m.
Proof.
  intros OKS NB HI Hc Hc' HV Hm. eapply C69_coefficients_are_unique; eauto. apply C08_admitted_indices_occur; auto. apply OKS.
Qed.

(** Finite elements whose degrees of freedom are dual to the shape functions (the contract
    of interpolation, C66) have independent shape functions. *)
Theorem C69_dual_elements_are_independent E X (b : bexpr E) path els (su : setup E X) asks interpolation :
  dual b path els su asks interpolation -> derivatives_follow b path els su -> independent b path els (fun _ _ => True) su.
Proof.
  intros HD HF e v p n a He L H0 i Hi. assert (NZ : node_size n <> 0) by lia.
  pose (zero := fun d (_ : X) => Some (CBlk (repeat (CVal 0%R) d))).
  assert (SZ : forall d, scalars (CBlk (repeat (CVal 0%R) d)) = repeat 0%R d).
  { intros d. cbn. induction d; cbn; [reflexivity|]. now rewrite IHd. }
  assert (HN : forall q d, q < d -> nth_error (scalars (CBlk (repeat (CVal 0%R) d))) q = Some 0%R).
  { intros q d Hq. rewrite SZ, nth_error_repeat_eq. destruct (Nat.ltb_spec q d); [reflexivity|lia]. }
  assert (HL : forall d, length (scalars (CBlk (repeat (CVal 0%R) d))) = d) by (intros; now rewrite SZ, repeat_length).
  pose (D := if asks p then Some (zero (su_vdim su p * su_gdim su)) else None).
  assert (A : forall a', (forall x k, k < su_vdim su p -> rsum (node_size n) (fun i => (a' i * shape_of su e p x i k)%R) = 0%R) ->
     interpolation e p (zero (su_vdim su p)) D = Some (map a' (seq 0 (node_size n)))).
  { intros a' Ha. apply (HD e v); auto.
    - intros x. eexists. split; [reflexivity|]. split; [apply HL|]. intros k Hk. rewrite HN by auto. now rewrite Ha.
    - unfold D. destruct (asks p); [|reflexivity]. eexists. split; [reflexivity|]. intros x. eexists. split; [reflexivity|]. split; [apply HL|].
      intros r g Hr Hg. rewrite HN by nia. now rewrite (HF e v p n a' He L Ha x r g Hr Hg). }
  pose proof (A a (fun x k => H0 x k I)) as A1.
  rewrite (A (fun _ => 0%R)) in A1.
  2:{ intros x k Hk. rewrite rsum_scal. ring. }
  injection A1 as A1. assert (Q : nth_error (map (fun _ => 0%R) (seq 0 (node_size n))) i = nth_error (map a (seq 0 (node_size n))) i) by now rewrite A1.
  rewrite !nth_error_map_eq, !nth_error_seq in Q. destruct (Nat.ltb_spec i (node_size n)); [|lia]. cbn in Q. injection Q as Q. now rewrite Q.
Qed.
(** If no leaf uses derivatives, duality suffices. *)
Theorem C69_dual_elements_without_derivatives E X (b : bexpr E) path els (su : setup E X) interpolation :
  dual b path els su (fun _ => false) interpolation -> independent b path els (fun _ _ => True) su.
Proof.
  intros HD e v p n a He L H0 i Hi. pose (su0 := SU (su_basis su) (su_cdim su) (su_vdim su) 0 0 (su_shape su) (su_jac su) (su_jinv su)
    (su_range su) (su_rty su) (su_drange su) (su_drty su)).
  apply (C69_dual_elements_are_independent E X b path els su0 (fun _ => false) interpolation) with (e := e) (v := v) (p := p) (n := n); auto.
  intros e1 v1 p1 n1 a1 _ _ _ x r g _ Hg. cbn in Hg. lia.
Qed.


(** So do Lagrange elements. *)
Theorem C69_lagrange_elements_are_independent E X (b : bexpr E) path els pts (su : setup E X) node :
  nodal b path els pts su node -> independent b path els pts su.
Proof.
  intros HN e v p n a He L H0 i Hi. destruct (HN e v p n He L ltac:(lia)) as [Hd HK].
  specialize (H0 (node e p i) 0 (proj1 (HK i i Hi Hi)) Hd). rewrite (rsum_ext _ _ (fun j => (a j * (if j =? i then 1 else 0))%R)) in H0.
  - now rewrite rsum_pick in H0.
  - intros j Hj. now rewrite (proj2 (HK j i Hj Hi)).
Qed.

Print Assumptions C69_values_determine_the_coefficients.
Print Assumptions C69_function_depends_on_its_dofs_only.
Print Assumptions C69_coefficients_are_unique.
Print Assumptions C69_admitted_coefficients_are_unique.
Print Assumptions C69_dual_elements_are_independent.
Print Assumptions C69_dual_elements_without_derivatives.
Print Assumptions C69_lagrange_elements_are_independent.
