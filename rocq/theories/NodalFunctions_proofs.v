(** On an element a discrete function is a polynomial in global coordinates, and its derivative
    is the gradient of this polynomial. *)
From Coq Require Import List Arith Lia Bool Reals Lra.
From Verif Require Import Lib Basis_model Basis_spec Basis_ok Basis_view Basis_proofs Basis_props Container_model Container_spec
  FlatVector_model FlatVector_props DiscreteFunction_model DiscreteFunction_spec DiscreteFunction_proofs DiscreteFunction_props
  MonomialSet_spec MonomialSet_props Nodal_spec Nodal_poly Nodal_rat Nodal_inverse Derivative_spec Derivative_props NodalFunctions_spec.
Import ListNotations.
Local Open Scope R_scope.
#[local] Arguments total : simpl never.

Section Coefficients.
Context {E X : Type}.
Variables (b : bexpr E) (path : list nat) (els : E -> Prop) (su : setup E X).
Hypothesis OKS : setup_ok b path els su.
(** Component [j] of the coefficient of the global basis function with number [g] of the leaf
    at [p]. *)
Definition coefficient (c : mi -> option (list R)) (p : list nat) (j g : nat) : R :=
  match c (sp_glob (meaning b) (path ++ p, g)) with Some q => nth j q 0 | None => 0 end.
Lemma leaf_coefficients c e v p n l : els e -> leaf_of b path e v p n -> node_size n <> 0%nat -> leaf_at b (path ++ p) = Some l ->
  length (lf_indices l e) = node_size n /\
  forall i j, (i < node_size n)%nat -> coef_of c v n i j = nth i (map (coefficient c p j) (lf_indices l e)) 0.
Proof.
  intros He (Hv & D & L) NZ Hl. pose proof (so_wf _ _ _ _ OKS) as Hwf. pose proof (build_ok b els Hwf) as OK.
  rewrite (bind_new_ok els _ _ e OK He) in Hv. injection Hv as <-. cbn [lv_tree] in D.
  set (n0 := fst (init_tree 0 (pb_node (build b)))) in *.
  assert (Hsk : skel n0 = skel (pb_node (build b))) by apply new_skel.
  assert (HI : In (path ++ p, n) (leaf_nodes (bind_tree e 0 n0))) by (apply leaf_nodes_descendant; auto).
  destruct (leaf_block_length b els e n0 Hwf He Hsk 0%nat (path ++ p, n) HI NZ) as (l1 & A1 & A2). cbn [fst snd] in A1, A2.
  rewrite Hl in A1. injection A1 as <-. split; auto. intros i j Hi. unfold coef_of.
  assert (LI : local_index n i = Some (node_offset n + i)%nat) by (apply local_index_Some; auto). rewrite LI.
  destruct (key_at b els e n0 (path ++ p) n i _ Hwf He Hsk D L LI) as (l1 & g1 & B1 & B2 & B3).
  rewrite Hl in B1. injection B1 as <-. unfold lv_index. cbn [lv_indices]. rewrite nth_error_map_eq, B3. cbn [option_map].
  symmetry. apply nth_error_nth. rewrite nth_error_map_eq, B2. reflexivity.
Qed.
End Coefficients.

(** * Linear combinations of polynomial shape functions *)
Lemma dot_poly a : forall ex x, length a = length ex -> dot a (map (fun e => mono e x) ex) = poly (combine a ex) x.
Proof.
  induction a as [|r a IH]; intros [|e ex] x H; cbn in H; try lia; [reflexivity|].
  cbn [map combine]. rewrite dot_cons. unfold poly in *. cbn [map fst snd]. rewrite total_cons. rewrite IH by lia. reflexivity.
Qed.
Lemma shape_poly d n ex C v : Forall (fun e => length e = d /\ (degree e <= n)%nat) ex -> Forall (fun row => length row = length ex) C ->
  polynomial d n (fun x => dot v (shape ex C [] x)).
Proof.
  intros Hex HC. exists (combine (comb (length ex) v C) ex). split.
  - apply Forall_forall. intros [a e] H. apply in_combine_r in H. rewrite Forall_forall in Hex. cbn. now apply Hex.
  - intros x Hx. rewrite <- dot_poly by (now rewrite comb_length).
    rewrite <- (dot_assoc (length ex)); auto; now rewrite map_length.
Qed.

Lemma element_function d n P N (phi : list R -> list R) (dphi : nat -> list R -> list R) c : dims d -> simplex d P -> length c = N ->
  polynomial d n (fun x => dot c (phi x)) -> (forall x, is_vec d x -> length (phi x) = N) ->
  (forall x k, is_vec d x -> (k < d)%nat -> length (dphi k x) = N /\ forall i, (i < N)%nat -> partial (fun y => nth i (phi y) 0) k x (nth i (dphi k x) 0)) ->
  exists u g H, gradient d u g /\ hessian d g H /\ polynomial d n u /\
    (forall x, is_vec d x -> u (image d P x) = dot c (phi x)) /\
    forall x k, is_vec d x -> (k < d)%nat -> dot c (dphi k x) = dot (g (image d P x)) (column P k).
Proof.
  intros Hd HS Lc HP HL HD. destruct (inverse d P Hd HS) as (M & LM & FM & I1 & I2). pose proof HS as (LP & FP & _).
  set (inv := fun z => map (fun row => dot row (vsub z (nth 0 P []))) M).
  set (u := fun z => dot c (phi (inv z))).
  assert (Pu : polynomial d n u).
  { unfold u. set (F := map (fun row z => dot row (vsub z (nth 0 P []))) M).
    apply poly_ext with (v := fun z => dot c (phi (map (fun f => f z) F))).
    { intros z Hz. f_equal. f_equal. unfold inv, F. rewrite map_map. reflexivity. }
    apply (poly_comp d n (fun x => dot c (phi x)) F); auto; [unfold F; now rewrite map_length|].
    intros i Hi. unfold F. rewrite nth_indep with (d' := (fun z => dot [] (vsub z (nth 0 P [])))) by (rewrite map_length; lia).
    rewrite (map_nth (fun row z => dot row (vsub z (nth 0 P []))) M [] i).
    assert (Lr : length (nth i M []) = d). { rewrite Forall_forall in FM. apply FM, nth_In. lia. }
    assert (L0 : length (nth 0 P []) = d). { rewrite Forall_forall in FP. apply FP, nth_In. lia. }
    apply poly_ext with (v := fun x => - dot (nth i M []) (nth 0 P []) + dot (nth i M []) x); [|apply affine_poly; auto].
    intros x Hx. unfold is_vec in Hx. revert Lr L0 Hx. generalize (nth i M []) (nth 0 P []). clear. intros r. revert d x.
    induction r as [|a r IH]; intros d [|y x] [|w l] Lr L0 Hx; cbn in *; subst; try discriminate; [unfold dot, total; cbn; ring|].
    unfold vsub. cbn [combine map fst snd]. rewrite !dot_cons. specialize (IH (length r) x l eq_refl ltac:(lia) ltac:(lia)). unfold vsub in IH. rewrite IH. ring. }
  destruct (polynomial_gradient d n u Pu) as (g & H & Hg & HH). exists u, g, H. split; auto. split; auto. split; auto.
  assert (V : forall x, is_vec d x -> u (image d P x) = dot c (phi x)).
  { intros x Hx. unfold u, inv. now rewrite I1. }
  split; auto. intros x k Hx Hk. pose proof (local_gradient d P u g x k Hd LP FP Hg Hx Hk) as P1.
  assert (P2 : partial (fun y => dot c (phi y)) k x (dot c (dphi k x))).
  { destruct (HD x k Hx Hk) as [LD PD].
    pose proof (partial_dot c (map (fun i y => nth i (phi y) 0) (seq 0 N)) (dphi k x) k x) as PD'.
    eapply partial_ext; [|unfold is_vec in Hx; lia|apply PD'].
    - intros y Hy. cbn beta. f_equal. rewrite map_map. assert (Ly : length (phi y) = N) by (apply HL; unfold is_vec in *; lia).
      rewrite <- Ly. symmetry. apply map_nth_seq.
    - rewrite map_length, seq_length. lia.
    - intros i f w Hf Hw. rewrite nth_error_map_eq in Hf. assert (Hi : (i < N)%nat) by (rewrite <- LD; now apply nth_error_Some_lt in Hw).
      rewrite nth_error_seq in Hf. destruct (Nat.ltb_spec i N); [|lia]. cbn in Hf. injection Hf as <-.
      apply nth_error_nth with (d := 0) in Hw. rewrite <- Hw. apply PD; auto. }
  apply (partial_unique (fun y => dot c (phi y)) k x); auto.
  eapply partial_ext; [|unfold is_vec in Hx; lia|exact P1]. intros y Hy. symmetry. apply V. unfold is_vec in *. lia.
Qed.

Lemma rsum_pick d k (f : nat -> R) : (k < d)%nat -> rsum d (fun m => if (k =? m)%nat then f m else 0) = f k.
Proof.
  intros Hk. induction d as [|d IH]; [lia|]. rewrite rsum_S. destruct (Nat.eqb_spec k d) as [->|D].
  - rewrite (rsum_ext d _ (fun _ => 0 * 0)); [rewrite rsum_scal; lra|]. intros i Hi. destruct (Nat.eqb_spec d i); [lia|ring].
  - rewrite IH by lia. lra.
Qed.
Lemma dot_rsum c : forall phi N, length c = N -> length phi = N -> dot c phi = rsum N (fun i => nth i c 0 * nth i phi 0).
Proof.
  intros phi N Hc Hp. rewrite (rsum_dot (fun i => nth i c 0) N phi Hp). f_equal. rewrite <- Hc. symmetry. apply map_nth_seq.
Qed.

Section Functions.
Context {E : Type}.
Variables (b : bexpr E) (path : list nat) (els : E -> Prop) (su : setup E (list R)).
Hypothesis OKS : setup_ok b path els su.
Lemma leaf_function d n P N ef ej (phi : list R -> list R) (dphi : nat -> list R -> list R) cf e v p nd l j :
  dims d -> simplex d P -> els e -> leaf_of b path e v p nd -> node_size nd <> 0%nat -> leaf_at b (path ++ p) = Some l ->
  leaf_element su p d P e ef ej -> (j < su_cdim su)%nat ->
  (forall c, length c = N -> polynomial d n (fun x => dot c (phi x))) ->
  (forall x, is_vec d x -> ef x = Some (phi x) /\ length (phi x) = N) ->
  (forall x k, is_vec d x -> (k < d)%nat -> ej x k = Some (dphi k x) /\ length (dphi k x) = N /\
     forall i, (i < N)%nat -> partial (fun y => nth i (phi y) 0) k x (nth i (dphi k x) 0)) ->
  let c := map (coefficient b path cf p j) (lf_indices l e) in
  length c = N /\
  exists u g H, gradient d u g /\ hessian d g H /\ (forall x, is_vec d x -> u (image d P x) = dot c (phi x)) /\
    (forall x y, is_vec d x -> is_value b path su e cf x y -> range_entry p y j = u (image d P x)) /\
    forall x y k, is_vec d x -> is_derivative b path su e cf x y -> (k < d)%nat -> range_entry p y (j * d + k) = nth k (g (image d P x)) 0.
Proof.
  intros Hd HS He L NZ Hl LE Hj PO EF EJ c. destruct LE as [LV (LD & LG) LS LJ LI].
  destruct (leaf_coefficients b path els su OKS cf e v p nd l He L NZ Hl) as [Li CO].
  assert (SZ : node_size nd = N).
  { assert (Z : is_vec d (repeat 0 d)) by apply repeat_length. destruct (EF _ Z) as [E1 E2].
    destruct (so_shape _ _ _ _ OKS e v p nd (repeat 0 d) He L) as [A _]. rewrite (LS _ _ Z E1), map_length in A. lia. }
  assert (Lc : length c = N) by (unfold c; rewrite map_length; lia). split; auto.
  destruct (element_function d n P N phi dphi c Hd HS Lc (PO c Lc)) as (u & g & H & Hg & HH & _ & U & DU).
  { intros x Hx. now apply EF. }
  { intros x k Hx Hk. destruct (EJ x k Hx Hk) as (_ & A & B). auto. }
  exists u, g, H. split; auto. split; auto. split; auto. split.
  - intros x y Hx V. destruct (EF x Hx) as [E1 E2]. pose proof (value_entry b path su e cf x y v p nd j 0 V L Hj) as VE. rewrite LV in VE.
    replace (j * 1 + 0)%nat with j in VE by lia. rewrite VE by lia. rewrite U by auto. rewrite (dot_rsum c (phi x) N) by auto. rewrite SZ.
    apply rsum_ext. intros i Hi. rewrite CO by lia. fold c. f_equal. unfold shape_of. rewrite (LS x _ Hx E1).
    rewrite (nth_indep _ [] [0]) by (rewrite map_length; lia). now rewrite (map_nth (fun r => [r])).
  - intros x y k Hx V Hk. pose proof (derivative_entry b path su e cf x y v p nd j 0 k V L Hj) as VE. rewrite LV, LG, LD in VE.
    replace (j * (1 * d) + (0 * d + k))%nat with (j * d + k)%nat in VE by lia. rewrite VE by lia. rewrite SZ.
    assert (Vi : is_vec d (image d P x)) by (destruct HS as (A & B & _); now apply image_vec).
    destruct (Hg _ Vi) as [Vg _].
    rewrite (rsum_ext N _ (fun i => rsum d (fun a => su_jinv su e x a k * (nth i c 0 * nth i (dphi a x) 0)))).
    2: { intros i Hi. rewrite CO by lia. fold c. rewrite <- rsum_scal. apply rsum_ext. intros a Ha.
         destruct (EJ x a Hx Ha) as (A & _). rewrite (LJ x a _ i Hx Ha A). ring. }
    rewrite rsum_swap.
    rewrite (rsum_ext d _ (fun a => rsum d (fun m => nth m (g (image d P x)) 0 * (nth m (column P a) 0 * su_jinv su e x a k)))).
    2: { intros a Ha. rewrite rsum_scal. destruct (EJ x a Hx Ha) as (_ & A & _). rewrite <- (dot_rsum c (dphi a x) N) by auto. rewrite DU by auto.
         rewrite (dot_rsum _ (column P a) d); [|exact Vg|destruct HS as (B1 & B2 & _); now apply column_vec]. rewrite <- rsum_scal. apply rsum_ext. intros m Hm. ring. }
    rewrite rsum_swap.
    rewrite (rsum_ext d _ (fun m => if (k =? m)%nat then nth m (g (image d P x)) 0 else 0)).
    2: { intros m Hm. rewrite rsum_scal. unfold column. rewrite (LI x m k Hx Hm Hk). rewrite Nat.eqb_sym. destruct (k =? m)%nat; ring. }
    now rewrite (rsum_pick d k (fun m => nth m (g (image d P x)) 0)).
Qed.
End Functions.
