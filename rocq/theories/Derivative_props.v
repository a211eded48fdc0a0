(** C79: derivative(f) is the derivative of the discrete function f. *)
From Coq Require Import List Arith Lia Bool Reals Lra.
From Verif Require Import Lib Basis_model Basis_spec Basis_ok Basis_view Basis_proofs Basis_props Container_model Container_spec
  FlatVector_model FlatVector_props DiscreteFunction_model DiscreteFunction_spec DiscreteFunction_proofs DiscreteFunction_props
  MonomialSet_spec MonomialSet_props Nodal_spec Nodal_poly Nodal_rat Nodal_inverse Derivative_spec.
Import ListNotations.
Local Open Scope R_scope.

Lemma nth_error_entry p y c i r : node_to_range p y = Some c -> nth_error (scalars c) i = Some r -> range_entry p y i = r.
Proof. intros H N. unfold range_entry. rewrite H. now apply nth_error_nth. Qed.
Lemma value_entry {E X} (b : bexpr E) path (su : setup E X) e c x y v p n j k : is_value b path su e c x y -> leaf_of b path e v p n ->
  (j < su_cdim su)%nat -> (k < su_vdim su p)%nat ->
  range_entry p y (j * su_vdim su p + k) = rsum (node_size n) (fun i => coef_of c v n i j * shape_of su e p x i k).
Proof.
  intros (_ & H) L Hj Hk. destruct (H v p n L) as (z & Z & Z0 & Z1). destruct (Nat.eq_dec (node_size n) 0) as [N|N].
  - rewrite N. change (rsum 0 _) with 0. unfold range_entry. rewrite Z. destruct (nth_in_or_default (j * su_vdim su p + k) (scalars z) 0) as [I|I]; [|exact I].
    now apply Z0.
  - destruct (Z1 N) as [_ A]. eapply nth_error_entry; eauto.
Qed.
Lemma derivative_entry {E X} (b : bexpr E) path (su : setup E X) e c x y v p n j r g : is_derivative b path su e c x y -> leaf_of b path e v p n ->
  (j < su_cdim su)%nat -> (r < su_vdim su p)%nat -> (g < su_gdim su)%nat ->
  range_entry p y (j * (su_vdim su p * su_gdim su) + (r * su_gdim su + g)) =
  rsum (node_size n) (fun i => coef_of c v n i j * rsum (su_ldim su) (fun l => jac_of su e p x i r l * su_jinv su e x l g)).
Proof.
  intros (_ & H) L Hj Hk Hg. destruct (H v p n L) as (z & Z & Z0 & Z1). destruct (Nat.eq_dec (node_size n) 0) as [N|N].
  - rewrite N. change (rsum 0 _) with 0. unfold range_entry. rewrite Z. match goal with |- nth ?i _ _ = _ => destruct (nth_in_or_default i (scalars z) 0) as [I|I]; [|exact I] end.
    now apply Z0.
  - destruct (Z1 N) as [_ A]. eapply nth_error_entry; eauto.
Qed.
Lemma dlim_rsum n (f : nat -> R -> R) (d : nat -> R) x : (forall i, (i < n)%nat -> derivable_pt_lim (f i) x (d i)) ->
  derivable_pt_lim (fun t => rsum n (fun i => f i t)) x (rsum n d).
Proof.
  intros H. induction n as [|n IH].
  - apply (dlim_ext _ (fct_cte 0)); [reflexivity|]. apply derivable_pt_lim_const.
  - rewrite rsum_S. apply (dlim_ext _ (plus_fct (fun t => rsum n (fun i => f i t)) (f n))); [intros t; unfold plus_fct; now rewrite rsum_S|].
    apply derivable_pt_lim_plus; [apply IH; intros i Hi; apply H; lia|apply H; lia].
Qed.

Lemma rsum_head m (h : nat -> R) : rsum (S m) h = h 0%nat + rsum m (fun g => h (S g)).
Proof.
  revert h. induction m as [|m IH]; intros h; [rewrite rsum_S; change (rsum 0 h) with 0; change (rsum 0 (fun g => h (S g))) with 0; ring|].
  rewrite rsum_S, IH, (rsum_S m). ring.
Qed.
Lemma rsum_dot (f : nat -> R) m w : length w = m -> rsum m (fun g => f g * nth g w 0) = dot (map f (seq 0 m)) w.
Proof.
  intros H. enough (G : forall k, rsum m (fun g => f (k + g)%nat * nth g w 0) = dot (map f (seq k m)) w) by apply (G 0%nat).
  revert w H. induction m as [|m IH]; intros [|a w] H k; cbn in H; try lia; [reflexivity|].
  cbn [seq map]. rewrite dot_cons, <- IH by lia. rewrite rsum_head. cbn [nth]. rewrite Nat.add_0_r. f_equal.
  apply rsum_ext. intros g _. now rewrite Nat.add_succ_r.
Qed.

Section Derivative.
Context {E : Type}.
Variables (b : bexpr E) (path : list nat) (els : E -> Prop) (su : setup E (list R)) (geo : E -> list R -> list R).
Hypothesis DO : derivatives_ok b path els su geo.

Lemma chain_rule e c x w V (Y : list R -> cont R) D v p n j r :
  els e -> is_vec (su_ldim su) x -> is_vec (su_ldim su) w -> velocity (su_gdim su) (geo e) x w V ->
  (forall y, is_vec (su_ldim su) y -> is_value b path su e c y (Y y)) -> is_derivative b path su e c x D ->
  leaf_of b path e v p n -> (j < su_cdim su)%nat -> (r < su_vdim su p)%nat ->
  derivable_pt_lim (fun t => range_entry p (Y (vadd x (vscale t w))) (j * su_vdim su p + r)) 0
    (rsum (su_gdim su) (fun g => range_entry p D (j * (su_vdim su p * su_gdim su) + (r * su_gdim su + g)) * nth g V 0)).
Proof.
  intros He Hx Hw HV HY HD L Hj Hr.
  apply (dlim_ext _ (fun t => rsum (node_size n) (fun i => coef_of c v n i j * shape_of su e p (vadd x (vscale t w)) i r))).
  { intros t. apply (value_entry b path su e c (vadd x (vscale t w)) _ v p n); auto. apply HY. apply vadd_vec; auto. now apply vscale_vec. }
  replace (rsum (su_gdim su) _) with (rsum (node_size n) (fun i => coef_of c v n i j * rsum (su_ldim su) (fun l => jac_of su e p x i r l * nth l w 0))).
  - apply dlim_rsum. intros i Hi. apply (derivable_pt_lim_scal (fun t => shape_of su e p (vadd x (vscale t w)) i r)).
    eapply (do_shape _ _ _ _ _ DO); eauto.
  - rewrite (rsum_ext (su_gdim su) _ (fun g => rsum (node_size n) (fun i => coef_of c v n i j *
      rsum (su_ldim su) (fun l => jac_of su e p x i r l * (su_jinv su e x l g * nth g V 0))))).
    + rewrite rsum_swap. apply rsum_ext. intros i Hi. rewrite rsum_scal. f_equal. rewrite rsum_swap. apply rsum_ext. intros l Hl.
      rewrite rsum_scal. f_equal. symmetry. eapply (do_inverse _ _ _ _ _ DO); eauto.
    + intros g Hg. rewrite (derivative_entry b path su e c x D v p n) by auto. rewrite Rmult_comm, <- rsum_scal. apply rsum_ext. intros i Hi.
      rewrite Rmult_comm, Rmult_assoc. f_equal. rewrite Rmult_comm, <- rsum_scal. apply rsum_ext. intros l Hl. ring.
Qed.
Lemma gradient_entries e c (Y D : list R -> cont R) local v p n j r :
  els e -> affine_inverse (su_ldim su) (su_gdim su) (geo e) local ->
  (forall y, is_vec (su_ldim su) y -> is_value b path su e c y (Y y) /\ is_derivative b path su e c y (D y)) ->
  leaf_of b path e v p n -> (j < su_cdim su)%nat -> (r < su_vdim su p)%nat ->
  gradient (su_gdim su) (fun z => range_entry p (Y (local z)) (j * su_vdim su p + r))
    (fun z => map (fun g => range_entry p (D (local z)) (j * (su_vdim su p * su_gdim su) + (r * su_gdim su + g))) (seq 0 (su_gdim su))).
Proof.
  intros He AI H L Hj Hr z Hz. split; [unfold is_vec; now rewrite map_length, seq_length|]. intros w Hw.
  destruct (AI z Hz) as (Lz & Gz & A). destruct (A w Hw) as (w' & Lw & W).
  assert (HV : velocity (su_gdim su) (geo e) (local z) w' w).
  { split; auto. intros g Hg. apply (dlim_ext _ (fun t => nth g z 0 + t * nth g w 0)).
    - intros t. rewrite <- W. destruct (AI (vadd z (vscale t w))) as (_ & -> & _); [apply vadd_vec; auto; now apply vscale_vec|].
      assert (N : forall (a b : list R) m, length a = length b -> nth m (vadd a b) 0 = nth m a 0 + nth m b 0).
      { clear. induction a as [|x a IH]; intros [|y b] [|m] HL; cbn in *; try lia; try ring. rewrite <- IH by lia. reflexivity. }
      rewrite N, nth_vscale; [ring|]. rewrite vscale_length. unfold is_vec in *. lia.
    - apply line_dlim. }
  pose proof (chain_rule e c (local z) w' w Y (D (local z)) v p n j r He Lz Lw HV (fun y Hy => proj1 (H y Hy)) (proj2 (H _ Lz)) L Hj Hr) as C.
  replace (dot _ w) with (rsum (su_gdim su) (fun g => range_entry p (D (local z)) (j * (su_vdim su p * su_gdim su) + (r * su_gdim su + g)) * nth g w 0)).
  - eapply dlim_ext; [|exact C]. intros t. cbn. now rewrite W.
  - apply (rsum_dot (fun g => range_entry p (D (local z)) (j * (su_vdim su p * su_gdim su) + (r * su_gdim su + g)))). exact Hw.
Qed.
End Derivative.

Section Theorems.
Context {E : Type}.
Variables (b : bexpr E) (path : list nat) (els : E -> Prop) (su : setup E (list R)) (geo : E -> list R -> list R)
  (c0 : mi -> option (list R)) (h : list (lfop E)).
Hypothesis OKS : setup_ok b path els su.
Hypothesis DO : derivatives_ok b path els su geo.
Hypothesis Hc0 : coefs_ok b els su c0.
Hypothesis Hh : Forall (op_ok b els su) h.

(** Take a local function [f] and a derivative [df] bound to the same element with the same
    coefficients, after any history.  If a point moves through the element then every
    component of the value of [f] changes at the rate that [df] gives for its velocity in
    global coordinates. *)
Theorem C79_chain_rule l c w i k e cc f df x dx V :
  sf_run ([], c0) h = Some (l, c) -> lf_run su (W [] c0) h = Some w ->
  nth_error l i = Some (SF false (Some (e, cc))) -> nth_error (w_pool w) i = Some f ->
  nth_error l k = Some (SF true (Some (e, cc))) -> nth_error (w_pool w) k = Some df ->
  els e -> is_vec (su_ldim su) x -> is_vec (su_ldim su) dx -> velocity (su_gdim su) (geo e) x dx V ->
  exists Y D, (forall y, lf_eval su f y = Some (Y y)) /\ lf_eval su df x = Some D /\
  forall v p n j r, leaf_of b path e v p n -> (j < su_cdim su)%nat -> (r < su_vdim su p)%nat ->
    derivable_pt_lim (fun t => range_entry p (Y (vadd x (vscale t dx))) (j * su_vdim su p + r)) 0
      (rsum (su_gdim su) (fun g => range_entry p D (j * (su_vdim su p * su_gdim su) + (r * su_gdim su + g)) * nth g V 0)).
Proof.
  intros R Rw Hi Hf Hk Hdf He Hx Hdx HV.
  pose proof (fun y => C26_value_is_the_weighted_sum b path els su c0 h OKS Hc0 Hh l c w i e cc f y R Rw Hi Hf) as VA.
  destruct (C26_derivative_is_the_weighted_sum b path els su c0 h OKS Hc0 Hh l c w k e cc df x R Rw Hk Hdf) as (D & D1 & D2).
  exists (fun y => match lf_eval su f y with Some z => z | None => CVal 0 end), D.
  split; [intros y; destruct (VA y) as (z & -> & _); reflexivity|]. split; auto.
  intros v p n j r L Hj Hr. apply (chain_rule b path els su geo DO e cc x dx V (fun y => match lf_eval su f y with Some z => z | None => CVal 0 end) D v p n); auto.
  intros y _. destruct (VA y) as (z & -> & H). exact H.
Qed.

(** On an element with an affine geometry of full dimension the values, as a function of
    global coordinates, have the values of the derivative as their gradients. *)
Theorem C79_gradient l c w i k e cc f df local :
  sf_run ([], c0) h = Some (l, c) -> lf_run su (W [] c0) h = Some w ->
  nth_error l i = Some (SF false (Some (e, cc))) -> nth_error (w_pool w) i = Some f ->
  nth_error l k = Some (SF true (Some (e, cc))) -> nth_error (w_pool w) k = Some df ->
  els e -> affine_inverse (su_ldim su) (su_gdim su) (geo e) local ->
  exists Y D, (forall y, lf_eval su f y = Some (Y y) /\ lf_eval su df y = Some (D y)) /\
  forall v p n j r, leaf_of b path e v p n -> (j < su_cdim su)%nat -> (r < su_vdim su p)%nat ->
    gradient (su_gdim su) (fun z => range_entry p (Y (local z)) (j * su_vdim su p + r))
      (fun z => map (fun g => range_entry p (D (local z)) (j * (su_vdim su p * su_gdim su) + (r * su_gdim su + g))) (seq 0 (su_gdim su))).
Proof.
  intros R Rw Hi Hf Hk Hdf He AI.
  pose proof (fun y => C26_value_is_the_weighted_sum b path els su c0 h OKS Hc0 Hh l c w i e cc f y R Rw Hi Hf) as VA.
  pose proof (fun y => C26_derivative_is_the_weighted_sum b path els su c0 h OKS Hc0 Hh l c w k e cc df y R Rw Hk Hdf) as DA.
  exists (fun y => match lf_eval su f y with Some z => z | None => CVal 0 end), (fun y => match lf_eval su df y with Some z => z | None => CVal 0 end).
  split; [intros y; destruct (VA y) as (z & -> & _); destruct (DA y) as (z' & -> & _); auto|].
  intros v p n j r L Hj Hr.
  apply (gradient_entries b path els su geo DO e cc (fun y => match lf_eval su f y with Some z => z | None => CVal 0 end)
    (fun y => match lf_eval su df y with Some z => z | None => CVal 0 end) local v p n); auto.
  intros y _. destruct (VA y) as (z & -> & H). destruct (DA y) as (z' & -> & H'). auto.
Qed.
End Theorems.

(** * The hypotheses are met *)

(** The function of C26, on the intervals [0,1/2] and [1/2,1]. *)
Definition ex79_su : setup nat (list R) := SU (subspace_of_root (build ex26_b) []) 1 (fun _ => 1%nat) 1 1
  (fun _ p x => match p with [1%nat] => [[1]] | _ => [[1 - nth 0 x 0]; [nth 0 x 0]] end)
  (fun _ p _ => match p with [1%nat] => [[0]] | _ => [[- (1)]; [1]] end)
  (fun _ _ _ _ => 2)
  (CBlk [CBlk [CVal 0; CVal 0]; CVal 0]) (fun _ => FScalar)
  (CBlk [CBlk [CBlk [CVal 0]; CBlk [CVal 0]]; CBlk [CVal 0]]) (fun _ => FVec (Some 1%nat) FScalar).
Definition ex79_geo (e : nat) (x : list R) : list R := [(nth 0 x 0 + INR e) / 2].
Definition ex79_local (e : nat) (z : list R) : list R := [2 * nth 0 z 0 - INR e].
Example C79_setup_ok : setup_ok ex26_b [] ex_els ex79_su /\ coefs_ok ex26_b ex_els ex79_su ex26_c.
Proof.
  destruct C26_hypotheses_met as [[A B C D F G H] Q].
  split; [constructor|]; auto.
  - intros e v p n x He L. destruct (ex26_leaf e v p n L) as [[ -> | [ -> | -> ]] ->]; cbn; repeat constructor.
  - intros e v p n x He L. destruct (ex26_leaf e v p n L) as [[ -> | [ -> | -> ]] ->]; cbn; repeat constructor.
  - intros e v p n He L. destruct (G e v p n He L) as [X Y]. split; [exact X|exact Y].
  - intros e v p n He L. destruct (H e v p n He L) as [X Y]. split; [exact X|exact Y].
Qed.
Example C79_derivatives_ok : derivatives_ok ex26_b [] ex_els ex79_su ex79_geo.
Proof.
  assert (S1 : forall x w, is_vec 1 x -> is_vec 1 w -> forall t, nth 0 (vadd x (vscale t w)) 0 = nth 0 x 0 + t * nth 0 w 0).
  { intros x w Hx Hw t. apply vec1 in Hx as (a & ->). apply vec1 in Hw as (d & ->). reflexivity. }
  assert (C : forall a x, derivable_pt_lim (fun _ => a) x 0) by (intros a x; apply (derivable_pt_lim_const a)).
  constructor.
  - intros e v p n x w i k He L Hi Hk Hx Hw. change (su_vdim ex79_su p) with 1%nat in Hk. change (su_ldim ex79_su) with 1%nat in *. replace k with 0%nat by lia. clear k Hk.
    rewrite rsum_S. change (rsum 0 _) with 0. rewrite Rplus_0_l. unfold jac_of, shape_of. change (su_ldim ex79_su) with 1%nat.
    assert (K0 : forall A B, derivable_pt_lim (fun t => nth 0 (nth 0 [[1 - nth 0 (vadd x (vscale t w)) 0]; [nth 0 (vadd x (vscale t w)) 0]] A) B) 0 (- (1) * nth 0 w 0)).
    { intros A B. cbn. apply (dlim_ext _ (fun t => (1 - nth 0 x 0) + t * (- nth 0 w 0))); [intros t; rewrite S1 by auto; ring|].
      replace (- (1) * nth 0 w 0) with (- nth 0 w 0) by ring. apply line_dlim. }
    assert (K1 : forall A B, derivable_pt_lim (fun t => nth 0 (nth 1 [[1 - nth 0 (vadd x (vscale t w)) 0]; [nth 0 (vadd x (vscale t w)) 0]] A) B) 0 (1 * nth 0 w 0)).
    { intros A B. cbn. apply (dlim_ext _ (fun t => nth 0 x 0 + t * nth 0 w 0)); [intros t; now rewrite S1 by auto|]. rewrite Rmult_1_l. apply line_dlim. }
    destruct (ex26_leaf e v p n L) as [[ -> | [ -> | -> ]] N]; rewrite N in Hi; cbn in Hi.
    + destruct i as [|[|i]]; [apply K0|apply K1|lia].
    + destruct i as [|[|i]]; [apply K0|apply K1|lia].
    + destruct i as [|i]; [|lia]. cbn. rewrite Rmult_0_l. apply C.
  - intros e x w V l He Hx Hw Hl [HV D]. change (su_gdim ex79_su) with 1%nat in *. change (su_ldim ex79_su) with 1%nat in *. replace l with 0%nat by lia. clear l Hl.
    rewrite rsum_S. change (rsum 0 _) with 0. rewrite Rplus_0_l. cbn [su_jinv ex79_su]. specialize (D 0%nat ltac:(lia)). cbn [ex79_geo nth] in D.
    assert (D' : derivable_pt_lim (fun t => (nth 0 (vadd x (vscale t w)) 0 + INR e) / 2) 0 (nth 0 w 0 / 2)).
    { apply (dlim_ext _ (fun t => (nth 0 x 0 + INR e) / 2 + t * (nth 0 w 0 / 2))); [intros t; rewrite S1 by auto; field|]. apply line_dlim. }
    rewrite (uniqueness_limite _ _ _ _ D D'). field.
Qed.
Example C79_affine_met e : affine_inverse 1 1 (ex79_geo e) (ex79_local e).
Proof.
  intros z Hz. apply vec1 in Hz as (a & ->). split; [reflexivity|]. split; [unfold ex79_geo, ex79_local; cbn; f_equal; field|].
  intros w Hw. apply vec1 in Hw as (d & ->). exists [2 * d]. split; [reflexivity|]. intros t. unfold ex79_local, vadd, vscale; cbn. f_equal. ring.
Qed.
Example C79_history_met : let h := [OpNew false; OpBind 0 1%nat; OpDerivative 0] in
  Forall (op_ok ex26_b ex_els ex79_su) h /\
  sf_run ([], ex26_c) h = Some ([SF false (Some (1%nat, ex26_c)); SF true (Some (1%nat, ex26_c))], ex26_c) /\
  exists f df, lf_run ex79_su (W [] ex26_c) h = Some (W [f; df] ex26_c).
Proof. split; [repeat constructor|]. split; [reflexivity|]. do 2 eexists. reflexivity. Qed.

Print Assumptions C79_chain_rule.
Print Assumptions C79_gradient.
