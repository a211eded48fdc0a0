(** C71: spline spaces contain the polynomials. *)
From Coq Require Import List Arith Lia Reals Lra Bool.
From Verif Require Import Lib Basis_model Basis_spec BSpline_model BSpline_spec BSpline_numbering BSpline_oned BSpline_tensor BSpline_props
  SplineSmooth_spec SplineSmooth_props SplineSmooth_examples SplineIndep_oned SplineIndep_props SplinePoly_oned SplinePoly_spec.
Import ListNotations.
Local Open Scope R_scope.
#[local] Arguments Nat.ltb : simpl never.
#[local] Arguments Nat.eqb : simpl never.

(** the sum over all functions of a direction *)
Lemma powers_all d s x m : knots_sorted d -> nonempty_span (d_knots d) s -> full_spans d -> (m <= d_order d)%nat ->
  Sig 0 (size1 d) (fun j => power_coef d (d_order d) m j * FNg 0 d s j x) = x ^ m.
Proof.
  intros A B F Hm. destruct (F s B) as [F1 F2]. rewrite <- (powers d s A B x (d_order d) m Hm F1 F2).
  replace (size1 d) with ((s - d_order d) + (S (d_order d) + (size1 d - s - 1)))%nat by (unfold size1, knots_size; lia).
  rewrite !Sig_app. cbn [Nat.add]. rewrite (Sig_zero 0 (s - d_order d)), (Sig_zero (s - d_order d + S (d_order d))).
  - cbn [FNg]. ring.
  - intros i Hi. rewrite FNg_inactive by lia. ring.
  - intros i Hi. rewrite FNg_inactive by lia. ring.
Qed.

(** coefficients of a monomial *)
Fixpoint mono_coef (dirs : list dir) (a : list nat) (js : list nat) : R :=
  match dirs, a, js with
  | d :: dirs', m :: a', j :: js' => power_coef d (d_order d) m j * mono_coef dirs' a' js'
  | _, _, _ => 1
  end.
Lemma mono_sum dirs : forall spans a xs k, length dirs = length spans -> length xs = length dirs -> Forall dir_good (combine dirs spans) ->
  Forall full_spans dirs -> Forall2 (fun d m => m <= d_order d)%nat dirs a ->
  Sig 0 (dimension dirs) (fun I => mono_coef dirs a (getIJK I (map size1 dirs)) * tensG (fun _ => 0%nat) k (combine dirs spans) (getIJK I (map size1 dirs)) xs) =
  monomial a xs.
Proof.
  induction dirs as [|d dirs IH]; intros spans a xs k L LX G F FA; (destruct spans as [|s spans]; try discriminate L).
  - inversion FA; subst. unfold Sig, dimension, prod. cbn. ring.
  - destruct xs as [|x xs]; [discriminate LX|]. inversion FA as [|? m ? a' Hm FA']; subst. inversion F as [|? ? F1 F2]; subst. cbn [combine] in G.
    inversion G as [|? ? (A & B & C) G']; subst. unfold dimension. cbn [map combine]. rewrite prod_cons. cbn [getIJK mono_coef tensG monomial].
    rewrite <- (IH spans a' xs (S k)) by (trivial; cbn in L, LX; lia). rewrite <- (powers_all d s x m A B F1 Hm).
    rewrite <- (Sig_prod (size1 d) _ (fun j => power_coef d (d_order d) m j * FNg 0 d s j x)
       (fun I => mono_coef dirs a' (getIJK I (map size1 dirs)) * tensG (fun _ => 0%nat) (S k) (combine dirs spans) (getIJK I (map size1 dirs)) xs)).
    apply Sig_ext. intros I _. ring.
Qed.
Lemma mono_combination dirs e spans xs a : Forall dir_ok dirs -> Forall knots_sorted dirs -> Forall full_spans dirs -> element_spans dirs e spans ->
  length xs = length dirs -> Forall2 (fun d m => m <= d_order d)%nat dirs a ->
  combination (fun I => mono_coef dirs a (getIJK I (map size1 dirs))) (lf_indices (bspline_leaf dirs) e) (lb_evaluateFunction dirs spans xs) =
  monomial a (global_point dirs spans xs).
Proof.
  intros D S F E LX FA. destruct (elements_good dirs e spans D S E) as (L & G & O).
  cbn [bspline_leaf lf_indices]. rewrite (bind_spans _ _ _ E).
  assert (LG : length (global_point dirs spans xs) = length dirs) by (apply global_point_length; assumption).
  unfold lb_evaluateFunction. rewrite globalIn_point by assumption.
  rewrite (combination_all dirs spans L O _ (fun _ => 0%nat) (global_point dirs spans xs)); [|exact LG|apply evalF_length; assumption|].
  - apply mono_sum; assumption.
  - intros i Hi. apply evalF_nth; assumption.
Qed.
Lemma combination_plus c c' idx v : combination (fun n => c n + c' n) idx v = combination c idx v + combination c' idx v.
Proof. unfold combination. induction (combine idx v) as [|[n r] l IH]; cbn [map fold_right fst snd]; [ring|]. rewrite IH. ring. Qed.
Lemma combination_scal k c idx v : combination (fun n => k * c n) idx v = k * combination c idx v.
Proof. unfold combination. induction (combine idx v) as [|[n r] l IH]; cbn [map fold_right fst snd]; [ring|]. rewrite IH. ring. Qed.

(** Every polynomial whose degree in each variable is at most the order in this direction
    is a function of the space: there are coefficients that give it on all elements. *)
Theorem C71_spline_spaces_contain_polynomials : forall dirs q,
  Forall dir_ok dirs -> Forall knots_sorted dirs -> Forall full_spans dirs -> degree_ok dirs q ->
  exists c, forall e spans xs, element_spans dirs e spans -> in_cube dirs xs ->
    combination c (lf_indices (bspline_leaf dirs) e) (lb_evaluateFunction dirs spans xs) = polynomial q (global_point dirs spans xs).
Proof.
  intros dirs q D S F HQ. induction q as [|[r a] q IH].
  - exists (fun _ => 0). intros e spans xs E HX. unfold combination, polynomial. cbn. 
    induction (combine _ _) as [|[n v] l IH]; cbn [map fold_right]; [reflexivity|]. rewrite IH. ring.
  - inversion HQ as [|? ? H1 H2]; subst. destruct (IH H2) as (c & Hc). cbn [snd] in H1.
    exists (fun I => r * mono_coef dirs a (getIJK I (map size1 dirs)) + c I). intros e spans xs E HX. pose proof HX as [LX _].
    rewrite combination_plus, combination_scal, (Hc e spans xs E HX), (mono_combination dirs e spans xs a D S F E LX H1). reflexivity.
Qed.

Fixpoint unit_exp (dirs : list dir) (k : nat) : list nat :=
  match dirs, k with
  | [], _ => []
  | _ :: l, 0%nat => 1%nat :: map (fun _ => 0%nat) l
  | _ :: l, S k' => 0%nat :: unit_exp l k'
  end.
Lemma power_coef_0 d r i : power_coef d r 0 i = 1.
Proof.
  unfold power_coef. rewrite Nat.sub_0_r, psic_top. unfold C. rewrite Nat.sub_0_r. cbn [pow fact INR]. field. apply INR_fact_neq_0.
Qed.
Lemma mono_coef_0 dirs : forall js, mono_coef dirs (map (fun _ => 0%nat) dirs) js = 1.
Proof. induction dirs as [|d l IH]; intros [|j js]; cbn [map mono_coef]; try reflexivity. rewrite IH, power_coef_0. ring. Qed.
Lemma mono_coef_unit dirs : forall k d js, nth_error dirs k = Some d -> (0 < d_order d)%nat -> length js = length dirs ->
  mono_coef dirs (unit_exp dirs k) js = greville d (nth k js 0%nat).
Proof.
  induction dirs as [|d0 l IH]; intros k d js Hk Hd HJ; [destruct k; discriminate|]. destruct js as [|j js]; [discriminate|].
  destruct k as [|k]; cbn [nth_error unit_exp mono_coef nth] in *.
  - injection Hk as <-. rewrite mono_coef_0, power_coef_1 by exact Hd. unfold greville, Sig. ring.
  - rewrite power_coef_0, (IH k d js Hk Hd) by (cbn in HJ; lia). ring.
Qed.
Lemma monomial_0 {A} (l : list A) xs : monomial (map (fun _ => 0%nat) l) xs = 1.
Proof. revert xs. induction l as [|a l IH]; intros [|x xs]; cbn [map monomial]; try reflexivity. rewrite IH. cbn. ring. Qed.
Lemma monomial_unit dirs : forall k xs, (k < length dirs)%nat -> length xs = length dirs -> monomial (unit_exp dirs k) xs = nth k xs 0.
Proof.
  induction dirs as [|d l IH]; intros k xs Hk L; [cbn in Hk; lia|]. destruct xs as [|x xs]; [discriminate|]. destruct k as [|k]; cbn [unit_exp monomial nth].
  - rewrite monomial_0. ring.
  - rewrite IH by (cbn in *; lia). cbn. ring.
Qed.
Lemma getIJK_length sizes : forall I, length (getIJK I sizes) = length sizes.
Proof. induction sizes as [|n l IH]; intros I; cbn; auto. Qed.

(** The coordinate x_k has as coefficients the mean values of the knots. *)
Theorem C71_greville_coefficients : forall dirs k d e spans xs,
  Forall dir_ok dirs -> Forall knots_sorted dirs -> Forall full_spans dirs -> nth_error dirs k = Some d -> (0 < d_order d)%nat ->
  element_spans dirs e spans -> in_cube dirs xs ->
  combination (fun I => greville d (nth k (getIJK I (map size1 dirs)) 0%nat)) (lf_indices (bspline_leaf dirs) e) (lb_evaluateFunction dirs spans xs) =
  nth k (global_point dirs spans xs) 0.
Proof.
  intros dirs k d e spans xs D S F Hk Hd E HX. pose proof HX as [LX _].
  destruct (elements_good dirs e spans D S E) as (L & _ & _).
  assert (K1 : (k < length dirs)%nat) by (apply nth_error_Some; congruence).
  assert (FA : Forall2 (fun d m => m <= d_order d)%nat dirs (unit_exp dirs k)).
  { clear -Hk Hd. revert k Hk. induction dirs as [|d0 l IH]; intros k Hk; [destruct k; discriminate|]. destruct k as [|k]; cbn in *.
    - injection Hk as ->. constructor; [lia|]. clear. induction l; constructor; [lia|assumption].
    - constructor; [lia|]. apply IH, Hk. }
  pose proof (mono_combination dirs e spans xs (unit_exp dirs k) D S F E LX FA) as H.
  rewrite monomial_unit in H by (try apply global_point_length; assumption). rewrite <- H. unfold combination. f_equal. apply map_ext. intros [I v].
  cbn [fst snd]. f_equal. symmetry. apply mono_coef_unit; [exact Hk|exact Hd|]. rewrite getIJK_length. apply map_length.
Qed.

(** Open knot vectors give full spans. *)
Theorem C71_open_knots_are_full : forall d, open_knots d -> full_spans d.
Proof. intros d O s H. apply (open_span_range d s O H). Qed.

(** The constructor gives one if makeOpen is true. *)
Theorem C71_ctor_full : forall kv p d, spaced kv -> (2 <= length kv)%nat -> ctor_knots kv p true = Some d -> full_spans d.
Proof. intros kv p d H1 H2 H3. apply C71_open_knots_are_full. apply (C37_ctor_open kv p d H1 H2 H3). Qed.

(** With makeOpen = false and a positive order not even the constant one is in the space:
    all functions are zero at the boundary. *)
Theorem C71_without_open_knots_refuted : forall kv p d,
  spaced kv -> (0 < p)%nat -> (p + 2 <= length kv)%nat -> ctor_knots kv p false = Some d ->
  ~ exists c, forall e spans xs, element_spans [d] e spans -> in_cube [d] xs ->
      combination c (lf_indices (bspline_leaf [d]) e) (lb_evaluateFunction [d] spans xs) = 1.
Proof.
  intros kv p d SP Hp L Hd (c & Hc). destruct (C35_ctor_knots kv p false SP ltac:(lia) ltac:(auto)) as (d' & Hd' & Ep & Ee & OK).
  rewrite Hd in Hd'. injection Hd' as <-.
  assert (Ed : d_knots d = kv).
  { destruct kv; [discriminate|]. unfold ctor_knots in Hd. injection Hd as <-. cbn [d_knots app]. now rewrite app_nil_r. }
  assert (SO : knots_sorted d).
  { intros i Hi. rewrite Ed in Hi. unfold knot. rewrite Ed. destruct (nth_error_lt_Some kv i ltac:(lia)) as (a & Ha). destruct (nth_error_lt_Some kv (i + 1) Hi) as (b & Hb).
    pose proof (SP _ _ _ Ha Hb). pose proof tol_pos. rewrite (nth_error_nth _ _ 0 Ha), (nth_error_nth _ _ 0 Hb). lra. }
  assert (E : element_spans [d] 0 [0]%nat).
  { exists [0]%nat. split; [cbn; lia|]. split; [constructor; [rewrite Ee; lia|constructor]|]. cbn [combine].
    constructor; [|constructor]. exists (seq 0 (length kv - 1)). cbn [fst snd]. rewrite Ed. split.
    - split; [apply sorted_seq|]. intros s. rewrite spaced_span, in_seq by exact SP. lia.
    - rewrite nth_error_seq. destruct (Nat.ltb_spec 0 (length kv - 1)); [reflexivity|lia]. }
  assert (D : Forall dir_ok [d]) by (constructor; [exact OK|constructor]). assert (S : Forall knots_sorted [d]) by (constructor; [exact SO|constructor]).
  specialize (Hc 0%nat [0]%nat [0] E ltac:(split; [reflexivity|]; constructor; [lra|constructor])).
  destruct (elements_good [d] 0 [0]%nat D S E) as (LL & G & O).
  cbn [bspline_leaf lf_indices] in Hc. rewrite (bind_spans _ _ _ E) in Hc.
  unfold lb_evaluateFunction in Hc. rewrite globalIn_point in Hc by assumption.
  rewrite (combination_all [d] [0]%nat LL O c (fun _ => 0%nat) (global_point [d] [0]%nat [0])) in Hc;
    [|reflexivity|apply evalF_length; auto|intros i Hi; apply evalF_nth; auto].
  rewrite Sig_zero in Hc; [lra|]. intros I HI. cbn [map getIJK combine global_point tensG FNg]. apply Rmult_eq_0_compat_l. apply Rmult_eq_0_compat_r.
  rewrite Ep. set (J := (I mod size1 d)%nat). destruct (Nat.eq_dec J 0) as [->|N].
  - destruct p as [|p]; [lia|]. cbn [NN]. rewrite (NN_inactive d 0 p (0 + 1)) by lia. ring.
  - apply NN_inactive. lia.
Qed.

(** * Example: 3 - x y + 2 x^2 y with two quadratic and three linear elements *)
Lemma ex71_full : Forall full_spans [exd0; exd1].
Proof.
  constructor; [apply (C71_ctor_full [0; 1; 3] 2); [exact ex_sp0|cbn; lia|reflexivity]|].
  constructor; [apply (C71_ctor_full [0; 1; 2; 5] 1); [exact ex_sp1|cbn; lia|reflexivity]|constructor].
Qed.
Example C71_ex : exists c, forall e spans x y, element_spans [exd0; exd1] e spans -> 0 <= x <= 1 -> 0 <= y <= 1 ->
  combination c (lf_indices (bspline_leaf [exd0; exd1]) e) (lb_evaluateFunction [exd0; exd1] spans [x; y]) =
  let X := nth 0 (global_point [exd0; exd1] spans [x; y]) 0 in
  let Y := nth 1 (global_point [exd0; exd1] spans [x; y]) 0 in 3 - X * Y + 2 * X ^ 2 * Y.
Proof.
  destruct (C71_spline_spaces_contain_polynomials [exd0; exd1] [(3, [0; 0]%nat); (-1, [1; 1]%nat); (2, [2; 1]%nat)] (proj1 ex_ok) (proj2 ex_ok) ex71_full) as (c & Hc).
  { repeat constructor. }
  exists c. intros e spans x y E Hx Hy. rewrite (Hc e spans [x; y] E).
  - destruct (elements_good [exd0; exd1] e spans (proj1 ex_ok) (proj2 ex_ok) E) as (L & _).
    destruct spans as [|s [|s' [|? ?]]]; try discriminate L. unfold polynomial. cbn [map fold_right fst snd global_point monomial nth]. cbn [pow]. ring.
  - split; [reflexivity|]. constructor; [lra|constructor; [lra|constructor]].
Qed.
(** Greville abscissae of the quadratic direction: 0, 1/2, 2, 3 *)
Example C71_greville_ex : map (greville exd0) (seq 0 4) = [0; / 2; 2; 3].
Proof. unfold greville, exd0, knot. cbn. repeat f_equal; field. Qed.
Example C71_refuted_ex : spaced [0; 1; 2; 5] /\ ctor_knots [0; 1; 2; 5] 1 false = Some (DIR [0; 1; 2; 5] 1 3).
Proof. split; [exact ex_sp1|reflexivity]. Qed.

Print Assumptions C71_spline_spaces_contain_polynomials.
Print Assumptions C71_greville_coefficients.
Print Assumptions C71_open_knots_are_full.
Print Assumptions C71_ctor_full.
Print Assumptions C71_without_open_knots_refuted.
