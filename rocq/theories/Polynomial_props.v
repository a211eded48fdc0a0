(** Polynomials (C39) and trigonometric functions (C41). *)
From Coq Require Import Reals Arith List ZArith Lra Lia.
From Verif Require Import Lib Basis_model DiscreteFunction_proofs Polynomial_model Polynomial_spec.
Import ListNotations.
Open Scope R_scope.

(** * The derivative coefficients *)
Definition dcoef (c : list R) : list R := map (fun i => nth (S i) c 0 * INR (S i)) (seq 0 (length c - 1)).
Lemma derivative_coefficients_ok c : derivative_coefficients c = Some (dcoef c).
Proof.
  unfold derivative_coefficients. destruct c as [|a c]; [reflexivity|]. set (l := a :: c). set (n := (length l - 1)%nat).
  destruct (forl_inv (fun k dp => length dp = n /\ forall i, (i < n)%nat -> nth_error dp i = Some (if (i <? k - 1)%nat then nth (S i) l 0 * INR (S i) else 0))
              n 1 (fun i dp => ci <- nth_error l i ;; upd dp (i - 1)%nat (ci * INR i)) (repeat 0 n)) as (dp & Hr & Hl & Hn).
  - split; [apply repeat_length|]. intros i Hi. rewrite nth_error_repeat_eq. destruct (Nat.ltb_spec i n); [|lia]. reflexivity.
  - intros k dp Hk (Hl & Hn). assert (n = length c) by (subst n l; cbn; lia).
    rewrite (nth_error_nth' l 0) by (subst l; cbn [length]; lia). cbn [obind].
    destruct (upd dp (k - 1) (nth k l 0 * INR k)) as [dp'|] eqn:Eu; [|apply upd_None in Eu; lia].
    exists dp'. split; auto. split; [rewrite (upd_length _ _ _ _ Eu); auto|]. intros i Hi. rewrite (upd_nth_error _ _ _ _ i Eu).
    destruct (Nat.eqb_spec i (k - 1)) as [->|Hne].
    + destruct (Nat.ltb_spec (k - 1) (k + 1 - 1)); [|lia]. do 2 f_equal; [f_equal; lia|f_equal; lia].
    + rewrite Hn by auto. destruct (Nat.ltb_spec i (k - 1)), (Nat.ltb_spec i (k + 1 - 1)); auto; lia.
  - change (length (a :: c)) with (length l). fold n. rewrite Hr. f_equal. apply nth_error_ext. intros i. unfold dcoef. fold n.
    rewrite nth_error_map_eq, nth_error_seq. destruct (Nat.ltb_spec i n) as [Hi|Hi]; cbn [option_map].
    + rewrite Hn by auto. destruct (Nat.ltb_spec i (1 + n - 1)); [reflexivity|lia].
    + apply nth_error_None. lia.
Qed.
Lemma derivative_sequence_ok c : derivative_sequence c = dcoef c.
Proof.
  destruct c as [|a c]; [reflexivity|]. unfold derivative_sequence, dcoef. cbn [length]. rewrite Nat.sub_succ, Nat.sub_0_r. cbn [nth].
  assert (H : forall c s, map (fun p => fst p * INR (snd p)) (combine c (seq (S s) (length c)))
     = map (fun i => nth (i - s) c 0 * INR (S i)) (seq s (length c))).
  { clear. induction c as [|b c IH]; intros s; [reflexivity|]. cbn [length seq combine map fst snd]. f_equal; [now rewrite Nat.sub_diag|].
    rewrite IH. apply map_ext_in. intros i Hi. apply in_seq in Hi. replace (i - s)%nat with (S (i - S s)) by lia. reflexivity. }
  rewrite H. apply map_ext. intros i. now rewrite Nat.sub_0_r.
Qed.
Lemma derivative_tuple_ok c : derivative_tuple c = Some (dcoef c).
Proof.
  destruct c as [|a c]; [reflexivity|]. unfold derivative_tuple, dcoef. set (l := a :: c).
  assert (H : forall is, (forall i, In i is -> (i + 1 < length l)%nat) ->
     traverse (map (fun i => ci <- nth_error l (i + 1)%nat ;; Some (ci * INR (i + 1))) is) = Some (map (fun i => nth (S i) l 0 * INR (S i)) is)).
  { induction is as [|i is IH]; intros Hi; [reflexivity|]. cbn [map traverse].
    rewrite (nth_error_nth' l 0) by (apply Hi; cbn; auto). cbn [obind]. rewrite IH by (intros; apply Hi; cbn; auto). cbn [obind].
    now rewrite Nat.add_1_r. }
  apply H. intros i Hi. apply in_seq in Hi. lia.
Qed.

(** * Evaluation *)
Lemma power_sum_app i c d x : power_sum i (c ++ d) x = power_sum i c x + power_sum (i + length c) d x.
Proof.
  revert i. induction c as [|a c IH]; intros i; cbn; [rewrite Nat.add_0_r; lra|]. rewrite IH. replace (S i + length c)%nat with (i + S (length c))%nat by lia. lra.
Qed.
Lemma power_sum_shift i c x : power_sum (S i) c x = x * power_sum i c x.
Proof. revert i. induction c as [|a c IH]; intros i; cbn [power_sum]; [ring|]. rewrite IH. cbn. ring. Qed.
Lemma skipn_step (c : list R) k a : nth_error c k = Some a -> skipn k c = a :: skipn (S k) c.
Proof. revert k. induction c as [|b c IH]; intros [|k]; cbn; try discriminate; [intros [= ->]; reflexivity|]. apply IH. Qed.
Lemma add_ok y c : add y c = y + c.
Proof. unfold add. destruct (Req_EM_T c 0) as [->|]; lra. Qed.
Lemma poly_eval_ok c x : poly_eval c x = Some (power_sum 0 c x).
Proof.
  unfold poly_eval. destruct c as [|a c]; [reflexivity|]. set (l := a :: c). set (n := length l).
  assert (Hn : (0 < n)%nat) by (subst n l; cbn; lia). destruct (Nat.eqb_spec n 0); [lia|].
  rewrite (nth_error_nth' l 0) by (fold n; lia). cbn [obind].
  destruct (forl_inv (fun k y => y = power_sum 0 (skipn (n - 1 - k) l) x) (n - 1) 0
     (fun i y => ci <- nth_error l (n - 2 - i) ;; Some (add (y * x) ci)) (nth (n - 1) l 0)) as (y & Hr & Hy).
  - rewrite Nat.sub_0_r. rewrite (skipn_step l (n - 1) (nth (n - 1) l 0)) by (apply nth_error_nth'; fold n; lia).
    replace (S (n - 1)) with n by lia. unfold n. rewrite skipn_all. cbn. ring.
  - intros k y Hk ->. rewrite (nth_error_nth' l 0) by (fold n; lia). cbn [obind]. eexists. split; [reflexivity|].
    rewrite add_ok. replace (n - 1 - (k + 1))%nat with (n - 2 - k)%nat by lia.
    rewrite (skipn_step l (n - 2 - k) (nth (n - 2 - k) l 0)) by (apply nth_error_nth'; fold n; lia).
    cbn [power_sum]. rewrite power_sum_shift. replace (S (n - 2 - k)) with (n - 1 - k)%nat by lia. ring.
  - rewrite Hr, Hy. do 2 f_equal. now replace (n - 1 - (0 + (n - 1)))%nat with 0%nat by lia.
Qed.

(** * Derivatives *)
Lemma dlim_ext f g x l : (forall t, f t = g t) -> derivable_pt_lim g x l -> derivable_pt_lim f x l.
Proof. intros E H eps He. destruct (H eps He) as (d & Hd). exists d. intros h H1 H2. rewrite !E. auto. Qed.
Lemma power_sum_derivative c i x :
  derivable_pt_lim (power_sum i c) x (fold_right Rplus 0 (map (fun k => nth k c 0 * (INR (i + k) * x ^ pred (i + k))) (seq 0 (length c)))).
Proof.
  revert i. induction c as [|a c IH]; intros i; cbn [length seq map fold_right power_sum].
  - apply derivable_pt_lim_const.
  - cbn [nth]. rewrite Nat.add_0_r. apply derivable_pt_lim_plus with (f1 := fun t => a * t ^ i).
    + apply derivable_pt_lim_scal with (f := fun t => t ^ i). apply derivable_pt_lim_pow.
    + specialize (IH (S i)). rewrite <- seq_shift, map_map. erewrite map_ext; [exact IH|]. intros k. cbn [nth]. now replace (i + S k)%nat with (S i + k)%nat by lia.
Qed.
Lemma power_sum_dcoef c x : power_sum 0 (dcoef c) x
  = fold_right Rplus 0 (map (fun k => nth k c 0 * (INR (0 + k) * x ^ pred (0 + k))) (seq 0 (length c))).
Proof.
  destruct c as [|a c]; [reflexivity|]. cbn [length seq map fold_right]. cbn [Nat.add INR]. rewrite Rmult_0_l, Rmult_0_r, Rplus_0_l.
  unfold dcoef. cbn [length]. rewrite Nat.sub_succ, Nat.sub_0_r. rewrite <- seq_shift, map_map.
  assert (H : forall l i, power_sum i (map (fun k => nth (S k) (a :: c) 0 * INR (S k)) (seq i l)) x
    = fold_right Rplus 0 (map (fun k => nth (S k) (a :: c) 0 * (INR (S k) * x ^ pred (S k))) (seq i l))).
  { induction l as [|l IH]; intros i; [reflexivity|]. cbn [seq map power_sum fold_right]. rewrite IH. cbn [pred]. ring. }
  apply H.
Qed.
Lemma dcoef_derivative c x : derivable_pt_lim (power_sum 0 c) x (power_sum 0 (dcoef c) x).
Proof. rewrite power_sum_dcoef. apply power_sum_derivative. Qed.

(** p(x) is the sum of the c_i x^i. *)
Theorem C39_evaluates c x : poly_eval c x = Some (power_sum 0 c x).
Proof. apply poly_eval_ok. Qed.
(** derivative(p) is a polynomial with one coefficient less (none if there were none),
    and its values are the derivatives of p, ... *)
Theorem C39_derivative c :
  exists d, derivative_coefficients c = Some d /\ length d = pred (length c) /\
    forall x, derivable_pt_lim (power_sum 0 c) x (power_sum 0 d x).
Proof.
  exists (dcoef c). split; [apply derivative_coefficients_ok|]. split.
  - unfold dcoef. rewrite map_length, seq_length. destruct c; cbn; lia.
  - apply dcoef_derivative.
Qed.
(** ... whichever container holds the coefficients. *)
Theorem C39_derivative_any_container c d :
  derivative_coefficients c = Some d -> derivative_sequence c = d /\ derivative_tuple c = Some d.
Proof. rewrite derivative_coefficients_ok. intros [= <-]. split; [apply derivative_sequence_ok|apply derivative_tuple_ok]. Qed.
(** Differentiating k times gives the k-th derivative; ... *)
Fixpoint iterate (k : nat) (c : list R) : option (list R) :=
  match k with 0%nat => Some c | S k' => d <- derivative_coefficients c ;; iterate k' d end.
Theorem C39_iterated_derivative k c :
  exists d, iterate k c = Some d /\ length d = (length c - k)%nat /\ kth_derivative k (power_sum 0 c) (power_sum 0 d).
Proof.
  revert c. induction k as [|k IH]; intros c; cbn [iterate kth_derivative].
  - exists c. split; auto. split; [lia|auto].
  - destruct (C39_derivative c) as (d & -> & Hl & Hd). cbn [obind]. destruct (IH d) as (e & He & Hle & Hk).
    exists e. split; auto. split; [rewrite Hle, Hl; lia|]. exists (power_sum 0 d). auto.
Qed.
(** ... as often as there are coefficients, zero. *)
Theorem C39_eventually_zero k c d x : iterate k c = Some d -> (length c <= k)%nat -> poly_eval d x = Some 0.
Proof.
  intros H Hk. destruct (C39_iterated_derivative k c) as (e & He & Hl & _). rewrite H in He. injection He as <-.
  destruct d; [reflexivity|cbn in Hl; lia].
Qed.
(** p == q compares the coefficients. *)
Theorem C39_equality c d : poly_eqb c d = true <-> c = d.
Proof.
  revert d. induction c as [|a c IH]; intros [|b d]; cbn; try (split; congruence).
  destruct (Req_EM_T a b) as [->|]; [rewrite IH; split; congruence|split; congruence].
Qed.

(** * C41 *)
Theorem C41_derivative f x : derivable_pt_lim (trig_eval f) x (trig_eval (trig_derivative f) x).
Proof.
  unfold trig_eval, trig_derivative. cbn [sin_factor cos_factor]. rewrite opp_IZR.
  replace (- IZR (cos_factor f) * sin x + IZR (sin_factor f) * cos x) with (IZR (sin_factor f) * cos x + IZR (cos_factor f) * - sin x) by ring.
  apply derivable_pt_lim_plus with (f1 := fun t => IZR (sin_factor f) * sin t) (f2 := fun t => IZR (cos_factor f) * cos t).
  - apply derivable_pt_lim_scal with (f := sin). apply derivable_pt_lim_sin.
  - apply derivable_pt_lim_scal with (f := cos). apply derivable_pt_lim_cos.
Qed.
Theorem C41_four_times f : trig_derivative (trig_derivative (trig_derivative (trig_derivative f))) = f.
Proof. destruct f as [s c]. unfold trig_derivative. cbn. f_equal; lia. Qed.
Theorem C41_iterated_derivative k f : kth_derivative k (trig_eval f) (trig_eval (Nat.iter k trig_derivative f)).
Proof.
  revert f. induction k as [|k IH]; intros f; cbn [kth_derivative]; [cbn; auto|].
  exists (trig_eval (trig_derivative f)). split; [apply C41_derivative|].
  replace (Nat.iter (S k) trig_derivative f) with (Nat.iter k trig_derivative (trig_derivative f)); [apply IH|].
  clear IH. induction k as [|k IH]; [reflexivity|]. simpl in *. now rewrite IH.
Qed.

(** * Examples *)
Example C39_example : derivative_coefficients [1; 2; 3] = Some [2; 6].
Proof. rewrite derivative_coefficients_ok. unfold dcoef. cbn. do 2 f_equal; [lra|f_equal; lra]. Qed.
Example C39_value : poly_eval [1; 2; 3] 2 = Some 17.
Proof. rewrite C39_evaluates. cbn. f_equal. lra. Qed.
Example C41_example : trig_derivative (TF 2 3) = TF (-3) 2. Proof. reflexivity. Qed.

Print Assumptions C39_evaluates.
Print Assumptions C39_derivative.
Print Assumptions C39_derivative_any_container.
Print Assumptions C39_iterated_derivative.
Print Assumptions C39_eventually_zero.
Print Assumptions C39_equality.
Print Assumptions C41_derivative.
Print Assumptions C41_four_times.
Print Assumptions C41_iterated_derivative.
