(** Polynomials as combinations of one-dimensional B-splines (Marsden's identity). *)
From Coq Require Import List Arith Lia Reals Lra Bool.
From Verif Require Import Lib BSpline_model BSpline_spec BSpline_oned SplineIndep_oned.
Import ListNotations.
Local Open Scope R_scope.
#[local] Arguments Nat.ltb : simpl never.
#[local] Arguments Nat.eqb : simpl never.

(** a polynomial that vanishes everywhere has zero coefficients *)
Lemma poly_zero n : forall a, (forall y, Sig 0 (S n) (fun j => a j * y ^ j) = 0) -> forall j, (j <= n)%nat -> a j = 0.
Proof.
  induction n as [|n IH]; intros a H j Hj.
  - assert (j = 0)%nat as -> by lia. specialize (H 0). unfold Sig in H. cbn in H. lra.
  - assert (H0 : a 0%nat = 0).
    { specialize (H 0). rewrite Sig_S, Sig_shift, Sig_zero in H; [cbn in H; lra|]. intros i _. cbn [pow]. ring. }
    destruct j as [|j]; [exact H0|].
    enough (Q : a (S j) * INR (S j) = 0).
    { apply Rmult_integral in Q as [Q|Q]; [exact Q|]. exfalso. revert Q. apply not_0_INR. lia. }
    apply (IH (fun j => a (S j) * INR (S j))); [|lia]. intros y.
    assert (D : derivable_pt_lim (fun y => Sig 0 (S (S n)) (fun j => a j * y ^ j)) y (Sig 0 (S (S n)) (fun j => a j * (INR j * y ^ pred j)))).
    { apply (Sig_derivative _ (fun j y => a j * y ^ j) (fun j y => a j * (INR j * y ^ pred j))). intros i _. apply derivable_pt_lim_scal, derivable_pt_lim_pow. }
    pose proof (zero_derivative _ (y - 1) (y + 1) y _ (fun z _ => H z) ltac:(lra) D) as Z.
    rewrite Sig_S, Sig_shift in Z. rewrite <- Z. cbn [INR pred]. rewrite Rmult_0_l, Rmult_0_r, Rplus_0_l.
    apply Sig_ext. intros i _. cbn [pred]. ring.
Qed.
Lemma Sig_swap n m (f : nat -> nat -> R) a b : Sig a n (fun i => Sig b m (fun j => f i j)) = Sig b m (fun j => Sig a n (fun i => f i j)).
Proof.
  revert a. induction n as [|n IH]; intros a.
  - symmetry. apply Sig_zero. reflexivity.
  - rewrite Sig_S, IH, <- Sig_plus. apply Sig_ext. intros j _. reflexivity.
Qed.

Section OneD.
Variable d : dir.
Variable s : nat.
Hypothesis Hsort : knots_sorted d.
Hypothesis Hspan : nonempty_span (d_knots d) s.
Notation K := (length (d_knots d)).
Notation t := (knot d).

(** (y - t_{i+1}) ... (y - t_{i+r}), and the coefficients of this polynomial in y *)
Fixpoint psi (r i : nat) (y : R) : R :=
  match r with 0%nat => 1 | S q => psi q i y * (y - t (i + r)) end.
Fixpoint psic (r i j : nat) : R :=
  match r with
  | 0%nat => match j with 0%nat => 1 | S _ => 0 end
  | S q => match j with 0%nat => 0 | S j' => psic q i j' end - t (i + r) * psic q i j
  end.
Lemma psic_high r i : forall j, (r < j)%nat -> psic r i j = 0.
Proof.
  induction r as [|r IH]; intros j H; cbn [psic].
  - destruct j; [lia|reflexivity].
  - destruct j as [|j]; [lia|]. rewrite (IH j), (IH (S j)) by lia. ring.
Qed.
Lemma psi_coefs r i y : psi r i y = Sig 0 (S r) (fun j => psic r i j * y ^ j).
Proof.
  induction r as [|r IH]; [unfold Sig; cbn; ring|].
  cbn [psi]. rewrite IH.
  transitivity (Sig 0 (S (S r)) (fun j => match j with 0%nat => 0 | S j' => psic r i j' end * y ^ j + (- t (i + S r)) * (psic r i j * y ^ j))).
  - rewrite Sig_plus, Sig_scal. rewrite (Sig_S 0 (S r) (fun j => match j with 0%nat => 0 | S j' => psic r i j' end * y ^ j)), Sig_shift.
    rewrite (Sig_ext 0 (S r) (fun j => psic r i j * y ^ S j) (fun j => y * (psic r i j * y ^ j))) by (intros; cbn [pow]; ring).
    rewrite Sig_scal. rewrite (Sig_last 0 (S r) (fun j => psic r i j * y ^ j)). rewrite psic_high by lia. ring.
  - apply Sig_ext. intros j _. cbn [psic]. ring.
Qed.
Lemma psi_front r i y : psi (S r) i y = (y - t (i + 1)) * psi r (i + 1) y.
Proof.
  induction r as [|r IH]; [cbn; ring|]. cbn [psi] in *. rewrite IH. replace (i + S (S r))%nat with (i + 1 + S r)%nat by lia. ring.
Qed.

Lemma marsden x y r : (r <= s)%nat -> (s + r + 1 < K)%nat -> Sig (s - r) (S r) (fun i => psi r i y * NN d s r i x) = (y - x) ^ r.
Proof.
  induction r as [|r IH]; intros H H'.
  - rewrite Nat.sub_0_r. unfold Sig. cbn [seq map fold_right NN psi pow]. rewrite Nat.eqb_refl. ring.
  - specialize (IH ltac:(lia) ltac:(lia)). cbn [NN]. cbn [pow]. rewrite <- IH, <- Sig_scal.
    rewrite (Sig_ext _ _ _ (fun i => psi (S r) i y * ((x - t i) * inv d s (S r) i * NN d s r i x) +
       psi (S r) i y * ((t (i + S r + 1)%nat - x) * inv d s (S r) (i + 1) * NN d s r (i + 1) x))) by (intros; ring).
    rewrite Sig_plus. rewrite Sig_S, (Sig_last (s - S r) (S r)). rewrite (NN_inactive d s r (s - S r)) by lia.
    rewrite (NN_inactive d s r (s - S r + S r + 1)) by lia.
    replace (S (s - S r)) with (s - r)%nat by lia.
    rewrite (Sig_ext (s - S r) (S r) _ (fun i => psi (S r) (S i - 1) y * ((t (S i + S r)%nat - x) * inv d s (S r) (S i) * NN d s r (S i) x))).
    2:{ intros i Hi. replace (i + 1)%nat with (S i) by lia. replace (i + S r + 1)%nat with (S i + S r)%nat by lia. replace (S i - 1)%nat with i by lia. reflexivity. }
    rewrite <- (Sig_shift (s - S r) (S r) (fun i => psi (S r) (i - 1) y * ((t (i + S r)%nat - x) * inv d s (S r) i * NN d s r i x))).
    replace (S (s - S r)) with (s - r)%nat by lia.
    transitivity (Sig (s - r) (S r) (fun i => psi (S r) i y * ((x - t i) * inv d s (S r) i * NN d s r i x)) +
       Sig (s - r) (S r) (fun i => psi (S r) (i - 1) y * ((t (i + S r)%nat - x) * inv d s (S r) i * NN d s r i x))); [ring|].
    rewrite <- Sig_plus. apply Sig_ext. intros i Hi.
    pose proof (inv_gap d s Hsort Hspan i (S r) ltac:(lia) ltac:(lia)) as G.
    rewrite (psi_front r (i - 1)). replace (i - 1 + 1)%nat with i by lia. cbn [psi].
    transitivity (inv d s (S r) i * (t (i + S r)%nat - t i) * ((y - x) * (psi r i y * NN d s r i x))); [ring|]. rewrite G. ring.
Qed.

(** the coefficients of x^m *)
Definition power_coef (r m i : nat) : R := (-1) ^ m / C r m * psic r i (r - m).
Lemma powers x r m : (m <= r)%nat -> (r <= s)%nat -> (s + r + 1 < K)%nat ->
  Sig (s - r) (S r) (fun i => power_coef r m i * NN d s r i x) = x ^ m.
Proof.
  intros Hm H H'.
  assert (Q : forall j, (j <= r)%nat -> Sig (s - r) (S r) (fun i => psic r i j * NN d s r i x) - C r j * (- x) ^ (r - j) = 0).
  { apply poly_zero. intros y.
    rewrite (Sig_ext _ _ _ (fun j => Sig (s - r) (S r) (fun i => psic r i j * y ^ j * NN d s r i x) + (-1) * (C r j * y ^ j * (- x) ^ (r - j)))).
    2:{ intros j _. rewrite (Sig_ext _ _ (fun i => psic r i j * y ^ j * NN d s r i x) (fun i => y ^ j * (psic r i j * NN d s r i x))) by (intros; ring).
        rewrite Sig_scal. ring. }
    rewrite Sig_plus, Sig_scal, Sig_swap.
    rewrite (Sig_ext (s - r) (S r) _ (fun i => psi r i y * NN d s r i x)).
    2:{ intros i _. rewrite psi_coefs. rewrite (Sig_ext _ _ _ (fun j => NN d s r i x * (psic r i j * y ^ j))) by (intros; ring). rewrite Sig_scal. ring. }
    rewrite marsden by assumption.
    assert (B : Sig 0 (S r) (fun j => C r j * y ^ j * (- x) ^ (r - j)) = (y - x) ^ r).
    { unfold Rminus. rewrite binomial. generalize (fun j => C r j * y ^ j * (- x) ^ (r - j)) as f. intros f.
      assert (E : forall n, Sig 0 (S n) f = sum_f_R0 f n).
      { induction n as [|n IHn]; [unfold Sig; cbn; ring|]. rewrite Sig_last, IHn. reflexivity. }
      apply E. }
    rewrite B. ring. }
  specialize (Q (r - m)%nat ltac:(lia)). unfold power_coef.
  rewrite (Sig_ext _ _ _ (fun i => (-1) ^ m / C r m * (psic r i (r - m) * NN d s r i x))) by (intros; ring). rewrite Sig_scal.
  replace (Sig (s - r) (S r) (fun i => psic r i (r - m) * NN d s r i x)) with (C r (r - m) * (- x) ^ (r - (r - m))) by lra.
  replace (r - (r - m))%nat with m by lia. rewrite <- pascal_step1 by lia.
  assert (CN : C r m <> 0).
  { unfold C. apply Rmult_integral_contrapositive_currified; [apply INR_fact_neq_0|]. apply Rinv_neq_0_compat.
    apply Rmult_integral_contrapositive_currified; apply INR_fact_neq_0. }
  replace (- x) with ((-1) * x) by ring. rewrite Rpow_mult_distr.
  assert (S1 : (-1) ^ m * (-1) ^ m = 1) by (rewrite <- Rpow_mult_distr; replace (-1 * -1) with 1 by ring; apply pow1).
  transitivity ((-1) ^ m * (-1) ^ m * x ^ m * (C r m * / C r m)); [unfold Rdiv; ring|]. rewrite S1, Rinv_r by exact CN. ring.
Qed.

(** for m = 1 the mean value of the inner knots of the function *)
Lemma psic_top r i : psic r i r = 1.
Proof. induction r as [|r IH]; [reflexivity|]. cbn [psic]. rewrite IH, psic_high by lia. ring. Qed.
Lemma psic_second r i : psic (S r) i r = - Sig (i + 1) (S r) t.
Proof.
  induction r as [|r IH].
  - unfold Sig. cbn. ring.
  - change (psic (S (S r)) i (S r)) with (psic (S r) i r - t (i + S (S r)) * psic (S r) i (S r)). rewrite IH, psic_top.
    rewrite (Sig_last (i + 1) (S r)). replace (i + 1 + S r)%nat with (i + S (S r))%nat by lia. ring.
Qed.
Lemma power_coef_1 r i : (0 < r)%nat -> power_coef r 1 i = Sig (i + 1) r t / INR r.
Proof.
  intros H. destruct r as [|r]; [lia|]. unfold power_coef. replace (S r - 1)%nat with r by lia. rewrite psic_second.
  assert (E : C (S r) 1 = INR (S r)).
  { unfold C. replace (S r - 1)%nat with r by lia. rewrite fact_simpl, mult_INR. cbn [fact INR]. change (INR (1 * 1)) with 1. field. apply INR_fact_neq_0. }
  rewrite E. field. apply not_0_INR. lia.
Qed.
End OneD.
