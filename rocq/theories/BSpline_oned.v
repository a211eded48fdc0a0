(** One-dimensional B-splines: the table of the code, the Cox-de Boor recursion,
    derivatives. *)
From Coq Require Import List Arith Lia Reals Lra Bool.
From Verif Require Import Lib BSpline_model BSpline_spec.
Import ListNotations.
Local Open Scope R_scope.
#[local] Arguments Nat.ltb : simpl never.
#[local] Arguments Nat.eqb : simpl never.

Lemma nth_map_seq (f : nat -> R) n i : nth i (map f (seq 0 n)) 0 = if (i <? n)%nat then f i else 0.
Proof.
  destruct (Nat.ltb_spec i n) as [H|H].
  - rewrite (nth_indep _ 0 (f 0%nat)) by (rewrite map_length, seq_length; exact H). rewrite map_nth, seq_nth by exact H. reflexivity.
  - apply nth_overflow. rewrite map_length, seq_length. exact H.
Qed.

(** sums over an interval *)
Definition Sig (a n : nat) (f : nat -> R) : R := fold_right Rplus 0 (map f (seq a n)).
Lemma Sig_S a n f : Sig a (S n) f = f a + Sig (S a) n f.
Proof. reflexivity. Qed.
Lemma Sig_ext a n f g : (forall i, (a <= i < a + n)%nat -> f i = g i) -> Sig a n f = Sig a n g.
Proof.
  revert a; induction n as [|n IH]; intros a H; [reflexivity|]. rewrite !Sig_S, (H a) by lia. f_equal. apply IH. intros i Hi. apply H. lia.
Qed.
Lemma Sig_plus a n f g : Sig a n (fun i => f i + g i) = Sig a n f + Sig a n g.
Proof. revert a; induction n as [|n IH]; intros a; [unfold Sig; cbn; ring|]. rewrite !Sig_S, IH. ring. Qed.
Lemma Sig_scal a n f c : Sig a n (fun i => c * f i) = c * Sig a n f.
Proof. revert a; induction n as [|n IH]; intros a; [unfold Sig; cbn; ring|]. rewrite !Sig_S, IH. ring. Qed.
Lemma Sig_shift a n f : Sig (S a) n f = Sig a n (fun i => f (S i)).
Proof. revert a; induction n as [|n IH]; intros a; [reflexivity|]. rewrite !Sig_S, IH. reflexivity. Qed.
Lemma Sig_last a n f : Sig a (S n) f = Sig a n f + f (a + n)%nat.
Proof.
  revert a; induction n as [|n IH]; intros a; [rewrite Sig_S; unfold Sig; cbn; rewrite Nat.add_0_r; ring|].
  rewrite Sig_S, IH, Sig_S. replace (S a + n)%nat with (a + S n)%nat by lia. ring.
Qed.

Section OneD.
Variable d : dir.
Variable s : nat.
Let t := knot d.
Let p := d_order d.
Let K := length (d_knots d).
Hypothesis Hsort : knots_sorted d.
Hypothesis Hspan : nonempty_span (d_knots d) s.

Lemma HsK : (s + 1 < K)%nat.
Proof. destruct Hspan as (a & b & _ & H & _). apply nth_error_Some. congruence. Qed.
Lemma Hgap : t s + / 10 ^ 8 <= t (s + 1).
Proof.
  destruct Hspan as (a & b & Ha & Hb & H). unfold t, knot. rewrite (nth_error_nth _ _ 0 Ha), (nth_error_nth _ _ 0 Hb). exact H.
Qed.
Lemma tol_order : 0 < tol10 < / 10 ^ 8.
Proof.
  unfold tol10. split; [apply Rinv_0_lt_compat, pow_lt; lra|]. apply Rinv_lt_contravar; [|simpl; lra].
  apply Rmult_lt_0_compat; apply pow_lt; lra.
Qed.
Lemma t_mono i j : (i <= j < K)%nat -> t i <= t j.
Proof.
  intros [L H]. induction L as [|j L IH]; [apply Rle_refl|]. apply Rle_trans with (t j); [apply IH; lia|].
  unfold t. replace (S j) with (j + 1)%nat by lia. apply Hsort. fold K. lia.
Qed.

(** the denominators of active functions *)
Lemma gap_active i r : (i <= s < i + r)%nat -> (i + r < K)%nat -> tol10 < t (i + r) - t i.
Proof.
  intros H Hk. pose proof (t_mono i s ltac:(lia)). pose proof (t_mono (s + 1) (i + r) ltac:(lia)). pose proof Hgap. pose proof tol_order. lra.
Qed.
Definition inv (r i : nat) : R := if ((i <=? s) && (s <? i + r))%nat then / (t (i + r) - t i) else 0.
Lemma inv_active i r : (i <= s < i + r)%nat -> inv r i = / (t (i + r) - t i).
Proof. intros H. unfold inv. destruct (Nat.leb_spec i s); [|lia]. destruct (Nat.ltb_spec s (i + r)); [|lia]. reflexivity. Qed.
Lemma inv_gap i r : (i <= s < i + r)%nat -> (i + r < K)%nat -> inv r i * (t (i + r) - t i) = 1.
Proof. intros H Hk. rewrite inv_active by lia. pose proof (gap_active i r H Hk). pose proof tol_order. apply Rinv_l. lra. Qed.
Lemma inv_nonneg i r : (i + r < K)%nat -> 0 <= inv r i.
Proof.
  intros Hk. unfold inv. destruct (Nat.leb_spec i s); [|apply Rle_refl]. destruct (Nat.ltb_spec s (i + r)); [|apply Rle_refl]. cbn [andb].
  pose proof (gap_active i r ltac:(lia) Hk). pose proof tol_order. apply Rlt_le, Rinv_0_lt_compat. lra.
Qed.

(** The recursion without its guards; [s] is fixed, so this is a polynomial in [x]. *)
Fixpoint NN (r i : nat) (x : R) : R :=
  match r with
  | 0%nat => if (i =? s)%nat then 1 else 0
  | S q => (x - t i) * inv r i * NN q i x + (t (i + r + 1) - x) * inv r (i + 1) * NN q (i + 1) x
  end.
Lemma NN_inactive r i x : ~ (i <= s <= i + r)%nat -> NN r i x = 0.
Proof.
  revert i; induction r as [|r IH]; intros i H; cbn [NN].
  - destruct (Nat.eqb_spec i s); [lia|reflexivity].
  - rewrite (IH i), (IH (i + 1)%nat) by lia. ring.
Qed.

Lemma table_NN x r i : (i + r + 1 < K)%nat -> nth i (table d s x r) 0 = NN r i x.
Proof.
  revert i; induction r as [|r IH]; intros i H; cbn [table NN].
  - rewrite nth_map_seq. unfold knots_size. fold K. destruct (Nat.ltb_spec i (K - 1)); [|lia]. reflexivity.
  - rewrite nth_map_seq. unfold knots_size. fold K. destruct (Nat.ltb_spec i (K - 1)); [|lia].
    destruct (Nat.ltb_spec i (K - S r - 1)); [|lia]. rewrite !IH by lia. f_equal.
    + destruct (le_lt_dec i s) as [A|A]; [destruct (le_lt_dec s (i + r)) as [B|B]|].
      * f_equal. pose proof (gap_active i (S r) ltac:(lia) ltac:(lia)) as G. unfold factor1. unfold t, knot in *.
        destruct (Rgt_dec _ _) as [|N]; [|lra]. rewrite inv_active by lia. reflexivity.
      * rewrite NN_inactive by lia. ring.
      * rewrite NN_inactive by lia. ring.
    + destruct (le_lt_dec (i + 1) s) as [A|A]; [destruct (le_lt_dec s (i + 1 + r)) as [B|B]|].
      * f_equal. pose proof (gap_active (i + 1) (S r) ltac:(lia) ltac:(lia)) as G. unfold factor2. unfold t, knot in *.
        replace (i + S r + 1)%nat with (i + 1 + S r)%nat by lia.
        destruct (Rgt_dec _ _) as [|N]; [|lra]. rewrite inv_active by lia. reflexivity.
      * rewrite NN_inactive by lia. ring.
      * rewrite NN_inactive by lia. ring.
Qed.

(** * Cox-de Boor *)
Lemma NN_cox x r i : t s <= x < t (s + 1)%nat -> (i + r + 1 < K)%nat -> NN r i x = cox_de_boor t r i x.
Proof.
  intros Hx. revert i; induction r as [|r IH]; intros i H.
  - cbn [NN cox_de_boor]. destruct (Nat.eqb_spec i s) as [->|N].
    + destruct (Rle_dec (t s) x); [|lra]. destruct (Rlt_dec x (t (s + 1)%nat)); [|lra]. reflexivity.
    + destruct (Rle_dec (t i) x) as [A|A]; [|reflexivity]. destruct (Rlt_dec x (t (i + 1)%nat)) as [B|B]; [|reflexivity]. exfalso.
      destruct (le_lt_dec i s) as [C|C].
      * pose proof (t_mono (i + 1) s ltac:(pose proof HsK; lia)). lra.
      * pose proof (t_mono (s + 1) i ltac:(lia)). lra.
  - change (cox_de_boor t (S r) i x) with (frac (x - t i) (t (i + S r)%nat - t i) * cox_de_boor t r i x +
      frac (t (i + S r + 1)%nat - x) (t (i + S r + 1)%nat - t (i + 1)%nat) * cox_de_boor t r (i + 1) x).
    rewrite <- !IH by lia. cbn [NN]. f_equal.
    + destruct (le_lt_dec i s) as [A|A]; [destruct (le_lt_dec s (i + r)) as [B|B]|].
      * f_equal. pose proof (gap_active i (S r) ltac:(lia) ltac:(lia)) as G. pose proof tol_order. unfold frac.
        destruct (Req_EM_T _ 0); [lra|]. rewrite inv_active by lia. reflexivity.
      * rewrite NN_inactive by lia. ring.
      * rewrite NN_inactive by lia. ring.
    + destruct (le_lt_dec (i + 1) s) as [A|A]; [destruct (le_lt_dec s (i + 1 + r)) as [B|B]|].
      * f_equal. pose proof (gap_active (i + 1) (S r) ltac:(lia) ltac:(lia)) as G. pose proof tol_order. unfold frac.
        replace (i + S r + 1)%nat with (i + 1 + S r)%nat by lia.
        destruct (Req_EM_T _ 0); [lra|]. rewrite inv_active by lia. reflexivity.
      * rewrite NN_inactive by lia. ring.
      * rewrite NN_inactive by lia. ring.
Qed.

(** * Nonnegativity and partition of unity *)
Lemma NN_nonneg x r i : t s <= x <= t (s + 1)%nat -> (i + r + 1 < K)%nat -> 0 <= NN r i x.
Proof.
  intros Hx. revert i; induction r as [|r IH]; intros i H; cbn [NN]; [destruct (i =? s)%nat; lra|].
  apply Rplus_le_le_0_compat.
  - destruct (le_lt_dec i s) as [A|A]; [|rewrite NN_inactive by lia; lra].
    apply Rmult_le_pos; [|apply IH; lia]. apply Rmult_le_pos; [|apply inv_nonneg; lia].
    pose proof (t_mono i s ltac:(pose proof HsK; lia)). lra.
  - destruct (le_lt_dec s (i + 1 + r)) as [B|B]; [|rewrite NN_inactive by lia; lra].
    apply Rmult_le_pos; [|apply IH; lia]. apply Rmult_le_pos; [|apply inv_nonneg; lia].
    pose proof (t_mono (s + 1) (i + S r + 1) ltac:(lia)). lra.
Qed.

Lemma NN_sum x r : (r <= s)%nat -> (s + r + 1 < K)%nat -> Sig (s - r) (S r) (fun i => NN r i x) = 1.
Proof.
  induction r as [|r IH]; intros H H'.
  - rewrite Nat.sub_0_r. unfold Sig. cbn [seq map fold_right NN]. rewrite Nat.eqb_refl. ring.
  - specialize (IH ltac:(lia) ltac:(lia)). cbn [NN]. rewrite Sig_plus.
    rewrite Sig_S, (Sig_last (s - S r) (S r)). rewrite (NN_inactive r (s - S r)) by lia. rewrite (NN_inactive r (s - S r + S r + 1)) by lia.
    replace (S (s - S r)) with (s - r)%nat by lia.
    rewrite (Sig_ext (s - S r) (S r) _ (fun i => (t (S i + S r)%nat - x) * inv (S r) (S i) * NN r (S i) x)).
    2:{ intros i Hi. replace (i + 1)%nat with (S i) by lia. replace (i + S r + 1)%nat with (S i + S r)%nat by lia. reflexivity. }
    rewrite <- (Sig_shift (s - S r) (S r) (fun i => (t (i + S r)%nat - x) * inv (S r) i * NN r i x)).
    replace (S (s - S r)) with (s - r)%nat by lia. rewrite <- IH.
    transitivity (Sig (s - r) (S r) (fun i => (x - t i) * inv (S r) i * NN r i x) +
       Sig (s - r) (S r) (fun i => (t (i + S r)%nat - x) * inv (S r) i * NN r i x)); [ring|].
    rewrite <- Sig_plus. apply Sig_ext. intros i Hi.
    pose proof (inv_gap i (S r) ltac:(lia) ltac:(lia)) as G.
    transitivity (inv (S r) i * (t (i + S r)%nat - t i) * NN r i x); [ring|]. rewrite G. ring.
Qed.

(** * Derivatives *)
Definition DN (r i : nat) (x : R) : R :=
  match r with
  | 0%nat => 0
  | S q => INR r * (inv r i * NN q i x - inv r (i + 1) * NN q (i + 1) x)
  end.

Lemma dlim_lin a b x : derivable_pt_lim (fun x => a * x + b) x a.
Proof.
  assert (H : derivable_pt_lim (mult_real_fct a id + fct_cte b)%F x (a * 1 + 0)).
  { apply derivable_pt_lim_plus; [apply derivable_pt_lim_scal, derivable_pt_lim_id|apply derivable_pt_lim_const]. }
  rewrite Rmult_1_r, Rplus_0_r in H. exact H.
Qed.
Lemma dlim_eq f g x l : (forall y, f y = g y) -> derivable_pt_lim g x l -> derivable_pt_lim f x l.
Proof. intros E H eps Heps. destruct (H eps Heps) as (del & Hd). exists del. intros h Hh Hb. rewrite !E. apply Hd; assumption. Qed.

Lemma NN_derivative r i x : (i + r + 1 < K)%nat -> derivable_pt_lim (NN r i) x (DN r i x).
Proof.
  revert i x; induction r as [|q IH]; intros i x H.
  - apply (dlim_eq _ (fct_cte (if (i =? s)%nat then 1 else 0))); [reflexivity|]. apply derivable_pt_lim_const.
  - pose (a := inv (S q) i). pose (b := inv (S q) (i + 1)).
    assert (D : derivable_pt_lim
       ((fun x => a * x + - (a * t i))%R * NN q i + (fun x => (- b) * x + b * t (i + S q + 1)%nat)%R * NN q (i + 1)%nat)%F x
       ((a * NN q i x + (a * x + - (a * t i)) * DN q i x) +
        ((- b) * NN q (i + 1) x + ((- b) * x + b * t (i + S q + 1)%nat) * DN q (i + 1) x))).
    { apply derivable_pt_lim_plus.
      - exact (derivable_pt_lim_mult (fun x => a * x + - (a * t i)) (NN q i) x a (DN q i x) (dlim_lin _ _ _) (IH i x ltac:(lia))).
      - exact (derivable_pt_lim_mult (fun x => - b * x + b * t (i + S q + 1)%nat) (NN q (i + 1)) x (- b) (DN q (i + 1) x)
                 (dlim_lin _ _ _) (IH (i + 1)%nat x ltac:(lia))). }
    assert (E : DN (S q) i x = (a * NN q i x + (a * x + - (a * t i)) * DN q i x) +
        ((- b) * NN q (i + 1) x + ((- b) * x + b * t (i + S q + 1)%nat) * DN q (i + 1) x)).
    { change (DN (S q) i x) with (INR (S q) * (a * NN q i x - b * NN q (i + 1) x)). rewrite S_INR.
      destruct q as [|q]; [cbn [DN INR]; ring|].
      enough (Q : INR (S q) * (a * NN (S q) i x - b * NN (S q) (i + 1) x) =
         (x - t i) * a * DN (S q) i x + (t (i + S (S q) + 1)%nat - x) * b * DN (S q) (i + 1) x).
      { transitivity (INR (S q) * (a * NN (S q) i x - b * NN (S q) (i + 1) x) + (a * NN (S q) i x - b * NN (S q) (i + 1) x)); [ring|].
        rewrite Q. ring. }
      unfold DN. cbn [NN]. replace (i + 1 + 1)%nat with (i + 2)%nat by lia.
      replace (i + S q + 1)%nat with (i + S (S q))%nat by lia.
      replace (i + 1 + S q + 1)%nat with (i + S (S q) + 1)%nat by lia.
      set (c := inv (S q) (i + 1)). set (n0 := NN q i x). set (n1 := NN q (i + 1) x). set (n2 := NN q (i + 2) x).
      set (t2 := t (i + S (S q))%nat). set (t3 := t (i + S (S q) + 1)%nat). set (t0 := t i). set (t1 := t (i + 1)%nat).
      assert (Z : n1 * (a * (t2 - t0) - b * (t3 - t1)) = 0).
      { destruct (le_lt_dec (i + 1) s) as [A|A]; [destruct (le_lt_dec s (i + 1 + q)) as [B|B]|].
        - pose proof (inv_gap i (S (S q)) ltac:(lia) ltac:(lia)) as G1.
          pose proof (inv_gap (i + 1) (S (S q)) ltac:(lia) ltac:(lia)) as G2.
          replace (i + 1 + S (S q))%nat with (i + S (S q) + 1)%nat in G2 by lia.
          fold a t2 t0 in G1. fold b t3 t1 in G2. rewrite G1, G2. ring.
        - unfold n1. rewrite NN_inactive by lia. ring.
        - unfold n1. rewrite NN_inactive by lia. ring. }
      match goal with |- ?l = ?r => enough (EE : l - r = INR (S q) * c * (n1 * (a * (t2 - t0) - b * (t3 - t1)))) by (rewrite Z in EE; lra) end.
      ring. }
    rewrite E. eapply dlim_eq; [|exact D]. intros y. cbn [NN]. unfold plus_fct, mult_fct. fold a b. ring.
Qed.

Definition DDN (r i : nat) (x : R) : R :=
  match r with
  | 0%nat => 0
  | S q => INR r * (inv r i * DN q i x - inv r (i + 1) * DN q (i + 1) x)
  end.
Lemma DN_derivative r i x : (i + r + 1 < K)%nat -> derivable_pt_lim (DN r i) x (DDN r i x).
Proof.
  intros H. destruct r as [|q].
  - apply (dlim_eq _ (fct_cte 0)); [reflexivity|]. apply derivable_pt_lim_const.
  - assert (D : derivable_pt_lim (mult_real_fct (INR (S q)) (mult_real_fct (inv (S q) i) (NN q i) - mult_real_fct (inv (S q) (i + 1)%nat) (NN q (i + 1)%nat)))%F x
      (INR (S q) * (inv (S q) i * DN q i x - inv (S q) (i + 1) * DN q (i + 1) x))).
    { apply derivable_pt_lim_scal. apply derivable_pt_lim_minus; apply derivable_pt_lim_scal; apply NN_derivative; lia. }
    exact D.
Qed.

(** * The lists returned by the code *)
Lemma sub_fe i : (p + 2 <= K)%nat -> (i < fe_size d s)%nat -> (s - p + i + p + 1 < K)%nat.
Proof.
  intros H Hi. unfold fe_size, knots_size in Hi. fold p K in Hi. pose proof HsK.
  destruct (Nat.ltb_spec s p), (Nat.ltb_spec (K - s - 2) p); lia.
Qed.
Lemma eval1_length x : length (eval1 d s x) = fe_size d s.
Proof. unfold eval1. rewrite map_length, seq_length. reflexivity. Qed.
Lemma eval1_nth x i : (p + 2 <= K)%nat -> (i < fe_size d s)%nat -> nth i (eval1 d s x) 0 = NN p (s - p + i) x.
Proof.
  intros H Hi. unfold eval1. rewrite nth_map_seq. destruct (Nat.ltb_spec i (fe_size d s)); [|lia].
  fold p. apply table_NN. apply sub_fe; assumption.
Qed.

Lemma map_opt_some {A B} (f : A -> option B) g l : (forall a, In a l -> f a = Some (g a)) -> map_opt f l = Some (map g l).
Proof.
  induction l as [|a l IH]; intros H; [reflexivity|]. cbn [map_opt map]. rewrite (H a) by (left; reflexivity).
  rewrite IH by (intros b Hb; apply H; right; exact Hb). reflexivity.
Qed.

(** a quotient of the code *)
Lemma divnan_NN q i x : (i + q + 1 < K)%nat -> divnan (NN q i x) (t (i + q + 1) - t i) = Some (inv (S q) i * NN q i x).
Proof.
  intros H. unfold divnan. replace (i + q + 1)%nat with (i + S q)%nat in * by lia.
  destruct (le_lt_dec i s) as [A|A]; [destruct (le_lt_dec s (i + q)) as [B|B]|].
  - pose proof (gap_active i (S q) ltac:(lia) ltac:(lia)) as G. pose proof tol_order. rewrite inv_active by lia.
    destruct (Req_EM_T _ 0); [lra|]. f_equal. unfold Rdiv. apply Rmult_comm.
  - rewrite NN_inactive by lia. destruct (Req_EM_T _ 0); [destruct (Req_EM_T 0 0); [|lra]|]; f_equal; unfold Rdiv; ring.
  - rewrite NN_inactive by lia. destruct (Req_EM_T _ 0); [destruct (Req_EM_T 0 0); [|lra]|]; f_equal; unfold Rdiv; ring.
Qed.
Lemma divnan_0 a b c : a = 0 -> divnan2 a b c = Some 0.
Proof.
  intros ->. unfold divnan2, divnan. destruct (Req_EM_T 0 0); [|lra]. destruct (Req_EM_T b 0); [reflexivity|].
  destruct (Req_EM_T c 0) as [E|E].
  - destruct (Req_EM_T (0 / b) 0) as [|N]; [reflexivity|]. exfalso. apply N. unfold Rdiv. ring.
  - f_equal. unfold Rdiv. ring.
Qed.
(** two quotients, for two active intervals *)
Lemma divnan2_NN q i x a m b n : ((a <= i /\ i + q < a + m /\ a + m < K) /\ (b <= i /\ i + q < b + n /\ b + n < K))%nat ->
  divnan2 (NN q i x) (t (a + m) - t a) (t (b + n) - t b) = Some (inv m a * (inv n b * NN q i x)).
Proof.
  intros [(A1 & A2 & A3) (B1 & B2 & B3)]. destruct (le_lt_dec i s) as [A|A]; [destruct (le_lt_dec s (i + q)) as [B|B]|].
  - unfold divnan2, divnan. pose proof (gap_active a m ltac:(lia) ltac:(lia)) as G. pose proof (gap_active b n ltac:(lia) ltac:(lia)) as G'.
    pose proof tol_order. rewrite !inv_active by lia. destruct (Req_EM_T _ 0); [lra|]. destruct (Req_EM_T _ 0); [lra|].
    f_equal. unfold Rdiv. ring.
  - rewrite NN_inactive by lia. rewrite divnan_0 by reflexivity. f_equal. ring.
  - rewrite NN_inactive by lia. rewrite divnan_0 by reflexivity. f_equal. ring.
Qed.

Lemma repeat_map_seq n a : repeat 0 n = map (fun _ : nat => 0) (seq a n).
Proof. revert a; induction n as [|n IH]; intros a; [reflexivity|]. cbn [repeat seq map]. f_equal. apply IH. Qed.
Lemma jac1_DN x : (p + 2 <= K)%nat -> jac1 d s x = Some (map (fun i => DN p (s - p + i) x) (seq 0 (fe_size d s))).
Proof.
  intros H. unfold jac1. fold p. destruct (Nat.eqb_spec p 0) as [E|E].
  - f_equal. rewrite E. cbn [DN]. apply repeat_map_seq.
  - rewrite (map_opt_some _ (fun j => DN p j x)).
    + f_equal. generalize (fe_size d s) as n. intros n. rewrite <- (map_map (fun i => (s - p + i)%nat) (fun j => DN p j x)). f_equal.
      clear. generalize (s - p)%nat. intros a. replace a with (a + 0)%nat at 1 by lia. generalize 0%nat as b.
      induction n as [|n IH]; intros b; [reflexivity|]. cbn [seq map]. f_equal. rewrite <- IH. f_equal. lia.
    + intros j Hj. apply in_seq in Hj. pose proof (sub_fe (j - (s - p)) H ltac:(lia)) as B. replace (s - p + (j - (s - p)))%nat with j in B by lia.
      destruct p as [|q] eqn:Ep; [lia|]. cbn [Nat.sub]. rewrite Nat.sub_0_r.
      rewrite !table_NN by lia.
      change (nth (j + S q) (d_knots d) 0) with (t (j + S q)%nat). change (nth j (d_knots d) 0) with (t j).
      change (nth (j + S q + 1) (d_knots d) 0) with (t (j + S q + 1)%nat). change (nth (j + 1) (d_knots d) 0) with (t (j + 1)%nat).
      replace (j + S q)%nat with (j + q + 1)%nat by lia. rewrite divnan_NN by lia. cbn [obind].
      replace (j + q + 1 + 1)%nat with (j + 1 + q + 1)%nat by lia. rewrite divnan_NN by lia. reflexivity.
Qed.

Lemma hess1_DDN x : (p + 2 <= K)%nat -> hess1 d s x = Some (map (fun i => DDN p (s - p + i) x) (seq 0 (fe_size d s))).
Proof.
  intros H. unfold hess1. fold p. destruct (Nat.ltb_spec p 2) as [E|E].
  - f_equal. assert (Z : forall j, DDN p j x = 0).
    { intros j. destruct p as [|[|q]]; [reflexivity|cbn; ring|lia]. }
    rewrite (map_ext _ (fun _ => 0)) by (intros; apply Z).
    apply repeat_map_seq.
  - rewrite (map_opt_some _ (fun j => DDN p j x)).
    + f_equal. generalize (fe_size d s) as n. intros n. rewrite <- (map_map (fun i => (s - p + i)%nat) (fun j => DDN p j x)). f_equal.
      clear. generalize (s - p)%nat. intros a. replace a with (a + 0)%nat at 1 by lia. generalize 0%nat as b.
      induction n as [|n IH]; intros b; [reflexivity|]. cbn [seq map]. f_equal. rewrite <- IH. f_equal. lia.
    + intros j Hj. apply in_seq in Hj. pose proof (sub_fe (j - (s - p)) H ltac:(lia)) as B. replace (s - p + (j - (s - p)))%nat with j in B by lia.
      destruct p as [|[|q]] eqn:Ep; [lia|lia|]. replace (S (S q) - 2)%nat with q by lia.
      rewrite !table_NN by lia.
      change (nth j (d_knots d) 0) with (t j). change (nth (j + 1) (d_knots d) 0) with (t (j + 1)%nat). change (nth (j + 2) (d_knots d) 0) with (t (j + 2)%nat).
      change (nth (j + S (S q)) (d_knots d) 0) with (t (j + S (S q))%nat).
      change (nth (j + S (S q) - 1) (d_knots d) 0) with (t (j + S (S q) - 1)%nat).
      change (nth (j + S (S q) + 1) (d_knots d) 0) with (t (j + S (S q) + 1)%nat).
      change (nth (j + 1 + S (S q)) (d_knots d) 0) with (t (j + 1 + S (S q))%nat).
      replace (j + S (S q) - 1)%nat with (j + S q)%nat by lia.
      rewrite (divnan2_NN q j x j (S (S q)) j (S q)) by lia. cbn [obind].
      replace (t (j + S (S q))%nat - t (j + 1)%nat) with (t (j + 1 + S q)%nat - t (j + 1)%nat) by (do 2 f_equal; lia).
      rewrite (divnan2_NN q (j + 1) x j (S (S q)) (j + 1) (S q)) by lia. cbn [obind].
      replace (j + S (S q) + 1)%nat with (j + 1 + S (S q))%nat by lia.
      rewrite (divnan2_NN q (j + 1) x (j + 1) (S (S q)) (j + 1) (S q)) by lia. cbn [obind].
      replace (t (j + 1 + S (S q))%nat - t (j + 2)%nat) with (t (j + 2 + S q)%nat - t (j + 2)%nat) by (do 2 f_equal; lia).
      rewrite (divnan2_NN q (j + 2) x (j + 1) (S (S q)) (j + 2) (S q)) by lia. cbn [obind].
      f_equal. unfold DDN, DN. replace (j + 1 + 1)%nat with (j + 2)%nat by lia. rewrite !S_INR. ring.
Qed.
End OneD.
