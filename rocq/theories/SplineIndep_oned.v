(** One-dimensional B-splines are linearly independent on every non-empty knot span. *)
From Coq Require Import List Arith Lia Reals Lra Bool.
From Verif Require Import Lib BSpline_model BSpline_spec BSpline_oned.
Import ListNotations.
Local Open Scope R_scope.
#[local] Arguments Nat.ltb : simpl never.
#[local] Arguments Nat.eqb : simpl never.

Lemma zero_derivative f lo hi x l : (forall y, lo < y < hi -> f y = 0) -> lo < x < hi -> derivable_pt_lim f x l -> l = 0.
Proof.
  intros Z Hx D. destruct (Req_dec l 0) as [E|N]; [exact E|exfalso].
  destruct (D (Rabs l) (Rabs_pos_lt l N)) as [del Hd].
  pose (h := Rmin (del / 2) ((hi - x) / 2)). assert (P : 0 < del) by apply cond_pos.
  assert (H0 : 0 < h) by (apply Rmin_glb_lt; lra). pose proof (Rmin_l (del / 2) ((hi - x) / 2)). pose proof (Rmin_r (del / 2) ((hi - x) / 2)).
  fold h in H, H1. specialize (Hd h ltac:(lra)). rewrite (Z x), (Z (x + h)) in Hd by lra.
  rewrite (Rabs_pos_eq h) in Hd by lra. specialize (Hd ltac:(lra)).
  replace ((0 - 0) / h - l) with (- l) in Hd by (field; lra). rewrite Rabs_Ropp in Hd. lra.
Qed.
Lemma Sig_derivative n (f g : nat -> R -> R) x : forall a, (forall i, (a <= i < a + n)%nat -> derivable_pt_lim (f i) x (g i x)) ->
  derivable_pt_lim (fun y => Sig a n (fun i => f i y)) x (Sig a n (fun i => g i x)).
Proof.
  induction n as [|n IH]; intros a H.
  - apply derivable_pt_lim_const.
  - rewrite Sig_S. apply (dlim_eq _ (f a + (fun y => Sig (S a) n (fun i => f i y)))%F).
    + intros y. unfold plus_fct. apply Sig_S.
    + apply derivable_pt_lim_plus; [apply H; lia|apply IH; intros i Hi; apply H; lia].
Qed.
Lemma Sig_app a n m f : Sig a (n + m) f = Sig a n f + Sig (a + n) m f.
Proof.
  revert a; induction n as [|n IH]; intros a; cbn [Nat.add].
  - rewrite Nat.add_0_r. unfold Sig at 2. cbn. ring.
  - rewrite !Sig_S, IH. replace (S a + n)%nat with (a + S n)%nat by lia. ring.
Qed.
Lemma Sig_zero a n f : (forall i, (a <= i < a + n)%nat -> f i = 0) -> Sig a n f = 0.
Proof. intros H. rewrite (Sig_ext a n f (fun i => 0 * 0)) by (intros; rewrite H by lia; ring). rewrite Sig_scal. ring. Qed.
(** summation by parts *)
Lemma Sig_differences (a g : nat -> R) n : g n = 0 ->
  Sig 0 n (fun i => a i * g i) - Sig 0 n (fun i => a i * g (i + 1)%nat) =
  Sig 0 n (fun i => (a i - match i with 0%nat => 0 | S j => a j end) * g i).
Proof.
  intros Hn. destruct n as [|n]; [unfold Sig; cbn; ring|].
  rewrite (Sig_last 0 n (fun i => a i * g (i + 1)%nat)). replace (0 + n + 1)%nat with (S n) by lia. rewrite Hn.
  rewrite !(Sig_S 0 n). rewrite !(Sig_shift 0 n).
  rewrite (Sig_ext 0 n (fun i => (a (S i) - a i) * g (S i)) (fun i => a (S i) * g (S i) + (- 1) * (a i * g (i + 1)%nat))).
  - rewrite Sig_plus, Sig_scal. ring.
  - intros i _. replace (i + 1)%nat with (S i) by lia. ring.
Qed.

Section OneD.
Variable d : dir.
Variable s : nat.
Hypothesis Hsort : knots_sorted d.
Hypothesis Hspan : nonempty_span (d_knots d) s.
Notation K := (length (d_knots d)).

Lemma NN_independent r : forall a, (forall i, (K <= i + r + 1)%nat -> a i = 0) ->
  (forall x, knot d s < x < knot d (s + 1) -> Sig 0 (s + 1) (fun i => a i * NN d s r i x) = 0) ->
  forall i, (i <= s <= i + r)%nat -> a i = 0.
Proof.
  induction r as [|q IH]; intros a Ha H i Hi.
  - assert (i = s) as -> by lia. pose proof (Hgap d s Hspan) as G. pose proof tol_order.
    specialize (H ((knot d s + knot d (s + 1)) / 2) ltac:(split; lra)). rewrite Nat.add_1_r, Sig_last in H. cbn [Nat.add] in H.
    rewrite Sig_zero in H.
    + cbn [NN] in H. rewrite Nat.eqb_refl in H. lra.
    + intros j Hj. cbn [NN]. destruct (Nat.eqb_spec j s); [lia|ring].
  - set (r := S q) in *.
    pose (b := fun i => (a i - match i with 0%nat => 0 | S j => a j end) * inv d s r i).
    assert (HB : forall i, (i <= s <= i + q)%nat -> b i = 0).
    { apply IH.
      - intros j Hj. unfold b. rewrite (Ha j) by lia. destruct j as [|j]; [ring|]. rewrite (Ha j) by lia. ring.
      - intros x Hx.
        assert (D : derivable_pt_lim (fun y => Sig 0 (s + 1) (fun i => a i * NN d s r i y)) x (Sig 0 (s + 1) (fun i => a i * DN d s r i x))).
        { apply (Sig_derivative (s + 1) (fun i y => a i * NN d s r i y) (fun i y => a i * DN d s r i y)). intros j _.
          destruct (le_lt_dec K (j + r + 1)) as [L|L].
          - rewrite (Ha j L). apply (dlim_eq _ (fct_cte 0)); [intros; unfold fct_cte; ring|]. rewrite Rmult_0_l. apply derivable_pt_lim_const.
          - apply derivable_pt_lim_scal. apply NN_derivative; auto. }
        pose proof (zero_derivative _ _ _ x _ H Hx D) as Z.
        assert (E : Sig 0 (s + 1) (fun i => a i * DN d s r i x) = INR r * Sig 0 (s + 1) (fun i => b i * NN d s q i x)).
        { rewrite (Sig_ext _ _ (fun i => b i * NN d s q i x) (fun i => (a i - match i with 0%nat => 0 | S j => a j end) * (inv d s r i * NN d s q i x))).
          2:{ intros j _. unfold b. ring. }
          rewrite <- Sig_differences.
          2:{ rewrite (NN_inactive d s q (s + 1)) by lia. ring. }
          transitivity (Sig 0 (s + 1) (fun i => INR r * (a i * (inv d s r i * NN d s q i x)) + (- INR r) * (a i * (inv d s r (i + 1) * NN d s q (i + 1) x)))).
          - apply Sig_ext. intros j _. unfold r at 1. cbn [DN]. fold r. ring.
          - rewrite Sig_plus, !Sig_scal. ring. }
        rewrite E in Z. apply Rmult_integral in Z as [Z|Z]; [|exact Z]. exfalso. revert Z. apply not_0_INR. unfold r. lia. }
    assert (HC : forall j, (S j <= s <= S j + q)%nat -> a (S j) = a j).
    { intros j Hj. destruct (le_lt_dec K (S j + r)) as [L|L]; [rewrite !Ha by lia; reflexivity|].
      specialize (HB (S j) Hj). unfold b in HB. pose proof (inv_gap d s Hsort Hspan (S j) r ltac:(unfold r; lia) L) as G.
      apply Rmult_integral in HB as [HB|HB]; [lra|]. rewrite HB in G. lra. }
    assert (UP : forall n, (i + n <= s)%nat -> a (i + n)%nat = a i).
    { induction n as [|n IHn]; intros Hn; [f_equal; lia|]. rewrite <- IHn by lia. replace (i + S n)%nat with (S (i + n)) by lia. apply HC. lia. }
    destruct (le_lt_dec K (s + r + 1)) as [L|L].
    + rewrite <- (UP (s - i)%nat) by lia. apply Ha. lia.
    + destruct (le_lt_dec r s) as [M|M].
      * assert (DOWN : forall n, (n <= i)%nat -> (s <= i - n + r)%nat -> a (i - n)%nat = a i).
        { induction n as [|n IHn]; intros Hn Hs; [f_equal; lia|]. rewrite <- IHn by lia. symmetry.
          replace (i - n)%nat with (S (i - S n)) by lia. apply HC. unfold r in *. lia. }
        pose proof (Hgap d s Hspan) as G. pose proof tol_order.
        specialize (H ((knot d s + knot d (s + 1)) / 2) ltac:(split; lra)). set (x := (knot d s + knot d (s + 1)) / 2) in *.
        rewrite (Sig_ext _ _ _ (fun j => a i * NN d s r j x)) in H.
        2:{ intros j Hj. destruct (le_lt_dec s (j + r)) as [A|A].
            - f_equal. destruct (le_lt_dec i j); [replace j with (i + (j - i))%nat by lia; apply UP; lia|].
              replace j with (i - (i - j))%nat by lia. apply DOWN; lia.
            - rewrite NN_inactive by lia. ring. }
        rewrite Sig_scal in H. replace (s + 1)%nat with ((s - r) + S r)%nat in H by lia. rewrite Sig_app in H.
        rewrite (Sig_zero 0 (s - r)) in H.
        2:{ intros j Hj. apply NN_inactive. lia. }
        cbn [Nat.add] in H. rewrite NN_sum in H by (auto; lia). lra.
      * assert (DOWN : forall n, (n <= i)%nat -> a (i - n)%nat = a i).
        { induction n as [|n IHn]; intros Hn; [f_equal; lia|]. rewrite <- IHn by lia. symmetry.
          replace (i - n)%nat with (S (i - S n)) by lia. apply HC. unfold r in *. lia. }
        rewrite <- (DOWN i (le_n i)). replace (i - i)%nat with 0%nat by lia.
        specialize (HB 0%nat ltac:(unfold r in *; lia)). unfold b in HB.
        pose proof (inv_gap d s Hsort Hspan 0%nat r ltac:(unfold r in *; lia) ltac:(lia)) as G.
        apply Rmult_integral in HB as [HB|HB]; [lra|]. rewrite HB in G. lra.
Qed.

(** the functions the code returns *)
Lemma eval1_independent (a : nat -> R) : (d_order d + 2 <= K)%nat ->
  (forall x, knot d s < x < knot d (s + 1) -> Sig 0 (fe_size d s) (fun i => a i * nth i (eval1 d s x) 0) = 0) ->
  forall i, (i < fe_size d s)%nat -> a i = 0.
Proof.
  intros Hp H i Hi. set (p := d_order d) in *. set (o := (s - p)%nat).
  assert (FS : (fe_size d s <= s + 1 - o)%nat /\ (o + fe_size d s + p + 1 <= K)%nat /\ ((o + fe_size d s = s + 1)%nat \/ (o + fe_size d s + p + 1 = K)%nat)).
  { pose proof (HsK d s Hspan). unfold fe_size. fold p. unfold knots_size, o. destruct (Nat.ltb_spec s p); destruct (Nat.ltb_spec (K - s - 2) p); lia. }
  destruct FS as (F1 & F2 & F3).
  pose (b := fun j => if ((o <=? j) && (j <? o + fe_size d s))%nat then a (j - o)%nat else 0).
  assert (B1 : forall j, (j < o + fe_size d s)%nat -> (o <= j)%nat -> b j = a (j - o)%nat).
  { intros j H1 H2. unfold b. destruct (Nat.leb_spec o j); [|lia]. destruct (Nat.ltb_spec j (o + fe_size d s)); [reflexivity|lia]. }
  assert (B2 : forall j, ~ (o <= j < o + fe_size d s)%nat -> b j = 0).
  { intros j H1. unfold b. destruct (Nat.leb_spec o j); [|reflexivity]. destruct (Nat.ltb_spec j (o + fe_size d s)); [lia|reflexivity]. }
  replace i with (o + i - o)%nat by lia. rewrite <- B1 by lia.
  apply (NN_independent p).
  - intros j Hj. apply B2. lia.
  - intros x Hx. rewrite <- (H x Hx). replace (s + 1)%nat with (o + (fe_size d s + (s + 1 - o - fe_size d s)))%nat by (unfold o in *; lia).
    rewrite !Sig_app. cbn [Nat.add]. rewrite (Sig_zero 0 o), (Sig_zero (o + fe_size d s)).
    + rewrite Rplus_0_l, Rplus_0_r. clear - H Hp Hsort Hspan B1 F2. replace o with (0 + o)%nat at 1 by lia.
      assert (SH : forall n a0 k f, Sig (a0 + k) n f = Sig a0 n (fun i => f (k + i)%nat)).
      { induction n as [|n IH]; intros a0 k f; [reflexivity|]. rewrite !Sig_S. f_equal; [f_equal; lia|]. exact (IH (S a0) k f). }
      rewrite SH. apply Sig_ext. intros j Hj. rewrite B1 by lia. replace (o + j - o)%nat with j by lia. f_equal.
      symmetry. apply eval1_nth; auto. lia.
    + intros j Hj. rewrite B2 by lia. ring.
    + intros j Hj. rewrite B2 by lia. ring.
  - unfold o in *. lia.
Qed.
End OneD.
