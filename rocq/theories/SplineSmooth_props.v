(** C68: spline functions are single-valued and smooth across element boundaries. *)
From Coq Require Import List Arith Lia Reals Lra Bool Permutation.
From Verif Require Import Lib Basis_model Basis_spec BSpline_model BSpline_spec BSpline_numbering BSpline_oned BSpline_tensor BSpline_props SplineSmooth_spec.
Import ListNotations.
Local Open Scope R_scope.
#[local] Arguments Nat.ltb : simpl never.
#[local] Arguments Nat.eqb : simpl never.

(** * One direction: the polynomials of two knot spans at their common point *)
Section Common.
Variable d : dir.
Variables s s' : nat.
Variable z : R.
Hypothesis Hsort : knots_sorted d.
Hypothesis Hs : nonempty_span (d_knots d) s.
Hypothesis Hs' : nonempty_span (d_knots d) s'.
Hypothesis Hlt : (s < s')%nat.
Hypothesis HzL : knot d (s + 1) = z.
Hypothesis HzR : knot d s' = z.

Lemma knot_z i : (s + 1 <= i <= s')%nat -> knot d i = z.
Proof.
  intros H. pose proof (HsK d s' Hs'). pose proof (t_mono d Hsort (s + 1) i ltac:(lia)). pose proof (t_mono d Hsort i s' ltac:(lia)). lra.
Qed.
Lemma NN_left r i : (r <= s' - s)%nat -> NN d s r i z = if (i =? s)%nat then 1 else 0.
Proof.
  revert i; induction r as [|q IH]; intros i H; [reflexivity|]. cbn [NN]. rewrite !IH by lia.
  destruct (Nat.eqb_spec i s) as [->|N].
  - destruct (Nat.eqb_spec (s + 1) s); [lia|]. rewrite (inv_active d s s) by lia. rewrite (knot_z (s + S q)) by lia.
    pose proof (Hgap d s Hs). pose proof tol_pos. rewrite Rmult_0_r, Rplus_0_r, Rmult_1_r. apply Rinv_r. lra.
  - destruct (Nat.eqb_spec (i + 1) s) as [E|E]; [|ring]. replace (i + S q + 1)%nat with (s + S q)%nat by lia.
    rewrite (knot_z (s + S q)) by lia. ring.
Qed.
Lemma NN_right r i : (r <= s' - s)%nat -> NN d s' r i z = if (i + r =? s')%nat then 1 else 0.
Proof.
  revert i; induction r as [|q IH]; intros i H; [rewrite Nat.add_0_r; reflexivity|]. cbn [NN]. rewrite !IH by lia.
  replace (i + 1 + q)%nat with (i + S q)%nat by lia. destruct (Nat.eqb_spec (i + S q) s') as [E|E].
  - destruct (Nat.eqb_spec (i + q) s'); [lia|]. rewrite (inv_active d s' (i + 1)) by lia. replace (i + S q + 1)%nat with (s' + 1)%nat by lia.
    replace (i + 1 + S q)%nat with (s' + 1)%nat by lia. rewrite (knot_z (i + 1)) by lia.
    pose proof (Hgap d s' Hs'). pose proof tol_pos. rewrite Rmult_0_r, Rplus_0_l, Rmult_1_r. apply Rinv_r. lra.
  - destruct (Nat.eqb_spec (i + q) s') as [F|F]; [|ring]. rewrite (knot_z i) by lia. ring.
Qed.
(** a factor 1/(t_{b+n} - t_b) is the same for both spans wherever the function is not zero *)
Lemma inv_common (v v' : R) q i b n : (b <= i)%nat -> (i + q < b + n)%nat -> v = v' ->
  (~ (i <= s <= i + q)%nat -> v = 0) -> (~ (i <= s' <= i + q)%nat -> v' = 0) -> inv d s n b * v = inv d s' n b * v'.
Proof.
  intros Hb Hn <- Z Z'. destruct (Req_EM_T v 0) as [->|N]; [ring|]. f_equal.
  assert (A : (i <= s <= i + q)%nat).
  { destruct (le_lt_dec i s); [destruct (le_lt_dec s (i + q)); [lia|]|]; exfalso; apply N, Z; lia. }
  assert (A' : (i <= s' <= i + q)%nat).
  { destruct (le_lt_dec i s'); [destruct (le_lt_dec s' (i + q)); [lia|]|]; exfalso; apply N, Z'; lia. }
  rewrite !inv_active by lia. reflexivity.
Qed.
Lemma NN_common r i : (s' - s <= r)%nat -> NN d s r i z = NN d s' r i z.
Proof.
  revert i; induction r as [|q IH]; intros i H; [lia|].
  destruct (Nat.eq_dec (s' - s) (S q)) as [E|E].
  - rewrite NN_left, NN_right by lia. destruct (Nat.eqb_spec i s), (Nat.eqb_spec (i + S q) s'); lia || reflexivity.
  - assert (IHq : forall j, NN d s q j z = NN d s' q j z) by (intros; apply IH; lia).
    cbn [NN]. rewrite !Rmult_assoc. f_equal; f_equal.
    + apply (inv_common _ _ q i); [lia|lia|apply IHq|apply NN_inactive|apply NN_inactive].
    + apply (inv_common _ _ q (i + 1)); [lia|lia|apply IHq|apply NN_inactive|apply NN_inactive].
Qed.
Lemma inv_NN_common q i b n : (s' - s <= q)%nat -> (b <= i)%nat -> (i + q < b + n)%nat ->
  inv d s n b * NN d s q i z = inv d s' n b * NN d s' q i z.
Proof. intros H Hb Hn. apply (inv_common _ _ q i); [exact Hb|exact Hn|apply NN_common, H|apply NN_inactive|apply NN_inactive]. Qed.
Lemma inv2_NN_common q i b n b' n' : (s' - s <= q)%nat -> (b <= i)%nat -> (i + q < b + n)%nat -> (b' <= i)%nat -> (i + q < b' + n')%nat ->
  inv d s n b * (inv d s n' b' * NN d s q i z) = inv d s' n b * (inv d s' n' b' * NN d s' q i z).
Proof.
  intros H A B A' B'. apply (inv_common _ _ q i); [exact A|exact B|apply inv_NN_common; assumption| |];
    intros Q; rewrite NN_inactive by exact Q; ring.
Qed.
Lemma DN_common r i : (s' - s + 1 <= r)%nat -> DN d s r i z = DN d s' r i z.
Proof.
  intros H. destruct r as [|q]; [lia|]. cbn [DN]. f_equal. f_equal; apply inv_NN_common; lia.
Qed.
Lemma DDN_common r i : (s' - s + 2 <= r)%nat -> DDN d s r i z = DDN d s' r i z.
Proof.
  intros H. destruct r as [|[|q]]; [lia|lia|]. unfold DDN, DN. f_equal.
  assert (E : forall x b, inv d x (S (S q)) b * (INR (S q) * (inv d x (S q) b * NN d x q b z - inv d x (S q) (b + 1) * NN d x q (b + 1) z)) =
    INR (S q) * (inv d x (S (S q)) b * (inv d x (S q) b * NN d x q b z) - inv d x (S (S q)) b * (inv d x (S q) (b + 1) * NN d x q (b + 1) z)))
    by (intros; ring).
  rewrite !E. f_equal; f_equal; f_equal; apply inv2_NN_common; lia.
Qed.
End Common.

(** derivative of order [o] of function [j] on span [s] *)
Definition FNg (o : nat) (d : dir) (s j : nat) (x : R) : R :=
  match o with
  | 0%nat => NN d s (d_order d) j x
  | 1%nat => DN d s (d_order d) j x
  | _ => DDN d s (d_order d) j x
  end.
Lemma FN_FNg o d s i x : FN o d s i x = FNg o d s (s - d_order d + i) x.
Proof. destruct o as [|[|o]]; reflexivity. Qed.
Lemma FNg_inactive o d s j x : ~ (j <= s <= j + d_order d)%nat -> FNg o d s j x = 0.
Proof.
  intros H. assert (D : forall r i, ~ (i <= s <= i + r)%nat -> DN d s r i x = 0).
  { intros [|q] i Hi; [reflexivity|]. cbn [DN]. rewrite (NN_inactive d s q i), (NN_inactive d s q (i + 1)) by lia. ring. }
  destruct o as [|[|o]]; cbn [FNg].
  - apply NN_inactive, H.
  - apply D, H.
  - destruct (d_order d) as [|q]; [reflexivity|]. unfold DDN. rewrite (D q j), (D q (j + 1)%nat) by lia. ring.
Qed.

Lemma FNg_lt o d s s' j z : knots_sorted d -> nonempty_span (d_knots d) s -> nonempty_span (d_knots d) s' -> (s < s')%nat ->
  knot d (s + 1) = z -> knot d s' = z -> (o <= 2)%nat -> smooth o d -> FNg o d s j z = FNg o d s' j z.
Proof.
  intros A B B' L E E' Ho (m & Hm & M).
  assert (Hm' : (s' - s <= m)%nat).
  { destruct (le_lt_dec (s' - s) m) as [|Q]; [assumption|]. exfalso. pose proof (HsK d s' B') as K.
    pose proof (Hgap d s B) as G. pose proof (Hgap d s' B') as G'. pose proof tol_pos.
    pose proof (t_mono d A 0 s ltac:(lia)). pose proof (t_mono d A (s' + 1) (length (d_knots d) - 1) ltac:(lia)).
    pose proof (M (s + 1)%nat ltac:(lra) ltac:(lia)) as X.
    rewrite (knot_z d s s' z A B' L E E' (s + 1 + m)) in X by lia. lra. }
  destruct o as [|[|[|o]]]; [| | |lia]; cbn [FNg].
  - apply NN_common; trivial; lia.
  - apply DN_common; trivial; lia.
  - apply DDN_common; trivial; lia.
Qed.
(** [x] and [y] are local coordinates in the spans [s] and [s'] of the same point *)
Lemma FNg_common o d s s' j x y : knots_sorted d -> nonempty_span (d_knots d) s -> nonempty_span (d_knots d) s' ->
  0 <= x <= 1 -> 0 <= y <= 1 -> knot d s + (knot d (s + 1) - knot d s) * x = knot d s' + (knot d (s' + 1) - knot d s') * y ->
  (o <= 2)%nat -> smooth o d ->
  FNg o d s j (knot d s + (knot d (s + 1) - knot d s) * x) = FNg o d s' j (knot d s' + (knot d (s' + 1) - knot d s') * y).
Proof.
  intros A B B' X Y E Ho M. pose proof (Hgap d s B). pose proof (Hgap d s' B'). pose proof tol_pos.
  pose proof (HsK d s B). pose proof (HsK d s' B'). rewrite <- E.
  destruct (lt_eq_lt_dec s s') as [[L|<-]|L]; [|reflexivity|].
  - pose proof (t_mono d A (s + 1) s' ltac:(lia)). apply FNg_lt; trivial; nra.
  - pose proof (t_mono d A (s' + 1) s ltac:(lia)). symmetry. apply FNg_lt; trivial; nra.
Qed.

(** * Tensor products, functions given by their global tuples *)
Fixpoint tensG (o : nat -> nat) (k : nat) (ds : list (dir * nat)) (js : list nat) (xs : list R) : R :=
  match ds, js, xs with
  | (d, s) :: ds', j :: js', x :: xs' => FNg (o k) d s j x * tensG o (S k) ds' js' xs'
  | _, _, _ => 1
  end.
Lemma tens_tensG o dirs spans l xs : length dirs = length spans ->
  forall k, tens o k (combine dirs spans) l xs = tensG o k (combine dirs spans) (globalIJK dirs spans l) xs.
Proof.
  revert spans l xs; induction dirs as [|d dirs IH]; intros spans l xs L k; (destruct spans as [|s spans]; try discriminate L); [reflexivity|].
  unfold globalIJK. cbn [combine]. destruct l as [|i l]; [reflexivity|]. destruct xs as [|x xs]; [reflexivity|].
  cbn [combine map tens tensG]. rewrite FN_FNg, (IH spans l xs) by (cbn [length] in L; lia). reflexivity.
Qed.
Lemma tensG_inactive o dirs spans js xs : length dirs = length spans -> length js = length dirs -> length xs = length dirs ->
  ~ Forall2 (fun ds j => j <= snd ds <= j + d_order (fst ds))%nat (combine dirs spans) js ->
  forall k, tensG o k (combine dirs spans) js xs = 0.
Proof.
  revert spans js xs; induction dirs as [|d dirs IH]; intros spans js xs L LJ LX N k; (destruct spans as [|s spans]; try discriminate L);
    (destruct js as [|j js]; try discriminate LJ); (destruct xs as [|x xs]; try discriminate LX).
  - exfalso. apply N. constructor.
  - cbn [combine tensG length] in *. destruct (le_lt_dec j s) as [A|A]; [destruct (le_lt_dec s (j + d_order d)) as [B|B]|].
    + rewrite (IH spans js xs); [ring|lia|lia|lia|]. intros Q. apply N. constructor; [cbn; lia|exact Q].
    + rewrite FNg_inactive by lia. ring.
    + rewrite FNg_inactive by lia. ring.
Qed.
Lemma tensG_common o dirs spans spans' js xs ys : length dirs = length spans -> length dirs = length spans' ->
  Forall dir_good (combine dirs spans) -> Forall dir_good (combine dirs spans') -> in_cube dirs xs -> in_cube dirs ys ->
  global_point dirs spans xs = global_point dirs spans' ys ->
  forall k, (forall i d, nth_error dirs i = Some d -> (o (k + i)%nat <= 2)%nat /\ smooth (o (k + i)%nat) d) ->
  tensG o k (combine dirs spans) js (global_point dirs spans xs) = tensG o k (combine dirs spans') js (global_point dirs spans' ys).
Proof.
  revert spans spans' js xs ys; induction dirs as [|d dirs IH]; intros spans spans' js xs ys L L' G G' (LX & X) (LY & Y) E k M.
  - reflexivity.
  - destruct spans as [|s spans]; [discriminate L|]. destruct spans' as [|s' spans']; [discriminate L'|].
    destruct xs as [|x xs]; [discriminate LX|]. destruct ys as [|y ys]; [discriminate LY|]. destruct js as [|j js]; [reflexivity|].
    cbn [combine global_point tensG length] in *. injection E as E0 E1.
    inversion G as [|? ? (A & B & C) G1]; subst. inversion G' as [|? ? (A' & B' & C') G1']; subst.
    inversion X as [|? ? X0 X1]; subst. inversion Y as [|? ? Y0 Y1]; subst. cbn [fst snd] in *.
    destruct (M 0%nat d eq_refl) as [M1 M2]. rewrite Nat.add_0_r in M1, M2.
    rewrite (FNg_common (o k) d s s' j x y) by assumption. f_equal.
    apply IH; [lia|lia|assumption|assumption|split; [lia|assumption]|split; [lia|assumption]|assumption|].
    intros i d' Hd'. replace (S k + i)%nat with (k + S i)%nat by lia. apply (M (S i) d' Hd').
Qed.

(** * Sums over the functions of an element are sums over all functions *)
Lemma sum_all (g : nat -> R) l n : NoDup l -> (forall i, In i l -> (i < n)%nat) -> (forall i, (i < n)%nat -> ~ In i l -> g i = 0) ->
  fold_right Rplus 0 (map g l) = Sig 0 n g.
Proof.
  intros N B Z. unfold Sig.
  set (r := filter (fun i => if in_dec Nat.eq_dec i l then false else true) (seq 0 n)).
  assert (P : Permutation (seq 0 n) (l ++ r)).
  { apply NoDup_Permutation; [apply seq_NoDup| |].
    - assert (NR : NoDup r) by (apply NoDup_filter, seq_NoDup). assert (D : forall i, In i l -> ~ In i r).
      { intros i Hi Hr. apply filter_In in Hr as [_ Hr]. destruct (in_dec Nat.eq_dec i l); [discriminate|contradiction]. }
      clear B Z. induction l as [|a l' IH]; [exact NR|]. inversion N; subst. cbn [app]. constructor.
      + intros Q. apply in_app_or in Q as [Q|Q]; [contradiction|]. apply (D a); [left; reflexivity|exact Q].
      + clear IH. assert (H' : forall q : list nat, NoDup l' -> NoDup q -> (forall i, In i l' -> ~ In i q) -> NoDup (l' ++ q)).
        { clear. induction l' as [|b l IH]; intros q N1 N2 D; [exact N2|]. inversion N1; subst. cbn [app]. constructor.
          - intros Q. apply in_app_or in Q as [Q|Q]; [contradiction|]. apply (D b); [left; reflexivity|exact Q].
          - apply IH; [assumption|assumption|]. intros i Hi. apply D. right. exact Hi. }
        apply H'; [assumption|exact NR|]. intros i Hi. apply D. right. exact Hi.
    - intros i. rewrite in_app_iff. split.
      + intros Hi. destruct (in_dec Nat.eq_dec i l) as [Q|Q]; [left; exact Q|right]. apply filter_In. split; [exact Hi|].
        destruct (in_dec Nat.eq_dec i l); [contradiction|reflexivity].
      + intros [Hi|Hi]; [apply in_seq; specialize (B i Hi); lia|]. apply filter_In in Hi. apply Hi. }
  assert (PS : forall l1 l2, Permutation l1 l2 -> fold_right Rplus 0 (map g l1) = fold_right Rplus 0 (map g l2)).
  { induction 1; cbn [map fold_right]; lra. }
  rewrite (PS _ _ P), map_app, fold_right_app.
  assert (ZR : fold_right Rplus 0 (map g r) = 0).
  { assert (H : forall i, In i r -> g i = 0).
    { intros i Hi. apply filter_In in Hi as [Hi Q]. apply in_seq in Hi. apply Z; [lia|]. destruct (in_dec Nat.eq_dec i l); [discriminate|assumption]. }
    clear -H. induction r as [|a r IH]; [reflexivity|]. cbn [map fold_right]. rewrite (H a) by (left; reflexivity).
    rewrite IH by (intros i Hi; apply H; right; exact Hi). lra. }
  rewrite ZR. reflexivity.
Qed.

Section Element.
Variable dirs : list dir.
Variable spans : list nat.
Hypothesis HL : length dirs = length spans.
Hypothesis HG : Forall dir_good (combine dirs spans).
Hypothesis HO : Forall2 span_ok dirs spans.
Variable c : nat -> R.

Lemma combination_all o xs (v : list R) : length xs = length dirs -> length v = node_size dirs spans ->
  (forall i, (i < node_size dirs spans)%nat -> nth i v 0 = tens o 0 (combine dirs spans) (loc dirs spans i) xs) ->
  combination c (indices dirs spans) v =
  Sig 0 (dimension dirs) (fun I => c I * tensG o 0 (combine dirs spans) (getIJK I (map size1 dirs)) xs).
Proof.
  intros LX LV HV.
  assert (JB : forall i, (i < node_size dirs spans)%nat -> Forall2 (fun n i => i < n)%nat (map size1 dirs) (globalIJK dirs spans (loc dirs spans i))).
  { intros i Hi. assert (FA : Forall2 (fun ds j => active (fst ds) (snd ds) j) (combine dirs spans) (globalIJK dirs spans (loc dirs spans i))).
    { apply globalIJK_active; [exact HO|]. eexists. split; [|reflexivity]. apply (lexi_getIJK _ _ Hi). }
    clear -FA HL. revert FA. generalize (globalIJK dirs spans (loc dirs spans i)). revert spans HL. induction dirs as [|d l IH]; intros sp L js F; (destruct sp as [|s sp]; try discriminate L).
    - inversion F. constructor.
    - cbn [combine] in F. inversion F as [|? j ? js' [A _] F']; subst. cbn [map fst snd] in *. constructor.
      + unfold size1, knots_size. lia.
      + apply (IH sp); [cbn [length] in L; lia|exact F']. }
  assert (IL : length (indices dirs spans) = node_size dirs spans) by (unfold indices; rewrite map_length, seq_length; reflexivity).
  transitivity (fold_right Rplus 0 (map (fun I => c I * tensG o 0 (combine dirs spans) (getIJK I (map size1 dirs)) xs) (indices dirs spans))).
  - unfold combination. f_equal. apply nth_error_ext. intros i. rewrite !nth_error_map_eq.
    destruct (lt_dec i (node_size dirs spans)) as [Hi|Hi].
    + assert (EI := indices_nth dirs spans i HL Hi).
      assert (EC : nth_error (combine (indices dirs spans) v) i = Some (lexi (map (fun d => length (d_knots d) - d_order d - 1)%nat dirs) (globalIJK dirs spans (loc dirs spans i)), nth i v 0)).
      { assert (Q : forall (A B : Type) (l1 : list A) (l2 : list B) i a b, nth_error l1 i = Some a -> nth_error l2 i = Some b -> nth_error (combine l1 l2) i = Some (a, b)).
        { clear. intros A B. induction l1 as [|a1 l1 IH]; intros l2 i a b H1 H2; [destruct i; discriminate|]. destruct l2 as [|b2 l2]; [destruct i; discriminate|].
          destruct i as [|i]; cbn in *; [congruence|]. apply IH; assumption. }
        apply Q; [exact EI|]. apply nth_error_nth'. lia. }
      rewrite EC, EI. cbn [option_map fst snd]. f_equal. f_equal. rewrite HV by exact Hi.
      change (map (fun d => (length (d_knots d) - d_order d - 1)%nat) dirs) with (map size1 dirs).
      rewrite getIJK_lexi by (apply JB, Hi). apply tens_tensG, HL.
    + rewrite !(proj2 (nth_error_None _ _)); [reflexivity| |]; rewrite ?combine_length; lia.
  - apply sum_all.
    + apply indices_nodup, HO.
    + intros I HI. apply In_nth_error in HI as (i & Hi). assert (LT : (i < node_size dirs spans)%nat) by (rewrite <- IL; apply nth_error_Some; congruence).
      rewrite (indices_nth dirs spans i HL LT) in Hi. injection Hi as <-. unfold dimension. apply (lexi_bound (map size1 dirs)), (JB i LT).
    + intros I HI N. apply Rmult_eq_0_compat_l. destruct (lexi_getIJK _ _ HI) as [E F].
      assert (LJ : length (getIJK I (map size1 dirs)) = length dirs) by (pose proof (Forall2_len _ _ _ F) as Q; rewrite map_length in Q; lia).
      apply tensG_inactive; [exact HL|exact LJ|exact LX|]. intros Q. apply N. apply (in_indices dirs spans I HO).
      exists (getIJK I (map size1 dirs)). split; [|symmetry; exact E].
      clear -Q F HL. revert Q F. generalize (getIJK I (map size1 dirs)) as js. revert spans HL. induction dirs as [|d l IH]; intros sp L js Q F; (destruct sp as [|s sp]; try discriminate L).
      * inversion Q. constructor.
      * cbn [combine map] in *. inversion Q as [|? j ? js' A Q']; subst. inversion F as [|? ? ? ? B F']; subst. cbn [fst snd] in *. constructor.
        -- unfold active. cbn [fst snd]. unfold size1, knots_size in B. lia.
        -- apply IH; [cbn [length] in L; lia|exact Q'|exact F'].
Qed.
End Element.

(** * Discrete functions *)
Lemma combination_scale c idx v k : combination c idx (map (fun o => o * k) v) = combination c idx v * k.
Proof.
  unfold combination. revert idx; induction v as [|a v IH]; intros idx.
  - destruct idx; cbn; ring.
  - destruct idx as [|i idx]; [cbn; ring|]. cbn [map combine fold_right fst snd]. rewrite IH. ring.
Qed.
Lemma scalings_width dirs spans j : length dirs = length spans -> (j < length dirs)%nat -> nth j (scalings dirs spans) 0 = width dirs spans j.
Proof.
  unfold scalings, width. revert spans j; induction dirs as [|d dirs IH]; intros spans j L Hj; [cbn in Hj; lia|].
  destruct spans as [|s spans]; [discriminate L|]. destruct j as [|j]; [reflexivity|].
  cbn [combine map nth nth_error]. apply IH; cbn [length] in *; lia.
Qed.
Lemma width_pos dirs spans j : length dirs = length spans -> Forall dir_good (combine dirs spans) -> (j < length dirs)%nat -> 0 < width dirs spans j.
Proof.
  unfold width. revert spans j; induction dirs as [|d dirs IH]; intros spans j L G Hj; [cbn in Hj; lia|].
  destruct spans as [|s spans]; [discriminate L|]. cbn [combine] in G. inversion G as [|? ? (A & B & C) G']; subst. destruct j as [|j].
  - cbn [nth_error]. cbn [fst snd] in B. pose proof (Hgap d s B). pose proof tol_pos. lra.
  - cbn [nth_error]. apply IH; [cbn [length] in L; lia|exact G'|cbn [length] in Hj; lia].
Qed.

(** the derivatives in the directions [l], summed over the functions of an element *)
Definition raises (l : list nat) : nat -> nat := fold_left raise l (fun _ => 0%nat).
Lemma raise_times o l k : fold_left raise l o k = (o k + times k l)%nat.
Proof.
  revert o; induction l as [|a l IH]; intros o; cbn [fold_left]; [unfold times; cbn; lia|]. rewrite IH. unfold times. cbn [count_occ].
  unfold raise. destruct (Nat.eqb_spec a k), (Nat.eq_dec a k); try lia; contradiction.
Qed.

Section Two.
Variable dirs : list dir.
Variables e e' : nat.
Variables spans spans' : list nat.
Variables xs ys : list R.
Variable c : nat -> R.
Hypothesis HD : Forall dir_ok dirs.
Hypothesis HS : Forall knots_sorted dirs.
Hypothesis HE : element_spans dirs e spans.
Hypothesis HE' : element_spans dirs e' spans'.
Hypothesis HX : in_cube dirs xs.
Hypothesis HY : in_cube dirs ys.
Hypothesis HP : global_point dirs spans xs = global_point dirs spans' ys.

Lemma derivatives_common l v v' : (length l <= 2)%nat -> smooth_enough dirs l ->
  length v = node_size dirs spans -> length v' = node_size dirs spans' ->
  (forall i, (i < node_size dirs spans)%nat -> nth i v 0 = tens (raises l) 0 (combine dirs spans) (loc dirs spans i) (global_point dirs spans xs)) ->
  (forall i, (i < node_size dirs spans')%nat -> nth i v' 0 = tens (raises l) 0 (combine dirs spans') (loc dirs spans' i) (global_point dirs spans' ys)) ->
  combination c (indices dirs spans) v = combination c (indices dirs spans') v'.
Proof.
  intros Hl M LV LV' HV HV'.
  destruct (elements_good dirs e spans HD HS HE) as (L & G & F). destruct (elements_good dirs e' spans' HD HS HE') as (L' & G' & F').
  assert (LG : length (global_point dirs spans xs) = length dirs) by (apply global_point_length; [exact L|apply HX]).
  assert (LG' : length (global_point dirs spans' ys) = length dirs) by (apply global_point_length; [exact L'|apply HY]).
  rewrite (combination_all dirs spans L F c (raises l) (global_point dirs spans xs) v LG LV HV).
  rewrite (combination_all dirs spans' L' F' c (raises l) (global_point dirs spans' ys) v' LG' LV' HV').
  apply Sig_ext. intros I _. f_equal. apply tensG_common; trivial.
  intros i d Hd. unfold raises. rewrite raise_times. cbn [Nat.add]. split; [|apply M, Hd].
  unfold times. pose proof (count_occ_bound Nat.eq_dec i l). lia.
Qed.
Lemma indices_of : lf_indices (bspline_leaf dirs) e = indices dirs spans /\ lf_indices (bspline_leaf dirs) e' = indices dirs spans'.
Proof. cbn [bspline_leaf lf_indices]. rewrite (bind_spans _ _ _ HE), (bind_spans _ _ _ HE'). split; reflexivity. Qed.

Lemma values_common : smooth_enough dirs [] ->
  combination c (lf_indices (bspline_leaf dirs) e) (lb_evaluateFunction dirs spans xs) =
  combination c (lf_indices (bspline_leaf dirs) e') (lb_evaluateFunction dirs spans' ys).
Proof.
  intros M. destruct indices_of as [-> ->].
  destruct (elements_good dirs e spans HD HS HE) as (L & G & F). destruct (elements_good dirs e' spans' HD HS HE') as (L' & G' & F').
  assert (LG : length (global_point dirs spans xs) = length dirs) by (apply global_point_length; [exact L|apply HX]).
  assert (LG' : length (global_point dirs spans' ys) = length dirs) by (apply global_point_length; [exact L'|apply HY]).
  unfold lb_evaluateFunction. rewrite !globalIn_point by assumption.
  apply (derivatives_common []); [cbn; lia|exact M|apply evalF_length; assumption|apply evalF_length; assumption| |];
    intros i Hi; apply evalF_nth; assumption.
Qed.
Lemma first_common j : (j < length dirs)%nat -> smooth_enough dirs [j] -> exists out out',
  lb_evaluate_1 dirs spans j xs = Some out /\ lb_evaluate_1 dirs spans' j ys = Some out' /\
  combination c (indices dirs spans) out / width dirs spans j = combination c (indices dirs spans') out' / width dirs spans' j.
Proof.
  intros Hj M. destruct (elements_good dirs e spans HD HS HE) as (L & G & F). destruct (elements_good dirs e' spans' HD HS HE') as (L' & G' & F').
  assert (LG : length (global_point dirs spans xs) = length dirs) by (apply global_point_length; [exact L|apply HX]).
  assert (LG' : length (global_point dirs spans' ys) = length dirs) by (apply global_point_length; [exact L'|apply HY]).
  unfold lb_evaluate_1. rewrite !globalIn_point, !eval1_form by assumption. cbn [obind]. do 2 eexists. split; [reflexivity|]. split; [reflexivity|].
  rewrite !combination_scale, !scalings_width by assumption. pose proof (width_pos dirs spans j L G Hj). pose proof (width_pos dirs spans' j L' G' Hj).
  unfold Rdiv. rewrite !Rmult_assoc, !Rinv_r, !Rmult_1_r by lra.
  apply (derivatives_common [j]); [cbn; lia|exact M|apply tensor_length|apply tensor_length| |]; intros i Hi;
    (rewrite tensor_nth by assumption); apply entry_lists; first [rewrite combine_length; lia|apply loc_bound, Hi].
Qed.
Lemma second_common j k : (j < length dirs)%nat -> (k < length dirs)%nat -> smooth_enough dirs [j; k] -> exists out out',
  lb_evaluate_2 dirs spans j k xs = Some out /\ lb_evaluate_2 dirs spans' j k ys = Some out' /\
  combination c (indices dirs spans) out / (width dirs spans j * width dirs spans k) =
  combination c (indices dirs spans') out' / (width dirs spans' j * width dirs spans' k).
Proof.
  intros Hj Hk M. destruct (elements_good dirs e spans HD HS HE) as (L & G & F). destruct (elements_good dirs e' spans' HD HS HE') as (L' & G' & F').
  assert (LG : length (global_point dirs spans xs) = length dirs) by (apply global_point_length; [exact L|apply HX]).
  assert (LG' : length (global_point dirs spans' ys) = length dirs) by (apply global_point_length; [exact L'|apply HY]).
  unfold lb_evaluate_2. rewrite !globalIn_point, !eval2_form by assumption. cbn [obind]. do 2 eexists. split; [reflexivity|]. split; [reflexivity|].
  rewrite !combination_scale, !scalings_width by assumption.
  pose proof (width_pos dirs spans j L G Hj). pose proof (width_pos dirs spans' j L' G' Hj). pose proof (width_pos dirs spans k L G Hk). pose proof (width_pos dirs spans' k L' G' Hk).
  assert (0 < width dirs spans j * width dirs spans k) by (apply Rmult_lt_0_compat; assumption).
  assert (0 < width dirs spans' j * width dirs spans' k) by (apply Rmult_lt_0_compat; assumption).
  unfold Rdiv. rewrite !Rmult_assoc, <- !(Rmult_assoc (width _ _ _)), !Rinv_r, !Rmult_1_r by lra.
  apply (derivatives_common [j; k]); [cbn; lia|exact M|apply tensor_length|apply tensor_length| |]; intros i Hi;
    (rewrite tensor_nth by assumption); apply entry_lists; first [rewrite combine_length; lia|apply loc_bound, Hi].
Qed.
(** column [j] of the Jacobian is the first derivative *)
Lemma jacobian_column sp q e0 zs j : element_spans dirs e0 sp -> in_cube dirs zs -> (j < length dirs)%nat -> lb_evaluate_1 dirs sp j zs = Some q ->
  exists out, lb_evaluateJacobian dirs sp zs = Some out /\ map (fun row => nth j row 0) out = q.
Proof.
  intros E Z Hj Hq. destruct (elements_good dirs e0 sp HD HS E) as (L & G & F).
  assert (LG : length (global_point dirs sp zs) = length dirs) by (apply global_point_length; [exact L|apply Z]).
  destruct (evalJ_nth dirs sp L G (global_point dirs sp zs) LG) as (out & Ho & LO & Hr).
  unfold lb_evaluateJacobian. rewrite globalIn_point, Ho by exact L. cbn [obind]. eexists. split; [reflexivity|].
  unfold lb_evaluate_1 in Hq. rewrite globalIn_point, eval1_form in Hq by assumption. cbn [obind] in Hq. injection Hq as <-.
  rewrite map_map. apply nth_error_ext. intros i. rewrite !nth_error_map_eq. destruct (lt_dec i (node_size dirs sp)) as [Hi|Hi].
  - destruct (Hr i Hi) as (row & Er & Lr & Vr). rewrite Er.
    rewrite (nth_error_nth' _ 0) by (rewrite tensor_length; exact Hi). cbn [option_map]. f_equal.
    assert (LS : length (scalings dirs sp) = length dirs) by (unfold scalings; rewrite map_length, combine_length; lia).
    rewrite (nth_indep _ 0 (fst (0, 0) * snd (0, 0))) by (rewrite map_length, combine_length; lia).
    rewrite (map_nth (fun rs => fst rs * snd rs)), combine_nth by lia. cbn [fst snd]. f_equal.
    rewrite Vr by exact Hj. rewrite tensor_nth by assumption. symmetry. apply entry_lists; [rewrite combine_length; lia|apply loc_bound, Hi].
  - rewrite !(proj2 (nth_error_None _ _)); [reflexivity| |]; [rewrite tensor_length; lia|lia].
Qed.
End Two.

(** Two elements, a point common to both given by its local coordinates in each of
    them, and any coefficients: the value of the function is the same from both sides
    if the inner knots occur at most p times. *)
Theorem C68_continuous : forall dirs e e' spans spans' xs ys c,
  Forall dir_ok dirs -> Forall knots_sorted dirs -> element_spans dirs e spans -> element_spans dirs e' spans' ->
  in_cube dirs xs -> in_cube dirs ys -> global_point dirs spans xs = global_point dirs spans' ys ->
  smooth_enough dirs [] ->
  combination c (lf_indices (bspline_leaf dirs) e) (lb_evaluateFunction dirs spans xs) =
  combination c (lf_indices (bspline_leaf dirs) e') (lb_evaluateFunction dirs spans' ys).
Proof. intros dirs e e' spans spans' xs ys c D S E E' X Y P M. apply values_common; assumption. Qed.

(** So are the first derivatives in global coordinates, both from the Jacobian and
    from the method for partial derivatives ... *)
Theorem C68_gradient_continuous : forall dirs e e' spans spans' xs ys c j,
  Forall dir_ok dirs -> Forall knots_sorted dirs -> element_spans dirs e spans -> element_spans dirs e' spans' ->
  in_cube dirs xs -> in_cube dirs ys -> global_point dirs spans xs = global_point dirs spans' ys ->
  (j < length dirs)%nat -> smooth_enough dirs [j] ->
  let idx := lf_indices (bspline_leaf dirs) e in let idx' := lf_indices (bspline_leaf dirs) e' in
  exists J J' D D',
    lb_evaluateJacobian dirs spans xs = Some J /\ lb_evaluateJacobian dirs spans' ys = Some J' /\
    lb_evaluate_1 dirs spans j xs = Some D /\ lb_evaluate_1 dirs spans' j ys = Some D' /\
    combination c idx (map (fun row => nth j row 0) J) / width dirs spans j =
      combination c idx' (map (fun row => nth j row 0) J') / width dirs spans' j /\
    combination c idx D / width dirs spans j = combination c idx' D' / width dirs spans' j.
Proof.
  intros dirs e e' spans spans' xs ys c j D S E E' X Y P Hj M idx idx'.
  assert (II := indices_of dirs e e' spans spans' E E'). fold idx idx' in II. destruct II as [-> ->].
  destruct (first_common dirs e e' spans spans' xs ys c D S E E' X Y P j Hj M) as (o & o' & H1 & H2 & H3).
  destruct (jacobian_column dirs D S spans o e xs j E X Hj H1) as (J & J1 & J2).
  destruct (jacobian_column dirs D S spans' o' e' ys j E' Y Hj H2) as (J' & J1' & J2').
  exists J, J', o, o'. split; [exact J1|]. split; [exact J1'|]. split; [exact H1|]. split; [exact H2|]. split; [rewrite J2, J2'; exact H3|exact H3].
Qed.

(** ... and the second derivatives. *)
Theorem C68_second_derivatives_continuous : forall dirs e e' spans spans' xs ys c j k,
  Forall dir_ok dirs -> Forall knots_sorted dirs -> element_spans dirs e spans -> element_spans dirs e' spans' ->
  in_cube dirs xs -> in_cube dirs ys -> global_point dirs spans xs = global_point dirs spans' ys ->
  (j < length dirs)%nat -> (k < length dirs)%nat -> smooth_enough dirs [j; k] ->
  exists D D', lb_evaluate_2 dirs spans j k xs = Some D /\ lb_evaluate_2 dirs spans' j k ys = Some D' /\
    combination c (lf_indices (bspline_leaf dirs) e) D / (width dirs spans j * width dirs spans k) =
    combination c (lf_indices (bspline_leaf dirs) e') D' / (width dirs spans' j * width dirs spans' k).
Proof.
  intros dirs e e' spans spans' xs ys c j k D S E E' X Y P Hj Hk M.
  destruct (indices_of dirs e e' spans spans' E E') as [-> ->]. apply (second_common dirs e e'); assumption.
Qed.
