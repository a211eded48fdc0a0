(** C37, C38: values and derivatives of B-spline bases. *)
From Coq Require Import List Arith Lia Reals Lra Bool.
From Verif Require Import Lib Basis_model Basis_spec BSpline_model BSpline_spec BSpline_numbering BSpline_oned BSpline_tensor MonomialSet_spec.
Import ListNotations.
Local Open Scope R_scope.
#[local] Arguments Nat.ltb : simpl never.
#[local] Arguments Nat.eqb : simpl never.

Lemma elements_good dirs e spans : Forall dir_ok dirs -> Forall knots_sorted dirs -> element_spans dirs e spans ->
  length dirs = length spans /\ Forall dir_good (combine dirs spans) /\ Forall2 span_ok dirs spans.
Proof.
  intros D S E. pose proof (element_spans_ok dirs e spans D E) as F. split; [apply (Forall2_len _ _ _ F)|]. clear E.
  revert D S. induction F as [|d s ds ss [A B] F IH]; intros D S; [split; constructor|]. inversion D; subst. inversion S; subst.
  destruct IH as [IH1 IH2]; trivial. split; constructor; trivial. split; [assumption|]. split; [exact B|exact (do_size _ H1)].
Qed.

(** * Values *)
Lemma tens_cox dirs spans l xs : length dirs = length spans -> Forall dir_good (combine dirs spans) ->
  Forall2 (fun q i => i < fe_size (fst q) (snd q))%nat (combine dirs spans) l -> Forall (fun x => 0 <= x < 1) xs -> length xs = length dirs ->
  forall k, tens (fun _ => 0%nat) k (combine dirs spans) l (global_point dirs spans xs) =
    tensor_bspline dirs (globalIJK dirs spans l) (global_point dirs spans xs).
Proof.
  revert spans l xs; induction dirs as [|d dirs IH]; intros spans l xs L G F X LX k; (destruct spans as [|s spans]; try discriminate L); [reflexivity|].
  destruct xs as [|x xs]; [discriminate|]. cbn [combine] in *. inversion F as [|? i ? l' Hi F']; subst. inversion G as [|? ? (A & B & C) G']; subst.
  inversion X as [|? ? X1 X2]; subst. cbn [fst snd length] in *. unfold globalIJK. cbn [combine map global_point tens tensor_bspline].
  rewrite (IH spans l' xs) by (trivial; lia). f_equal. cbn [FN].
  apply (NN_cox d s A B).
  - pose proof (Hgap d s B) as Q. pose proof tol_pos. nra.
  - apply (sub_fe d s B); assumption.
Qed.

Theorem C37_cox_de_boor : forall dirs e spans xs,
  Forall dir_ok dirs -> Forall knots_sorted dirs -> element_spans dirs e spans ->
  length xs = length dirs -> Forall (fun x => 0 <= x < 1) xs ->
  bind dirs e = Some spans /\
  let out := lb_evaluateFunction dirs spans xs in
  let indices := lf_indices (bspline_leaf dirs) e in
  length out = length indices /\
  forall i, (i < length out)%nat -> exists js,
    nth_error indices i = Some (lexi (map (fun d => length (d_knots d) - d_order d - 1)%nat dirs) js) /\
    Forall2 (fun ds j => active (fst ds) (snd ds) j) (combine dirs spans) js /\
    nth_error out i = Some (tensor_bspline dirs js (global_point dirs spans xs)).
Proof.
  intros dirs e spans xs D S E LX X. pose proof (bind_spans _ _ _ E) as B. split; [exact B|].
  destruct (elements_good dirs e spans D S E) as (L & G & F). intros out ind.
  assert (LG : length (global_point dirs spans xs) = length dirs) by (apply global_point_length; assumption).
  assert (EO : out = evaluateFunction dirs spans (global_point dirs spans xs)) by (unfold out, lb_evaluateFunction; rewrite globalIn_point by exact L; reflexivity).
  assert (EI : ind = indices dirs spans) by (unfold ind; cbn [bspline_leaf lf_indices]; rewrite B; reflexivity).
  assert (LO : length out = node_size dirs spans) by (rewrite EO; apply evalF_length; assumption).
  split; [rewrite LO, EI; unfold indices; rewrite map_length, seq_length; reflexivity|].
  intros i Hi. rewrite LO in Hi. exists (globalIJK dirs spans (loc dirs spans i)).
  split; [rewrite EI; apply (indices_nth dirs spans i L Hi)|]. split.
  - apply globalIJK_active; [exact F|]. eexists. split; [|reflexivity]. apply (lexi_getIJK _ _ Hi).
  - rewrite (nth_error_nth' out 0) by lia. f_equal. rewrite EO, evalF_nth by assumption.
    apply tens_cox; trivial. apply loc_bound, Hi.
Qed.

(** * Nonnegative partition of unity *)
Lemma Sig_prod n M g h : Sig 0 (n * M) (fun i => g (i mod n)%nat * h (i / n)%nat) = Sig 0 n g * Sig 0 M h.
Proof.
  destruct (Nat.eq_dec n 0) as [->|Hn]; [unfold Sig; cbn; ring|].
  assert (A : forall a m k f, Sig a (m + k) f = Sig a m f + Sig (a + m) k f).
  { intros a m k f. revert a. induction m as [|m IH]; intros a; [rewrite Nat.add_0_r; unfold Sig; cbn; ring|].
    cbn [Nat.add]. rewrite !Sig_S, IH. replace (S a + m)%nat with (a + S m)%nat by lia. ring. }
  induction M as [|M IH]; [rewrite Nat.mul_0_r; unfold Sig; cbn; ring|].
  replace (n * S M)%nat with (n * M + n)%nat by lia. rewrite A, IH, Sig_last. cbn [Nat.add].
  assert (E : Sig (n * M) n (fun i => g (i mod n)%nat * h (i / n)%nat) = h M * Sig 0 n g).
  { rewrite <- Sig_scal. replace (n * M)%nat with (n * M + 0)%nat by lia.
    assert (Q : forall m k, (k + m <= n)%nat -> Sig (n * M + k) m (fun i => g (i mod n)%nat * h (i / n)%nat) = Sig k m (fun i => h M * g i)).
    { induction m as [|m IHm]; intros k Hk; [reflexivity|]. rewrite !Sig_S. replace (S (n * M + k)) with (n * M + S k)%nat by lia.
      rewrite IHm by lia. f_equal. rewrite Rmult_comm. f_equal; f_equal.
      - symmetry. apply (Nat.div_unique _ _ _ k); lia.
      - symmetry. apply (Nat.mod_unique _ _ M); lia. }
    apply Q. lia. }
  rewrite E. ring.
Qed.

Lemma tens_sum ds xs k : length xs = length ds -> Forall dir_good ds ->
  Forall (fun q => d_order (fst q) <= snd q /\ snd q + d_order (fst q) + 1 < length (d_knots (fst q)))%nat ds ->
  Sig 0 (prod (map (fun q => fe_size (fst q) (snd q)) ds)) (fun i => tens (fun _ => 0%nat) k ds (getIJK i (map (fun q => fe_size (fst q) (snd q)) ds)) xs) = 1.
Proof.
  intros L G O. revert xs k L. induction G as [|[d s] ds (A & B & C) G IH]; intros xs k L.
  - unfold Sig. cbn. ring.
  - destruct xs as [|x xs]; [discriminate|]. inversion O as [|? ? [O1 O2] O']; subst. cbn [fst snd] in *. cbn [map]. rewrite prod_cons. cbn [fst snd].
    cbn [getIJK tens].
    rewrite (Sig_prod (fe_size d s) _ (fun i => FN 0 d s i x)
       (fun i => tens (fun _ => 0%nat) (S k) ds (getIJK i (map (fun q => fe_size (fst q) (snd q)) ds)) xs)).
    rewrite IH by (trivial; cbn [length] in L; lia). rewrite Rmult_1_r.
    assert (FS : fe_size d s = S (d_order d)).
    { unfold fe_size, knots_size. destruct (Nat.ltb_spec s (d_order d)); [lia|].
      destruct (Nat.ltb_spec (length (d_knots d) - s - 2) (d_order d)); lia. }
    rewrite FS. rewrite <- (NN_sum d s A B x (d_order d) O1 O2).
    assert (Q : forall n a f, Sig a n f = Sig 0 n (fun i => f (a + i)%nat)).
    { clear. induction n as [|n IH]; intros a f; [reflexivity|]. rewrite !Sig_S, (IH (S a)), (IH 1%nat).
      replace (a + 0)%nat with a by lia. f_equal. apply Sig_ext. intros i _. f_equal. lia. }
    rewrite (Q (S (d_order d)) (s - d_order d)%nat). reflexivity.
Qed.
Lemma tens_nonneg ds c xs k : length xs = length ds -> Forall dir_good ds ->
  Forall2 (fun q i => i < fe_size (fst q) (snd q))%nat ds c ->
  Forall2 (fun q x => knot (fst q) (snd q) <= x <= knot (fst q) (snd q + 1)) ds xs -> 0 <= tens (fun _ => 0%nat) k ds c xs.
Proof.
  intros L G F X. revert k c F L. induction X as [|[d s] x ds xs Hx X IH]; intros k c F L; [cbn; lra|].
  inversion F as [|? i ? c' Hi F']; subst. inversion G as [|? ? (A & B & C) G']; subst. cbn [tens fst snd] in *.
  apply Rmult_le_pos; [|apply IH; trivial; cbn [length] in L; lia].
  apply (NN_nonneg d s A B); [exact Hx|apply (sub_fe d s B); assumption].
Qed.

Lemma open_span_range d s : open_knots d -> nonempty_span (d_knots d) s -> (d_order d <= s /\ s + d_order d + 1 < length (d_knots d))%nat.
Proof.
  intros O N. pose proof (HsK d s N) as Hs. pose proof (Hgap d s N) as G. pose proof tol_pos. split.
  - destruct (le_lt_dec (d_order d) s) as [|H']; [assumption|]. exfalso.
    destruct (O s ltac:(lia)) as [E1 _]. destruct (O (s + 1)%nat ltac:(lia)) as [E2 _]. rewrite E1, E2 in G. lra.
  - destruct (le_lt_dec (length (d_knots d)) (s + d_order d + 1)) as [H'|]; [|assumption]. exfalso.
    destruct (O (length (d_knots d) - 1 - s)%nat ltac:(lia)) as [_ E1].
    destruct (O (length (d_knots d) - 1 - (s + 1))%nat ltac:(lia)) as [_ E2].
    replace (length (d_knots d) - 1 - (length (d_knots d) - 1 - s))%nat with s in E1 by lia.
    replace (length (d_knots d) - 1 - (length (d_knots d) - 1 - (s + 1)))%nat with (s + 1)%nat in E2 by lia.
    rewrite E1, E2 in G. lra.
Qed.

Theorem C37_partition_of_unity : forall dirs e spans xs,
  Forall dir_ok dirs -> Forall knots_sorted dirs -> element_spans dirs e spans -> length xs = length dirs ->
  let out := lb_evaluateFunction dirs spans xs in
  (Forall (fun x => 0 <= x <= 1) xs -> Forall (fun v => 0 <= v) out) /\
  (Forall open_knots dirs -> fold_right Rplus 0 out = 1).
Proof.
  intros dirs e spans xs D S E LX out. destruct (elements_good dirs e spans D S E) as (L & G & F).
  assert (LG : length (global_point dirs spans xs) = length dirs) by (apply global_point_length; assumption).
  assert (EO : out = evaluateFunction dirs spans (global_point dirs spans xs)) by (unfold out, lb_evaluateFunction; rewrite globalIn_point by exact L; reflexivity).
  assert (LD : length (combine dirs spans) = length dirs) by (rewrite combine_length; lia).
  split.
  - intros X. apply Forall_forall. intros v Hv. apply (In_nth _ _ 0) in Hv as (i & Hi & <-).
    rewrite EO, evalF_length in Hi by assumption. rewrite EO, evalF_nth by assumption.
    apply tens_nonneg; [lia|exact G|apply loc_bound, Hi|].
    clear EO LG LD E F Hi. clear i out. revert spans xs X LX L G. clear D S.
    induction dirs as [|d dirs IH]; intros spans xs X LX L G; (destruct spans as [|s spans]; try discriminate L); [constructor|].
    destruct xs as [|x xs]; [discriminate|]. inversion X; subst. cbn [combine] in G. inversion G as [|? ? (A & B & C) G']; subst.
    cbn [combine global_point fst snd] in *. constructor.
    + cbn [fst snd]. pose proof (Hgap d s B). pose proof tol_pos. nra.
    + apply IH; trivial; cbn [length] in *; lia.
  - intros O. rewrite EO, evalF_form by assumption. rewrite tensor_map.
    rewrite <- (tens_sum (combine dirs spans) (global_point dirs spans xs) 0); [|lia|exact G|].
    + apply (Sig_ext 0 (prod (node_sizes dirs spans))). intros i Hi. apply entry_lists; [lia|].
      apply (loc_bound dirs spans i). unfold node_size. lia.
    + clear -G O L. revert spans L G. induction O as [|d dirs O1 O2 IH]; intros spans L G; (destruct spans as [|s spans]; try discriminate L); [constructor|].
      cbn [combine] in *. inversion G as [|? ? (A & B & C) G']; subst. constructor; [|apply IH; trivial; cbn [length] in L; lia].
      apply open_span_range; assumption.
Qed.

(** * Derivatives *)

(** evaluateJacobian and the first order evaluate are the partial derivatives of the
    values, evaluate of second order those of the first derivatives: at every point of
    the element, in its local coordinates. *)
Theorem C38_derivatives : forall dirs e spans xs,
  Forall dir_ok dirs -> Forall knots_sorted dirs -> element_spans dirs e spans -> length xs = length dirs ->
  let value := fun i ys => nth i (lb_evaluateFunction dirs spans ys) 0 in
  let n := length (lb_evaluateFunction dirs spans xs) in
  (exists out, lb_evaluateJacobian dirs spans xs = Some out /\ length out = n /\
     forall i, (i < n)%nat -> exists row, nth_error out i = Some row /\ length row = length dirs /\
       forall j, (j < length dirs)%nat -> partial (value i) j xs (nth j row 0)) /\
  (forall j, (j < length dirs)%nat -> exists out, lb_evaluate_1 dirs spans j xs = Some out /\ length out = n /\
     forall i, (i < n)%nat -> partial (value i) j xs (nth i out 0)) /\
  (forall j k, (j < length dirs)%nat -> (k < length dirs)%nat -> exists out, lb_evaluate_2 dirs spans j k xs = Some out /\ length out = n /\
     forall i, (i < n)%nat -> second_partial (value i) j k xs (nth i out 0)).
Proof.
  intros dirs e spans xs D S E LX value n. destruct (elements_good dirs e spans D S E) as (L & G & F).
  assert (GP : forall ys, length ys = length dirs -> length (global_point dirs spans ys) = length dirs) by (intros; apply global_point_length; assumption).
  assert (LD : length (combine dirs spans) = length dirs) by (rewrite combine_length; lia).
  assert (LF : forall ys, lb_evaluateFunction dirs spans ys = evaluateFunction dirs spans (global_point dirs spans ys))
    by (intros; unfold lb_evaluateFunction; rewrite globalIn_point by exact L; reflexivity).
  assert (En : n = node_size dirs spans) by (unfold n; rewrite LF, evalF_length by auto; reflexivity).
  assert (P1 : forall i j ys, (i < n)%nat -> (j < length dirs)%nat -> length ys = length dirs ->
    partial (value i) j ys (tens (raise (fun _ => 0%nat) j) 0 (combine dirs spans) (loc dirs spans i) (global_point dirs spans ys) * scale dirs spans j)).
  { intros i j ys Hi Hj LY. rewrite En in Hi.
    apply (partial_local dirs spans L (tens (fun _ => 0%nat) 0 (combine dirs spans) (loc dirs spans i)) (value i) j ys _ LY Hj).
    - intros zs LZ. unfold value. rewrite LF. apply evalF_nth; auto.
    - apply (tens_derivative (fun _ => 0%nat) 0 (combine dirs spans)); [rewrite GP by exact LY; lia|exact G|apply loc_bound, Hi|lia|cbn; lia]. }
  split; [|split].
  - destruct (evalJ_nth dirs spans L G (global_point dirs spans xs) (GP xs LX)) as (out & Ho & LO & Hr).
    unfold lb_evaluateJacobian. rewrite globalIn_point, Ho by exact L. cbn [obind]. eexists. split; [reflexivity|].
    split; [rewrite map_length, LO; congruence|]. intros i Hi. assert (Hi' := Hi). rewrite En in Hi'. destruct (Hr i Hi') as (row & Er & Lr & Vr).
    assert (LS : length (scalings dirs spans) = length dirs) by (unfold scalings; rewrite map_length; exact LD).
    eexists. rewrite nth_error_map_eq, Er. split; [reflexivity|]. split; [rewrite map_length, combine_length; lia|].
    intros j Hj. rewrite (nth_indep _ 0 (fst (0, 0) * snd (0, 0))) by (rewrite map_length, combine_length; lia).
    rewrite (map_nth (fun rs => fst rs * snd rs)), combine_nth by lia. cbn [fst snd]. rewrite Vr by exact Hj. apply P1; assumption.
  - intros j Hj. unfold lb_evaluate_1. rewrite globalIn_point, eval1_form by auto. cbn [obind]. eexists. split; [reflexivity|].
    split; [rewrite map_length, tensor_length; congruence|]. intros i Hi. assert (Hi' := Hi). rewrite En in Hi'.
    rewrite (nth_indep _ 0 ((fun o => o * nth j (scalings dirs spans) 0) 0)) by (rewrite map_length, tensor_length; exact Hi').
    rewrite (map_nth (fun o => o * nth j (scalings dirs spans) 0)), tensor_nth by first [exact L|exact Hi'].
    rewrite entry_lists; [apply P1; assumption|rewrite GP by exact LX; lia|apply loc_bound, Hi'].
  - intros j k Hj Hk. unfold lb_evaluate_2. rewrite globalIn_point, eval2_form by auto. cbn [obind]. eexists. split; [reflexivity|].
    split; [rewrite map_length, tensor_length; congruence|]. intros i Hi. assert (Hi' := Hi). rewrite En in Hi'.
    rewrite (nth_indep _ 0 ((fun o => o * (nth j (scalings dirs spans) 0 * nth k (scalings dirs spans) 0)) 0)) by (rewrite map_length, tensor_length; exact Hi').
    rewrite (map_nth (fun o => o * (nth j (scalings dirs spans) 0 * nth k (scalings dirs spans) 0))), tensor_nth by first [exact L|exact Hi'].
    rewrite entry_lists; [|rewrite GP by exact LX; lia|apply loc_bound, Hi'].
    exists (fun ys => tens (raise (fun _ => 0%nat) j) 0 (combine dirs spans) (loc dirs spans i) (global_point dirs spans ys) * scale dirs spans j).
    split; [intros z Lz; apply P1; trivial; lia|].
    change (nth j (scalings dirs spans) 0) with (scale dirs spans j). change (nth k (scalings dirs spans) 0) with (scale dirs spans k).
    rewrite <- Rmult_assoc.
    apply (partial_local dirs spans L (fun y => tens (raise (fun _ => 0%nat) j) 0 (combine dirs spans) (loc dirs spans i) y * scale dirs spans j) _ k xs _ LX Hk).
    + reflexivity.
    + assert (T := tens_derivative (raise (fun _ => 0%nat) j) 0 (combine dirs spans) (loc dirs spans i) (global_point dirs spans xs) k).
      cbn [Nat.add] in T. unfold partial in *.
      eapply dlim_eq; [|rewrite Rmult_comm; apply (derivable_pt_lim_scal _ (scale dirs spans j) _ _ (T ltac:(rewrite GP by exact LX; lia) G (loc_bound dirs spans i Hi') ltac:(lia) ltac:(unfold raise; destruct (j =? k)%nat; lia)))].
      intros y. unfold mult_real_fct. ring.
Qed.

(** * The hypotheses are met by the constructors *)
Lemma nth_ext_error (l : list R) i v : nth_error l i = Some v -> nth i l 0 = v.
Proof. apply nth_error_nth. Qed.
Theorem C37_ctor_open : forall kv p d, spaced kv -> (2 <= length kv)%nat -> ctor_knots kv p true = Some d ->
  dir_ok d /\ knots_sorted d /\ open_knots d.
Proof.
  intros kv p d SP L Hd. destruct (C35_ctor_knots kv p true SP L ltac:(discriminate)) as (d' & Hd' & Ep & _ & OK).
  rewrite Hd in Hd'. injection Hd' as <-. split; [exact OK|].
  destruct kv as [|k0 kv'] eqn:Ek; [cbn in L; lia|]. rewrite <- Ek in *.
  assert (K0 : nth_error kv 0 = Some k0) by (rewrite Ek; reflexivity).
  assert (Ed : d_knots d = repeat k0 p ++ kv ++ repeat (last kv 0) p).
  { rewrite Ek in Hd |- *. unfold ctor_knots in Hd. injection Hd as <-. reflexivity. }
  assert (KL : nth_error kv (length kv - 1) = Some (last kv 0)) by (apply last_nth_error; intros Q; rewrite Q in L; cbn in L; lia).
  assert (LK : length (d_knots d) = (p + length kv + p)%nat) by (rewrite Ed, !app_length, !repeat_length; lia).
  assert (A : forall i, (i <= p)%nat -> knot d i = k0).
  { intros i Hi. unfold knot. rewrite Ed. destruct (Nat.eq_dec i p) as [->|].
    - rewrite app_nth2; rewrite repeat_length; [|lia]. rewrite Nat.sub_diag, app_nth1 by lia. apply nth_ext_error, K0.
    - rewrite app_nth1 by (rewrite repeat_length; lia). rewrite (nth_indep _ 0 k0) by (rewrite repeat_length; lia). apply nth_repeat. }
  assert (B : forall i, (i < length kv)%nat -> knot d (p + i) = nth i kv 0).
  { intros i Hi. unfold knot. rewrite Ed, app_nth2; rewrite repeat_length; [|lia]. rewrite app_nth1 by lia. f_equal. lia. }
  assert (C : forall i, (i <= p)%nat -> knot d (p + length kv + p - 1 - i) = last kv 0).
  { intros i Hi. destruct (Nat.eq_dec i p) as [->|].
    - replace (p + length kv + p - 1 - p)%nat with (p + (length kv - 1))%nat by lia. rewrite B by lia. apply nth_ext_error, KL.
    - unfold knot. rewrite Ed, app_nth2; rewrite repeat_length; [|lia]. rewrite app_nth2 by lia.
      rewrite (nth_indep _ 0 (last kv 0)) by (rewrite repeat_length; lia). apply nth_repeat. }
  split.
  - intros i Hi. rewrite LK in Hi. destruct (le_lt_dec (i + 1) p) as [C1|C1]; [rewrite !A by lia; lra|].
    destruct (le_lt_dec (p + length kv) (i + 1)) as [C2|C2].
    + assert (E1 := C (p + length kv + p - 1 - i)%nat ltac:(lia)). assert (E2 := C (p + length kv + p - 1 - (i + 1))%nat ltac:(lia)).
      replace (p + length kv + p - 1 - (p + length kv + p - 1 - i))%nat with i in E1 by lia.
      replace (p + length kv + p - 1 - (p + length kv + p - 1 - (i + 1)))%nat with (i + 1)%nat in E2 by lia. rewrite E1, E2. lra.
    + replace i with (p + (i - p))%nat by lia. replace (p + (i - p) + 1)%nat with (p + (i - p + 1))%nat by lia. rewrite !B by lia.
      destruct (nth_error_lt_Some kv (i - p) ltac:(lia)) as (a & Ha). destruct (nth_error_lt_Some kv (i - p + 1) ltac:(lia)) as (b & Hb).
      pose proof (SP _ _ _ Ha Hb). pose proof tol_pos. rewrite (nth_ext_error _ _ _ Ha), (nth_ext_error _ _ _ Hb). lra.
  - intros i Hi. rewrite Ep in Hi. rewrite LK. split; [rewrite !A by lia; reflexivity|].
    rewrite C by lia. pose proof (C 0%nat ltac:(lia)) as E. rewrite Nat.sub_0_r in E. symmetry. exact E.
Qed.

(** Two quadratic elements times three linear ones; at the centre of element 3 the six
    values are nonnegative and sum to one. *)
Example C37_ex : exists d0 d1 e spans, ctor_knots [0; 1; 3] 2 true = Some d0 /\ ctor_knots [0; 1; 2; 5] 1 true = Some d1 /\
  Forall dir_ok [d0; d1] /\ Forall knots_sorted [d0; d1] /\ Forall open_knots [d0; d1] /\
  element_spans [d0; d1] e spans /\ (3 < length (lb_evaluateFunction [d0; d1] spans [/ 2; / 2]))%nat /\
  fold_right Rplus 0 (lb_evaluateFunction [d0; d1] spans [/ 2; / 2]) = 1.
Proof.
  assert (S0 : spaced [0; 1; 3]).
  { intros i a b Ha Hb. do 2 (destruct i as [|i]; [cbn in Ha, Hb; injection Ha as <-; injection Hb as <-; lra|]). destruct i as [|[|i]]; discriminate Hb. }
  assert (S1 : spaced [0; 1; 2; 5]).
  { intros i a b Ha Hb. do 3 (destruct i as [|i]; [cbn in Ha, Hb; injection Ha as <-; injection Hb as <-; lra|]). destruct i as [|[|i]]; discriminate Hb. }
  destruct (ctor_knots [0; 1; 3] 2 true) as [d0|] eqn:E0; [|discriminate]. destruct (ctor_knots [0; 1; 2; 5] 1 true) as [d1|] eqn:E1; [|discriminate].
  destruct (C37_ctor_open _ _ _ S0 ltac:(cbn; lia) E0) as (A1 & A2 & A3).
  destruct (C37_ctor_open _ _ _ S1 ltac:(cbn; lia) E1) as (B1 & B2 & B3).
  assert (O0 : d_order d0 = 2%nat /\ d_elements d0 = 2%nat) by (injection E0 as <-; split; reflexivity).
  assert (O1 : d_order d1 = 1%nat /\ d_elements d1 = 3%nat) by (injection E1 as <-; split; reflexivity).
  exists d0, d1, 3%nat.
  destruct (element_exists [d0; d1] 3) as (spans & E).
  { constructor; [assumption|constructor; [assumption|constructor]]. } { cbn [map]. rewrite (proj2 O0), (proj2 O1). cbn. lia. }
  exists spans. split; [reflexivity|]. split; [reflexivity|].
  assert (Da : Forall dir_ok [d0; d1]) by (constructor; [assumption|constructor; [assumption|constructor]]).
  assert (Db : Forall knots_sorted [d0; d1]) by (constructor; [assumption|constructor; [assumption|constructor]]).
  assert (Dc : Forall open_knots [d0; d1]) by (constructor; [assumption|constructor; [assumption|constructor]]).
  split; [exact Da|]. split; [exact Db|]. split; [exact Dc|]. split; [exact E|]. split.
  - destruct (elements_good _ _ _ Da Db E) as (L & G & F).
    unfold lb_evaluateFunction. rewrite evalF_length; [|exact L|exact G|unfold globalIn, offsets, scalings; rewrite map_length, !combine_length, !map_length, combine_length; cbn [length] in *; lia].
    destruct spans as [|s0 [|s1 [|]]]; try discriminate L.
    cbn [combine] in G. inversion G as [|? ? (U1 & U2 & U3) G1]; subst. inversion G1 as [|? ? (V1 & V2 & V3) _]; subst. cbn [fst snd] in *.
    destruct (open_span_range _ _ A3 U2). destruct (open_span_range _ _ B3 V2).
    unfold node_size, node_sizes. cbn [combine map fst snd]. rewrite !prod_cons. change (prod []) with 1%nat.
    assert (FS : forall d s, (d_order d <= s)%nat -> (s + d_order d + 1 < length (d_knots d))%nat -> fe_size d s = S (d_order d)).
    { intros d s Q1 Q2. unfold fe_size, knots_size. destruct (Nat.ltb_spec s (d_order d)); [lia|].
      destruct (Nat.ltb_spec (length (d_knots d) - s - 2) (d_order d)); lia. }
    rewrite !FS by assumption. rewrite (proj1 O0), (proj1 O1). cbn. lia.
  - apply (C37_partition_of_unity [d0; d1] 3 spans [/ 2; / 2] Da Db E eq_refl). exact Dc.
Qed.

Print Assumptions C37_cox_de_boor.
Print Assumptions C37_partition_of_unity.
Print Assumptions C37_ctor_open.
Print Assumptions C38_derivatives.
