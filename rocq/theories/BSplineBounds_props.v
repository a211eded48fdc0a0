(** C97: evaluating B-splines stays inside the arrays. *)
From Coq Require Import List Arith Reals Bool Lia Lra.
From Verif Require Import Lib Basis_model BSpline_model BSpline_spec BSpline_numbering DiscreteFunction_proofs BSplineBounds_model.
Import ListNotations.
Local Open Scope nat_scope.
#[local] Arguments Nat.ltb : simpl never.
#[local] Arguments Nat.leb : simpl never.
#[local] Arguments Nat.sub : simpl never.

Lemma usub_ok a b : b <= a -> usub a b = Some (a - b).
Proof. intros H. unfold usub. destruct (Nat.leb_spec b a); [reflexivity|lia]. Qed.

Lemma fill_ok {A} n (z : A) src f : (forall j, j < n -> src j = Some (f j)) -> fill n z src = Some (map f (seq 0 n)).
Proof.
  intros H. unfold fill.
  destruct (forl_inv (fun k out => length out = n /\ forall j, j < k -> nth_error out j = Some (f j)) n 0
    (fun j out => v <- src j ;; upd out j v) (repeat z n)) as (o & -> & L & O).
  - split; [apply repeat_length|lia].
  - intros i st Hi (L & O). rewrite (H i) by lia. cbn [obind].
    destruct (upd st i (f i)) as [st'|] eqn:U; [|apply upd_None in U; lia].
    exists st'. split; [reflexivity|]. split; [rewrite (upd_length _ _ _ _ U); auto|].
    intros j Hj. rewrite (upd_nth_error _ _ _ _ j U). destruct (Nat.eq_dec j i) as [->|N].
    + now rewrite Nat.eqb_refl.
    + destruct (Nat.eqb_spec j i); [lia|apply O; lia].
  - f_equal. apply nth_error_ext. intros i. destruct (Nat.lt_ge_cases i n) as [Hi|Hi].
    + rewrite O by lia. rewrite nth_error_map_eq, nth_error_seq by lia. destruct (Nat.ltb_spec i n); [reflexivity|lia].
    + replace (nth_error o i) with (@None A) by (symmetry; apply nth_error_None; lia).
      symmetry. apply nth_error_None. rewrite map_length, seq_length. lia.
Qed.

Lemma set2_ok N r i v (f : nat -> R) n : nth_error N r = Some (map f (seq 0 n)) -> i < n ->
  exists N', set2 N r i v = Some N' /\ length N' = length N /\
    nth_error N' r = Some (map (fun j => if j =? i then v else f j) (seq 0 n)) /\
    (forall q, q <> r -> nth_error N' q = nth_error N q).
Proof.
  intros Hr Hi. unfold set2. rewrite Hr. cbn [obind].
  destruct (upd (map f (seq 0 n)) i v) as [row'|] eqn:U; [|apply upd_None in U; rewrite map_length, seq_length in U; lia].
  cbn [obind]. assert (r < length N) by (apply nth_error_Some; congruence).
  destruct (upd N r row') as [N'|] eqn:U'; [|apply upd_None in U'; lia].
  exists N'. split; [reflexivity|]. split; [apply (upd_length _ _ _ _ U')|]. split.
  - rewrite (upd_nth_error _ _ _ _ r U'), Nat.eqb_refl. f_equal. apply nth_error_ext. intros j.
    rewrite (upd_nth_error _ _ _ _ j U), !nth_error_map_eq, nth_error_seq. cbn.
    destruct (Nat.eqb_spec j i) as [->|E].
    + destruct (Nat.ltb_spec i n); [|lia]. cbn. now rewrite Nat.eqb_refl.
    + destruct (j <? n); cbn; [|reflexivity]. destruct (Nat.eqb_spec j i); [lia|reflexivity].
  - intros q Hq. rewrite (upd_nth_error _ _ _ _ q U'). destruct (Nat.eqb_spec q r); [lia|reflexivity].
Qed.

Lemma map_seq_ext {A} (f g : nat -> A) n : (forall j, j < n -> f j = g j) -> map f (seq 0 n) = map g (seq 0 n).
Proof. intros H. apply map_ext_in. intros a Ha. apply in_seq in Ha. apply H. lia. Qed.
Lemma repeat_map {A} (z : A) n : repeat z n = map (fun _ => z) (seq 0 n).
Proof. apply nth_error_ext. intros i. rewrite nth_error_map_eq, nth_error_seq, nth_error_repeat_eq. now destruct (i <? n). Qed.
Lemma nth_error_nth_R (l : list R) i : i < length l -> nth_error l i = Some (nth i l 0%R).
Proof. intros H. apply nth_error_nth'. exact H. Qed.

Section One.
Variable d : dir.
Variable s : nat.
Variable x : R.
Let K := length (d_knots d).
Let p := d_order d.

Lemma table_length r : length (table d s x r) = K - 1.
Proof. destruct r; cbn [table]; now rewrite map_length, seq_length. Qed.
(** The rows of the table as functions of the column *)
Definition cell (r i : nat) : R := nth i (table d s x r) 0%R.
Lemma table_map r : table d s x r = map (cell r) (seq 0 (K - 1)).
Proof.
  apply nth_error_ext. intros i. rewrite nth_error_map_eq, nth_error_seq. destruct (Nat.ltb_spec i (K - 1)) as [H|H].
  - cbn. apply nth_error_nth_R. now rewrite table_length.
  - cbn. apply nth_error_None. now rewrite table_length.
Qed.
Lemma cell_S r i : i < K - 1 -> cell (S r) i =
  if i <? K - S r - 1 then (factor1 d x (S r) i * cell r i + factor2 d x (S r) i * cell r (i + 1))%R else 0%R.
Proof.
  intros H. unfold cell at 1. cbn [table].
  set (f := fun i0 => _). erewrite nth_error_nth.
  2:{ rewrite nth_error_map_eq, nth_error_seq. fold K. destruct (Nat.ltb_spec i (knots_size d - 1)) as [_|Q]; [|unfold knots_size in Q; fold K in Q; lia].
      cbn. reflexivity. }
  subst f. reflexivity.
Qed.

Lemma inner_ok r i N : 1 <= r -> i < K - r - 1 -> length N = p + 1 ->
  nth_error N (r - 1) = Some (table d s x (r - 1)) ->
  nth_error N r = Some (map (fun j => if j <? i then cell r j else 0%R) (seq 0 (K - 1))) ->
  exists N', inner (d_knots d) x r i N = Some N' /\ length N' = p + 1 /\
    nth_error N' r = Some (map (fun j => if j <? i + 1 then cell r j else 0%R) (seq 0 (K - 1))) /\
    (forall q, q <> r -> nth_error N' q = nth_error N q).
Proof.
  intros Hr Hi LN H1 H2. unfold inner.
  rewrite !nth_error_nth_R by (fold K; lia). cbn [obind]. unfold get2. rewrite H1. cbn [obind].
  rewrite !nth_error_nth_R by (rewrite table_length; lia). cbn [obind].
  destruct (set2_ok N r i ((if Rgt_dec (nth (i + r) (d_knots d) 0 - nth i (d_knots d) 0) tol10
      then (x - nth i (d_knots d) 0) / (nth (i + r) (d_knots d) 0 - nth i (d_knots d) 0) else 0) * nth i (table d s x (r - 1)) 0 +
      (if Rgt_dec (nth (i + r + 1) (d_knots d) 0 - nth (i + 1) (d_knots d) 0) tol10
      then (nth (i + r + 1) (d_knots d) 0 - x) / (nth (i + r + 1) (d_knots d) 0 - nth (i + 1) (d_knots d) 0) else 0) * nth (i + 1) (table d s x (r - 1)) 0)%R
      _ _ H2 ltac:(lia)) as (N' & E & L & R1 & R2).
  exists N'. split; [exact E|]. split; [lia|]. split; [|exact R2].
  rewrite R1. f_equal. apply map_seq_ext. intros j Hj. destruct (Nat.eqb_spec j i) as [->|Q].
  - destruct (Nat.ltb_spec i (i + 1)); [|lia]. destruct r as [|r]; [lia|]. rewrite cell_S by lia.
    destruct (Nat.ltb_spec i (K - S r - 1)); [|lia]. replace (S r - 1) with r by lia. reflexivity.
  - destruct (Nat.ltb_spec j i), (Nat.ltb_spec j (i + 1)); try lia; reflexivity.
Qed.

Lemma fillTable_ok : p + 1 <= K -> 1 <= K ->
  exists N, fillTable (d_knots d) p s x = Some N /\ length N = p + 1 /\ forall r, r <= p -> nth_error N r = Some (table d s x r).
Proof.
  intros Hp HK. unfold fillTable. fold K. rewrite (usub_ok K 1) by lia. cbn [obind].
  destruct (forl_inv (fun i N => length N = p + 1 /\
     nth_error N 0 = Some (map (fun j => if j <? i then (if j =? s then 1 else 0)%R else 0%R) (seq 0 (K - 1))) /\
     forall q, 1 <= q -> q < p + 1 -> nth_error N q = Some (repeat 0%R (K - 1))) (K - 1) 0
     (fun i N => set2 N 0 i (if i =? s then 1 else 0)%R) (repeat (repeat 0%R (K - 1)) (p + 1))) as (N & -> & LN & N0 & NR).
  { split; [apply repeat_length|]. split.
    - rewrite nth_error_repeat_eq. destruct (Nat.ltb_spec 0 (p + 1)); [|lia]. now rewrite repeat_map.
    - intros q _ Hq. rewrite nth_error_repeat_eq. destruct (Nat.ltb_spec q (p + 1)); [|lia]. reflexivity. }
  { intros i N Hi (LN & N0 & NR). destruct (set2_ok N 0 i (if i =? s then 1 else 0)%R _ _ N0 ltac:(lia)) as (N' & E & L & R1 & R2).
    exists N'. split; [exact E|]. split; [lia|]. split.
    - rewrite R1. f_equal. apply map_seq_ext. intros j Hj. destruct (Nat.eqb_spec j i) as [->|Q].
      + destruct (Nat.ltb_spec i (i + 1)); [reflexivity|lia].
      + destruct (Nat.ltb_spec j i), (Nat.ltb_spec j (i + 1)); try lia; reflexivity.
    - intros q Q1 Q2. rewrite R2 by lia. auto. }
  cbn [obind].
  destruct (forl_inv (fun r N => length N = p + 1 /\ (forall q, q < r -> nth_error N q = Some (table d s x q)) /\
     forall q, r <= q -> q < p + 1 -> nth_error N q = Some (repeat 0%R (K - 1))) p 1
     (fun r N => m <- usub K r ;; n <- usub m 1 ;; forl n 0 (inner (d_knots d) x r) N) N) as (N' & -> & LN' & N1 & _).
  { split; [exact LN|]. split; [|exact NR]. intros q Hq. replace q with 0 by lia. rewrite N0. f_equal.
    cbn [table]. unfold knots_size. fold K. apply map_seq_ext. intros j Hj. destruct (Nat.ltb_spec j (0 + (K - 1))); [reflexivity|lia]. }
  { clear N LN N0 NR. intros r N Hr (LN & N1 & N2). rewrite (usub_ok K r) by lia. cbn [obind]. rewrite usub_ok by lia. cbn [obind].
    destruct (forl_inv (fun i N => length N = p + 1 /\ (forall q, q < r -> nth_error N q = Some (table d s x q)) /\
      nth_error N r = Some (map (fun j => if j <? i then cell r j else 0%R) (seq 0 (K - 1))) /\
      forall q, r + 1 <= q -> q < p + 1 -> nth_error N q = Some (repeat 0%R (K - 1))) (K - r - 1) 0 (inner (d_knots d) x r) N)
      as (N' & -> & L' & A & B & C).
    - split; [exact LN|]. split; [exact N1|]. split; [rewrite N2 by lia; now rewrite repeat_map|].
      intros q Q1 Q2. apply N2; lia.
    - intros i M Hi (LM & M1 & M2 & M3).
      destruct (inner_ok r i M ltac:(lia) ltac:(lia) LM (M1 (r - 1) ltac:(lia)) M2) as (M' & E & L & R1 & R2).
      exists M'. split; [exact E|]. split; [exact L|]. split; [intros q Hq; rewrite R2 by lia; auto|]. split; [exact R1|].
      intros q Q1 Q2. rewrite R2 by lia. auto.
    - exists N'. split; [reflexivity|]. split; [exact L'|]. split; [|exact C].
      intros q Hq. destruct (Nat.eq_dec q r) as [->|Q]; [|apply A; lia]. rewrite B, table_map. f_equal. apply map_seq_ext.
      intros j Hj. cbn [Nat.add]. destruct (Nat.ltb_spec j (K - r - 1)) as [H|H]; [reflexivity|].
      destruct r as [|r]; [lia|]. rewrite cell_S by lia. destruct (Nat.ltb_spec j (K - S r - 1)); [lia|reflexivity]. }
  exists N'. split; [reflexivity|]. split; [exact LN'|]. intros r Hr. apply N1. lia.
Qed.

Lemma limit_ok : s + 1 < K -> p + 2 <= K -> limit (d_knots d) p s = Some (fe_size d s).
Proof.
  intros Hs HK. unfold limit, fe_size, knots_size. fold K p.
  destruct (Nat.ltb_spec s p) as [H|H].
  - rewrite (usub_ok (p + 1)) by lia. cbn [obind]. rewrite usub_ok by lia. cbn [obind]. rewrite usub_ok by lia. cbn [obind].
    destruct (Nat.ltb_spec (K - s - 2) p); [|reflexivity]. apply usub_ok. lia.
  - cbn [obind]. rewrite usub_ok by lia. cbn [obind]. rewrite usub_ok by lia. cbn [obind].
    destruct (Nat.ltb_spec (K - s - 2) p); [|reflexivity]. apply usub_ok. lia.
Qed.
Lemma fe_size_bound : s + 1 < K -> p + 2 <= K -> 1 <= fe_size d s /\ (s - p) + fe_size d s <= K - p - 1.
Proof.
  intros Hs HK. unfold fe_size, knots_size. fold K p.
  destruct (Nat.ltb_spec s p), (Nat.ltb_spec (K - s - 2) p); lia.
Qed.

Lemma row_ok N q : length N = p + 1 -> q <= p -> p + 2 <= K -> nth_error N q = Some (table d s x q) ->
  row_of (d_knots d) N q = Some (map (cell q) (seq 0 (K - q - 1))).
Proof.
  intros LN Hq HK E. unfold row_of. fold K. rewrite usub_ok by lia. cbn [obind]. rewrite usub_ok by lia. cbn [obind].
  apply fill_ok. intros j Hj. unfold get2. rewrite E. cbn [obind]. apply nth_error_nth_R. rewrite table_length. lia.
Qed.
Lemma row_nth q n j : j < n -> nth_error (map (cell q) (seq 0 n)) j = Some (cell q j).
Proof. intros H. rewrite nth_error_map_eq, nth_error_seq. destruct (Nat.ltb_spec j n); [reflexivity|lia]. Qed.
Lemma map_opt_seq {B} (f : nat -> option B) n : forall a, map_opt f (seq a n) = map_opt (fun o => o) (map (fun j => f (a + j)) (seq 0 n)).
Proof.
  induction n as [|n IH]; intros a; [reflexivity|]. cbn [seq map map_opt]. rewrite Nat.add_0_r. destruct (f a); cbn; [|reflexivity].
  rewrite (IH (S a)). replace (map (fun j => f (a + j)) (seq 1 n)) with (map (fun j => f (S a + j)) (seq 0 n)); [reflexivity|].
  rewrite <- (seq_shift n 0), map_map. apply map_ext. intros j. f_equal. lia.
Qed.

Lemma map_opt_repeat {B} (z : B) n : map_opt (fun o => o) (repeat (Some z) n) = Some (repeat z n).
Proof. induction n; cbn; [reflexivity|]. rewrite IHn. reflexivity. Qed.

(** What the three functions return: the values of BSpline_model.v *)
Lemma one_ok : s + 1 < K -> p + 2 <= K ->
  evaluateFunction1 (d_knots d) p s x = Some (eval1 d s x) /\
  forall hessian, exists out jac hess, evaluateAll (d_knots d) p s x hessian = Some (out, jac, hess) /\
    length out = K - p - 1 /\ valuesShort (d_knots d) p s out = Some (eval1 d s x) /\
    map_opt (fun o => o) jac = jac1 d s x /\
    map_opt (fun o => o) hess = (if hessian then hess1 d s x else Some []).
Proof.
  intros Hs HK. destruct (fe_size_bound Hs HK) as [B1 B2].
  destruct fillTable_ok as (N & EN & LN & NR); [lia|lia|]. split.
  - unfold evaluateFunction1. rewrite limit_ok by assumption. cbn [obind]. rewrite EN. cbn [obind].
    unfold eval1. apply fill_ok. intros j Hj. unfold get2. rewrite NR by lia. cbn [obind].
    apply nth_error_nth_R. rewrite table_length. fold p. lia.
  - intros hessian. unfold evaluateAll. rewrite limit_ok by assumption. cbn [obind]. rewrite EN. cbn [obind].
    rewrite (row_ok N p) by (auto; lia). cbn [obind].
    set (out := map (cell p) (seq 0 (K - p - 1))).
    assert (VS : valuesShort (d_knots d) p s out = Some (eval1 d s x)).
    { unfold valuesShort. rewrite limit_ok by assumption. cbn [obind]. unfold eval1. apply fill_ok. intros j Hj. fold p. unfold out. apply row_nth. lia. }
    assert (LO : length out = K - p - 1) by (unfold out; now rewrite map_length, seq_length).
    set (low1 := if p =? 0 then Some [] else row_of (d_knots d) N (p - 1)).
    assert (H1 : low1 = Some (if p =? 0 then [] else map (cell (p - 1)) (seq 0 (K - (p - 1) - 1)))).
    { unfold low1. destruct (Nat.eqb_spec p 0); [reflexivity|]. apply row_ok; auto; [lia|apply NR; lia]. }
    rewrite H1. cbn [obind]. clear low1 H1.
    set (low2 := if (1 <? p) && hessian then row_of (d_knots d) N (p - 2) else Some []).
    assert (H2 : low2 = Some (if (1 <? p) && hessian then map (cell (p - 2)) (seq 0 (K - (p - 2) - 1)) else [])).
    { unfold low2. destruct (Nat.ltb_spec 1 p); [|reflexivity]. destruct hessian; [|reflexivity]. cbn [andb]. apply row_ok; auto; [lia|apply NR; lia]. }
    rewrite H2. cbn [obind]. clear low2 H2.
    set (JB := if p =? 0 then _ else _).
    assert (HJ : exists jac, JB = Some jac /\ map_opt (fun o => o) jac = jac1 d s x).
    { unfold JB, jac1. fold p. destruct (Nat.eqb_spec p 0) as [_|P].
      - eexists. split; [reflexivity|]. apply map_opt_repeat.
      - eexists. split.
        + apply fill_ok. intros j Hj. unfold jac_entry. rewrite !row_nth by lia. cbn [obind].
          rewrite !nth_error_nth_R by (fold K; lia). cbn [obind]. reflexivity.
        + symmetry. rewrite map_opt_seq. reflexivity. }
    destruct HJ as (jac & -> & HJ). cbn [obind].
    set (HB := if hessian then _ else _).
    assert (HH : exists hess, HB = Some hess /\ map_opt (fun o => o) hess = (if hessian then hess1 d s x else Some [])).
    { unfold HB, hess1. fold p. destruct hessian; [|exists []; split; reflexivity]. destruct (Nat.ltb_spec p 2) as [Q|Q].
      - eexists. split; [reflexivity|]. apply map_opt_repeat.
      - eexists. split.
        + apply fill_ok. intros j Hj. destruct (Nat.ltb_spec 1 p); [|lia]. cbn [andb]. unfold hess_entry.
          rewrite map_length, seq_length. destruct (Nat.ltb_spec (s - p + j + 2) (K - (p - 2) - 1)); [|lia]. cbn [negb].
          rewrite !row_nth by lia. cbn [obind]. rewrite !nth_error_nth_R by (fold K; lia). cbn [obind]. reflexivity.
        + symmetry. rewrite map_opt_seq. reflexivity. }
    destruct HH as (hess & -> & HH). cbn [obind].
    exists out, jac, hess. repeat (split; [assumption || reflexivity|]). assumption.
Qed.

Lemma few_knots : K <= p -> fillTable (d_knots d) p s x = None.
Proof.
  intros H. destruct (fillTable (d_knots d) p s x) as [N|] eqn:E; [|reflexivity]. exfalso.
  unfold fillTable in E. fold K in E. apply obind_Some in E as (cols & C & E). apply obind_Some in E as (N0 & _ & E).
  assert (1 <= K). { unfold usub in C. destruct (Nat.leb_spec 1 K); [assumption|discriminate]. }
  clear C. replace p with ((K - 1) + S (p - K)) in E by lia.
  clear -E H0. revert E. generalize (S (p - K)) (Nat.lt_0_succ (p - K)). intros m Hm.
  assert (G : forall a b r N0, r + a = K -> 0 < b ->
     forl (a + b) r (fun r N => m <- usub K r ;; n <- usub m 1 ;; forl n 0 (inner (d_knots d) x r) N) N0 <> Some N); [|apply G; lia].
  induction a as [|a IH]; intros b r N1 Hr Hb.
  - destruct b as [|b]; [lia|]. cbn [Nat.add forl]. rewrite usub_ok by lia. cbn [obind]. replace (K - r) with 0 by lia.
    cbn. discriminate.
  - cbn [Nat.add forl]. intros E. apply obind_Some in E as (N2 & _ & E). revert E. apply IH; lia.
Qed.
End One.

Lemma skip_range knots fuel : forall s s', skip knots fuel s = Some s' -> s' + 1 < length knots.
Proof.
  induction fuel as [|f IH]; intros s s' H; [discriminate|]. cbn [skip] in H.
  apply obind_Some in H as (a & _ & H). apply obind_Some in H as (b & Hb & H).
  destruct (Rlt_dec b (a + tol8)); [now apply IH in H|]. injection H as <-. apply nth_error_Some. congruence.
Qed.
Lemma bind1_range knots i s : bind1 knots i = Some s -> s + 1 < length knots.
Proof.
  unfold bind1. intros H. apply obind_Some in H as (s0 & H0 & H). apply skip_range in H0.
  assert (G : forall i a q, forl i a (fun _ s => skip knots (length knots) (s + 1)) q = Some s -> q + 1 < length knots -> s + 1 < length knots);
    [|exact (G _ _ _ H H0)].
  clear. induction i as [|i IH]; intros a q H H0.
  - cbn in H. now injection H as <-.
  - cbn [forl] in H. apply obind_Some in H as (q' & Hq & H). apply (IH _ _ H). now apply skip_range in Hq.
Qed.

Lemma getIJK_length es : forall e, length (getIJK e es) = length es.
Proof. induction es; intros e; cbn; auto. Qed.

(** The evaluation of one direction on the knot span found for element [i] of that direction never
    leaves its arrays: it delivers the values and derivatives C37 and C38 speak about.  ([jac1] and
    [hess1] are [None] when the code computes an infinity.) *)
Definition stays_in_range (d : dir) (s : nat) : Prop := forall x,
  evaluateFunction1 (d_knots d) (d_order d) s x = Some (eval1 d s x) /\
  forall hessian, exists out jac hess,
    evaluateAll (d_knots d) (d_order d) s x hessian = Some (out, jac, hess) /\
    length out = length (d_knots d) - d_order d - 1 /\
    valuesShort (d_knots d) (d_order d) s out = Some (eval1 d s x) /\
    map_opt (fun o => o) jac = jac1 d s x /\
    map_opt (fun o => o) hess = (if hessian then hess1 d s x else Some []).

Theorem C97_evaluation_stays_in_range : forall dirs e spans,
  Forall (fun d => d_order d + 2 <= length (d_knots d)) dirs ->
  bind dirs e = Some spans ->
  Forall2 stays_in_range dirs spans.
Proof.
  intros dirs e spans D B. assert (L : length (getIJK e (map d_elements dirs)) = length dirs) by now rewrite getIJK_length, map_length.
  unfold bind in B. revert B L. generalize (getIJK e (map d_elements dirs)) as ijk.
  revert spans. induction D as [|d dirs Hd D IH]; intros spans ijk B L; destruct ijk as [|i ijk]; try discriminate.
  - cbn in B. injection B as <-. constructor.
  - cbn [combine map_opt fst snd] in B. apply obind_Some in B as (s & Hs & B). apply obind_Some in B as (ss & Hss & B).
    injection B as <-. constructor; [|apply (IH ss ijk); auto].
    apply bind1_range in Hs. intros x. apply one_ok; auto.
Qed.

(** Whatever the arguments of the constructors: with open knot vectors, or with enough knots. *)
Theorem C97_constructed_bases : forall args e spans,
  Forall (fun a => 2 <= length (fst (fst a)) /\ (snd a = false -> snd (fst a) + 2 <= length (fst (fst a)))) args ->
  forall dirs, map_opt (fun a => ctor_knots (fst (fst a)) (snd (fst a)) (snd a)) args = Some dirs ->
  bind dirs e = Some spans ->
  Forall2 stays_in_range dirs spans.
Proof.
  intros args e spans A dirs M B. apply (C97_evaluation_stays_in_range dirs e); [|exact B].
  revert dirs M B. induction A as [|[[kv p] o] args [H2 H] A IH]; intros dirs M B; cbn in M; [injection M as <-; constructor|].
    apply obind_Some in M as (d & Hd & M). apply obind_Some in M as (ds & Hds & M). injection M as <-.
    constructor; [|clear IH B; revert ds Hds; induction A as [|[[kv' p'] o'] args [H2' H'] A IH]; intros ds Hds; cbn in Hds; [injection Hds as <-; constructor|]].
    + cbn [fst snd] in *. destruct kv as [|k0 kv]; [discriminate|]. cbn in Hd. injection Hd as <-. cbn [d_order d_knots].
      destruct o; rewrite !app_length; cbn [length] in *; rewrite ?app_length, ?repeat_length; [|specialize (H eq_refl)]; cbn [length]; lia.
    + apply obind_Some in Hds as (d' & Hd' & Hds). apply obind_Some in Hds as (ds' & Hds' & Hds). injection Hds as <-.
      constructor; [|now apply IH].
      cbn [fst snd] in *. destruct kv' as [|k0' kv']; [discriminate|]. cbn in Hd'. injection Hd' as <-. cbn [d_order d_knots].
      destruct o'; rewrite !app_length; cbn [length] in *; rewrite ?app_length, ?repeat_length; [|specialize (H' eq_refl)]; cbn [length]; lia.
Qed.

(** The constructor with a bounding box *)
Theorem C97_uniform_bases : forall lowerLeft upperRight elements order makeOpen i s,
  1 <= elements -> (makeOpen = false -> order + 1 <= elements) ->
  let d := ctor_uniform lowerLeft upperRight elements order makeOpen in
  bind1 (d_knots d) i = Some s -> stays_in_range d s.
Proof.
  intros ll ur n p o i s Hn Ho d B x. apply bind1_range in B. apply one_ok; auto.
  unfold d, ctor_uniform. cbn [d_order d_knots]. rewrite !app_length, map_length, seq_length.
  destruct o; cbn [length]; rewrite ?repeat_length; [lia|specialize (Ho eq_refl); lia].
Qed.

(** Without open knot vectors the constructors accept fewer knots than the order, and every
    evaluation then leaves the arrays: on every span, at every point. *)
Theorem C97_few_knots_refuted : forall kv p d s x,
  ctor_knots kv p false = Some d -> length kv <= p ->
  evaluateFunction1 (d_knots d) (d_order d) s x = None /\
  forall hessian, evaluateAll (d_knots d) (d_order d) s x hessian = None.
Proof.
  intros kv p d s x Hd H. destruct kv as [|k0 kv]; [discriminate|]. cbn in Hd. injection Hd as <-.
  rewrite app_nil_r. pose proof (few_knots (DIR (k0 :: kv) p (length kv)) s x H) as F. cbn [d_knots d_order] in *.
  split.
  - unfold evaluateFunction1. rewrite F. now destruct (limit (k0 :: kv) p s).
  - intros h. unfold evaluateAll. rewrite F. now destruct (limit (k0 :: kv) p s).
Qed.

(** The hypotheses are met: order 3 on four elements, open knots; the span of the third element. *)
Example C97_met : let d := ctor_uniform 0 1 4 3 true in exists s, bind1 (d_knots d) 2 = Some s /\ stays_in_range d s.
Proof.
  intros d. destruct (C35_ctor_uniform 0 1 4 3 true) as (_ & E & [(l & Hl & LL) _ _]); [lia|cbn; lra|discriminate|].
  fold d in Hl, LL, E. destruct (nth_error l 2) as [s|] eqn:Q.
  - exists s. assert (B : bind1 (d_knots d) 2 = Some s) by now apply (bind1_span _ l).
    split; [exact B|]. apply (C97_uniform_bases 0 1 4 3 true 2); [lia|discriminate|exact B].
  - apply nth_error_None in Q. rewrite LL, E in Q. lia.
Qed.
(** ... and of the refutation: order 3 on the unit interval with one inner knot. *)
Example C97_few_knots_met : exists d, ctor_knots [0; 1 / 2; 1]%R 3 false = Some d /\ length [0; 1 / 2; 1]%R <= 3.
Proof. eexists. split; [reflexivity|cbn; lia]. Qed.

Print Assumptions C97_evaluation_stays_in_range.
Print Assumptions C97_constructed_bases.
Print Assumptions C97_uniform_bases.
Print Assumptions C97_few_knots_refuted.
