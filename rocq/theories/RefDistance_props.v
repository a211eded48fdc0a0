(** Distance to the reference element (C43). *)
From Coq Require Import Reals Arith Lra Lia Bool.
From Verif Require Import RefDistance_model RefDistance_spec.
Open Scope R_scope.
#[local] Arguments Nat.ltb : simpl never.
#[local] Arguments Nat.leb : simpl never.
#[local] Arguments is_pyramid : simpl never.
#[local] Arguments base_topology : simpl never.
#[local] Arguments Nat.testbit : simpl never.

(** * Scaled reference elements, as the code traverses them *)
Definition nxt (id dim : nat) (s t : R) : R := if is_pyramid id dim then s - t else s.
Fixpoint inr (id dim : nat) (s : R) (x : nat -> R) : Prop :=
  match dim with 0%nat => True | S d => 0 <= x d <= s /\ inr (base_topology id (S d)) d (nxt id (S d) s (x d)) x end.
Definition lastd (x s : R) : R := Rmax (Rmax (x - s) (- x)) 0.
Definition clampd (x s : R) : R := Rmax (Rmin x s) 0.
Fixpoint D (id dim : nat) (x : nat -> R) (s : R) : R :=
  match dim with 0%nat => 0 | S d => D (base_topology id (S d)) d x (nxt id (S d) s (clampd (x d) s)) + lastd (x d) s end.

Lemma is_pyramid_0 id : is_pyramid id 1 = true.
Proof. unfold is_pyramid. cbn [Nat.sub]. now rewrite Nat.clearbit_eq. Qed.
Lemma is_pyramid_S id d : (0 < d)%nat -> is_pyramid id (S d) = negb (Nat.testbit id d).
Proof. intros. unfold is_pyramid. rewrite Nat.sub_succ, Nat.sub_0_r, Nat.clearbit_neq; auto. lia. Qed.
Lemma base_bits id d i : (i < d)%nat -> Nat.testbit (base_topology id (S d)) i = Nat.testbit id i.
Proof. intros. unfold base_topology. rewrite Nat.sub_succ, Nat.sub_0_r. now apply Nat.mod_pow2_bits_low. Qed.

Lemma in_reference_bits id id' d x : (forall i, (i < d)%nat -> Nat.testbit id i = Nat.testbit id' i) ->
  in_reference id d x <-> in_reference id' d x.
Proof.
  revert x. induction d as [|d IH]; intros x H; cbn; [tauto|]. rewrite (H d) by lia.
  destruct (Nat.testbit id' d).
  - rewrite IH; [tauto|intros; apply H; lia].
  - split; intros (A & z & B & C); split; auto; exists z; split; auto; apply (IH z); auto.
Qed.
Lemma in_reference_ext id d x y : (forall i, (i < d)%nat -> x i = y i) -> in_reference id d x -> in_reference id d y.
Proof.
  revert x y. induction d as [|d IH]; intros x y H; cbn; auto. rewrite (H d) by lia. intros [A B]. split; auto.
  destruct (Nat.testbit id d).
  - eapply IH; [|exact B]. auto.
  - destruct B as (z & B & C). exists z. split; auto. intros i Hi. rewrite <- H by lia. auto.
Qed.
Lemma in_reference_0 id d : in_reference id d (fun _ => 0).
Proof.
  induction d as [|d IH]; cbn; auto. split; [lra|]. destruct (Nat.testbit id d); auto. exists (fun _ => 0). split; auto. intros; lra.
Qed.
Lemma inr_ext id d s x y : (forall i, (i < d)%nat -> x i = y i) -> inr id d s x -> inr id d s y.
Proof.
  revert id s. induction d as [|d IH]; intros id s H; cbn; auto. rewrite (H d) by lia. intros [A B]. split; auto.
Qed.
Lemma nxt_nonneg id d s t : 0 <= t <= s -> 0 <= nxt id d s t.
Proof. unfold nxt. destruct (is_pyramid id d); lra. Qed.
(** [inr] is the reference element, scaled. *)
Lemma inr_ok id d : forall s x, 0 <= s ->
  inr id d s x <-> exists z, in_reference id d z /\ forall i, (i < d)%nat -> x i = s * z i.
Proof.
  revert id. induction d as [|d IH]; intros id s x Hs.
  - cbn. split; auto. intros _. exists x. split; auto. intros; lia.
  - cbn [inr in_reference]. split.
    + intros (A & B). destruct (Req_dec s 0) as [->|Hn].
      { exists (fun _ => 0). split; [apply (in_reference_0 id (S d))|]. assert (x d = 0) as Hx by lra.
        rewrite Hx in B. replace (nxt id (S d) 0 0) with 0 in B by (unfold nxt; destruct (is_pyramid _ _); lra).
        apply IH in B; [|lra]. destruct B as (z & _ & B). intros i Hi. destruct (Nat.eq_dec i d) as [->|]; [lra|]. rewrite B by lia. lra. }
      assert (0 < s) as Hp by lra. apply IH in B; [|apply nxt_nonneg; lra]. destruct B as (z & B & C).
      assert (Ht : 0 <= x d / s <= 1).
      { split; [apply Rmult_le_pos; [lra|left; now apply Rinv_0_lt_compat]|]. apply Rmult_le_reg_r with s; auto. field_simplify; lra. }
      assert (B' : in_reference id d z) by (eapply in_reference_bits; [|exact B]; intros; symmetry; now apply base_bits).
      exists (fun i => x i / s). split.
      * split; auto. destruct (Nat.testbit id d) eqn:Eb.
        -- eapply in_reference_ext; [|exact B']. cbn. intros i Hi. rewrite C by auto. unfold nxt. rewrite is_pyramid_S, Eb by lia. cbn. field; lra.
        -- exists z. split; auto. intros i Hi. cbn. rewrite C by auto. unfold nxt. rewrite is_pyramid_S, Eb by lia. cbn. field; lra.
      * intros i Hi. field; lra.
    + intros (z & (A & B) & C). assert (Hx : x d = s * z d) by (apply C; lia).
      assert (Hr : 0 <= x d <= s) by (rewrite Hx; split; [nra|nra]). split; auto.
      apply IH; [apply nxt_nonneg; lra|]. destruct d as [|d]; [exists x; split; [cbn; auto|intros; lia]|].
      unfold nxt. rewrite is_pyramid_S by lia. destruct (Nat.testbit id (S d)) eqn:Eb; cbn [negb].
      * exists z. split; [|intros; apply C; lia]. eapply in_reference_bits; [|exact B]. intros; now apply base_bits.
      * destruct B as (w & B & E). exists w. split; [|intros i Hi; rewrite C, E, Hx by lia; ring].
        eapply in_reference_bits; [|exact B]. intros; now apply base_bits.
Qed.
Lemma inr_1 id d x : inr id d 1 x <-> in_reference id d x.
Proof.
  rewrite inr_ok by lra. split.
  - intros (z & A & B). eapply in_reference_ext; [|exact A]. intros i Hi. rewrite B by auto. lra.
  - intros H. exists x. split; auto. intros; lra.
Qed.

(** * The code computes [D] *)
Lemma distance_D id d x s : (0 < d)%nat -> distance id d x s = Some (D id d x s).
Proof.
  revert id s. induction d as [|d IH]; intros id s Hd; [lia|]. cbn [distance].
  destruct (Nat.ltb_spec 1 (S d)).
  - unfold nxt, clampd. rewrite IH by lia. cbn [D]. unfold nxt, clampd, lastd. reflexivity.
  - assert (d = 0%nat) as -> by lia. cbn. unfold lastd. f_equal. lra.
Qed.
Lemma clampd_range x s : 0 <= s -> 0 <= clampd x s <= s.
Proof. intros. unfold clampd, Rmax, Rmin. repeat destruct (Rle_dec _ _); lra. Qed.
Lemma clampd_dist x s : 0 <= s -> Rabs (x - clampd x s) = lastd x s.
Proof. intros. unfold clampd, lastd, Rmax, Rmin, Rabs. repeat (destruct (Rle_dec _ _) || destruct (Rcase_abs _)); lra. Qed.
Lemma lastd_nonneg x s : 0 <= lastd x s.
Proof. apply Rmax_r. Qed.
Lemma D_nonneg id d x s : 0 <= D id d x s.
Proof. revert id s. induction d as [|d IH]; intros id s; cbn; [lra|]. pose proof (lastd_nonneg (x d) s). specialize (IH (base_topology id (S d)) (nxt id (S d) s (clampd (x d) s))). lra. Qed.

Lemma l1_ext d x x' y y' : (forall i, (i < d)%nat -> x i = x' i /\ y i = y' i) -> l1 d x y = l1 d x' y'.
Proof.
  induction d as [|d IH]; intros H; cbn; auto. destruct (H d) as [-> ->]; [lia|]. rewrite IH; auto.
Qed.
Lemma l1_nonneg d x y : 0 <= l1 d x y.
Proof. induction d; cbn; [lra|]. pose proof (Rabs_pos (x d - y d)). lra. Qed.
(** A point of the element at the computed distance. *)
Lemma D_attained id d x s : 0 <= s -> exists y, inr id d s y /\ l1 d x y = D id d x s.
Proof.
  revert id s. induction d as [|d IH]; intros id s Hs; [exists x; cbn; auto|].
  pose proof (clampd_range (x d) s Hs) as Hc.
  destruct (IH (base_topology id (S d)) (nxt id (S d) s (clampd (x d) s))) as (y & A & B); [now apply nxt_nonneg|].
  exists (fun i => if (i <? d)%nat then y i else clampd (x d) s). cbn [inr l1 D]. rewrite Nat.ltb_irrefl. split.
  - split; auto. eapply inr_ext; [|exact A]. intros i Hi. cbn. destruct (Nat.ltb_spec i d); [auto|lia].
  - rewrite (clampd_dist _ _ Hs), <- B. f_equal. apply l1_ext. intros i Hi. destruct (Nat.ltb_spec i d); [auto|lia].
Qed.
Lemma l1_0 d x y : l1 d x y = 0 -> forall i, (i < d)%nat -> x i = y i.
Proof.
  induction d as [|d IH]; cbn; intros H i Hi; [lia|]. pose proof (l1_nonneg d x y). pose proof (Rabs_pos (x d - y d)).
  destruct (Nat.eq_dec i d) as [->|]; [|apply IH; [lra|lia]].
  assert (H2 : Rabs (x d - y d) = 0) by lra. revert H2. unfold Rabs. destruct (Rcase_abs _); lra.
Qed.
Lemma D_0 id d x s : 0 <= s -> (D id d x s = 0 <-> inr id d s x).
Proof.
  intros Hs. split.
  - intros H. destruct (D_attained id d x s Hs) as (y & A & B). rewrite H in B. eapply inr_ext; [|exact A].
    intros i Hi. symmetry. now apply (l1_0 d x y B).
  - revert id s Hs. induction d as [|d IH]; intros id s Hs; cbn; auto. intros [A B].
    assert (clampd (x d) s = x d) as -> by (unfold clampd, Rmax, Rmin; repeat destruct (Rle_dec _ _); lra).
    rewrite IH; auto; [|apply nxt_nonneg; lra]. unfold lastd, Rmax. repeat destruct (Rle_dec _ _); lra.
Qed.

(** Simplices: the distance in closed form. *)
Fixpoint neg (d : nat) (x : nat -> R) : R := match d with 0%nat => 0 | S d => neg d x + Rmax (- x d) 0 end.
Fixpoint pos (d : nat) (x : nat -> R) : R := match d with 0%nat => 0 | S d => pos d x + Rmax (x d) 0 end.
Definition simplicial (id d : nat) : Prop := forall i, (1 <= i < d)%nat -> Nat.testbit id i = false.
Lemma pos_nonneg d x : 0 <= pos d x.
Proof. induction d; cbn; [lra|]. pose proof (Rmax_r (x d) 0). lra. Qed.
Lemma simplicial_base id d : simplicial id (S d) -> simplicial (base_topology id (S d)) d /\ is_pyramid id (S d) = true.
Proof.
  intros H. split; [intros i Hi; rewrite base_bits by lia; apply H; lia|].
  destruct d; [apply is_pyramid_0|]. rewrite is_pyramid_S, H by lia. reflexivity.
Qed.
Lemma D_simplex id d x s : simplicial id d -> 0 <= s -> D id d x s = neg d x + Rmax (pos d x - s) 0.
Proof.
  revert id s. induction d as [|d IH]; intros id s Hd Hs; cbn [D neg pos].
  - unfold Rmax. destruct (Rle_dec _ _); lra.
  - destruct (simplicial_base _ _ Hd) as [Hb Hp]. unfold nxt. rewrite Hp. pose proof (clampd_range (x d) s Hs).
    rewrite IH; [|auto|lra]. pose proof (pos_nonneg d x). revert H H0. generalize (pos d x) (neg d x) (x d). clear. intros a b c.
    unfold lastd, clampd, Rmax, Rmin. repeat destruct (Rle_dec _ _); lra.
Qed.
Lemma inr_simplex id d y s : simplicial id d -> 0 <= s -> inr id d s y -> pos d y <= s /\ forall i, (i < d)%nat -> 0 <= y i.
Proof.
  revert id s. induction d as [|d IH]; intros id s Hd Hs; cbn [inr pos].
  - split; [lra|lia].
  - destruct (simplicial_base _ _ Hd) as [Hb Hp]. unfold nxt. rewrite Hp. intros [A B]. apply IH in B; auto; [|lra].
    destruct B as [B C]. split; [rewrite Rmax_left; lra|]. intros i Hi. destruct (Nat.eq_dec i d) as [->|]; [lra|apply C; lia].
Qed.
Lemma l1_simplex d x y : (forall i, (i < d)%nat -> 0 <= y i) -> neg d x + Rmax (pos d x - pos d y) 0 <= l1 d x y.
Proof.
  intros Hy. induction d as [|d IH]; cbn [neg pos l1]; [unfold Rmax; destruct (Rle_dec _ _); lra|].
  assert (0 <= y d) by (apply Hy; lia). specialize (IH (fun i Hi => Hy i (Nat.lt_lt_succ_r _ _ Hi))).
  revert H IH. generalize (pos d x) (pos d y) (neg d x) (l1 d x y) (x d) (y d). clear. intros a b c e f g.
  unfold Rmax, Rabs. repeat (destruct (Rle_dec _ _) || destruct (Rcase_abs _)); lra.
Qed.
Lemma D_least id d x s y : simplex_times_cube id d -> 0 <= s -> inr id d s y -> D id d x s <= l1 d x y.
Proof.
  revert id s. induction d as [|d IH]; intros id s (k & Hk) Hs; [cbn; lra|].
  destruct (Nat.leb_spec k d) as [Hkd|Hkd].
  - destruct (Nat.eq_dec d 0) as [->|Hd].
    + intros HI. assert (simplicial id 1) by (intros i Hi; lia). rewrite D_simplex by auto. destruct (inr_simplex id 1 y s) as [A B]; auto.
      eapply Rle_trans; [|apply l1_simplex; auto]. apply Rplus_le_compat_l. apply Rle_max_compat_r. lra.
    + cbn [inr D l1]. intros [A B]. assert (Hp : is_pyramid id (S d) = false).
      { rewrite is_pyramid_S, Hk by lia. now rewrite leb_correct. }
      unfold nxt in *. rewrite Hp in *. apply Rplus_le_compat.
      * apply IH; auto. exists k. intros i Hi. rewrite base_bits by lia. apply Hk. lia.
      * revert A. generalize (x d) (y d). clear -Hs. intros a b H. unfold lastd, Rmax, Rabs. repeat (destruct (Rle_dec _ _) || destruct (Rcase_abs _)); lra.
  - intros HI. assert (simplicial id (S d)) as Hsi. { intros i Hi. rewrite Hk by lia. apply Nat.leb_gt. lia. }
    rewrite D_simplex by auto. destruct (inr_simplex id (S d) y s) as [A B]; auto.
    eapply Rle_trans; [|apply l1_simplex; auto]. apply Rplus_le_compat_l. apply Rle_max_compat_r. lra.
Qed.

(** * Theorems *)
(** distance returns the l1-distance to every product of a simplex and a cube ... *)
Theorem C43_distance_is_l1_distance_partial id dim x :
  (0 < dim)%nat -> simplex_times_cube id dim ->
  exists r, distance id dim x 1 = Some r /\ l1_distance id dim x r.
Proof.
  intros Hd Ht. exists (D id dim x 1). split; [now apply distance_D|]. split.
  - destruct (D_attained id dim x 1) as (y & A & B); [lra|]. exists y. split; auto. now apply inr_1.
  - intros y Hy. apply D_least; auto; [lra|]. now apply inr_1.
Qed.
(** ... and for every topology something not smaller, attained by a point inside; ... *)
Theorem C43_distance_is_attained id dim x :
  (0 < dim)%nat -> exists r y, distance id dim x 1 = Some r /\ in_reference id dim y /\ l1 dim x y = r.
Proof.
  intros Hd. destruct (D_attained id dim x 1) as (y & A & B); [lra|]. exists (D id dim x 1), y.
  split; [now apply distance_D|]. split; auto. now apply inr_1.
Qed.
(** ... it is nonnegative, and zero exactly in the reference element; ... *)
Theorem C43_distance_zero_iff_inside id dim x :
  (0 < dim)%nat -> exists r, distance id dim x 1 = Some r /\ 0 <= r /\ (r = 0 <-> in_reference id dim x).
Proof.
  intros Hd. exists (D id dim x 1). split; [now apply distance_D|]. split; [apply D_nonneg|]. rewrite D_0, inr_1; [tauto|lra].
Qed.
(** ... but it is not the l1-distance to the pyramid over a square. *)
Theorem C43_distance_to_pyramid_refuted :
  exists x, distance 3 3 x 1 = Some 1 /\ exists y, in_reference 3 3 y /\ l1 3 x y = 1/2.
Proof.
  exists (fun i => if (i =? 2)%nat then 1/2 else 1). split.
  - cbn -[Rmax Rmin]. change (1 <? 3)%nat with true. change (1 <? 2)%nat with true. change (1 <? 1)%nat with false. cbn iota.
    change (is_pyramid 3 3) with true. change (base_topology 3 3) with 3%nat. change (is_pyramid 3 2) with false. cbn iota. f_equal.
    unfold Rmax, Rmin. repeat destruct (Rle_dec _ _); lra.
  - exists (fun i => if (i =? 2)%nat then 0 else 1). split.
    + cbn [in_reference]. change (Nat.testbit 3 2) with false. change (Nat.testbit 3 1) with true. change (Nat.testbit 3 0) with true. cbn.
      split; [lra|]. exists (fun _ => 1). split; [split; [lra|split; [lra|auto]]|]. intros i Hi. destruct (Nat.eqb_spec i 2); [lia|lra].
    + cbn. rewrite !Rabs_pos_eq; lra.
Qed.

(** checkInside with a tolerance agrees with distance. *)
Theorem C43_check_inside_is_distance id dim x tol :
  (0 < dim)%nat -> 0 <= tol ->
  exists r, distance id dim x 1 = Some r /\ (check_inside id dim x tol 1 = true <-> r <= tol).
Proof.
  intros Hd Htol. exists (D id dim x 1). split; [now apply distance_D|]. clear Hd.
  assert (H : forall d id tol s, 0 <= s -> 0 <= tol -> (check_inside id d x tol s = true <-> D id d x s <= tol)).
  { clear. induction d as [|d IH]; intros id tol s Hs Ht; cbn [check_inside D]; [tauto|].
    pose proof (clampd_range (x d) s Hs) as Hc. assert (El : Rmax (Rmax (x d - s) (- x d)) 0 = lastd (x d) s) by reflexivity.
    assert (Hl := Rmax_l (Rmax (x d - s) (- x d)) 0). rewrite El in *.
    pose proof (D_nonneg (base_topology id (S d)) d x (nxt id (S d) s (clampd (x d) s))).
    destruct (Rle_dec _ _) as [Hle|Hgt].
    - fold (clampd (x d) s). fold (nxt id (S d) s (clampd (x d) s)).
      assert (lastd (x d) s <= tol) by (unfold lastd; apply Rmax_lub; auto).
      rewrite IH; [|now apply nxt_nonneg|lra]. lra.
    - split; [discriminate|]. lra. }
  apply H; lra.
Qed.
(** In particular tolerance zero is membership, for every topology including points. *)
Theorem C43_check_inside_zero id dim x : check_inside id dim x 0 1 = true <-> in_reference id dim x.
Proof.
  destruct dim as [|d]; [cbn; tauto|]. destruct (C43_check_inside_is_distance id (S d) x 0) as (r & Hr & H); [lia|lra|].
  destruct (C43_distance_zero_iff_inside id (S d) x) as (r' & Hr' & H0 & H1); [lia|]. rewrite Hr in Hr'. injection Hr' as <-.
  rewrite H, <- H1. lra.
Qed.

(** * The hypotheses are met: all topologies of dimension 3 but the pyramid *)
Example C43_simplex : simplex_times_cube 0 3. Proof. exists 3%nat. intros [|[|[|]]] Hi; try lia; reflexivity. Qed.
Example C43_prism : simplex_times_cube 5 3. Proof. exists 2%nat. intros [|[|[|]]] Hi; try lia; reflexivity. Qed.
Example C43_cube : simplex_times_cube 7 3. Proof. exists 0%nat. intros [|[|[|]]] Hi; try lia; reflexivity. Qed.
Example C43_value : distance 0 2 (fun i => if (i =? 0)%nat then 1 else 1/2) 1 = Some (1/2).
Proof.
  cbn -[Rmax Rmin]. change (1 <? 2)%nat with true. change (1 <? 1)%nat with false. cbn iota. change (is_pyramid 0 2) with true. cbn iota. f_equal.
  unfold Rmax, Rmin. repeat destruct (Rle_dec _ _); lra.
Qed.

Print Assumptions C43_distance_is_l1_distance_partial.
Print Assumptions C43_distance_is_attained.
Print Assumptions C43_distance_zero_iff_inside.
Print Assumptions C43_distance_to_pyramid_refuted.
Print Assumptions C43_check_inside_is_distance.
Print Assumptions C43_check_inside_zero.
