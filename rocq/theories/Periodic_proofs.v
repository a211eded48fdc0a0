From Coq Require Import List Arith Bool Lia Relations Sorted.
From Verif Require Import Lib Basis_model Basis_proofs Periodic_model Periodic_spec.
Import ListNotations.

(** * The ordered pair set *)
Definition plt (p q : nat * nat) : Prop := fst p < fst q \/ (fst p = fst q /\ snd p < snd q).
Lemma pair_lt_spec p q : pair_lt p q = true <-> plt p q.
Proof.
  unfold pair_lt, plt. rewrite orb_true_iff, andb_true_iff, !Nat.ltb_lt, Nat.eqb_eq. tauto.
Qed.
Lemma pair_lt_total p q : pair_lt p q = false -> pair_lt q p = false -> p = q.
Proof.
  intros H1 H2. destruct p as [a b], q as [c d].
  assert (~ plt (a, b) (c, d)) by (rewrite <- pair_lt_spec; congruence).
  assert (~ plt (c, d) (a, b)) by (rewrite <- pair_lt_spec; congruence).
  unfold plt in *. cbn in *. f_equal; lia.
Qed.

Lemma in_insert p s q : In q (set_insert p s) <-> q = p \/ In q s.
Proof.
  induction s as [|x s IH]; cbn; [intuition|].
  destruct (pair_lt p x) eqn:H1; cbn; [intuition|].
  destruct (pair_lt x p) eqn:H2; cbn.
  - rewrite IH. intuition.
  - pose proof (pair_lt_total _ _ H1 H2). subst. intuition.
Qed.
Lemma insert_sorted p s : Sorted.StronglySorted plt s -> Sorted.StronglySorted plt (set_insert p s).
Proof.
  induction s as [|x s IH]; intros H; cbn; [repeat constructor|].
  inversion H as [|? ? Hs Hf]; subst.
  destruct (pair_lt p x) eqn:H1.
  - constructor; auto. apply pair_lt_spec in H1. constructor; auto.
    eapply Forall_impl; [|exact Hf]. unfold plt in *. intros; lia.
  - destruct (pair_lt x p) eqn:H2; [|exact H].
    constructor; auto. apply Forall_forall. intros q Hq. apply in_insert in Hq as [->|Hq].
    + now apply pair_lt_spec.
    + rewrite Forall_forall in Hf. auto.
Qed.

Lemma pair_set_spec calls :
  Sorted.StronglySorted plt (index_pair_set calls) /\
  forall a b, In (a, b) (index_pair_set calls) <-> a < b /\ requested calls a b.
Proof.
  unfold index_pair_set.
  assert (G : forall s, Sorted.StronglySorted plt s -> (forall a b, In (a, b) s -> a < b) ->
    Sorted.StronglySorted plt (fold_left unify_index_pair calls s) /\
    forall a b, In (a, b) (fold_left unify_index_pair calls s) <->
                In (a, b) s \/ (a < b /\ requested calls a b)).
  { induction calls as [|[x y] calls IH]; intros s Hs Hlt; cbn [fold_left].
    - split; auto. intros a b. unfold requested. cbn. tauto.
    - cbn [unify_index_pair].
      destruct (if y <? x then (y, x) else (x, y)) as [u v] eqn:E.
      assert (Huv : (u = x /\ v = y \/ u = y /\ v = x) /\ u <= v).
      { destruct (Nat.ltb_spec y x); injection E as <- <-; lia. }
      destruct (Nat.eqb_spec u v) as [E2|E2].
      + destruct (IH s Hs Hlt) as [A B]. split; auto. intros a b. rewrite B. unfold requested. cbn.
        assert (Exy : x = y) by lia. split; [intuition|].
        intros [H|[H1 [[H|H]|[H|H]]]]; auto; injection H as <- <-; lia.
      + assert (Hlt' : forall a b, In (a, b) (set_insert (u, v) s) -> a < b).
        { intros a b H. apply in_insert in H as [[= -> ->]|H]; [lia|auto]. }
        destruct (IH _ (insert_sorted _ _ Hs) Hlt') as [A B]. split; auto.
        intros a b. rewrite B, in_insert. unfold requested. cbn. split.
        * intros [[[= -> ->]|H]|[H1 H2]]; auto; [|right; intuition].
          right. split; [lia|]. destruct Huv as [[[-> ->]|[-> ->]] _]; auto.
        * intros [H|[H1 [[H|H]|[H|H]]]]; auto; injection H as -> ->; left; left; f_equal; lia. }
  destruct (G [] (SSorted_nil _)) as [A B]; [intros ? ? []|]. split; auto.
  intros a b. rewrite B. cbn. tauto.
Qed.

(** * Parents *)
(** The partner recorded for [x] by the pairs processed so far. *)
Definition par (P : list (nat * nat)) (x : nat) : option nat :=
  fold_left (fun o p => if snd p =? x then Some (fst p) else o) P None.
Lemma par_snoc P a b x : par (P ++ [(a, b)]) x = if b =? x then Some a else par P x.
Proof. unfold par. rewrite fold_left_app. reflexivity. Qed.
Lemma par_In P x a : par P x = Some a -> In (a, x) P.
Proof.
  induction P as [|[u v] P IH] using rev_ind; [discriminate|]. rewrite par_snoc, in_app_iff.
  destruct (Nat.eqb_spec v x); [intros [= ->]; subst; right; now left|]. auto.
Qed.
Lemma par_None P x : par P x = None -> forall a, ~ In (a, x) P.
Proof.
  induction P as [|[u v] P IH] using rev_ind; [intros _ a []|]. rewrite par_snoc.
  destruct (Nat.eqb_spec v x); [discriminate|]. intros H a. rewrite in_app_iff.
  intros [H1|[[= -> ->]|[]]]; [now apply (IH H a)|congruence].
Qed.

Lemma sorted_snoc (P : list (nat * nat)) p :
  Sorted.StronglySorted plt (P ++ [p]) <-> Sorted.StronglySorted plt P /\ Forall (fun q => plt q p) P.
Proof.
  induction P as [|x P IH]; cbn.
  - split; intros; [split; constructor|repeat constructor].
  - split.
    + intros H. inversion H; subst. apply IH in H2 as [A B]. rewrite Forall_app in H3. destruct H3 as [C D].
      inversion D; subst. split; constructor; auto.
    + intros [H1 H2]. inversion H1; inversion H2; subst. constructor; [apply IH; auto|].
      apply Forall_app. auto.
Qed.
Lemma par_max P x a a' : Sorted.StronglySorted plt P -> par P x = Some a -> In (a', x) P -> a' <= a.
Proof.
  induction P as [|[u v] P IH] using rev_ind; [discriminate|]. intros HS. apply sorted_snoc in HS as [HS HF].
  rewrite par_snoc, in_app_iff. destruct (Nat.eqb_spec v x) as [->|].
  - intros [= <-]. intros [H|[[= <-]|[]]]; [|lia]. rewrite Forall_forall in HF. specialize (HF _ H).
    unfold plt in HF. cbn in HF. lia.
  - intros H [H1|[[= <- <-]|[]]]; [now apply IH|congruence].
Qed.

(** * The numbering *)
Definition is_root (P : list (nat * nat)) (x : nat) : bool := match par P x with None => true | _ => false end.
Definition roots (P : list (nat * nat)) (n : nat) : nat := length (filter (is_root P) (seq 0 n)).
Lemma roots_S P n : roots P (S n) = roots P n + (if is_root P n then 1 else 0).
Proof.
  unfold roots. rewrite seq_S, filter_app, app_length. cbn. destruct (is_root P n); reflexivity.
Qed.
Lemma roots_mono P n m : n <= m -> roots P n <= roots P m.
Proof. induction 1; auto. rewrite roots_S. lia. Qed.
Lemma roots_ext P P' n : (forall x, x < n -> par P x = par P' x) -> roots P n = roots P' n.
Proof.
  intros H. induction n as [|n IH]; [reflexivity|]. rewrite !roots_S, IH by (intros; apply H; lia).
  unfold is_root. rewrite H by lia. reflexivity.
Qed.

(** The state after the pairs [P], with all positions below [i] numbered. *)
Record inv (dim : nat) (P : list (nat * nat)) (i : nat) (m : list (option nat)) (num : nat) : Prop := {
  inv_len : length m = dim;
  inv_num : num = roots P i;
  inv_lt : forall x, x < i -> x < dim -> par P x = None -> nth_error m x = Some (Some (roots P x));
  inv_par : forall x a, x < dim -> par P x = Some a -> a < x /\ nth_error m x = nth_error m a /\
                        exists v, nth_error m x = Some (Some v) /\ v < num;
  inv_ge : forall x, i <= x -> x < dim -> par P x = None -> nth_error m x = Some None
}.

Lemma number_one_inv dim P i m num :
  i < dim -> inv dim P i m num -> (forall x a, x < dim -> par P x = Some a -> a < i) ->
  exists m' num', number_one i (m, num) = Some (m', num') /\ inv dim P (S i) m' num'.
Proof.
  intros Hi [IL IN ILT IP IG] Hp. unfold number_one.
  destruct (par P i) as [a|] eqn:Pi.
  - destruct (IP i a Hi Pi) as (Ha & Heq & v & Hv & Hvn). rewrite Hv. cbn. exists m, num. split; auto.
    constructor; auto.
    + rewrite roots_S. unfold is_root. rewrite Pi. lia.
    + intros x Hx Hxd Hn. apply ILT; auto. assert (x <> i) by (intros ->; congruence). lia.
    + intros x Hx. apply IG. lia.
  - rewrite (IG i (le_n _) Hi Pi). cbn [obind].
    destruct (upd_Some m i (Some num)) as [m' Hm']; [lia|]. rewrite Hm'. cbn [obind].
    exists m', (num + 1). split; auto.
    assert (N : forall x, nth_error m' x = if x =? i then Some (Some num) else nth_error m x).
    { intros x. rewrite (upd_nth_error _ _ _ _ x Hm'). reflexivity. }
    constructor.
    + rewrite (upd_length _ _ _ _ Hm'). exact IL.
    + rewrite roots_S. unfold is_root. rewrite Pi. lia.
    + intros x Hx Hxd Hn. rewrite N. destruct (Nat.eqb_spec x i) as [->|Hxi].
      * now rewrite IN.
      * apply ILT; auto. lia.
    + intros x a Hx Hpa. destruct (IP x a Hx Hpa) as (Ha & Heq & v & Hv & Hvn).
      assert (x <> i) by (intros ->; congruence).
      assert (a < i) by eauto. rewrite !N.
      destruct (Nat.eqb_spec x i); [lia|]. destruct (Nat.eqb_spec a i); [lia|].
      split; auto. split; auto. exists v. split; auto. lia.
    + intros x Hx Hxd Hn. rewrite N. destruct (Nat.eqb_spec x i); [lia|]. apply IG; auto. lia.
Qed.

Lemma number_upto_inv dim P limit : forall k i m num,
  k = limit - i -> limit <= dim -> inv dim P i m num -> (forall x a, x < dim -> par P x = Some a -> a < i) ->
  exists m' num', number_upto i limit (m, num) = Some (m', num') /\ inv dim P (max i limit) m' num'.
Proof.
  unfold number_upto. induction k as [|k IH]; intros i m num Hk Hd HI Hp; rewrite <- Hk.
  - cbn. exists m, num. split; auto. replace (max i limit) with i by lia. exact HI.
  - cbn [forl]. destruct (number_one_inv dim P i m num) as (m1 & n1 & E1 & I1); auto; [lia|].
    rewrite E1. cbn [obind].
    destruct (IH (S i) m1 n1) as (m2 & n2 & E2 & I2); auto; [lia| |].
    { intros x a Hx Ha. specialize (Hp x a Hx Ha). lia. }
    replace (limit - S i) with k in E2 by lia. rewrite Nat.add_1_r, E2.
    exists m2, n2. split; auto. replace (max i limit) with (max (S i) limit) by lia. exact I2.
Qed.

Lemma loop_inv dim : forall rest P i m num,
  Sorted.StronglySorted plt (P ++ rest) -> (forall a b, In (a, b) (P ++ rest) -> a < b /\ b < dim) ->
  (forall a b, In (a, b) P -> a < i) -> (forall a b, In (a, b) rest -> i <= a + 1) ->
  i <= dim -> inv dim P i m num ->
  exists i' m' num', periodic_loop rest i (m, num) = Some (i', (m', num')) /\
    i' <= dim /\ inv dim (P ++ rest) i' m' num' /\ (forall a b, In (a, b) (P ++ rest) -> a < i').
Proof.
  induction rest as [|[a b] rest IH]; intros P i m num HS HR HP HQ Hi HI.
  - exists i, m, num. cbn. rewrite app_nil_r. auto.
  - cbn [periodic_loop].
    assert (Hab : a < b /\ b < dim) by (apply HR, in_or_app; right; now left).
    assert (Hia : i <= a + 1) by (eapply HQ; now left).
    destruct (number_upto_inv dim P (a + 1) (a + 1 - i) i m num) as (m1 & n1 & E1 & I1); auto; [lia| |].
    { intros x c Hx Hc. apply par_In in Hc. eauto. }
    rewrite E1. cbn [obind]. replace (max i (a + 1)) with (a + 1) in * by lia.
    destruct I1 as [IL IN ILT IP IG].
    assert (Ax : exists v, nth_error m1 a = Some (Some v) /\ v < n1).
    { destruct (par P a) as [c|] eqn:Pa.
      - destruct (IP a c) as (_ & _ & v & Hv & Hn); [lia|auto|]. eauto.
      - exists (roots P a). split; [apply ILT; auto; lia|]. rewrite IN.
        assert (roots P (S a) <= roots P (a + 1)) by (apply roots_mono; lia).
        rewrite roots_S in H. unfold is_root in H. rewrite Pa in H. lia. }
    destruct Ax as (v & Hv & Hvn). rewrite Hv. cbn [obind].
    destruct (upd_Some m1 b (Some v)) as [m2 Hm2]; [lia|]. rewrite Hm2. cbn [obind].
    assert (N : forall x, nth_error m2 x = if x =? b then Some (Some v) else nth_error m1 x).
    { intros x. rewrite (upd_nth_error _ _ _ _ x Hm2). reflexivity. }
    replace (P ++ (a, b) :: rest) with ((P ++ [(a, b)]) ++ rest) in * by (now rewrite <- app_assoc).
    assert (HPa : forall c d, In (c, d) (P ++ [(a, b)]) -> c < a + 1).
    { intros c d H. apply in_app_iff in H as [H|[[= <- <-]|[]]]; [|lia].
      assert (SS : Sorted.StronglySorted plt (P ++ [(a, b)])).
      { clear - HS. revert HS. generalize (P ++ [(a, b)]) as l. induction l as [|x l IH]; cbn; intros H; [constructor|].
        inversion H; subst. rewrite Forall_app in H3. constructor; [auto|apply H3]. }
      apply sorted_snoc in SS as [_ SF]. rewrite Forall_forall in SF. specialize (SF _ H). unfold plt in SF. cbn in SF. lia. }
    assert (HQ' : forall c d, In (c, d) rest -> a + 1 <= c + 1).
    { intros c d H. apply in_split in H as (r1 & r2 & ->).
      clear - HS. rewrite <- app_assoc in HS. cbn in HS. revert HS. induction P as [|x P IHP]; cbn; intros HS.
      - inversion HS; subst. rewrite Forall_app in H2. destruct H2 as [_ H2]. inversion H2; subst.
        unfold plt in H3. cbn in H3. lia.
      - inversion HS; subst. auto. }
    apply (IH (P ++ [(a, b)]) (a + 1) m2 n1); auto; [lia|].
    assert (Rx : forall n, n <= a + 1 -> roots (P ++ [(a, b)]) n = roots P n).
    { intros n Hn. apply roots_ext. intros x Hx. rewrite par_snoc. destruct (Nat.eqb_spec b x); [lia|reflexivity]. }
    constructor.
    + rewrite (upd_length _ _ _ _ Hm2). exact IL.
    + rewrite Rx by lia. exact IN.
    + intros x Hx Hxd. rewrite par_snoc. destruct (Nat.eqb_spec b x); [discriminate|]. intros Hn.
      rewrite N, Rx by lia. destruct (Nat.eqb_spec x b); [lia|]. apply ILT; auto.
    + intros x c Hx. rewrite par_snoc. rewrite !N. destruct (Nat.eqb_spec b x) as [->|Hbx].
      * intros [= <-]. split; [lia|]. destruct (Nat.eqb_spec x x); [|lia].
        destruct (Nat.eqb_spec a x); [lia|]. rewrite Hv. eauto.
      * intros Hc. destruct (IP x c Hx Hc) as (H1 & H2 & w & H3 & H4). split; auto.
        destruct (Nat.eqb_spec x b); [lia|].
        apply par_In in Hc. specialize (HP _ _ Hc). destruct (Nat.eqb_spec c b); [lia|]. eauto.
    + intros x Hx Hxd. rewrite par_snoc. destruct (Nat.eqb_spec b x); [discriminate|]. intros Hn.
      rewrite N. destruct (Nat.eqb_spec x b); [lia|]. apply IG; auto.
Qed.

(** The result: index = number of roots before, or that of the parent. *)
Lemma periodic_map_ok dim calls :
  in_range dim calls ->
  exists m num, periodic_map dim calls = Some (m, num) /\ length m = dim /\
    let P := index_pair_set calls in
    num = roots P dim /\
    (forall x, x < dim -> par P x = None -> nth_error m x = Some (Some (roots P x))) /\
    (forall x a, x < dim -> par P x = Some a -> a < x /\ nth_error m x = nth_error m a /\
        exists v, nth_error m x = Some (Some v) /\ v < num).
Proof.
  intros HR. destruct (pair_set_spec calls) as [HS HIn]. unfold periodic_map.
  destruct (loop_inv dim (index_pair_set calls) [] 0 (repeat None dim) 0) as (i & m & num & E & Hi & HI & Hlt); auto.
  - intros a b H. cbn in H. apply HIn in H as [H1 H2]. split; auto.
    destruct H2 as [H2|H2]; apply HR in H2; lia.
  - intros a b [].
  - lia.
  - lia.
  - constructor; auto.
    + apply repeat_length.
    + intros; lia.
    + discriminate.
    + intros x _ Hx _. rewrite nth_error_repeat_eq. destruct (Nat.ltb_spec x dim); [reflexivity|lia].
  - cbn [app] in *. rewrite E. cbn [obind].
    destruct (number_upto_inv dim (index_pair_set calls) dim (dim - i) i m num) as (m' & num' & E2 & I2); auto.
    { intros x a Hx Ha. apply par_In in Ha. eauto. }
    rewrite E2. replace (max i dim) with dim in I2 by lia. destruct I2 as [IL IN ILT IP IG].
    exists m', num'. cbn zeta. split; [reflexivity|]. auto 8.
Qed.

(** * Classes *)
Section Classes.
Variable P : list (nat * nat).
Hypothesis Plt : forall a b, In (a, b) P -> a < b.
Definition child_of (x a : nat) : Prop := par P x = Some a.
Definition linked : nat -> nat -> Prop := clos_refl_sym_trans nat child_of.

(** Every position reaches a root. *)
Lemma root_exists : forall x, exists r, par P r = None /\ r <= x /\ linked x r.
Proof.
  induction x as [x IH] using (well_founded_induction lt_wf).
  destruct (par P x) as [a|] eqn:Hx.
  - assert (a < x) by (apply Plt; now apply par_In). destruct (IH a H) as (r & R1 & R2 & R3).
    exists r. repeat split; auto; [lia|]. eapply rst_trans; [apply rst_step; exact Hx|exact R3].
  - exists x. repeat split; auto. apply rst_refl.
Qed.
End Classes.

Lemma roots_inj P x y : par P x = None -> par P y = None -> roots P x = roots P y -> x = y.
Proof.
  intros Hx Hy H. destruct (Nat.lt_trichotomy x y) as [L|[L|L]]; auto; exfalso.
  - assert (roots P (S x) <= roots P y) by (apply roots_mono; lia). rewrite roots_S in H0.
    unfold is_root in H0. rewrite Hx in H0. lia.
  - assert (roots P (S y) <= roots P x) by (apply roots_mono; lia). rewrite roots_S in H0.
    unfold is_root in H0. rewrite Hy in H0. lia.
Qed.
Lemma roots_surj P n k : k < roots P n -> exists x, x < n /\ par P x = None /\ roots P x = k.
Proof.
  induction n as [|n IH]; [unfold roots; cbn; lia|]. rewrite roots_S. intros H.
  unfold is_root in H. destruct (par P n) as [a|] eqn:Pn.
  - destruct IH as (x & H1 & H2 & H3); [lia|]. exists x. auto.
  - destruct (Nat.eq_dec k (roots P n)) as [->|]; [exists n; auto|].
    destruct IH as (x & H1 & H2 & H3); [lia|]. exists x. auto.
Qed.

(** The number of roots is the number of classes: the roots are a system of
    representatives. *)
Lemma linked_same_value dim P (m : list (option nat)) :
  (forall x a, x < dim -> par P x = Some a -> nth_error m x = nth_error m a) ->
  (forall a b, In (a, b) P -> a < b /\ b < dim) ->
  forall x y, linked P x y -> nth_error m x = nth_error m y.
Proof.
  intros H HP x y L. induction L as [x y Hxy|x|x y L IH|x y z L1 IH1 L2 IH2]; auto; [|congruence].
  apply H; auto. apply par_In in Hxy. apply HP in Hxy. lia.
Qed.

Lemma par_largest calls x a :
  par (index_pair_set calls) x = Some a <-> largest_partner calls a x.
Proof.
  destruct (pair_set_spec calls) as [HS HIn]. split.
  - intros H. pose proof (par_In _ _ _ H) as HI. apply HIn in HI as [H1 H2].
    split; [exact H1|]. split; [exact H2|]. intros a' L R. eapply par_max; eauto. apply HIn. auto.
  - intros (H1 & H2 & H3). destruct (par (index_pair_set calls) x) as [c|] eqn:E.
    + pose proof (par_In _ _ _ E) as HI. apply HIn in HI as [H4 H5]. specialize (H3 c H4 H5).
      assert (a <= c) by (eapply par_max; eauto; apply HIn; auto). f_equal. lia.
    + exfalso. eapply par_None; eauto. apply HIn. split; eauto.
Qed.

Lemma linked_honoured calls x y : linked (index_pair_set calls) x y <-> honoured calls x y.
Proof.
  split; induction 1; try (now apply rst_refl); try (now apply rst_sym); try (eapply rst_trans; eassumption).
  - apply rst_step. now apply par_largest.
  - apply rst_step. unfold child_of. now apply par_largest.
Qed.

Lemma filter_length_le {A} (f : A -> bool) l : length (filter f l) <= length l.
Proof. induction l as [|a l IH]; cbn; auto. destruct (f a); cbn; lia. Qed.

Lemma in_range_honoured dim calls x y :
  in_range dim calls -> honoured calls x y -> x < dim -> y < dim.
Proof.
  intros HR H. enough (x < dim <-> y < dim) by tauto.
  induction H as [x y (L & H & _)|x|x y _ IH|x y z _ IH1 _ IH2]; try tauto.
  destruct H as [H|H]; apply HR in H; lia.
Qed.

(** Everything about the numbering. *)
Theorem periodic_numbering dim calls :
  in_range dim calls ->
  exists m num, periodic_map dim calls = Some (m, num) /\ length m = dim /\
    (forall x, x < dim -> exists v, nth_error m x = Some (Some v) /\ v < num) /\
    (forall v, v < num -> exists x, x < dim /\ nth_error m x = Some (Some v)) /\
    (forall x y, x < dim -> y < dim -> (nth_error m x = nth_error m y <-> honoured calls x y)) /\
    counts_classes (honoured calls) dim num /\ num <= dim /\
    (num = dim <-> forall a b, requested calls a b -> a = b).
Proof.
  intros HR. destruct (periodic_map_ok dim calls HR) as (m & num & E & L & H). cbn zeta in H.
  destruct (pair_set_spec calls) as [HS HIn].
  set (P := index_pair_set calls) in *. destruct H as (Hn & Hr & Hp).
  assert (Plt : forall a b, In (a, b) P -> a < b /\ b < dim).
  { intros a b H. apply HIn in H as [H1 H2]. split; auto. destruct H2 as [H2|H2]; apply HR in H2; lia. }
  assert (Pltl : forall a b, In (a, b) P -> a < b) by (intros; now apply Plt).
  assert (Heq : forall x y, linked P x y -> nth_error m x = nth_error m y).
  { eapply linked_same_value; eauto. intros x a Hx Ha. now apply Hp. }
  assert (Hv : forall r, r < dim -> par P r = None -> roots P r < num).
  { intros r R1 R2. rewrite Hn. assert (roots P (S r) <= roots P dim) by (apply roots_mono; lia).
    rewrite roots_S in H. unfold is_root in H. rewrite R2 in H. lia. }
  assert (Hshare : forall x y, x < dim -> y < dim -> (nth_error m x = nth_error m y <-> honoured calls x y)).
  { intros x y Hx Hy. rewrite <- linked_honoured. fold P. split; [|apply Heq].
    intros Hxy. destruct (root_exists P Pltl x) as (r & R1 & R2 & R3).
    destruct (root_exists P Pltl y) as (s & S1 & S2 & S3).
    rewrite (Heq _ _ R3), (Heq _ _ S3), (Hr r), (Hr s) in Hxy by (auto; lia). injection Hxy as Hxy.
    apply roots_inj in Hxy; auto. subst s. eapply rst_trans; [exact R3|now apply rst_sym]. }
  exists m, num. split; [exact E|]. split; [exact L|]. split; [|split; [|split; [exact Hshare|split; [|split]]]].
  - intros x Hx. destruct (par P x) as [a|] eqn:Px.
    + destruct (Hp x a Hx Px) as (_ & _ & v & V1 & V2). eauto.
    + exists (roots P x). split; auto.
  - intros v Hvn. rewrite Hn in Hvn. destruct (roots_surj P dim v Hvn) as (x & X1 & X2 & <-). eauto.
  - exists (filter (is_root P) (seq 0 dim)). split; [apply NoDup_filter, seq_NoDup|].
    split; [now rewrite Hn|]. split.
    + intros r Hrr. apply filter_In in Hrr as [Hrr _]. apply in_seq in Hrr. lia.
    + intros x Hx. destruct (root_exists P Pltl x) as (r & R1 & R2 & R3). exists r. split.
      * split; [|now apply linked_honoured]. apply filter_In. split; [apply in_seq; lia|].
        unfold is_root. now rewrite R1.
      * intros s [S1 S2]. apply filter_In in S1 as [S0 S1]. apply in_seq in S0.
        apply linked_honoured in S2. fold P in S2. unfold is_root in S1.
        destruct (par P s) eqn:Ps; [discriminate|]. apply (roots_inj P); auto.
        pose proof (Heq _ _ S2) as HH. rewrite (Heq _ _ R3), (Hr r), (Hr s) in HH by (auto; lia).
        congruence.
  - rewrite Hn. unfold roots. rewrite <- (seq_length dim 0) at 2. apply filter_length_le.
  - assert (F : forall n, n <= dim -> roots P n = n -> forall x, x < n -> par P x = None).
    { induction n as [|n IH]; intros Hnd Hrn x Hx; [lia|]. rewrite roots_S in Hrn.
      assert (roots P n <= n).
      { unfold roots. rewrite <- (seq_length n 0) at 2. apply filter_length_le. }
      unfold is_root in Hrn. destruct (par P n) eqn:Pn; [lia|].
      destruct (Nat.eq_dec x n) as [->|]; auto. apply IH; lia. }
    split.
    + intros Hd a b Hab. destruct (Nat.lt_trichotomy a b) as [Q|[Q|Q]]; auto; exfalso.
      * assert (In (a, b) P) by (apply HIn; auto). pose proof (Plt _ _ H) as [_ Hb].
        eapply par_None; [|exact H]. apply (F dim); auto. congruence.
      * assert (In (b, a) P) by (apply HIn; split; auto; destruct Hab; [right|left]; auto).
        pose proof (Plt _ _ H) as [_ Hb]. eapply par_None; [|exact H]. apply (F dim); auto. congruence.
    + intros Hall. rewrite Hn. unfold roots. rewrite <- (seq_length dim 0) at 2. f_equal.
      assert (G : forall l, (forall x, In x l -> is_root P x = true) -> filter (is_root P) l = l).
      { induction l as [|y l IH]; intros Hl; cbn; auto. rewrite Hl by now left. f_equal. apply IH. intros; apply Hl. now right. }
      apply G. intros x _. unfold is_root. destruct (par P x) eqn:Px; auto.
      apply par_In, HIn in Px as [P1 P2]. apply Hall in P2. lia.
Qed.

(** Honoured requests are requests; and they generate all requests if partners are
    requested too. *)
Lemma honoured_unified calls x y : honoured calls x y -> unified calls x y.
Proof.
  induction 1 as [x y (_ & H & _)|x|x y _ IH|x y z _ IH1 _ IH2].
  - apply rst_sym, rst_step. exact H.
  - apply rst_refl.
  - now apply rst_sym.
  - eapply rst_trans; eauto.
Qed.
Lemma unified_honoured calls x y : partners_requested calls -> unified calls x y -> honoured calls x y.
Proof.
  intros HP.
  assert (G : forall b a, a < b -> requested calls a b -> honoured calls b a).
  { induction b as [b IH] using (well_founded_induction lt_wf). intros a L R.
    destruct (par (index_pair_set calls) b) as [p|] eqn:E.
    - apply par_largest in E. pose proof E as (E1 & E2 & E3). specialize (E3 a L R).
      eapply rst_trans; [apply rst_step; exact E|].
      destruct (Nat.eq_dec a p) as [->|]; [apply rst_refl|]. apply IH; auto; [lia|].
      eapply HP; [| |exact R|exact E2]; lia.
    - exfalso. destruct (pair_set_spec calls) as [_ HIn]. eapply par_None; [exact E|]. apply HIn. eauto. }
  induction 1 as [x y H|x|x y _ IH|x y z _ IH1 _ IH2].
  - destruct (Nat.lt_trichotomy x y) as [L|[->|L]].
    + apply rst_sym, G; auto.
    + apply rst_refl.
    + apply G; auto. destruct H; [right|left]; auto.
  - apply rst_refl.
  - now apply rst_sym.
  - eapply rst_trans; eauto.
Qed.

(** ** Out of range requests are undefined behaviour *)
Lemma loop_range dim : forall P i m num r, length m = dim ->
  periodic_loop P i (m, num) = Some r -> forall a b, In (a, b) P -> b < dim.
Proof.
  assert (N1 : forall i m num m' num', number_one i (m, num) = Some (m', num') -> length m' = length m).
  { intros i m num m' num'. unfold number_one. destruct (nth_error m i) as [[v|]|]; cbn; try discriminate.
    - intros [= <- _]. reflexivity.
    - destruct (upd m i (Some num)) eqn:U; cbn; [|discriminate]. intros [= <- _]. eauto using upd_length. }
  assert (N2 : forall k i m num m' num', forl k i (fun i st => number_one i st) (m, num) = Some (m', num') ->
             length m' = length m).
  { induction k as [|k IH]; intros i m num m' num'; cbn [forl]; [intros [= <- _]; auto|].
    destruct (number_one i (m, num)) as [[m1 n1]|] eqn:E; cbn [obind]; [|discriminate].
    intros H. apply IH in H. rewrite H. eauto. }
  induction P as [|[a b] P IH]; intros i m num r Hm; [intros _ ? ? []|]. cbn [periodic_loop].
  destruct (number_upto i (a + 1) (m, num)) as [[m1 n1]|] eqn:E; cbn [obind]; [|discriminate].
  apply N2 in E. destruct (nth_error m1 a); cbn [obind]; [|discriminate].
  destruct (upd m1 b o) as [m2|] eqn:U; cbn [obind]; [|discriminate].
  pose proof (upd_lt _ _ _ _ U). pose proof (upd_length _ _ _ _ U).
  intros H1 c d [[= <- <-]|H2]; [lia|]. eapply IH; [|exact H1|exact H2]. lia.
Qed.
Lemma periodic_map_range dim calls r :
  periodic_map dim calls = Some r -> forall a b, requested calls a b -> a <> b -> a < dim /\ b < dim.
Proof.
  unfold periodic_map. destruct (periodic_loop (index_pair_set calls) 0 (repeat None dim, 0)) as [[i st]|] eqn:E;
    cbn [obind]; [|discriminate]. intros _ a b H N.
  destruct (pair_set_spec calls) as [_ HIn].
  destruct (Nat.lt_trichotomy a b) as [L|[L|L]]; [|congruence|].
  - assert (b < dim); [|lia]. eapply loop_range; [|exact E|]; [apply repeat_length|]. apply HIn. eauto.
  - assert (a < dim); [|lia]. eapply loop_range; [|exact E|]; [apply repeat_length|]. apply HIn.
    split; eauto. destruct H; [right|left]; auto.
Qed.
