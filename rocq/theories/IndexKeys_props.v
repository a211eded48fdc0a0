(** C96: multi-indices as keys. *)
From Coq Require Import List Arith Bool Lia.
From Verif Require Import Lib OverflowArray_model OverflowArray_spec OverflowArray_proofs
  IndexKeys_model IndexKeys_spec.
Import ListNotations.

Lemma made_inv {T} (a : oarray T) q : made a q -> exists nb no, oinv nb no a (map Some q).
Proof.
  intros (jb & jo & h & H1 & H2).
  destruct (orun_inv _ _ h _ _ _ (default_oinv jb jo) H1) as (a' & E & I).
  rewrite H2 in E. injection E as <-. eauto.
Qed.

Lemma made_get {T} (a : oarray T) q i : made a q -> oa_get a i = nth_error q i.
Proof.
  intros M. destruct (made_inv a q M) as (nb & no & I).
  destruct (proj1 (oinv_agrees _ _ _ _ I)) as (S & G & O & _).
  rewrite map_length in *. destruct (nth_error q i) as [x|] eqn:N.
  - apply G. now rewrite nth_error_map_eq, N.
  - apply O. now apply nth_error_None.
Qed.

Lemma made_size {T} (a : oarray T) q : made a q -> oa_size a = length q.
Proof.
  intros M. destruct (made_inv a q M) as (nb & no & I).
  destruct (proj1 (oinv_agrees _ _ _ _ I)) as (S & _). now rewrite map_length in S.
Qed.

Lemma made_iterate {T} (a : oarray T) q : made a q -> oa_iterate a = map Some q.
Proof.
  intros M. apply nth_error_ext. intros i. unfold oa_iterate.
  rewrite !nth_error_map_eq, nth_error_seq, (made_size a q M).
  destruct (Nat.ltb_spec i (length q)) as [L|L].
  - cbn. rewrite (made_get a q i M). now destruct (nth_error_lt_Some q i L) as [x ->].
  - rewrite (proj2 (nth_error_None q i) L). reflexivity.
Qed.

Section Props.
Context {T V : Type}.
Variables (eqb : T -> T -> bool) (combine : nat -> T -> nat) (nbuckets : nat).

Lemma hash_range_Some l : forall s, hash_range combine s (map Some l) = Some (fold_left combine l s).
Proof. induction l as [|x l IH]; intros s; cbn; auto. Qed.

Lemma made_hash a q : made a q -> oa_hash combine a = Some (fold_left combine q 0).
Proof. intros M. unfold oa_hash. now rewrite (made_iterate a q M), hash_range_Some. Qed.

(** The hash value of a multi-index is determined by its digits: not by the capacity, the
    size of the base array, what the memory held before, or digits removed since.  So
    multi-indices that compare equal have the same hash value. *)
Theorem C96_hash_depends_on_digits_only a b q :
  made a q -> made b q ->
  exists h, oa_hash combine a = Some h /\ oa_hash combine b = Some h.
Proof. intros Ha Hb. rewrite (made_hash a q Ha), (made_hash b q Hb). eauto. Qed.

Theorem C96_equal_keys_have_equal_hashes a b q q' :
  (forall x y, eqb x y = true <-> x = y) -> made a q -> made b q' ->
  oa_eq eqb a b = Some true -> oa_hash combine a = oa_hash combine b.
Proof.
  intros Heq Ha Hb E. destruct (made_inv a q Ha) as (? & ? & Ia), (made_inv b q' Hb) as (? & ? & Ib).
  destruct (oa_eq_spec eqb _ _ _ _ a b q q' Heq Ia Ib) as (r & Er & Hr).
  rewrite E in Er. injection Er as <-. rewrite (proj1 Hr eq_refl) in Ha.
  now rewrite (made_hash a q' Ha), (made_hash b q' Hb).
Qed.

(** A multi-index with as many digits as its base class has entries can be converted to the
    base class: digits and hash value stay, and comparison gives the same answers. *)
Theorem C96_conversion_to_the_static_type a b q q' :
  (forall x y, eqb x y = true <-> x = y) -> made a q -> made b q' ->
  length (oa_base a) = length q -> length (oa_base b) = length q' ->
  oa_slice a = q /\ sm_hash combine (oa_slice a) = oa_hash combine a /\
  oa_eq eqb a b = Some (sm_eq eqb (oa_slice a) (oa_slice b)) /\
  (forall d, q = [d] -> sm_digit (oa_slice a) = Some d).
Proof.
  intros Heq Ha Hb La Lb.
  assert (SL : forall (c : oarray T) p, made c p -> length (oa_base c) = length p -> oa_slice c = p).
  { intros c p M L. unfold oa_slice. apply nth_error_ext. intros i.
    destruct (nth_error p i) as [x|] eqn:N.
    - destruct (made_inv c p M) as (nb & no & I). apply (proj2 (oinv_agrees _ _ _ _ I) i x).
      + rewrite L. now apply nth_error_Some_lt in N.
      + now rewrite nth_error_map_eq, N.
    - apply nth_error_None in N. apply nth_error_None. lia. }
  rewrite (SL a q Ha La), (SL b q' Hb Lb). split; [auto|]. split; [|split].
  - rewrite (made_hash a q Ha). apply hash_range_Some.
  - destruct (made_inv a q Ha) as (? & ? & Ia), (made_inv b q' Hb) as (? & ? & Ib).
    destruct (oa_eq_spec eqb _ _ _ _ a b q q' Heq Ia Ib) as (r & Er & Hr). rewrite Er. f_equal.
    assert (Q : forall s s', sm_eq eqb s s' = true <-> s = s').
    { induction s as [|u s IH]; intros [|w s']; cbn; split; intros H; try discriminate; auto.
      - apply andb_true_iff in H as [H1 H2]. apply Heq in H1 as ->. apply IH in H2 as ->. auto.
      - injection H as -> ->. apply andb_true_iff. split; [now apply Heq|now apply IH]. }
    specialize (Q q q'). destruct r, (sm_eq eqb q q'); auto; [symmetry|]; tauto.
  - intros d ->. reflexivity.
Qed.

(** ** Hash tables *)
Variable dec : forall x y : T, {x = y} + {x <> y}.
Hypothesis eqb_ok : forall x y, eqb x y = true <-> x = y.

Lemma made_eq a b q q' : made a q -> made b q' ->
  oa_eq eqb a b = Some (if list_eq_dec dec q q' then true else false).
Proof.
  intros Ha Hb. destruct (made_inv a q Ha) as (? & ? & Ia), (made_inv b q' Hb) as (? & ? & Ib).
  destruct (oa_eq_spec eqb _ _ _ _ a b q q' eqb_ok Ia Ib) as (r & -> & Hr).
  destruct (list_eq_dec dec q q') as [e|e]; f_equal; [tauto|]. destruct r; [tauto|auto].
Qed.

(** a bucket represents a partial function *)
Definition bucket_is (l : list (oarray T * V)) (f : list T -> option V) : Prop :=
  Forall (fun kv => exists q, made (fst kv) q) l /\
  forall k q, made k q -> bucket_find eqb k l = Some (f q).

Lemma bucket_is_ext l f g : bucket_is l f -> (forall q, f q = g q) -> bucket_is l g.
Proof. intros [H1 H2] H. split; auto. intros k q M. rewrite <- H. auto. Qed.

Lemma bucket_assign_is k v q : made k q -> forall l f, bucket_is l f ->
  exists l', bucket_assign eqb k v l = Some l' /\
             bucket_is l' (fun p => if list_eq_dec dec q p then Some v else f p).
Proof.
  intros M l. induction l as [|[k' w] l IH]; intros f [Hf Hb].
  - eexists. split; [reflexivity|]. split; [constructor; [eauto|constructor]|].
    intros c p Mc. cbn. rewrite (made_eq k c q p M Mc). cbn.
    destruct (list_eq_dec dec q p); auto. apply (Hb c p Mc).
  - inversion Hf as [|? ? (q1 & M1) Hf']; subst. cbn [fst] in M1. cbn [bucket_assign].
    rewrite (made_eq k' k q1 q M1 M). cbn [obind]. destruct (list_eq_dec dec q1 q) as [<-|Hn].
    + eexists. split; [reflexivity|]. split; [constructor; cbn; eauto|].
      intros c p Mc. cbn. rewrite (made_eq k' c q1 p M1 Mc). cbn.
      destruct (list_eq_dec dec q1 p) as [|Hp]; auto.
      specialize (Hb c p Mc). cbn in Hb. rewrite (made_eq k' c q1 p M1 Mc) in Hb. cbn in Hb.
      now destruct (list_eq_dec dec q1 p).
    + destruct (IH (fun p => if list_eq_dec dec q1 p
                             then match bucket_find eqb k' l with Some r => r | None => None end
                             else f p)) as (l' & E & Hf2 & Hb2).
      { split; auto. intros c p Mc. destruct (list_eq_dec dec q1 p) as [<-|Hp].
        - assert (G : forall l, Forall (fun kv => exists q, made (fst kv) q) l ->
              bucket_find eqb c l = bucket_find eqb k' l /\ exists r, bucket_find eqb (V:=V) k' l = Some r).
          { clear IH Hf Hb Hf'. induction 1 as [|[k2 w2] l2 (q2 & M2) H [IH IH']]; cbn; eauto.
            cbn in M2. rewrite (made_eq k2 c q2 q1 M2 Mc), (made_eq k2 k' q2 q1 M2 M1). cbn.
            destruct (list_eq_dec dec q2 q1); eauto. }
          destruct (G l Hf') as [-> [r ->]]. reflexivity.
        - specialize (Hb c p Mc). cbn in Hb. rewrite (made_eq k' c q1 p M1 Mc) in Hb. cbn in Hb.
          now destruct (list_eq_dec dec q1 p). }
      rewrite E. cbn [obind]. eexists. split; [reflexivity|]. split; [constructor; cbn; eauto|].
      intros c p Mc. cbn [bucket_find]. rewrite (made_eq k' c q1 p M1 Mc). cbn [obind].
      specialize (Hb c p Mc). cbn in Hb. rewrite (made_eq k' c q1 p M1 Mc) in Hb. cbn in Hb.
      destruct (list_eq_dec dec q1 p) as [Hp|Hp].
      * destruct (list_eq_dec dec q p); [congruence|]. exact Hb.
      * rewrite (Hb2 c p Mc). destruct (list_eq_dec dec q p); auto.
        destruct (list_eq_dec dec q1 p); [contradiction|auto].
Qed.

Definition hash_of (q : list T) : nat := fold_left combine q 0.
Definition table_is (t : table) (f : list T -> option V) : Prop :=
  length t = nbuckets /\
  forall n l, nth_error t n = Some l ->
    bucket_is l (fun q => if hash_of q mod nbuckets =? n then f q else None).

Lemma table_find_is t f k q : 0 < nbuckets -> table_is t f -> made k q ->
  table_find eqb combine nbuckets t k = Some (f q).
Proof.
  intros Hn [L H] M. unfold table_find. rewrite (made_hash k q M). cbn [obind].
  fold (hash_of q). assert (hash_of q mod nbuckets < nbuckets) by (apply Nat.mod_upper_bound; lia).
  destruct (nth_error_lt_Some t (hash_of q mod nbuckets)) as [l El]; [lia|]. rewrite El. cbn [obind].
  destruct (H _ _ El) as [_ B]. rewrite (B k q M), Nat.eqb_refl. reflexivity.
Qed.

Lemma table_assign_is t f k q v : 0 < nbuckets -> table_is t f -> made k q ->
  exists t', table_assign eqb combine nbuckets t k v = Some t' /\
             table_is t' (fun p => if list_eq_dec dec q p then Some v else f p).
Proof.
  intros Hn [L H] M. unfold table_assign. rewrite (made_hash k q M). cbn [obind].
  fold (hash_of q). assert (HB : hash_of q mod nbuckets < nbuckets) by (apply Nat.mod_upper_bound; lia).
  destruct (nth_error_lt_Some t (hash_of q mod nbuckets)) as [l El]; [lia|]. rewrite El. cbn [obind].
  destruct (bucket_assign_is k v q M l _ (H _ _ El)) as (l' & -> & B). cbn [obind].
  destruct (upd t (hash_of q mod nbuckets) l') as [t'|] eqn:U.
  2:{ apply upd_None in U. lia. }
  exists t'. split; [reflexivity|]. split; [rewrite (upd_length _ _ _ _ U); auto|].
  intros n l2 E2. rewrite (upd_nth_error _ _ _ _ _ U) in E2.
  destruct (Nat.eqb_spec n (hash_of q mod nbuckets)) as [->|Hne].
  - injection E2 as <-. eapply bucket_is_ext; [exact B|]. intros p. cbn.
    destruct (list_eq_dec dec q p) as [<-|]; auto. now rewrite Nat.eqb_refl.
  - eapply bucket_is_ext; [apply (H _ _ E2)|]. intros p. cbn.
    destruct (list_eq_dec dec q p) as [<-|]; auto.
    destruct (Nat.eqb_spec (hash_of q mod nbuckets) n); [congruence|auto].
Qed.

Lemma last_assigned_snoc l q v p :
  last_assigned dec (l ++ [(q, v)]) p
  = if list_eq_dec dec q p then Some v else last_assigned (V:=V) dec l p.
Proof.
  induction l as [|[q' v'] l IH]; cbn; [now destruct (list_eq_dec dec q p)|].
  rewrite IH. destruct (list_eq_dec dec q p); auto.
Qed.

(** the same assignments, with the key objects and with their digits *)
Definition same_assignments (l : list (oarray T * V)) (ql : list (list T * V)) : Prop :=
  Forall2 (fun kv qv => made (fst kv) (fst qv) /\ snd kv = snd qv) l ql.

Lemma table_fill_is : 0 < nbuckets -> forall l ql, same_assignments l ql ->
  forall t done, table_is t (last_assigned dec done) ->
  exists t', table_fill eqb combine nbuckets t l = Some t' /\
             table_is t' (last_assigned dec (done ++ ql)).
Proof.
  intros Hn l ql H. induction H as [|[k v] [q w] l ql [M Hv] HF IH]; intros t done Ht.
  - exists t. rewrite app_nil_r. auto.
  - cbn [fst snd] in M, Hv. subst w.
    destruct (table_assign_is t _ k q v Hn Ht M) as (t1 & E1 & H1).
    cbn [table_fill]. rewrite E1. cbn [obind].
    destruct (IH t1 (done ++ [(q, v)])) as (t' & E & H').
    + destruct H1 as [L1 H1]. split; auto. intros n l0 E0.
      eapply bucket_is_ext; [apply (H1 n l0 E0)|]. intros p. cbn. now rewrite last_assigned_snoc.
    + exists t'. split; auto. rewrite <- app_assoc in H'. exact H'.
Qed.

(** A hash table with multi-indices as keys is a map from digit sequences: whatever objects
    the keys were, with whatever histories, looking up an object with digits [q] finds the
    value assigned last under an object with the digits [q], and nothing otherwise.  This
    holds for every hash function of the digits and every number of buckets. *)
Theorem C96_hash_tables_are_maps l ql k q :
  0 < nbuckets ->
  same_assignments l ql -> made k q ->
  exists t, table_fill eqb combine nbuckets (table_empty nbuckets) l = Some t /\
            table_find eqb combine nbuckets t k = Some (last_assigned dec ql q).
Proof.
  intros Hn Hs M.
  destruct (table_fill_is Hn l ql Hs (table_empty nbuckets) []) as (t & E & Ht).
  { split; [apply repeat_length|]. intros n b Hb. apply nth_error_In, repeat_spec in Hb as ->.
    split; [constructor|]. intros c p _. cbn. now destruct (_ =? _). }
  exists t. split; auto. now apply (table_find_is t _ k q Hn Ht M).
Qed.

End Props.

(** Two objects with digits 5, 7: one with a base array of two entries and memory full of
    ones, one with a base array of one entry that has held a third digit before. *)
Definition ex96_a := OA [5; 7] [1] 2.
Definition ex96_b := OA [5] [7; 9] 2.
Example C96_hypotheses_met :
  made ex96_a [5; 7] /\ made ex96_b [5; 7] /\
  length (oa_base ex96_a) = 2 /\ length (oa_base ex96_b) <> 2.
Proof.
  split; [|split; [|split; [reflexivity|discriminate]]].
  - exists [1;1], [1], [OPushBack 5; OPushBack 7]. split; reflexivity.
  - exists [0], [0;0], [OPushBack 5; OPushBack 8; OPushBack 9; OPopBack; OAssign 1 7]. split; reflexivity.
Qed.
Example C96_table_example :
  exists t, table_fill Nat.eqb (fun s d => 31 * s + d) 4 (table_empty 4) [(ex96_a, 10); (ex96_b, 20)] = Some t /\
            table_find Nat.eqb (fun s d => 31 * s + d) 4 t ex96_a = Some (Some 20).
Proof. eexists. split; vm_compute; reflexivity. Qed.

Print Assumptions C96_hash_depends_on_digits_only.
Print Assumptions C96_equal_keys_have_equal_hashes.
Print Assumptions C96_conversion_to_the_static_type.
Print Assumptions C96_hash_tables_are_maps.
