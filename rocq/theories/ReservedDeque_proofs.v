From Coq Require Import List Arith Lia Bool.
From Verif Require Import Lib ReservedDeque_model ReservedDeque_spec.
Import ListNotations.

Lemma mod_sum_lt n a b : 0 < n -> (a + b) mod n < n.
Proof. intros. apply Nat.mod_upper_bound. lia. Qed.

Lemma mod_shift_inj n f i j :
  0 < n -> i < n -> j < n -> (f + i) mod n = (f + j) mod n -> i = j.
Proof.
  intros Hn Hi Hj E.
  pose proof (Nat.div_mod (f + i) n ltac:(lia)) as A.
  pose proof (Nat.div_mod (f + j) n ltac:(lia)) as B.
  rewrite E in A.
  set (qi := (f + i) / n) in *. set (qj := (f + j) / n) in *.
  destruct (lt_eq_lt_dec qi qj) as [[L|L]|L]; [nia | subst; rewrite L in A; lia | nia].
Qed.

(** The representation invariant relating a deque and a sequence, with
    rotation [r]. *)
Definition inv {T} (n r : nat) (d : rdeque T) (q : dq T) : Prop :=
  0 < n /\ length (rd_data d) = n /\ rd_first d = r /\ r < n /\
  rd_size d = length q /\ length q <= n /\
  (forall i x, nth_error q i = Some (Some x) ->
     nth_error (rd_data d) ((r + i) mod n) = Some x).

Lemma nth_error_removelast {A} (q : list A) i x :
  nth_error (removelast q) i = Some x -> nth_error q i = Some x.
Proof.
  revert i; induction q as [|a q IH]; intros i H; [destruct i; discriminate|].
  destruct q as [|b q]; [destruct i; discriminate|].
  change (removelast (a :: b :: q)) with (a :: removelast (b :: q)) in H.
  destruct i; simpl in *; auto.
Qed.
Lemma length_removelast {A} (q : list A) : length (removelast q) = length q - 1.
Proof.
  induction q as [|a q IH]; auto. destruct q as [|b q]; auto.
  change (removelast (a :: b :: q)) with (a :: removelast (b :: q)).
  cbn [length] in *. lia.
Qed.

Lemma step_inv {T} n r (d : rdeque T) q o q' :
  inv n r d q -> dq_step n q o = Some q' ->
  (match o with PushBack _ => r = 0 | _ => True end) ->
  exists d', rd_step n d o = Some d' /\ inv n (rotation_step n (length q) r o) d' q'.
Proof.
  intros (Hn & Hl & Hf & Hr & Hs & Hq & Hc) Hstep Hro.
  destruct o as [t|t| | |s| |i t]; simpl in Hstep.
  - (* PushBack *)
    subst r. destruct (Nat.ltb_spec (length q) n) as [L|L]; [|discriminate].
    injection Hstep as <-. simpl. unfold rd_push_back.
    destruct (upd_Some (rd_data d) (rd_size d mod n) t) as [dat E].
    { rewrite Hl. apply Nat.mod_upper_bound; lia. }
    rewrite E. simpl. eexists; split; [reflexivity|].
    rewrite Hs in E. rewrite Nat.mod_small in E by lia.
    repeat split; simpl; auto; try lia.
    + rewrite (upd_length _ _ _ _ E). auto.
    + rewrite app_length; simpl; lia.
    + rewrite app_length; simpl; lia.
    + rewrite Hro. intros i x Hi. rewrite Nat.add_0_l.
      pose proof (nth_error_Some_lt _ _ _ Hi) as Hlt. rewrite app_length in Hlt; simpl in Hlt.
      rewrite Nat.mod_small by lia.
      rewrite (upd_nth_error _ _ _ _ i E).
      rewrite nth_error_app_eq in Hi.
      destruct (Nat.ltb_spec i (length q)).
      * destruct (Nat.eqb_spec i (length q)); [lia|].
        specialize (Hc i x Hi). rewrite Hro, Nat.add_0_l, Nat.mod_small in Hc by lia. auto.
      * assert (i = length q) by lia. subst i. rewrite Nat.eqb_refl.
        rewrite Nat.sub_diag in Hi. simpl in Hi. congruence.
  - (* PushFront *)
    destruct (Nat.ltb_spec (length q) n) as [L|L]; [|discriminate].
    injection Hstep as <-. simpl. unfold rd_push_front. rewrite Hf.
    assert (Hlt : (r + (n - 1)) mod n < n) by (apply Nat.mod_upper_bound; lia).
    destruct (upd_Some (rd_data d) ((r + (n-1)) mod n) t) as [dat E]; [rewrite Hl; auto|].
    rewrite E. simpl. eexists; split; [reflexivity|].
    repeat split; simpl; auto; try lia.
    + rewrite (upd_length _ _ _ _ E). auto.
    + intros i x Hi. rewrite (upd_nth_error _ _ _ _ _ E).
      rewrite Nat.add_mod_idemp_l by lia.
      destruct i as [|i].
      * rewrite Nat.add_0_r, Nat.eqb_refl. simpl in Hi. congruence.
      * simpl in Hi. pose proof (nth_error_Some_lt _ _ _ Hi).
        destruct (Nat.eqb_spec ((r + (n - 1) + S i) mod n) ((r + (n-1)) mod n)) as [Eq|Ne].
        -- exfalso.
           assert (S i = 0) by
             (apply (mod_shift_inj n (r + (n-1)) (S i) 0); try lia;
              rewrite Nat.add_0_r; exact Eq). lia.
        -- replace (r + (n - 1) + S i) with (r + i + 1 * n) by lia.
           rewrite Nat.mod_add by lia. auto.
  - (* PopBack *)
    injection Hstep as <-. simpl. eexists; split; [reflexivity|].
    unfold rd_pop_back. destruct (Nat.eqb_spec (rd_size d) 0) as [Z|Z].
    + destruct q; [|simpl in *; lia]. simpl. repeat split; auto.
    + repeat split; simpl; auto; try lia.
      * rewrite length_removelast. lia.
      * rewrite length_removelast. lia.
      * intros i x Hi. apply Hc. now apply nth_error_removelast.
  - (* PopFront *)
    injection Hstep as <-. simpl. eexists; split; [reflexivity|].
    unfold rd_pop_front. rewrite Hs. destruct (Nat.eqb_spec (length q) 0) as [Z|Z].
    + destruct q; [|simpl in *; lia]. simpl. repeat split; auto.
    + destruct q as [|a q]; [simpl in *; lia|].
      repeat split; simpl in *; auto; try lia.
      * apply Nat.mod_upper_bound; lia.
      * intros i x Hi. rewrite Nat.add_mod_idemp_l by lia.
        replace (r + 1 + i) with (r + S i) by lia. apply Hc. exact Hi.
  - (* Resize *)
    destruct (Nat.leb_spec s n) as [L|L]; [|discriminate].
    injection Hstep as <-. simpl. eexists; split; [reflexivity|].
    assert (Hlen : length (firstn s q ++ repeat None (s - length q)) = s).
    { rewrite app_length, firstn_length, repeat_length. lia. }
    repeat split; simpl; auto; try lia.
    intros i x Hi. rewrite nth_error_app_eq in Hi.
    destruct (Nat.ltb_spec i (length (firstn s q))) as [L1|L1].
    + apply Hc. rewrite nth_error_firstn_eq in Hi.
      destruct (i <? s); [auto|discriminate].
    + rewrite nth_error_repeat_eq in Hi.
      destruct (_ <? _); discriminate.
  - (* Clear *)
    injection Hstep as <-. simpl. eexists; split; [reflexivity|].
    repeat split; simpl; auto; try lia.
    intros [|i] x Hi; discriminate.
  - (* Assign *)
    pose proof (upd_lt _ _ _ _ Hstep) as Hi. simpl. unfold rd_set. rewrite Hf.
    destruct (upd_Some (rd_data d) ((r + i) mod n) t) as [dat E].
    { rewrite Hl. apply Nat.mod_upper_bound; lia. }
    rewrite E. simpl. eexists; split; [reflexivity|].
    repeat split; simpl; auto; try lia.
    + rewrite (upd_length _ _ _ _ E); auto.
    + rewrite (upd_length _ _ _ _ Hstep); auto.
    + rewrite (upd_length _ _ _ _ Hstep); auto.
    + intros j x Hj. rewrite (upd_nth_error _ _ _ _ _ Hstep) in Hj.
      rewrite (upd_nth_error _ _ _ _ _ E).
      destruct (Nat.eqb_spec j i) as [->|Ne].
      * rewrite Nat.eqb_refl. congruence.
      * destruct (Nat.eqb_spec ((r + j) mod n) ((r + i) mod n)) as [Eq|_].
        -- exfalso. apply Ne. pose proof (nth_error_Some_lt _ _ _ Hj).
           apply (mod_shift_inj n r j i); auto; lia.
        -- auto.
Qed.

Lemma inv_agrees {T} n r (d : rdeque T) q : inv n r d q -> agrees n d q.
Proof.
  intros (Hn & Hl & Hf & Hr & Hs & Hq & Hc).
  assert (G : forall i x, nth_error q i = Some (Some x) -> rd_get n d i = Some x).
  { intros i x Hi. unfold rd_get. rewrite Hf. auto. }
  repeat split; auto.
  - unfold rd_empty. rewrite Hs. destruct q; reflexivity.
  - intros x q' ->. unfold rd_front. rewrite Hf.
    specialize (Hc 0 x eq_refl). rewrite Nat.add_0_r, Nat.mod_small in Hc; auto.
  - intros x q' ->. unfold rd_back. rewrite Hs, Hf, app_length. simpl.
    replace (r + (length q' + 1) - 1) with (r + length q') by lia.
    apply Hc. rewrite nth_error_app2, Nat.sub_diag by lia. reflexivity.
  - unfold rd_iterate. rewrite map_length, seq_length. auto.
  - intros i x Hi. unfold rd_iterate. rewrite nth_error_map_eq, nth_error_seq.
    pose proof (nth_error_Some_lt _ _ _ Hi).
    destruct (Nat.ltb_spec i (rd_size d)); [|lia]. simpl. f_equal. apply G; auto.
Qed.

Lemma run_inv {T} n (h : list (rdop T)) : forall r d q q',
  inv n r d q -> dq_run n q h = Some q' -> push_back_unrotated n q r h ->
  exists d' r', rd_run n d h = Some d' /\ inv n r' d' q'.
Proof.
  induction h as [|o h IH]; intros r d q q' Hi Hr Hp; simpl in *.
  - injection Hr as <-. eauto.
  - destruct (dq_step n q o) as [q1|] eqn:E; [|discriminate]. simpl in Hr.
    destruct Hp as [Ho Hp].
    destruct (step_inv _ _ _ _ _ _ Hi E) as (d1 & E1 & I1); [destruct o; auto|].
    rewrite E1. simpl. eauto.
Qed.

Lemma default_inv {T} n (junk : list T) :
  0 < n -> length junk = n -> inv n 0 (rd_default junk) [].
Proof.
  intros. repeat split; simpl; auto; try lia. intros [|i] x Hi; discriminate.
Qed.

Lemma unrotated_run {T} n (h : list (rdop T)) (junk : list T) q :
  0 < n -> length junk = n -> dq_run n [] h = Some q -> push_back_unrotated n [] 0 h ->
  exists d, rd_run n (rd_default junk) h = Some d /\ agrees n d q.
Proof.
  intros Hn Hj Hr Hp.
  destruct (run_inv n h 0 (rd_default junk) [] q) as (d & r & E & I); auto.
  - now apply default_inv.
  - exists d; split; auto. eapply inv_agrees; eauto.
Qed.

Lemma back_only_unrotated {T} n (h : list (rdop T)) :
  back_only h -> forall q, push_back_unrotated n q 0 h.
Proof.
  induction 1 as [|o h Ho _ IH]; intros q; simpl; auto.
  split; [destruct o; auto|].
  destruct (dq_step n q o); auto.
  destruct o; simpl; try contradiction; auto.
Qed.

Lemma no_push_back_unrotated {T} n (h : list (rdop T)) :
  no_push_back h -> forall q r, push_back_unrotated n q r h.
Proof.
  induction 1 as [|o h Ho _ IH]; intros q r; simpl; auto.
  split; [destruct o; auto; contradiction|]. destruct (dq_step n q o); auto.
Qed.

(** When the front is rotated, push_back writes a cell that is not the one
    back() reads. *)
Lemma rotated_push_back_lost {T} n r (d : rdeque T) q t :
  inv n r d q -> r <> 0 -> length q < n ->
  exists d', rd_push_back n d t = Some d' /\ rd_sz d' = S (length q) /\
    rd_back n d' = nth_error (rd_data d) ((r + length q) mod n).
Proof.
  intros (Hn & Hl & Hf & Hr & Hs & Hq & Hc) Hr0 Hlen.
  unfold rd_push_back.
  destruct (upd_Some (rd_data d) (rd_size d mod n) t) as [dat E].
  { rewrite Hl. apply Nat.mod_upper_bound; lia. }
  rewrite E. simpl. eexists; split; [reflexivity|]. split; [unfold rd_sz; simpl; lia|].
  unfold rd_back. simpl. rewrite (upd_nth_error _ _ _ _ _ E).
  rewrite Hf, Hs. replace (r + S (length q) - 1) with (r + length q) by lia.
  destruct (Nat.eqb_spec ((r + length q) mod n) (length q mod n)) as [Eq|_]; auto.
  exfalso. apply Hr0.
  apply (mod_shift_inj n (length q) r 0); try lia.
  rewrite Nat.add_0_r, (Nat.add_comm _ r). auto.
Qed.

Lemma init_list_ok {T} n (junk l : list T) :
  0 < n -> length junk = n -> length l <= n ->
  exists d, rd_init_list n junk 0 l = Some d /\ agrees n d (map Some l).
Proof.
  intros Hn Hj Hl. unfold rd_init_list.
  destruct (Nat.leb_spec (length l) n); [|lia]. eexists; split; [reflexivity|].
  apply (inv_agrees n 0). repeat split; simpl; auto; try lia.
  - rewrite app_length, skipn_length. lia.
  - now rewrite map_length.
  - now rewrite map_length.
  - intros i x Hi. rewrite nth_error_map_eq in Hi.
    destruct (nth_error l i) eqn:E; [|discriminate]. injection Hi as <-.
    pose proof (nth_error_Some_lt _ _ _ E).
    rewrite Nat.mod_small by lia. now rewrite nth_error_app1.
Qed.
