(** C01: ReservedDeque behaves as a bounded double-ended queue. *)
From Coq Require Import List Arith Lia.
From Verif Require Import Lib ReservedDeque_model ReservedDeque_spec ReservedDeque_proofs.
Import ListNotations.

(** The full claim (every history within the capacity behaves like the sequence)
    is false: push_front(1); push_back(2) on a deque of capacity 3.  The client
    sees size 2, but back() is not 2. *)
Theorem C01_reserved_deque_refuted :
  exists (n : nat) (junk : list nat) (h : list (rdop nat)) (q : dq nat) (d : rdeque nat),
    0 < n /\ length junk = n /\
    dq_run n [] h = Some q /\ q = [Some 1; Some 2] /\
    rd_run n (rd_default junk) h = Some d /\ rd_sz d = 2 /\ rd_back n d <> Some 2 /\
    ~ agrees n d q.
Proof.
  exists 3, [7;7;7], [PushFront 1; PushBack 2], [Some 1; Some 2].
  eexists. repeat split; try (vm_compute; reflexivity); try lia.
  - vm_compute; discriminate.
  - intros (_ & _ & _ & _ & Hb & _). specialize (Hb 2 [Some 1] eq_refl).
    vm_compute in Hb; discriminate.
Qed.

(** The failure is not accidental: in every reachable state whose front is
    rotated and which is not full, the value passed to push_back does not reach
    back().  (Two different values give the same back().) *)
Theorem C01_rotated_push_back_is_lost :
  forall (T : Type) (n : nat) (junk : list T) (h : list (rdop T)) (q : dq T) (d : rdeque T) (a b : T),
    0 < n -> length junk = n ->
    dq_run n [] h = Some q -> push_back_unrotated n [] 0 h ->
    rd_run n (rd_default junk) h = Some d ->
    rd_first d <> 0 -> length q < n ->
    exists da db, rd_push_back n d a = Some da /\ rd_push_back n d b = Some db /\
                  rd_back n da = rd_back n db.
Proof.
  intros T n junk h q d a b Hn Hj Hq Hp Hd Hf Hl.
  destruct (run_inv n h 0 (rd_default junk) [] q (default_inv n junk Hn Hj) Hq Hp)
    as (d' & r & E & I).
  rewrite Hd in E; injection E as <-.
  assert (Hr : r <> 0) by (destruct I as (_ & _ & <- & _); exact Hf).
  destruct (rotated_push_back_lost n r d q a I Hr Hl) as (da & Ea & _ & Ba).
  destruct (rotated_push_back_lost n r d q b I Hr Hl) as (db & Eb & _ & Bb).
  exists da, db. repeat split; auto. congruence.
Qed.

(** What holds: every history in which push_back is only called while the front
    is not rotated refines the sequence. *)
Theorem C01_reserved_deque_partial :
  forall (T : Type) (n : nat) (junk : list T) (h : list (rdop T)) (q : dq T),
    0 < n -> length junk = n ->
    dq_run n [] h = Some q ->
    push_back_unrotated n [] 0 h ->
    exists d, rd_run n (rd_default junk) h = Some d /\ agrees n d q.
Proof. intros; eapply unrotated_run; eauto. Qed.

(** Two readable special cases: no operation at the front at all (a stack /
    bounded vector), and no push_back (a front stack that may also pop at the
    back: a queue fed at the front). *)
Theorem C01_back_only_histories :
  forall (T : Type) (n : nat) (junk : list T) (h : list (rdop T)) (q : dq T),
    0 < n -> length junk = n -> dq_run n [] h = Some q -> back_only h ->
    exists d, rd_run n (rd_default junk) h = Some d /\ agrees n d q.
Proof. intros; eapply unrotated_run; eauto using back_only_unrotated. Qed.

Theorem C01_histories_without_push_back :
  forall (T : Type) (n : nat) (junk : list T) (h : list (rdop T)) (q : dq T),
    0 < n -> length junk = n -> dq_run n [] h = Some q -> no_push_back h ->
    exists d, rd_run n (rd_default junk) h = Some d /\ agrees n d q.
Proof. intros; eapply unrotated_run; eauto using no_push_back_unrotated. Qed.

(** The initializer_list constructor is right only if the indeterminate [first_]
    happens to be 0. *)
Theorem C01_init_list_if_first_zero :
  forall (T : Type) (n : nat) (junk l : list T),
    0 < n -> length junk = n -> length l <= n ->
    exists d, rd_init_list n junk 0 l = Some d /\ agrees n d (map Some l).
Proof. intros; now apply init_list_ok. Qed.

Theorem C01_init_list_refuted :
  exists (n : nat) (junk l : list nat) (first : nat) (d : rdeque nat),
    0 < n /\ length junk = n /\ length l <= n /\
    rd_init_list n junk first l = Some d /\ ~ agrees n d (map Some l).
Proof.
  exists 3, [7;7;7], [1;2], 1. eexists.
  repeat split; try (vm_compute; reflexivity); try (simpl; lia).
  intros (_ & _ & Hg & _). specialize (Hg 0 1 eq_refl). vm_compute in Hg; discriminate.
Qed.

(** The hypotheses are met by a history with front and back operations. *)
Example C01_partial_applies :
  dq_run 4 [] [PushBack 1; PushBack 2; PushFront 5; PopFront; PushBack 6; PopFront; Assign 0 9]
    = Some [Some 9; Some 6] /\
  push_back_unrotated 4 [] 0
    [PushBack 1; PushBack 2; PushFront 5; PopFront; PushBack 6; PopFront; Assign 0 9].
Proof. vm_compute. intuition discriminate. Qed.
Example C01_no_push_back_applies :
  dq_run 2 [] [PushFront 1; PushFront 2; PopBack; PushFront 3] = Some [Some 3; Some 2] /\
  no_push_back [PushFront 1; PushFront 2; PopBack; PushFront 3].
Proof. split; [reflexivity|]. repeat constructor. Qed.
Example C01_rotated_applies :
  exists d, rd_run 3 (rd_default [0;0;0]) [PushFront 1] = Some d /\ rd_first d = 2 /\
            dq_run 3 [] [PushFront 1] = Some [Some 1].
Proof. eexists; repeat split; vm_compute; reflexivity. Qed.

Print Assumptions C01_reserved_deque_refuted.
Print Assumptions C01_rotated_push_back_is_lost.
Print Assumptions C01_reserved_deque_partial.
Print Assumptions C01_back_only_histories.
Print Assumptions C01_histories_without_push_back.
Print Assumptions C01_init_list_if_first_zero.
Print Assumptions C01_init_list_refuted.
