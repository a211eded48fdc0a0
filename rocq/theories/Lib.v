(** General list facts used by several topics.  Nothing here models /repo. *)
From Coq Require Import List Arith Lia Bool.
Import ListNotations.

(** [upd l i x]: [l] with cell [i] replaced by [x]; [None] when [i] is not a
    cell of [l]. *)
Fixpoint upd {A} (l : list A) (i : nat) (x : A) : option (list A) :=
  match l, i with
  | [], _ => None
  | _ :: t, 0 => Some (x :: t)
  | h :: t, S j => match upd t j x with Some t' => Some (h :: t') | None => None end
  end.

Lemma upd_Some {A} (l : list A) i x :
  i < length l -> exists l', upd l i x = Some l'.
Proof.
  revert i; induction l as [|a l IH]; intros i H; simpl in *; [lia|].
  destruct i; [eauto|].
  destruct (IH i) as [l' E]; [lia|]. rewrite E. eauto.
Qed.

Lemma upd_None {A} (l : list A) i x : upd l i x = None <-> length l <= i.
Proof.
  revert i; induction l as [|a l IH]; intros i; simpl; [split; [lia|reflexivity]|].
  destruct i; [split; [discriminate|lia]|].
  specialize (IH i). destruct (upd l i x); split; intros; try discriminate; try lia;
    try reflexivity.
  - exfalso. assert (Some l0 = None) by (apply IH; lia). discriminate.
  - assert (length l <= i) by (apply IH; reflexivity). lia.
Qed.

Lemma upd_lt {A} (l l' : list A) i x : upd l i x = Some l' -> i < length l.
Proof.
  intros H. destruct (le_lt_dec (length l) i) as [L|L]; [|lia].
  apply (upd_None l i x) in L. congruence.
Qed.

Lemma upd_length {A} (l l' : list A) i x : upd l i x = Some l' -> length l' = length l.
Proof.
  revert l' i; induction l as [|a l IH]; intros l' i H; simpl in *; [discriminate|].
  destruct i; [injection H as <-; reflexivity|].
  destruct (upd l i x) eqn:E; [|discriminate]. injection H as <-. simpl. f_equal. eauto.
Qed.

Lemma upd_nth_error {A} (l l' : list A) i x j :
  upd l i x = Some l' ->
  nth_error l' j = if Nat.eqb j i then Some x else nth_error l j.
Proof.
  revert l' i j; induction l as [|a l IH]; intros l' i j H; simpl in *; [discriminate|].
  destruct i.
  - injection H as <-. destruct j; reflexivity.
  - destruct (upd l i x) eqn:E; [|discriminate]. injection H as <-.
    destruct j; simpl; [reflexivity|]. eauto.
Qed.

Lemma nth_error_ext {A} (l l' : list A) :
  (forall i, nth_error l i = nth_error l' i) -> l = l'.
Proof.
  revert l'; induction l as [|a l IH]; intros [|b l'] H; auto.
  - specialize (H 0); discriminate.
  - specialize (H 0); discriminate.
  - f_equal; [specialize (H 0); simpl in H; congruence|].
    apply IH; intros i; exact (H (S i)).
Qed.

Lemma nth_error_map_eq {A B} (f : A -> B) l i :
  nth_error (map f l) i = option_map f (nth_error l i).
Proof. revert i; induction l; intros [|i]; simpl; auto. Qed.

Lemma nth_error_seq s n i :
  nth_error (seq s n) i = if i <? n then Some (s + i) else None.
Proof.
  revert s i; induction n as [|n IH]; intros s i; simpl.
  - destruct i; reflexivity.
  - destruct i as [|i]; simpl; [f_equal; lia|].
    rewrite IH. destruct (Nat.ltb_spec i n), (Nat.ltb_spec (S i) (S n)); try lia; auto.
    f_equal; lia.
Qed.

Lemma nth_error_repeat_eq {A} (x : A) n i :
  nth_error (repeat x n) i = if i <? n then Some x else None.
Proof.
  revert i; induction n as [|n IH]; intros [|i]; simpl; auto.
  rewrite IH. destruct (Nat.ltb_spec i n), (Nat.ltb_spec (S i) (S n)); try lia; auto.
Qed.

Lemma nth_error_app_eq {A} (l l' : list A) i :
  nth_error (l ++ l') i =
  if i <? length l then nth_error l i else nth_error l' (i - length l).
Proof.
  destruct (Nat.ltb_spec i (length l)); [now rewrite nth_error_app1 | now rewrite nth_error_app2].
Qed.

Lemma nth_error_firstn_eq {A} (l : list A) n i :
  nth_error (firstn n l) i = if i <? n then nth_error l i else None.
Proof.
  revert l i; induction n as [|n IH]; intros l i; simpl.
  - destruct i; reflexivity.
  - destruct l as [|a l]; simpl.
    + destruct i; simpl; auto. now destruct (S i <? S n).
    + destruct i; simpl; auto. rewrite IH. 
      destruct (Nat.ltb_spec i n), (Nat.ltb_spec (S i) (S n)); try lia; auto.
Qed.

Lemma nth_error_skipn_eq {A} (l : list A) n i :
  nth_error (skipn n l) i = nth_error l (n + i).
Proof.
  revert l; induction n as [|n IH]; intros l; simpl; auto.
  destruct l; auto. now destruct i.
Qed.

Lemma nth_error_lt_Some {A} (l : list A) i :
  i < length l -> exists x, nth_error l i = Some x.
Proof.
  intros H. destruct (nth_error l i) eqn:E; [eauto|].
  apply nth_error_None in E; lia.
Qed.

Lemma nth_error_Some_lt {A} (l : list A) i x : nth_error l i = Some x -> i < length l.
Proof. intros H. apply nth_error_Some. congruence. Qed.

(** An [option]-monad bind. *)
Definition obind {A B} (o : option A) (f : A -> option B) : option B :=
  match o with Some a => f a | None => None end.
Notation "x <- e ;; k" := (obind e (fun x => k))
  (at level 60, e at next level, right associativity).
Notation "' p <- e ;; k" := (obind e (fun x => match x with p => k end))
  (at level 60, p pattern, e at next level, right associativity).

Lemma obind_Some {A B} (o : option A) (f : A -> option B) b :
  obind o f = Some b <-> exists a, o = Some a /\ f a = Some b.
Proof.
  destruct o; simpl; split; intros; try discriminate; eauto.
  - destruct H as (a' & E & H). congruence.
  - destruct H as (a' & E & H). discriminate.
Qed.

#[global] Arguments Nat.modulo : simpl never.
#[global] Arguments Nat.div : simpl never.
#[global] Arguments Nat.sub : simpl nomatch.
