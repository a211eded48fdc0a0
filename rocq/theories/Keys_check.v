(** A decision procedure for [keys_ok] on a single element type. *)
From Coq Require Import List Arith Lia Bool.
From Verif Require Import Lib GeometryType_model Mapper_model Mapper_spec Mapper_props.
Import ListNotations.

Definition key_eqb (a b : localkey) : bool :=
  let '(i, c, n) := a in let '(i', c', n') := b in (i =? i') && (c =? c') && (n =? n').
Lemma key_eqb_ok a b : key_eqb a b = true <-> a = b.
Proof.
  destruct a as [[i c] n], b as [[i' c'] n']. cbn. rewrite !andb_true_iff, !Nat.eqb_eq. split; [intros [[-> ->] ->]; auto|intros H; injection H; auto].
Qed.
Definition key_in (k : localkey) (l : list localkey) : bool := existsb (key_eqb k) l.
Lemma key_in_ok k l : key_in k l = true <-> In k l.
Proof.
  unfold key_in. rewrite existsb_exists. split.
  - intros (x & H & E). apply key_eqb_ok in E. now subst.
  - intros H. exists k. split; auto. now apply key_eqb_ok.
Qed.
Fixpoint key_nodup (l : list localkey) : bool := match l with [] => true | k :: r => negb (key_in k r) && key_nodup r end.
Lemma key_nodup_ok l : key_nodup l = true -> NoDup l.
Proof.
  induction l as [|k r IH]; cbn; intros H; constructor; apply andb_true_iff in H; destruct H as [H1 H2]; auto.
  intros I. apply key_in_ok in I. now rewrite I in H1.
Qed.
Definition keys_check (lay : gt -> nat) (t : gt) (keys : list localkey) : bool :=
  key_nodup keys && forallb (fun k => key_in k (all_keys lay t)) keys && forallb (fun k => key_in k keys) (all_keys lay t).
Lemma keys_check_ok lay t keys : keys_check lay t keys = true ->
  NoDup keys /\ forall i c n, In (i, c, n) keys <-> exists s, nth_error (subtypes t c) i = Some s /\ n < lay s.
Proof.
  unfold keys_check. intros H. apply andb_true_iff in H. destruct H as [H H3]. apply andb_true_iff in H. destruct H as [H1 H2].
  split; [now apply key_nodup_ok|]. rewrite forallb_forall in H2, H3. intros i c n. rewrite <- (all_keys_in lay t i c n). split; intros I.
  - apply key_in_ok, (H2 _ I).
  - apply key_in_ok, (H3 _ I).
Qed.
