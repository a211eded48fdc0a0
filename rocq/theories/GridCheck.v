(** Deciding the contracts of grids and mappers for concrete finite grids (used by examples). *)
From Coq Require Import List Arith Lia Bool.
From Verif Require Import Lib GeometryType_model Mapper_model Mapper_spec Families_props.
Import ListNotations.

Section Check.
Context {E : Type}.
Variable eqE : E -> E -> bool.
Hypothesis eqE_ok : forall a b, eqE a b = true <-> a = b.
Variable g : grid E nat.
Variable l : list E.
Local Notation els := (fun e => In e l).

Definition table : list (E * nat * nat * gt) :=
  flat_map (fun e => flat_map (fun c => let ts := subtypes (g_type g e) c in
    map (fun it => (e, fst it, c, snd it)) (combine (seq 0 (length ts)) ts)) (seq 0 (gt_dim (g_type g e) + 1))) l.
Lemma combine_seq {A} (ts : list A) : forall k i t, In (i, t) (combine (seq k (length ts)) ts) <-> k <= i /\ nth_error ts (i - k) = Some t.
Proof.
  induction ts as [|a ts IH]; intros k i t; cbn [length seq combine In].
  - split; [tauto|]. intros [_ H]. destruct (i - k); discriminate.
  - rewrite IH. split.
    + intros [H|[H1 H2]]; [injection H as <- <-; rewrite Nat.sub_diag; auto|]. split; [lia|]. replace (i - k) with (S (i - S k)) by lia. exact H2.
    + intros [H1 H2]. destruct (Nat.eq_dec k i) as [->|D]; [rewrite Nat.sub_diag in H2; injection H2 as ->; auto|right].
      split; [lia|]. replace (i - k) with (S (i - S k)) in H2 by lia. exact H2.
Qed.
Lemma table_ok e i c t : In (e, i, c, t) table <-> In e l /\ subtype g e i c t.
Proof.
  unfold table. rewrite in_flat_map. split.
  - intros (e0 & He & H). apply in_flat_map in H as (c0 & _ & H). apply in_map_iff in H as ([i0 t0] & Q & H). cbn in Q. injection Q as <- <- <- <-.
    apply combine_seq in H as [_ H]. rewrite Nat.sub_0_r in H. auto.
  - intros [He H]. exists e. split; auto. apply in_flat_map. exists c. split.
    + apply in_seq. pose proof (subtypes_dim _ _ _ (nth_error_In _ _ H)). lia.
    + apply in_map_iff. exists (i, t). split; auto. apply combine_seq. rewrite Nat.sub_0_r. split; [lia|exact H].
Qed.

Definition gt_eqb (a b : gt) : bool := if list_eq_dec bool_dec a b then true else false.
Definition same_type_b (a b : gt) : bool := gt_eqb (removelast a) (removelast b) && (length a =? length b).
Lemma same_type_b_ok a b : same_type_b a b = true <-> same_type a b.
Proof.
  unfold same_type_b, gt_eqb, same_type. rewrite andb_true_iff, Nat.eqb_eq. destruct (list_eq_dec bool_dec _ _); intuition congruence.
Qed.
Definition grid_check : bool :=
  forallb (fun e => gt_dim (g_type g e) =? g_dim g) l &&
  forallb (fun a => let '(e, i, c, t) := a in forallb (fun b => let '(e', i', c', t') := b in
    negb (g_sub g e i c =? g_sub g e' i' c') || ((c =? c') && same_type_b t t' && (negb (eqE e e') || (i =? i')))) table) table.
Lemma grid_check_ok : grid_check = true -> grid_ok els g.
Proof.
  unfold grid_check. intros H. apply andb_true_iff in H as [H1 H2]. rewrite forallb_forall in H1, H2.
  assert (K : forall e i c t e' i' c' t', In e l -> In e' l -> subtype g e i c t -> subtype g e' i' c' t' -> g_sub g e i c = g_sub g e' i' c' ->
    c = c' /\ same_type t t' /\ (e = e' -> i = i')).
  { intros e i c t e' i' c' t' He He' S S' Q. specialize (H2 (e, i, c, t) (proj2 (table_ok _ _ _ _) (conj He S))). cbn beta iota in H2.
    rewrite forallb_forall in H2. specialize (H2 (e', i', c', t') (proj2 (table_ok _ _ _ _) (conj He' S'))). cbn beta iota in H2.
    rewrite Q, Nat.eqb_refl in H2. cbn [negb orb] in H2. apply andb_true_iff in H2 as [H2 H3]. apply andb_true_iff in H2 as [H2 H4].
    apply Nat.eqb_eq in H2. apply same_type_b_ok in H4. split; auto. split; auto. intros ->. rewrite (proj2 (eqE_ok e' e') eq_refl) in H3. now apply Nat.eqb_eq in H3. }
  constructor.
  - intros e He. apply Nat.eqb_eq. auto.
  - intros e i c t i' c' t' He S S' Q. destruct (K e i c t e i' c' t' He He S S' Q) as (A & _ & B). auto.
  - intros e i c t e' i' c' t' He He' S S' Q. destruct (K e i c t e' i' c' t' He He' S S' Q) as (A & B & _). auto.
Qed.

Variable lay : gt -> nat.
Variable mp : mapper nat.
Definition mapper_check : bool :=
  forallb (fun a => let '(e, i, c, t) := a in mp_off mp (g_sub g e i c) + lay t <=? mp_size mp) table &&
  forallb (fun a => let '(e, i, c, t) := a in forallb (fun b => let '(e', i', c', t') := b in
    (g_sub g e i c =? g_sub g e' i' c') ||
    (mp_off mp (g_sub g e i c) + lay t <=? mp_off mp (g_sub g e' i' c')) ||
    (mp_off mp (g_sub g e' i' c') + lay t' <=? mp_off mp (g_sub g e i c))) table) table &&
  forallb (fun n => existsb (fun a => let '(e, i, c, t) := a in
    (mp_off mp (g_sub g e i c) <=? n) && (n <? mp_off mp (g_sub g e i c) + lay t)) table) (seq 0 (mp_size mp)).
Lemma mapper_check_ok : mapper_check = true -> mapper_ok els g lay mp.
Proof.
  unfold mapper_check. intros H. apply andb_true_iff in H as [H H3]. apply andb_true_iff in H as [H1 H2]. rewrite forallb_forall in H1, H2, H3.
  constructor.
  - intros x t i (e & s & c & He & S & ->) Hi. specialize (H1 _ (proj2 (table_ok _ _ _ _) (conj He S))). cbn beta iota in H1. apply Nat.leb_le in H1. lia.
  - intros x t i y t' j (e & s & c & He & S & ->) (e' & s' & c' & He' & S' & ->) Hi Hj Q.
    specialize (H2 _ (proj2 (table_ok _ _ _ _) (conj He S))). cbn beta iota in H2. rewrite forallb_forall in H2.
    specialize (H2 _ (proj2 (table_ok _ _ _ _) (conj He' S'))). cbn beta iota in H2.
    apply orb_true_iff in H2 as [H2|H2]; [apply orb_true_iff in H2 as [H2|H2]|].
    + now apply Nat.eqb_eq in H2.
    + apply Nat.leb_le in H2. lia.
    + apply Nat.leb_le in H2. lia.
  - intros n Hn. specialize (H3 n ltac:(apply in_seq; lia)). apply existsb_exists in H3 as ([[[e i] c] t] & I & H). apply andb_true_iff in H as [A B].
    apply Nat.leb_le in A. apply Nat.ltb_lt in B. apply table_ok in I as [He S].
    exists (g_sub g e i c), t, (n - mp_off mp (g_sub g e i c)). split; [exists e, i, c; auto|]. lia.
Qed.
End Check.
