(** A mapper for every finite grid: consecutive blocks.  Used to show that the contracts of
    Mapper_spec can be met. *)
From Coq Require Import List Arith Lia Bool.
From Verif Require Import Lib GeometryType_model GeometryType_props Mapper_model Mapper_spec Mapper_props.
Import ListNotations.

Section Blocks.
Context {X : Type} (eqb : X -> X -> bool) (eqb_ok : forall x y, eqb x y = true <-> x = y).
Fixpoint block_off (l : list (X * nat)) (x : X) : nat :=
  match l with [] => 0 | (y, n) :: r => if eqb x y then 0 else n + block_off r x end.
Definition block_size (l : list (X * nat)) : nat := list_sum (map snd l).
Definition block_mapper (l : list (X * nat)) : mapper X := MAP (block_size l) (block_off l).
Lemma eqb_refl x : eqb x x = true. Proof. now apply eqb_ok. Qed.
Lemma block_range l : forall x n i, NoDup (map fst l) -> In (x, n) l -> i < n -> block_off l x + i < block_size l.
Proof.
  unfold block_size. induction l as [|[y m] r IH]; intros x n i N I Hi; [destruct I|]. cbn [map fst snd list_sum fold_right] in *. inversion N; subst. cbn.
  fold (list_sum (map snd r)). destruct I as [Q|I].
  - injection Q as -> ->. rewrite eqb_refl. lia.
  - destruct (eqb x y) eqn:Q.
    + apply eqb_ok in Q. subst. exfalso. apply H1. apply (in_map fst _ _ I).
    + specialize (IH x n i H2 I Hi). lia.
Qed.
Lemma block_disjoint l : forall x n i y m j, NoDup (map fst l) -> In (x, n) l -> In (y, m) l -> i < n -> j < m ->
  block_off l x + i = block_off l y + j -> x = y.
Proof.
  induction l as [|[z p] r IH]; intros x n i y m j N I J Hi Hj Q; [destruct I|]. cbn [map fst] in N. inversion N; subst. cbn in Q.
  destruct (eqb x z) eqn:Ex, (eqb y z) eqn:Ey; try (apply eqb_ok in Ex); try (apply eqb_ok in Ey); subst; auto.
  - destruct I as [I|I]; [injection I as ->|exfalso; apply H1; apply (in_map fst _ _ I)]. lia.
  - destruct J as [J|J]; [injection J as ->|exfalso; apply H1; apply (in_map fst _ _ J)]. lia.
  - destruct I as [I|I]; [injection I as -> ->; rewrite eqb_refl in Ex; discriminate|]. destruct J as [J|J]; [injection J as -> ->; rewrite eqb_refl in Ey; discriminate|].
    apply (IH x n i y m j); auto. lia.
Qed.
Lemma block_cover l : forall k, NoDup (map fst l) -> k < block_size l -> exists x n i, In (x, n) l /\ i < n /\ k = block_off l x + i.
Proof.
  unfold block_size. induction l as [|[y m] r IH]; intros k N Hk; [cbn in Hk; lia|]. cbn [map fst snd] in *. inversion N; subst. cbn in Hk. fold (list_sum (map snd r)) in Hk.
  destruct (le_lt_dec m k) as [L|L].
  - destruct (IH (k - m) H2 ltac:(lia)) as (x & n & i & I & Hi & Q). exists x, n, i. split; [now right|]. split; auto. cbn.
    destruct (eqb x y) eqn:Ex; [apply eqb_ok in Ex; subst; exfalso; apply H1, (in_map fst _ _ I)|]. lia.
  - exists y, m, k. split; [now left|]. split; auto. cbn. now rewrite eqb_refl.
Qed.
Lemma block_mapper_ok {E} (els : E -> Prop) (g : grid E X) lay l :
  NoDup (map fst l) -> (forall x t, entity els g x t -> In (x, lay t) l) -> (forall x n, In (x, n) l -> exists t, entity els g x t /\ lay t = n) ->
  mapper_ok els g lay (block_mapper l).
Proof.
  intros N H1 H2. constructor; cbn.
  - intros x t i He Hi. apply (block_range l x (lay t)); auto.
  - intros x t i y t' j He He' Hi Hj. apply (block_disjoint l x (lay t) i y (lay t') j); auto.
  - intros n Hn. destruct (block_cover l n N Hn) as (x & m & i & I & Hi & ->). destruct (H2 x m I) as (t & Ht & <-). now exists x, t, i.
Qed.
End Blocks.

(** * The grid with one element of a given type *)
Definition pair_eqb (x y : nat * nat) : bool := (fst x =? fst y) && (snd x =? snd y).
Lemma pair_eqb_ok x y : pair_eqb x y = true <-> x = y.
Proof. destruct x, y. unfold pair_eqb. cbn. rewrite andb_true_iff, !Nat.eqb_eq. split; [intros [-> ->]; auto|intros H; injection H; auto]. Qed.
Definition one (t : gt) : grid unit (nat * nat) := GRID (gt_dim t) (fun _ => t) (fun _ i c => (i, c)).
Definition one_els : unit -> Prop := fun _ => True.
Lemma one_grid_ok t : grid_ok one_els (one t).
Proof.
  constructor.
  - reflexivity.
  - intros e i c t1 i' c' t' _ _ _ H. cbn in H. injection H; auto.
  - intros e i c t1 e' i' c' t' _ _ H H' Q. cbn in Q. injection Q as <- <-. unfold subtype in *. cbn in *. rewrite H in H'. injection H' as <-. split; [apply same_type_refl|auto].
Qed.
Lemma one_types_ok t : types_ok one_els (one t) [t].
Proof. intros e _. exists t. split; [now left|apply same_type_refl]. Qed.
Definition one_blocks (lay : gt -> nat) (t : gt) : list (nat * nat * nat) :=
  flat_map (fun c => map (fun p => (fst p, c, lay (snd p))) (combine (seq 0 (length (subtypes t c))) (subtypes t c))) (seq 0 (gt_dim t + 1)).
Definition one_mapper (lay : gt -> nat) (t : gt) : mapper (nat * nat) := block_mapper pair_eqb (one_blocks lay t).
Lemma combine_nth_in {A} (l : list A) : forall s i x, In (i, x) (combine (seq s (length l)) l) <-> s <= i /\ nth_error l (i - s) = Some x.
Proof.
  induction l as [|a l IH]; intros s i x; cbn.
  - split; [tauto|]. intros [_ H]. destruct (i - s); discriminate.
  - rewrite IH. split.
    + intros [H|[L H]]; [injection H as <- <-; split; [lia|now rewrite Nat.sub_diag]|]. split; [lia|]. replace (i - s) with (S (i - S s)) by lia. exact H.
    + intros [L H]. destruct (Nat.eq_dec i s) as [->|Ne]; [left; rewrite Nat.sub_diag in H; injection H as ->; auto|]. right. split; [lia|].
      replace (i - s) with (S (i - S s)) in H by lia. exact H.
Qed.
Lemma one_blocks_in lay t i c n : In (i, c, n) (one_blocks lay t) <-> exists s, nth_error (subtypes t c) i = Some s /\ lay s = n.
Proof.
  unfold one_blocks. rewrite in_flat_map. split.
  - intros (c' & Hc & I). apply in_map_iff in I as ([j s] & Q & I). cbn in Q. injection Q as <- <- <-. apply combine_nth_in in I as [_ H]. rewrite Nat.sub_0_r in H. now exists s.
  - intros (s & H & <-). exists c. split.
    + apply in_seq. destruct (le_lt_dec c (gt_dim t)); [lia|]. rewrite subtypes_big in H by auto. destruct i; discriminate.
    + apply in_map_iff. exists (i, s). split; [reflexivity|]. apply combine_nth_in. rewrite Nat.sub_0_r. split; [lia|exact H].
Qed.
Lemma one_blocks_nodup lay t : NoDup (map fst (one_blocks lay t)).
Proof.
  unfold one_blocks. set (B := fun c => map (fun p : nat * gt => (fst p, c, lay (snd p))) (combine (seq 0 (length (subtypes t c))) (subtypes t c))).
  assert (Z : forall m s, NoDup (map fst (flat_map B (seq s m))) /\ forall i c, In (i, c) (map fst (flat_map B (seq s m))) -> s <= c).
  { induction m as [|m IH]; intros s; [split; [constructor|intros ? ? []]|]. destruct (IH (S s)) as [N L]. cbn [seq flat_map]. rewrite map_app.
    assert (MB : map fst (B s) = map (fun i => (i, s)) (seq 0 (length (subtypes t s)))).
    { unfold B. rewrite map_map. cbn [fst]. generalize 0. induction (subtypes t s) as [|a l IHl]; intros k; [reflexivity|]. cbn. f_equal. apply IHl. }
    split.
    - apply NoDup_app_intro; auto.
      + rewrite MB. apply FinFun.Injective_map_NoDup; [|apply seq_NoDup]. intros x y H. now injection H.
      + intros [i c] I J. rewrite MB in I. apply in_map_iff in I as (? & H & _). injection H as _ <-. apply L in J. lia.
    - intros i c I. apply in_app_or in I as [I|I]; [rewrite MB in I; apply in_map_iff in I as (? & H & _); injection H as _ <-; lia|]. apply L in I. lia. }
  apply Z.
Qed.
Lemma one_mapper_ok lay t : mapper_ok one_els (one t) lay (one_mapper lay t).
Proof.
  apply block_mapper_ok; [apply pair_eqb_ok|apply one_blocks_nodup| |].
  - intros x s (e & i & c & _ & H & ->). cbn. apply one_blocks_in. now exists s.
  - intros [i c] n I. apply one_blocks_in in I as (s & H & <-). exists s. split; auto. exists tt, i, c. split; [exact I|auto].
Qed.
Definition one_keys (n : gt -> nat) (t : gt) : unit -> list localkey := fun _ => all_keys n t.
Lemma one_keys_ok n t : keys_ok one_els (one t) n (one_keys n t).
Proof. intros e _. split; [apply all_keys_nodup|]. intros i c m. unfold one_keys. rewrite all_keys_in. reflexivity. Qed.
