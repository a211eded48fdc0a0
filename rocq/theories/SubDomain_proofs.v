(** insertElement in closed form: the state is a function of the list of entities
    in the order of their first insertion. *)
From Coq Require Import List Arith Bool Lia.
From Verif Require Import Lib Basis_model SubDomain_model SubDomain_spec.
Import ListNotations.

Lemma upd_map_seq {A} (f g : nat -> A) n i :
  i < n -> (forall j, j < n -> j <> i -> g j = f j) ->
  upd (map f (seq 0 n)) i (g i) = Some (map g (seq 0 n)).
Proof.
  intros Hi H. destruct (upd_Some (map f (seq 0 n)) i (g i)) as [l Hl].
  { rewrite map_length, seq_length. exact Hi. }
  rewrite Hl. f_equal. apply nth_error_ext. intros j.
  rewrite (upd_nth_error _ _ _ _ j Hl), !nth_error_map_eq, !nth_error_seq.
  destruct (Nat.eqb_spec j i) as [->|N].
  - destruct (Nat.ltb_spec i n); [reflexivity|lia].
  - destruct (Nat.ltb_spec j n); [|reflexivity]. cbn. now rewrite H.
Qed.
Lemma nth_error_map_seq {A} (f : nat -> A) n i : i < n -> nth_error (map f (seq 0 n)) i = Some (f i).
Proof. intros H. rewrite nth_error_map_eq, nth_error_seq. destruct (Nat.ltb_spec i n); [reflexivity|lia]. Qed.
Lemma repeat_map_seq {A} (x : A) n : repeat x n = map (fun _ => x) (seq 0 n).
Proof.
  apply nth_error_ext. intros j. rewrite nth_error_repeat_eq, nth_error_map_eq, nth_error_seq.
  destruct (j <? n); reflexivity.
Qed.

Definition mem (x : nat) (L : list nat) : bool := existsb (Nat.eqb x) L.
Lemma mem_In x L : mem x L = true <-> In x L.
Proof.
  unfold mem. rewrite existsb_exists. split.
  - intros (y & H & E). apply Nat.eqb_eq in E. now subst.
  - intros H. exists x. now rewrite Nat.eqb_refl.
Qed.
Lemma mem_false x L : mem x L = false <-> ~ In x L.
Proof. rewrite <- mem_In. destruct (mem x L); split; congruence. Qed.
Definition add (L : list nat) (x : nat) : list nat := if mem x L then L else L ++ [x].
Lemma in_add L x y : In y (add L x) <-> In y L \/ y = x.
Proof.
  unfold add. destruct (mem x L) eqn:M.
  - apply mem_In in M. split; [auto|]. intros [H| ->]; auto.
  - rewrite in_app_iff. cbn. intuition.
Qed.
Lemma NoDup_snoc {A} (L : list A) x : NoDup L -> ~ In x L -> NoDup (L ++ [x]).
Proof.
  intros H N. induction H as [|y L Hy HL IH]; cbn.
  - repeat constructor; auto.
  - constructor.
    + rewrite in_app_iff. cbn. intros [K|[K|[]]]; [auto|]. subst. apply N. now left.
    + apply IH. intros K. apply N. now right.
Qed.
Lemma add_NoDup L x : NoDup L -> NoDup (add L x).
Proof.
  intros H. unfold add. destruct (mem x L) eqn:M; auto. apply mem_false in M. now apply NoDup_snoc.
Qed.
Lemma in_adds xs : forall L y, In y (fold_left add xs L) <-> In y L \/ In y xs.
Proof.
  induction xs as [|x xs IH]; intros L y; cbn; [tauto|]. rewrite IH, in_add. intuition.
Qed.
Lemma adds_NoDup xs : forall L, NoDup L -> NoDup (fold_left add xs L).
Proof. induction xs; intros L H; cbn; auto using add_NoDup. Qed.
Lemma adds_prefix xs : forall L, exists L', fold_left add xs L = L ++ L'.
Proof.
  induction xs as [|x xs IH]; intros L; cbn; [exists []; now rewrite app_nil_r|].
  destruct (IH (add L x)) as [L' ->]. unfold add. destruct (mem x L); [eauto|].
  exists (x :: L'). now rewrite <- app_assoc.
Qed.
Lemma adds_id xs : forall L, (forall x, In x xs -> In x L) -> fold_left add xs L = L.
Proof.
  induction xs as [|x xs IH]; intros L H; cbn; auto.
  unfold add at 2. rewrite (proj2 (mem_In x L)) by (apply H; now left).
  apply IH. intros; apply H; now right.
Qed.

Section Closed.
Variable ty : nat -> nat.

Fixpoint rank (x : nat) (L : list nat) : option nat :=
  match L with
  | [] => None
  | y :: r => if x =? y then Some 0
              else option_map (fun k => (if ty y =? ty x then 1 else 0) + k) (rank x r)
  end.
Definition cnt (p : nat -> bool) (L : list nat) : nat := length (filter p L).
Lemma cnt_snoc p L x : cnt p (L ++ [x]) = cnt p L + (if p x then 1 else 0).
Proof. unfold cnt. rewrite filter_app, app_length. cbn. destruct (p x); reflexivity. Qed.

Lemma rank_In x L : (exists k, rank x L = Some k) <-> In x L.
Proof.
  induction L as [|y L IH]; cbn.
  - split; [intros [k H]; discriminate|intros []].
  - destruct (Nat.eqb_spec x y) as [->|N].
    + split; eauto.
    + split.
      * intros [k H]. right. apply IH. destruct (rank x L); [eauto|discriminate].
      * intros [H|H]; [congruence|]. apply IH in H as [k ->]. cbn. eauto.
Qed.
Lemma rank_None x L : rank x L = None <-> ~ In x L.
Proof.
  rewrite <- rank_In. destruct (rank x L); split; intros H; try discriminate; auto.
  - exfalso. apply H. eauto.
  - intros [k K]. discriminate.
Qed.
Lemma rank_app_l x L L' : In x L -> rank x (L ++ L') = rank x L.
Proof.
  induction L as [|y L IH]; intros H; [destruct H|]. cbn.
  destruct (Nat.eqb_spec x y); [reflexivity|]. destruct H as [H|H]; [congruence|]. now rewrite IH.
Qed.
Lemma rank_snoc_new x L : ~ In x L -> rank x (L ++ [x]) = Some (cnt (fun y => ty y =? ty x) L).
Proof.
  induction L as [|y L IH]; intros H; cbn.
  - now rewrite Nat.eqb_refl.
  - destruct (Nat.eqb_spec x y) as [->|N]; [exfalso; apply H; now left|].
    rewrite IH by (intros K; apply H; now right). cbn. unfold cnt. cbn.
    destruct (ty y =? ty x); reflexivity.
Qed.
Lemma rank_snoc_other x y L : x <> y -> rank x (L ++ [y]) = rank x L.
Proof.
  intros N. induction L as [|z L IH]; cbn.
  - destruct (Nat.eqb_spec x y); [congruence|reflexivity].
  - destruct (x =? z); [reflexivity|]. now rewrite IH.
Qed.

(** Ranks within a type are exactly 0 .. count-1. *)
Lemma rank_lt x L k : rank x L = Some k -> k < cnt (fun y => ty y =? ty x) L.
Proof.
  revert k. induction L as [|y L IH]; intros k; cbn; [discriminate|].
  destruct (Nat.eqb_spec x y) as [->|N].
  - intros [= <-]. unfold cnt. cbn. rewrite Nat.eqb_refl. cbn. lia.
  - destruct (rank x L) as [j|]; [|discriminate]. intros [= <-]. specialize (IH j eq_refl).
    unfold cnt in *. cbn. destruct (ty y =? ty x); cbn; lia.
Qed.
Lemma rank_onto t L k : NoDup L -> k < cnt (fun y => ty y =? t) L ->
  exists x, In x L /\ ty x = t /\ rank x L = Some k.
Proof.
  revert k. induction L as [|y L IH]; intros k HN Hk; [unfold cnt in Hk; cbn in Hk; lia|].
  inversion HN; subst. unfold cnt in Hk. cbn in Hk.
  destruct (Nat.eqb_spec (ty y) t) as [Ht|Ht].
  - destruct k as [|k].
    + exists y. cbn. rewrite Nat.eqb_refl. auto.
    + cbn in Hk. destruct (IH k H2) as (x & Hx & Hxt & Hr); [unfold cnt; lia|].
      exists x. cbn. destruct (Nat.eqb_spec x y); [congruence|].
      rewrite Hr. cbn. rewrite Ht, Hxt, Nat.eqb_refl. auto.
  - destruct (IH k H2 Hk) as (x & Hx & Hxt & Hr). exists x. cbn.
    destruct (Nat.eqb_spec x y); [congruence|]. rewrite Hr. cbn.
    destruct (Nat.eqb_spec (ty y) (ty x)); [congruence|]. auto.
Qed.
Lemma rank_inj x x' L k : rank x L = Some k -> rank x' L = Some k -> ty x = ty x' -> x = x'.
Proof.
  intros H H' Ht. revert k H H'. induction L as [|y L IH]; intros k; cbn; [discriminate|].
  destruct (Nat.eqb_spec x y) as [->|N], (Nat.eqb_spec x' y) as [->|N']; auto.
  - intros [= <-]. destruct (rank x' L); [|discriminate]. cbn. rewrite Ht, Nat.eqb_refl. discriminate.
  - intros H [= <-]. revert H. destruct (rank x L); [|discriminate]. cbn. rewrite Ht, Nat.eqb_refl. discriminate.
  - destruct (rank x L) as [a|]; [|discriminate]. destruct (rank x' L) as [b|]; [|discriminate].
    cbn. rewrite Ht. intros H H'. apply (IH a); auto. f_equal.
    injection H as H. injection H' as H'. lia.
Qed.

Section Host.
Context {E I : Type} (h : host E I) (tdim : nat -> nat) (OK : host_ok h ty tdim).
Definition codim_of (x : nat) : nat := h_dim h - tdim (ty x).

(** Types of codimension c by first occurrence. *)
Definition types_of (c : nat) (L : list nat) : list nat :=
  fold_left add (map ty (filter (fun x => codim_of x =? c) L)) [].
Definition st (L : list nat) : iset :=
  IS (map (fun t => cnt (fun y => ty y =? t) L) (seq 0 (h_types h)))
     (map (fun c => cnt (fun y => codim_of y =? c) L) (seq 0 (h_dim h + 1)))
     (map (fun c => types_of c L) (seq 0 (h_dim h + 1)))
     (map (fun x => rank x L) (seq 0 (h_size h))).

Lemma st_nil : st [] = is_new h.
Proof. unfold st, is_new. now rewrite !repeat_map_seq. Qed.

Lemma types_of_snoc c L x :
  types_of c (L ++ [x]) = if codim_of x =? c then add (types_of c L) (ty x) else types_of c L.
Proof.
  unfold types_of. rewrite filter_app, map_app, fold_left_app. cbn.
  destruct (codim_of x =? c); reflexivity.
Qed.
Lemma in_types_of c L t :
  In t (types_of c L) <-> exists x, In x L /\ codim_of x = c /\ ty x = t.
Proof.
  unfold types_of. rewrite in_adds, in_map_iff. split.
  - intros [[]|(x & <- & H)]. apply filter_In in H as [H1 H2]. apply Nat.eqb_eq in H2. eauto.
  - intros (x & H1 & H2 & <-). right. exists x. split; auto. apply filter_In.
    split; auto. now apply Nat.eqb_eq.
Qed.

Lemma insert_sub_st L e c i : c <= h_dim h -> i < h_nsub h e c ->
  insert_sub h e c i (st L) = Some (st (add L (h_subidx h e i c))).
Proof.
  intros Hc Hi. unfold insert_sub.
  pose proof (ho_range _ _ _ OK e c i Hc Hi) as HR.
  rewrite (ho_type _ _ _ OK e c i Hc Hi).
  assert (HC : codim_of (h_subidx h e i c) = c).
  { unfold codim_of. pose proof (ho_codim _ _ _ OK e c i Hc Hi). lia. }
  set (x := h_subidx h e i c) in *. clearbody x.
  pose proof (ho_types _ _ _ OK x HR) as HT.
  cbn [st is_ix is_gt is_cd is_ty]. rewrite (nth_error_map_seq _ _ _ HR). cbn [obind].
  unfold add. destruct (rank x L) as [k|] eqn:R.
  - assert (In x L) as M by (apply rank_In; eauto). apply mem_In in M. now rewrite M.
  - apply rank_None in R as N. rewrite (proj2 (mem_false x L) N).
    rewrite (nth_error_map_seq _ _ _ HT). cbn [obind].
    assert (U1 : upd (map (fun x => rank x L) (seq 0 (h_size h))) x
                   (Some (cnt (fun y => ty y =? ty x) L)) =
                 Some (map (fun y => rank y (L ++ [x])) (seq 0 (h_size h)))).
    { rewrite <- (rank_snoc_new x L N).
      apply (upd_map_seq _ (fun y => rank y (L ++ [x])) _ x HR).
      intros j _ Hj. now apply rank_snoc_other. }
    rewrite U1. cbn [obind].
    assert (U2 : (if cnt (fun y => ty y =? ty x) L =? 0
                  then l <- nth_error (map (fun c => types_of c L) (seq 0 (h_dim h + 1))) c ;;
                       upd (map (fun c => types_of c L) (seq 0 (h_dim h + 1))) c (l ++ [ty x])
                  else Some (map (fun c => types_of c L) (seq 0 (h_dim h + 1)))) =
                 Some (map (fun c => types_of c (L ++ [x])) (seq 0 (h_dim h + 1)))).
    { assert (AD : add (types_of c L) (ty x) =
                   if cnt (fun y => ty y =? ty x) L =? 0 then types_of c L ++ [ty x] else types_of c L).
      { unfold add. destruct (mem (ty x) (types_of c L)) eqn:M.
        - apply mem_In, in_types_of in M as (y & Hy & _ & Hty).
          destruct (Nat.eqb_spec (cnt (fun y => ty y =? ty x) L) 0) as [Z|Z]; [|reflexivity].
          exfalso. unfold cnt in Z. apply length_zero_iff_nil in Z.
          assert (K : In y (filter (fun y => ty y =? ty x) L)).
          { apply filter_In. split; auto. now apply Nat.eqb_eq. }
          rewrite Z in K. destruct K.
        - apply mem_false in M. destruct (Nat.eqb_spec (cnt (fun y => ty y =? ty x) L) 0) as [Z|Z]; [reflexivity|].
          exfalso. apply M. unfold cnt in Z.
          destruct (filter (fun y => ty y =? ty x) L) as [|y r] eqn:F; [cbn in Z; lia|].
          assert (K : In y (filter (fun y => ty y =? ty x) L)) by (rewrite F; now left).
          apply filter_In in K as [K1 K2]. apply Nat.eqb_eq in K2.
          apply in_types_of. exists y. repeat split; auto. unfold codim_of in *. rewrite K2. exact HC. }
      assert (Q : forall j, j <> c -> types_of j (L ++ [x]) = types_of j L).
      { intros j Hj. rewrite types_of_snoc, HC. destruct (Nat.eqb_spec c j); [congruence|reflexivity]. }
      assert (Qc : types_of c (L ++ [x]) = add (types_of c L) (ty x)).
      { now rewrite types_of_snoc, HC, Nat.eqb_refl. }
      destruct (cnt (fun y => ty y =? ty x) L =? 0).
      - rewrite nth_error_map_seq by lia. cbn [obind]. rewrite <- AD, <- Qc.
        apply (upd_map_seq _ (fun c => types_of c (L ++ [x]))); [lia|]. intros j _ Hj. now apply Q.
      - f_equal. apply map_ext. intros j. destruct (Nat.eq_dec j c) as [->|Hj].
        + now rewrite Qc, AD.
        + now rewrite Q. }
    rewrite U2. cbn [obind].
    assert (U3 : upd (map (fun t => cnt (fun y => ty y =? t) L) (seq 0 (h_types h))) (ty x)
                   (cnt (fun y => ty y =? ty x) L + 1) =
                 Some (map (fun t => cnt (fun y => ty y =? t) (L ++ [x])) (seq 0 (h_types h)))).
    { replace (cnt (fun y => ty y =? ty x) L + 1) with (cnt (fun y => ty y =? ty x) (L ++ [x]))
        by (now rewrite cnt_snoc, Nat.eqb_refl).
      apply (upd_map_seq _ (fun t => cnt (fun y => ty y =? t) (L ++ [x]))); [exact HT|].
      intros j _ Hj. rewrite cnt_snoc. destruct (Nat.eqb_spec (ty x) j); [congruence|lia]. }
    rewrite U3. cbn [obind]. rewrite nth_error_map_seq by lia. cbn [obind].
    assert (U4 : upd (map (fun c => cnt (fun y => codim_of y =? c) L) (seq 0 (h_dim h + 1))) c
                   (cnt (fun y => codim_of y =? c) L + 1) =
                 Some (map (fun c => cnt (fun y => codim_of y =? c) (L ++ [x])) (seq 0 (h_dim h + 1)))).
    { replace (cnt (fun y => codim_of y =? c) L + 1) with (cnt (fun y => codim_of y =? c) (L ++ [x]))
        by (now rewrite cnt_snoc, HC, Nat.eqb_refl).
      apply (upd_map_seq _ (fun c => cnt (fun y => codim_of y =? c) (L ++ [x]))); [lia|].
      intros j _ Hj. rewrite cnt_snoc, HC. destruct (Nat.eqb_spec c j); [congruence|lia]. }
    rewrite U4. reflexivity.
Qed.

(** All (sub)entities of an element, by codimension and number. *)
Definition subs (e : E) : list nat :=
  flat_map (fun c => map (fun i => h_subidx h e i c) (seq 0 (h_nsub h e c))) (seq 0 (h_dim h + 1)).
Lemma in_subs e x : In x (subs e) <->
  exists c i, c <= h_dim h /\ i < h_nsub h e c /\ h_subidx h e i c = x.
Proof.
  unfold subs. rewrite in_flat_map. split.
  - intros (c & Hc & Hx). apply in_map_iff in Hx as (i & <- & Hi).
    apply in_seq in Hc, Hi. exists c, i. repeat split; lia.
  - intros (c & i & Hc & Hi & <-). exists c. split; [apply in_seq; lia|].
    apply in_map_iff. exists i. split; auto. apply in_seq. lia.
Qed.

Lemma inner_loop e c k : forall s L, c <= h_dim h -> s + k <= h_nsub h e c ->
  forl k s (insert_sub h e c) (st L) =
  Some (st (fold_left add (map (fun i => h_subidx h e i c) (seq s k)) L)).
Proof.
  induction k as [|k IH]; intros s L Hc Hk; cbn [forl]; [reflexivity|].
  rewrite insert_sub_st by lia. cbn [obind]. rewrite IH by lia.
  replace (s + 1) with (S s) by lia. reflexivity.
Qed.
Lemma outer_loop e k : forall s L, s + k <= h_dim h + 1 ->
  forl k s (fun c => forl (h_nsub h e c) 0 (insert_sub h e c)) (st L) =
  Some (st (fold_left add
    (flat_map (fun c => map (fun i => h_subidx h e i c) (seq 0 (h_nsub h e c))) (seq s k)) L)).
Proof.
  induction k as [|k IH]; intros s L Hk; cbn [forl]; [reflexivity|].
  rewrite inner_loop by lia. cbn [obind]. rewrite IH by lia.
  replace (s + 1) with (S s) by lia. cbn [seq flat_map]. now rewrite fold_left_app.
Qed.
Lemma insert_element_st e L : insert_element h e (st L) = Some (st (fold_left add (subs e) L)).
Proof. unfold insert_element. apply outer_loop. lia. Qed.
Lemma is_run_st es : forall L, is_run h es (st L) = Some (st (fold_left add (flat_map subs es) L)).
Proof.
  induction es as [|e es IH]; intros L; cbn [is_run flat_map]; [reflexivity|].
  rewrite insert_element_st. cbn [obind]. now rewrite IH, fold_left_app.
Qed.

Definition ents (es : list E) : list nat := fold_left add (flat_map subs es) [].
Lemma is_run_new es : is_run h es (is_new h) = Some (st (ents es)).
Proof. rewrite <- st_nil. apply is_run_st. Qed.
Lemma ents_NoDup es : NoDup (ents es).
Proof. apply adds_NoDup. constructor. Qed.
Lemma in_ents es x : In x (ents es) <-> belongs h es x.
Proof.
  unfold ents. rewrite in_adds, in_flat_map. unfold belongs. split.
  - intros [[]|(e & He & Hx)]. apply in_subs in Hx as (c & i & ?). exists e, c, i. tauto.
  - intros (e & c & i & He & Hx). right. exists e. split; auto. apply in_subs. eauto.
Qed.
Lemma belongs_lt es x : belongs h es x -> x < h_size h.
Proof. intros (e & c & i & _ & Hc & Hi & <-). now apply (ho_range _ _ _ OK). Qed.
Lemma belongs_codim es x : belongs h es x -> codim_of x <= h_dim h.
Proof. intros _. unfold codim_of. lia. Qed.
Lemma belongs_element es e : belongs h es (h_idx h e) <-> In e es.
Proof.
  split.
  - intros (e' & c & i & He & Hc & Hi & Hx).
    destruct (ho_self _ _ _ OK e) as [S1 S2]. destruct (ho_self _ _ _ OK e') as [S1' S2'].
    pose proof (ho_codim _ _ _ OK e' c i Hc Hi) as C1. rewrite Hx in C1.
    pose proof (ho_codim _ _ _ OK e 0 0 (Nat.le_0_l _)) as C2. rewrite S1 in C2.
    specialize (C2 Nat.lt_0_1). rewrite S2 in C2.
    assert (c = 0) by lia. subst c. rewrite S1' in Hi. assert (i = 0) by lia. subst i.
    rewrite S2' in Hx. apply (ho_inj _ _ _ OK) in Hx. now subst.
  - intros He. destruct (ho_self _ _ _ OK e) as [S1 S2].
    exists e, 0, 0. rewrite S1. repeat split; auto; lia.
Qed.

Lemma st_index es x : x < h_size h -> is_index (st (ents es)) x = Some (rank x (ents es)).
Proof. intros H. unfold is_index. cbn. now rewrite nth_error_map_seq. Qed.

Lemma sum_types_cnt c : forall L, 
  cnt (fun y => codim_of y =? c) L =
  fold_right plus 0 (map (fun t => cnt (fun y => ty y =? t) L) (types_of c L)).
Proof.
  intros L. 
  assert (G : forall T, NoDup T -> (forall t, In t T -> exists y, ty y = t /\ codim_of y = c) ->
    fold_right plus 0 (map (fun t => cnt (fun y => ty y =? t) L) T) =
    cnt (fun y => (codim_of y =? c) && mem (ty y) T) L).
  { induction T as [|t T IH]; intros HN HT.
    - cbn. unfold cnt. clear. induction L as [|y L IH]; [reflexivity|].
      cbn. rewrite andb_false_r. exact IH.
    - inversion HN; subst. cbn [map fold_right]. rewrite IH by (auto; intros; apply HT; now right).
      destruct (HT t (or_introl eq_refl)) as (y0 & Hy0 & Hc0).
      unfold cnt. clear IH HN. induction L as [|y L IHL]; [reflexivity|]. cbn [filter].
      assert (M : mem (ty y) (t :: T) = (ty y =? t) || mem (ty y) T) by reflexivity. rewrite M.
      destruct (Nat.eqb_spec (ty y) t) as [Et|Et].
      + rewrite Et. rewrite (proj2 (mem_false t T) H1). rewrite andb_false_r. cbn [orb].
        assert (Q : codim_of y = c) by (unfold codim_of in *; congruence).
        rewrite (proj2 (Nat.eqb_eq _ _) Q). cbn [length andb]. lia.
      + cbn [orb]. destruct ((codim_of y =? c) && mem (ty y) T); cbn [length]; lia. }
  rewrite G.
  - unfold cnt. f_equal. apply filter_ext_in. intros y Hy.
    destruct (Nat.eqb_spec (codim_of y) c); [|reflexivity]. cbn. symmetry. apply mem_In, in_types_of. eauto.
  - apply adds_NoDup. constructor.
  - intros t Ht. apply in_types_of in Ht as (y & _ & H1 & H2). eauto.
Qed.
End Host.
End Closed.

(** * Iterators *)
Lemma ei_skip_filter {E} (cont : E -> bool) l :
  match ei_skip cont l with
  | [] => filter cont l = []
  | x :: r => filter cont l = x :: filter cont r
  end.
Proof.
  induction l as [|x l IH]; cbn; [reflexivity|]. destruct (cont x) eqn:C; auto.
Qed.
Lemma ei_skip_length {E} (cont : E -> bool) l : length (ei_skip cont l) <= length l.
Proof. induction l as [|x l IH]; cbn; [lia|]. destruct (cont x); cbn; lia. Qed.

Lemma ei_for_ok {E} (cont : E -> bool) n : forall l, length l <= n ->
  ei_for cont n (ei_skip cont l) = Some (filter cont l).
Proof.
  induction n as [|n IH]; intros l Hl.
  - destruct l; [reflexivity|cbn in Hl; lia].
  - pose proof (ei_skip_filter cont l) as H. pose proof (ei_skip_length cont l) as HL.
    destruct (ei_skip cont l) as [|x r]; [rewrite H; reflexivity|].
    cbn in HL. cbn [ei_for]. unfold ei_eqb. cbn [length ei_end ei_skip Nat.eqb].
    cbn [ei_deref hd_error obind ei_next]. rewrite IH by lia. cbn. now rewrite H.
Qed.

Section GI.
Context {E I : Type} (h : host E I) (p : I -> bool).
(** What is still to be inspected after the current position. *)
Definition rest (it : @giter E I) : list I := tl (gi_is it) ++ flat_map (h_inters h) (tl (gi_els it)).
Definition live (it : @giter E I) : Prop :=
  gi_els it <> [] /\ gi_is it <> [] /\ forall e, In e (gi_els it) -> h_inters h e <> [].
Lemma tl_In {A} (x : A) l : In x (tl l) -> In x l.
Proof. destruct l; [auto|now right]. Qed.
Lemma flat_nil {A} (f : A -> list I) l : (forall x, In x l -> f x <> []) -> flat_map f l = [] -> l = [].
Proof.
  destruct l as [|x l]; auto. intros H K. cbn in K. apply app_eq_nil in K as [K _].
  exfalso. apply (H x); [now left|auto].
Qed.
Lemma gi_next_ok fuel : forall it, live it -> length (rest it) < fuel ->
  exists it', gi_next h p fuel it = Some it' /\
    match filter p (rest it) with
    | [] => gi_at_end it' = true
    | x :: l => live it' /\ gi_deref it' = Some x /\ filter p (rest it') = l /\
                length (rest it') < length (rest it)
    end.
Proof.
  induction fuel as [|f IH]; intros it (L1 & L2 & L3) Hf; [lia|]. cbn [gi_next].
  destruct it as [els is]. cbn [gi_els gi_is] in *. unfold rest in *. cbn [gi_els gi_is] in *.
  destruct is as [|x0 r]; [congruence|]. cbn [tl] in *.
  destruct r as [|x r].
  - destruct els as [|e0 es]; [congruence|]. cbn [tl] in *.
    destruct es as [|e es].
    + cbn. eauto.
    + assert (NE : h_inters h e <> []) by (apply L3; right; now left).
      cbn [flat_map] in *. destruct (h_inters h e) as [|y ys] eqn:HE; [congruence|].
      cbn [hd_error obind app filter length] in *.
      assert (LV : live (GI (e :: es) (y :: ys))).
      { repeat split; cbn; try congruence. intros e' He'. apply L3. now right. }
      destruct (p y) eqn:P.
      * eexists. split; [reflexivity|]. repeat split; auto; try apply LV.
      * destruct (IH (GI (e :: es) (y :: ys)) LV) as (it' & N1 & N2); [cbn; lia|].
        exists it'. split; auto. cbn [gi_is gi_els tl] in N2.
        destruct (filter p (ys ++ flat_map (h_inters h) es)) eqn:F; auto.
        destruct N2 as (A & B & C & D). repeat split; auto; try apply A; lia.
  - cbn [app filter length] in *.
    assert (LV : live (GI els (x :: r))) by (repeat split; cbn; auto; congruence).
    destruct (p x) eqn:P.
    + eexists. split; [reflexivity|]. repeat split; auto; try apply LV.
    + destruct (IH (GI els (x :: r)) LV) as (it' & N1 & N2); [cbn; lia|].
      exists it'. split; auto. cbn [gi_is gi_els tl] in N2.
      destruct (filter p (r ++ flat_map (h_inters h) (tl els))) eqn:F; auto.
      destruct N2 as (A & B & C & D). repeat split; auto; try apply A; lia.
Qed.
Lemma gi_for_ok fuel n : forall it x, live it -> gi_deref it = Some x -> p x = true ->
  length (rest it) < fuel -> length (rest it) < n ->
  gi_for h p fuel n it = Some (x :: filter p (rest it)).
Proof.
  induction n as [|n IH]; intros it x L D P Hf Hn; [lia|].
  cbn [gi_for]. assert (AE : gi_at_end it = false).
  { unfold gi_at_end. destruct L as (L1 & _). destruct (gi_els it); congruence. }
  rewrite AE, D. cbn [obind].
  destruct (gi_next_ok fuel it L Hf) as (it' & N1 & N2). rewrite N1. cbn [obind].
  destruct (filter p (rest it)) as [|y l] eqn:F.
  - destruct n; cbn [gi_for]; rewrite N2; reflexivity.
  - destruct N2 as (A & B & C & Q).
    rewrite (IH it' y A B); try lia; [now rewrite C|].
    assert (K : In y (filter p (rest it))) by (rewrite F; now left). now apply filter_In in K.
Qed.
Lemma gi_loop_ok fuel n els : (forall e, In e els -> h_inters h e <> []) ->
  length (flat_map (h_inters h) els) <= fuel -> length (flat_map (h_inters h) els) <= n ->
  obind (gi_begin h p fuel els) (gi_for h p fuel n) = Some (filter p (flat_map (h_inters h) els)).
Proof.
  intros H Hf Hn. destruct els as [|e es]; cbn [gi_begin].
  - cbn. destruct n; reflexivity.
  - assert (NE : h_inters h e <> []) by (apply H; now left).
    cbn [flat_map] in *. destruct (h_inters h e) as [|x xs] eqn:HE; [congruence|].
    cbn [hd_error obind app length filter] in *.
    assert (LV : live (GI (e :: es) (x :: xs))) by (repeat split; cbn; auto; congruence).
    destruct (p x) eqn:P; cbn [obind].
    + rewrite (gi_for_ok fuel n _ x LV); auto; cbn; lia.
    + destruct (gi_next_ok fuel (GI (e :: es) (x :: xs)) LV) as (it' & N1 & N2); [cbn; lia|].
      rewrite N1. cbn [obind]. unfold rest in N2 at 1. cbn [gi_is gi_els tl] in N2.
      destruct (filter p (xs ++ flat_map (h_inters h) es)) as [|y l] eqn:F.
      * destruct n; cbn [gi_for]; rewrite N2; reflexivity.
      * destruct N2 as (A & B & C & D).
        change (length (rest (GI (e :: es) (x :: xs)))) with (length (xs ++ flat_map (h_inters h) es)) in D.
        rewrite (gi_for_ok fuel n it' y A B); try lia; [now rewrite C|].
        assert (K : In y (filter p (xs ++ flat_map (h_inters h) es))) by (rewrite F; now left).
        now apply filter_In in K.
Qed.
End GI.
