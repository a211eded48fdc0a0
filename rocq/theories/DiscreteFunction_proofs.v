From Coq Require Import List Arith Bool Reals Lia Lra.
From Verif Require Import Lib Basis_model Basis_spec Basis_proofs Basis_ok Basis_view Basis_props
  Container_model Container_spec Container_proofs Container_desc Container_props FlatVector_model FlatVector_props
  Interpolate_model Interpolate_props DiscreteFunction_model DiscreteFunction_spec.
Import ListNotations.
#[local] Arguments Nat.ltb : simpl never.

Lemma forl_inv {A} (P : nat -> A -> Prop) k : forall s (body : nat -> A -> option A) st,
  P s st -> (forall i st, s <= i < s + k -> P i st -> exists st', body i st = Some st' /\ P (i + 1) st') ->
  exists st', forl k s body st = Some st' /\ P (s + k) st'.
Proof.
  induction k as [|k IH]; intros s body st H0 H; cbn.
  - exists st. rewrite Nat.add_0_r. auto.
  - destruct (H s st ltac:(lia) H0) as (st' & -> & H1). cbn.
    destruct (IH (s + 1) body st' H1) as (st2 & H2 & H3); [intros; apply H; auto; lia|].
    exists st2. split; auto. now replace (s + S k) with (s + 1 + k) by lia.
Qed.

Lemma fold_plus (l : list R) x : fold_right Rplus x l = (fold_right Rplus 0 l + x)%R.
Proof. induction l; cbn; [lra|rewrite IHl; lra]. Qed.
Lemma rsum_0 f : rsum 0 f = 0%R. Proof. reflexivity. Qed.
Lemma rsum_S n f : rsum (S n) f = (rsum n f + f n)%R.
Proof. unfold rsum. rewrite seq_S, map_app, fold_right_app. cbn. rewrite fold_plus. lra. Qed.
Lemma rsum_ext n f g : (forall i, i < n -> f i = g i) -> rsum n f = rsum n g.
Proof. induction n; intros H; [reflexivity|]. rewrite !rsum_S, IHn by auto. now rewrite H by lia. Qed.
Lemma rsum_plus n f g : rsum n (fun i => (f i + g i)%R) = (rsum n f + rsum n g)%R.
Proof. induction n; [unfold rsum; cbn; lra|]. rewrite !rsum_S, IHn. lra. Qed.
Lemma rsum_scal n a f : rsum n (fun i => (a * f i)%R) = (a * rsum n f)%R.
Proof. induction n; [unfold rsum; cbn; lra|]. rewrite !rsum_S, IHn. lra. Qed.
Lemma rsum_swap n m f : rsum n (fun i => rsum m (fun j => f i j)) = rsum m (fun j => rsum n (fun i => f i j)).
Proof.
  induction n; [unfold rsum at 1; cbn; induction m; [reflexivity|rewrite rsum_S, <- IHm; unfold rsum; cbn; lra]|].
  rewrite rsum_S, IHn, <- rsum_plus. apply rsum_ext. intros j _. now rewrite rsum_S.
Qed.

Lemma axpy_ok a : forall x y, length x = length y ->
  exists w, axpy a x y = Some w /\ length w = length y /\ forall k, k < length y -> nth k w 0%R = (nth k y 0 + a * nth k x 0)%R.
Proof.
  induction x as [|u x IH]; intros [|v y] H; try discriminate; cbn.
  - exists []. repeat split. intros k Hk. lia.
  - destruct (IH y) as (w & -> & Hw & Hk); [cbn in H; lia|]. cbn. eexists. split; [reflexivity|]. cbn. split; [lia|].
    intros [|k] Hk'; [reflexivity|]. apply Hk. lia.
Qed.

Lemma concat_nth {A} (l : list (list A)) s : Forall (fun x => length x = s) l -> forall j k, j < length l -> k < s ->
  nth_error (concat l) (j * s + k) = nth_error (nth j l []) k.
Proof.
  induction 1 as [|x l Hx Hl IH]; intros j k Hj Hk; [cbn in Hj; lia|]. cbn [concat]. rewrite nth_error_app_eq.
  destruct j as [|j].
  - cbn. destruct (Nat.ltb_spec k (length x)); [auto|lia].
  - destruct (Nat.ltb_spec (S j * s + k) (length x)); [lia|]. replace (S j * s + k - length x) with (j * s + k) by lia.
    cbn [nth]. apply IH; auto. cbn in Hj. lia.
Qed.
Lemma concat_len {A} (l : list (list A)) s : Forall (fun x => length x = s) l -> length (concat l) = length l * s.
Proof. induction 1 as [|x l Hx Hl IH]; cbn; auto. rewrite app_length, IH. lia. Qed.

Lemma nth_nth_error {A} (l : list A) i d : i < length l -> nth_error l i = Some (nth i l d).
Proof. intros H. now apply nth_error_nth'. Qed.

Lemma mat_times_len rows inner cols a b : length (mat_times rows inner cols a b) = rows * cols.
Proof.
  unfold mat_times. rewrite flat_map_concat_map, (concat_len _ cols), map_length, seq_length; auto.
  apply Forall_forall. intros x Hx. apply in_map_iff in Hx as (r & <- & _). now rewrite map_length, seq_length.
Qed.
Lemma mat_times_nth rows inner cols a b r c : r < rows -> c < cols ->
  nth_error (mat_times rows inner cols a b) (r * cols + c) = Some (rsum inner (fun l => (nth (r * inner + l) a 0 * b l c)%R)).
Proof.
  intros Hr Hc. unfold mat_times. rewrite flat_map_concat_map.
  assert (HL : Forall (fun x => length x = cols) (map (fun r => map (fun c => rsum inner (fun l => (nth (r * inner + l) a 0 * b l c)%R)) (seq 0 cols)) (seq 0 rows))).
  { apply Forall_forall. intros x Hx. apply in_map_iff in Hx as (r' & <- & _). now rewrite map_length, seq_length. }
  rewrite (concat_nth _ cols HL); [|now rewrite map_length, seq_length|auto].
  rewrite (nth_indep _ [] (map (fun c => rsum inner (fun l => (nth (0 * inner + l) a 0 * b l c)%R)) (seq 0 cols))).
  2:{ now rewrite map_length, seq_length. }
  rewrite (map_nth (fun r => map (fun c => rsum inner (fun l => (nth (r * inner + l) a 0 * b l c)%R)) (seq 0 cols)) (seq 0 rows) 0 r).
  rewrite seq_nth by auto. rewrite nth_error_map_eq, nth_error_seq. destruct (Nat.ltb_spec c cols); [reflexivity|lia].
Qed.

(** * Writing range entries *)
Lemma Forall_shape (Q : cont R -> Prop) : (forall c c', shape c = shape c' -> Q c -> Q c') -> forall l l',
  map (@shape R) l = map (@shape R) l' -> Forall Q l -> length l' = length l /\ Forall Q l'.
Proof.
  intros HQ l. induction l as [|x l IHl]; intros [|y l'] Hm H; try discriminate; [auto|].
  injection Hm as H1 H2. inversion H; subst. destruct (IHl l' H2 H5). split; [cbn; lia|]. constructor; eauto.
Qed.
Lemma has_fty_shape t : forall c c' : cont R, shape c = shape c' -> has_fty t c -> has_fty t c'.
Proof.
  induction t as [|n t IH|n m t IH|n t IH]; intros [x|l] [y|l'] Hs H; try discriminate; try contradiction; auto;
    injection Hs as Hs; destruct H as [H1 H2].
  - destruct (Forall_shape (has_fty t) IH l l' Hs H2) as [A B]. split; auto. destruct n; auto. congruence.
  - apply (Forall_shape _) with (l' := l') in H2; auto.
    + destruct H2 as [A B]. split; [congruence|]. exact B.
    + intros [u|r] [w|r'] H H0; try discriminate; try contradiction. injection H as H. destruct H0 as [A B].
      destruct (Forall_shape (has_fty t) IH r r' H B). split; [congruence|auto].
  - destruct (Forall_shape (has_fty t) IH l l' Hs H2) as [A B]. split; auto. congruence.
Qed.
Lemma scalars_shape (c : cont R) : forall c' : cont R, shape c = shape c' -> length (scalars c) = length (scalars c').
Proof.
  induction c as [x|l IH] using cont_ind'; intros [y|l'] H; try discriminate; auto. injection H as H. cbn [scalars].
  revert l' H. induction IH as [|c l Hc _ IHl]; intros [|c' l'] H; try discriminate; auto. injection H as H1 H2.
  cbn. rewrite !app_length. auto.
Qed.

Lemma assign_with_ok t (to : cont R) from : has_fty t to -> flattens t = true -> length (scalars to) = length from ->
  exists c, assign_with t to from = Some c /\ scalars c = from /\ shape c = shape to.
Proof.
  intros Ht Hf HL. unfold assign_with. destruct (C24_flat_view_partial t to Ht Hf) as [Hs _]. rewrite Hs. cbn [obind].
  rewrite HL, Nat.eqb_refl.
  destruct (forl_inv (fun i c => shape c = shape to /\ forall k x, k < i -> nth_error from k = Some x -> nth_error (scalars c) k = Some x)
    (length from) 0 (fun i c => p <- flat_at t c i ;; x <- nth_error from i ;; put c p (CVal x)) to) as (c & Hc & HS & HV).
  - split; auto. intros; lia.
  - intros i c Hi [HS HV]. assert (Hc : has_fty t c) by (apply (has_fty_shape t to c); auto).
    pose proof (scalars_shape c to HS) as HLc.
    destruct (C24_flat_view_partial t c Hc Hf) as [_ G]. destruct (G i) as (p & x0 & Hp & Ha & _ & Hput); [lia|].
    rewrite Hp. cbn [obind]. destruct (nth_error_lt_Some from i) as [x Hx]; [lia|]. rewrite Hx. cbn [obind].
    destruct (Hput x) as (c' & Hc' & Hu). exists c'. split; auto. split.
    + rewrite <- HS. now apply (put_shape c c' p x0 x).
    + intros k z Hk Hz. rewrite (upd_nth_error _ _ _ _ k Hu). destruct (Nat.eqb_spec k i) as [->|]; [congruence|].
      apply HV; auto. lia.
  - exists c. split; auto. split; auto. apply nth_error_ext. intros k. pose proof (scalars_shape c to HS).
    destruct (nth_error from k) as [x|] eqn:Ex.
    + apply HV; auto. cbn. now apply nth_error_Some_lt in Ex.
    + apply nth_error_None. apply nth_error_None in Ex. lia.
Qed.

Lemma put_shape' (c c' x y : cont R) p : at_path c p = Some y -> shape x = shape y -> put c p x = Some c' -> shape c' = shape c.
Proof.
  revert c c'. induction p as [|i p IH]; intros c c' H HS H'.
  - injection H as ->. injection H' as <-. auto.
  - destruct c as [u|l]; [discriminate|]. cbn in H, H'. destruct (nth_error l i) as [z|] eqn:Ez; [|discriminate].
    destruct (put z p x) as [z'|] eqn:Ez'; [|discriminate].
    destruct (upd l i z') as [l'|] eqn:El; [|discriminate]. injection H' as <-. cbn. f_equal.
    apply nth_error_ext. intros k. rewrite !nth_error_map_eq, (upd_nth_error _ _ _ _ k El).
    destruct (Nat.eqb_spec k i) as [->|]; auto. rewrite Ez. cbn. f_equal. eauto.
Qed.

Definition plain (p : list nat) (y : cont R) : Prop := p = [] \/ exists l, y = CBlk l.
Lemma plain_shape p y y' : shape y = shape y' -> plain p y -> plain p y'.
Proof. intros HS [->|[l ->]]; [now left|right]. destruct y'; [discriminate|eauto]. Qed.
Lemma plain_ntr p y : plain p y -> node_to_range p y = at_path y p /\ range_path p y = p.
Proof.
  intros [->|[l ->]].
  - destruct y; split; reflexivity.
  - split; [|reflexivity]. apply C50_component_is_path.
Qed.

Lemma assign_entry_ok t p y c from : plain p y -> node_to_range p y = Some c -> has_fty t c -> flattens t = true ->
  length (scalars c) = length from ->
  exists y' c', assign_entry t p y from = Some y' /\ shape y' = shape y /\ node_to_range p y' = Some c' /\ scalars c' = from /\
    forall q, plain q y -> (forall r, q <> p ++ r) -> (forall r, p <> q ++ r) -> node_to_range q y' = node_to_range q y.
Proof.
  intros HP Hc Ht Hf HL. destruct (plain_ntr p y HP) as [E1 E2]. unfold assign_entry. rewrite Hc. cbn [obind].
  destruct (assign_with_ok t c from Ht Hf HL) as (c' & Hc' & Hs & HS). rewrite Hc'. cbn [obind]. rewrite E2.
  rewrite E1 in Hc. destruct (put_spec y c' p c Hc) as (y' & P1 & P2 & P3). exists y', c'. rewrite P1.
  assert (HY : shape y' = shape y) by (apply (put_shape' y y' c' c p); auto).
  split; auto. split; auto. split; [|split; auto].
  - destruct (plain_ntr p y') as [-> _]; auto. apply (plain_shape p y y'); auto.
  - intros q Hq H1 H2. destruct (plain_ntr q y' (plain_shape q y y' (eq_sym HY) Hq)) as [-> _].
    destruct (plain_ntr q y Hq) as [-> _]. auto.
Qed.

Section Leaves.
Context {E : Type}.
Lemma leaf_paths_apart (n : node E) p q l l' : In (p, l) (leaf_nodes n) -> In (q, l') (leaf_nodes n) -> p <> q ->
  (forall r, q <> p ++ r) /\ (forall r, p <> q ++ r).
Proof.
  assert (G : forall p q l l' r, In (p, l) (leaf_nodes n) -> In (q, l') (leaf_nodes n) -> q = p ++ r -> p = q).
  { intros p0 q0 l0 l0' r H1 H2 ->. apply leaf_nodes_descendant in H1 as [H1 L1]. apply leaf_nodes_descendant in H2 as [H2 _].
    rewrite descendant_app', H1 in H2. destruct r as [|i r]; [now rewrite app_nil_r|].
    destruct l0; [|discriminate]. cbn in H2. unfold child in H2. cbn in H2. now destruct i. }
  intros H1 H2 Hne. split; intros r Hr; apply Hne; [|symmetry]; eapply G; eauto.
Qed.

(** What a loop over leaves that writes [tgt] into the range leaves behind. *)
Lemma each_leaf_ok (n : node E) (body : list nat * node E -> cont R -> option (cont R)) (tgt : list nat * node E -> option (list R)) y0 :
  (forall pn, In pn (leaf_nodes n) -> plain (fst pn) y0 /\ forall y, shape y = shape y0 ->
     match tgt pn with
     | None => body pn y = Some y
     | Some from => exists t c, body pn y = assign_entry t (fst pn) y from /\ node_to_range (fst pn) y0 = Some c /\
                      has_fty t c /\ flattens t = true /\ length (scalars c) = length from
     end) ->
  forall l, (forall pn, In pn l -> In pn (leaf_nodes n)) -> NoDup (map fst l) ->
  forall y, shape y = shape y0 ->
  exists y', each_leaf body l y = Some y' /\ shape y' = shape y0 /\
    (forall pn, In pn l -> exists c, node_to_range (fst pn) y' = Some c /\
        match tgt pn with Some from => scalars c = from | None => node_to_range (fst pn) y = Some c end \/
        (tgt pn = None /\ node_to_range (fst pn) y' = None)) /\
    (forall q l', In (q, l') (leaf_nodes n) -> ~ In q (map fst l) -> node_to_range q y' = node_to_range q y).
Proof.
  intros HB. induction l as [|[p m] l IH]; intros Hl HN y Hy.
  - exists y. split; [reflexivity|]. split; auto. split; [intros ? []|auto].
  - inversion HN; subst. cbn [each_leaf].
    destruct (HB (p, m) (Hl _ (or_introl eq_refl))) as [HP Hb]. specialize (Hb y Hy). cbn [fst] in *.
    assert (IH' := fun y1 Hy1 => IH (fun pn H => Hl pn (or_intror H)) H2 y1 Hy1).
    destruct (tgt (p, m)) as [from|] eqn:Et.
    + destruct Hb as (t & c & -> & Hc & Hty & Hf & HL).
      assert (Hpy : plain p y) by (apply (plain_shape p y0 y); auto).
      destruct (plain_ntr p y Hpy) as [E1 _]. destruct (plain_ntr p y0 HP) as [E0 _].
      assert (Hc1 : exists c1, node_to_range p y = Some c1 /\ shape c1 = shape c).
      { rewrite E1. rewrite E0 in Hc. pose proof (shape_path y p) as A. rewrite Hy, shape_path, Hc in A.
        destruct (at_path y p) as [c1|]; [|discriminate]. cbn in A. injection A as A. eauto. }
      destruct Hc1 as (c1 & Hc1 & HS1).
      destruct (assign_entry_ok t p y c1 from Hpy Hc1) as (y1 & c' & -> & HSy & Hn & Hsc & Hfr); auto.
      { apply (has_fty_shape t c c1); auto. }
      { rewrite <- HL. now apply scalars_shape. }
      cbn [obind]. destruct (IH' y1) as (y' & -> & A1 & A2 & A3); [congruence|].
      exists y'. split; auto. split; auto. split.
      * intros pn [<-|Hin].
        -- exists c'. left. cbn [fst]. rewrite Et. split; auto. rewrite (A3 p m); auto. apply Hl. now left.
        -- destruct (A2 pn Hin) as (c2 & [[B1 B2]|B]); [|exists c2; now right].
           exists c2. left. split; auto. destruct (tgt pn); auto. rewrite <- B2. symmetry. destruct pn as [q mq]. cbn [fst].
           destruct (leaf_paths_apart n p q m mq) as [P1 P2]; auto.
           { apply Hl. now left. } { apply Hl. now right. }
           { intros ->. apply H1. now apply (in_map fst) in Hin. }
           apply Hfr; auto. apply (plain_shape q y0 y); auto. apply (HB (q, mq)). apply Hl. now right.
      * intros q l' Hq Hni. cbn in Hni. rewrite (A3 q l'); auto.
        destruct (leaf_paths_apart n p q m l') as [P1 P2]; auto. { apply Hl. now left. }
        apply Hfr; auto. apply (plain_shape q y0 y); auto. apply (HB (q, l') Hq).
    + rewrite Hb. cbn [obind]. destruct (IH' y) as (y' & -> & A1 & A2 & A3); auto.
      exists y'. split; auto. split; auto. split.
      * intros pn [<-|Hin]; auto. cbn [fst]. rewrite Et. rewrite (A3 p m); auto; [|apply Hl; now left].
        destruct (node_to_range p y) as [c|]; [exists c; now left|exists y; now right].
      * intros q l' Hq Hni. cbn in Hni. apply (A3 q l'); auto.
Qed.
End Leaves.

Section Views.
Context {E : Type}.
Lemma consecutive_child (cs : list (node E)) : forall o i c, consecutive o cs -> nth_error cs i = Some c ->
  o <= node_offset c /\ node_offset c + node_size c <= o + sizes_sum cs.
Proof.
  induction cs as [|x cs IH]; intros o i c Hc Hi; [now destruct i|]. destruct Hc as [Ho Hc]. unfold sizes_sum in *. cbn.
  destruct i as [|i]; [injection Hi as ->; lia|]. cbn in Hi. destruct (IH _ _ _ Hc Hi). lia.
Qed.
Lemma desc_range p : forall (n t : node E), good n -> descendant n p = Some t ->
  good t /\ node_offset n <= node_offset t /\ node_offset t + node_size t <= node_offset n + node_size n.
Proof.
  induction p as [|i p IH]; intros n t G H; cbn in H; [injection H as ->; auto|].
  destruct n as [m g fe e|m g cs]; unfold child in H; cbn in H; [now destruct i|].
  destruct (nth_error cs i) as [c|] eqn:Ec; [|discriminate]. apply good_inner in G as (G1 & G2 & G3).
  rewrite Forall_forall in G3. destruct (IH c t (G3 c (nth_error_In _ _ Ec)) H) as (A & B & C).
  destruct (consecutive_child cs _ i c G2 Ec). unfold node_offset at 1, node_size at 2, node_offset at 3. cbn [node_mixin]. split; auto. lia.
Qed.
End Views.

Section Run.
Context {E X : Type}.
Variables (b : bexpr E) (path : list nat) (els : E -> Prop) (su : setup E X).
Hypothesis OKS : setup_ok b path els su.
Notation coefs := (mi -> option (list R)).
Let Hwf := so_wf _ _ _ _ OKS.
Let OK := build_ok b els Hwf.
Let pb := build b.

Definition vinv (v : lview E) : Prop :=
  tskel (lv_tree v) = tskel (lv_tree (lv_new pb)) /\
  (forall e, lv_elem v = Some e -> els e /\ lv_indices v = map (sp_glob (meaning b)) (sp_keys (meaning b) e) /\
     exists n0, tskel n0 = tskel (lv_tree (lv_new pb)) /\ lv_tree v = bind_tree e 0 n0).

Lemma vinv_new : vinv (lv_new pb).
Proof. split; [reflexivity|]. intros e. discriminate. Qed.
Lemma vinv_bind v e : vinv v -> els e -> exists v', lv_bind pb v e = Some v' /\ vinv v' /\ lv_elem v' = Some e.
Proof.
  intros [Ht Hi] He. unfold pb. rewrite (bind_ok els _ _ v e OK He).
  2:{ rewrite (tskel_skel _ _ Ht). apply new_skel. }
  eexists. split; [reflexivity|]. split; [|reflexivity]. split; cbn.
  - rewrite tskel_bind. exact Ht.
  - intros e' [= <-]. split; auto. split; auto. exists (lv_tree v). auto.
Qed.
Lemma vinv_unbind v : vinv v -> vinv (lv_unbind v).
Proof. intros [Ht _]. split; [exact Ht|]. intros e. discriminate. Qed.
Lemma vinv_copy v : vinv v -> exists v', lv_copy pb v = Some v' /\ vinv v' /\ lv_elem v' = lv_elem v /\
  (forall e, lv_elem v = Some e -> lv_indices v' = lv_indices v).
Proof.
  intros [Ht Hi]. unfold lv_copy. destruct (lv_elem v) as [e|] eqn:Ev.
  - destruct (Hi e eq_refl) as (He & HI & _). destruct (vinv_bind (lv_new pb) e vinv_new He) as (v' & -> & H1 & H2).
    exists v'. split; auto. split; auto. split; auto. intros e' [= <-]. destruct H1 as [_ H1]. destruct (H1 e H2) as (_ & -> & _). auto.
  - exists (lv_new pb). split; auto. split; [apply vinv_new|]. split; auto. intros e. discriminate.
Qed.

(** The bound view looks like a fresh one. *)
Lemma vinv_fresh v e : vinv v -> lv_elem v = Some e -> exists v1, lv_bind pb (lv_new pb) e = Some v1 /\
  lv_indices v1 = lv_indices v /\ same_tree (lv_tree v) (lv_tree v1).
Proof.
  intros [_ Hi] He. destruct (Hi e He) as (Hels & HI & n0 & Hn0 & Ht).
  unfold pb. rewrite (bind_new_ok els _ _ e OK Hels). eexists. split; [reflexivity|]. cbn. split; auto.
  rewrite Ht. apply same_bind. exact Hn0.
Qed.
Lemma vinv_size v e : vinv v -> lv_elem v = Some e -> length (lv_indices v) = node_size (lv_tree v).
Proof.
  intros [_ Hi] He. destruct (Hi e He) as (Hels & HI & n0 & Hn0 & Ht). rewrite HI, map_length, Ht. symmetry.
  apply (ok_nsize _ _ _ OK _ e 0 Hels). rewrite (tskel_skel _ _ Hn0). apply new_skel.
Qed.
Lemma vinv_tree v e : vinv v -> lv_elem v = Some e -> exists tr, descendant (lv_tree v) path = Some tr.
Proof.
  intros [_ Hi] He. destruct (Hi e He) as (Hels & HI & n0 & Hn0 & Ht).
  destruct (descendant (lv_tree v) path) as [tr|] eqn:Etr; [eauto|]. exfalso.
  destruct (so_path _ _ _ _ OKS) as [m Hm]. rewrite Ht in Etr.
  apply (skel_descendant (fun _ => true) [] _ (pb_node (build b)) path) in Etr; [congruence|]. rewrite skel_bind.
  rewrite (tskel_skel _ _ Hn0). apply new_skel.
Qed.
Lemma vinv_good v e : vinv v -> lv_elem v = Some e -> good (lv_tree v) /\ node_offset (lv_tree v) = 0.
Proof.
  intros [_ Hi] He. destruct (Hi e He) as (Hels & HI & n0 & Hn0 & Ht). rewrite Ht. split; [apply bind_good|apply bind_offset].
Qed.
Lemma vinv_global v e k m : vinv v -> lv_elem v = Some e -> lv_index v k = Some m -> global_index els b m.
Proof.
  intros HV He Hm. destruct (vinv_fresh v e HV He) as (v1 & H1 & H2 & H3). pose proof HV as [_ Hi]. destruct (Hi e He) as (Hels & _).
  exists e, k. split; auto. exists v1. split; auto. unfold lv_index, lv_size in *. rewrite H2. split; auto.
  rewrite <- (same_tree_sizes _ _ H3), <- (vinv_size v e HV He). now apply nth_error_Some_lt in Hm.
Qed.

Definition cached (f : lfun E) (c : coefs) : Prop :=
  forall tree i k m, descendant (lv_tree (lf_view f)) path = Some tree -> local_index tree i = Some k ->
    lv_index (lf_view f) k = Some m -> nth_error (lf_dofs f) k = c m.
Definition obj_inv (sf : sfun) (f : lfun E) : Prop :=
  lf_deriv f = sf_deriv sf /\ vinv (lf_view f) /\
  match sf_state sf with
  | None => lf_context f = None
  | Some (e, c) => lf_context f = Some e /\ coefs_ok b els su c /\ (lf_deriv f = true -> lf_geo f = Some e) /\ cached f c
  end.

Lemma new_inv d : obj_inv (SF d None) (lf_new su d).
Proof.
  split; [reflexivity|]. unfold lf_new, sv_new. cbn. rewrite (so_basis _ _ _ _ OKS). split; [apply vinv_new|reflexivity].
Qed.

Lemma bind_inv c f e : vinv (lf_view f) -> els e -> coefs_ok b els su c ->
  exists f', lf_bind su c f e = Some f' /\ obj_inv (SF (lf_deriv f) (Some (e, c))) f'.
Proof.
  intros HV He Hc. unfold lf_bind, sv_bind, sv_tree. rewrite (so_basis _ _ _ _ OKS). cbn [ss_root ss_path subspace_of_root].
  destruct (vinv_bind (lf_view f) e HV He) as (v & Hb & HV' & Hel). unfold pb in Hb. rewrite Hb. cbn [obind].
  destruct (vinv_tree v e HV' Hel) as [tr Htr]. rewrite Htr. cbn [obind].
  destruct (vinv_good v e HV' Hel) as [Hg Ho]. destruct (desc_range path _ tr Hg Htr) as (Gt & _ & Hr). rewrite Ho in Hr. cbn in Hr.
  pose proof (vinv_size v e HV' Hel) as Hsz. unfold bind_dofs.
  destruct (forl_inv (fun i d => length d = node_size (lv_tree v) /\
      forall i' k m, i' < i -> local_index tr i' = Some k -> lv_index v k = Some m -> nth_error d k = c m)
    (node_size tr) 0 (fun i d => k <- local_index tr i ;; m <- lv_index v k ;; x <- c m ;; upd d k x)
    (vresize (lf_dofs f) (sv_size v) (repeat 0%R (su_cdim su)))) as (d & Hd & Hl & Hv).
  - split; [apply vresize_length|]. intros; lia.
  - intros i d Hi [Hl Hv].
    assert (Hk : local_index tr i = Some (node_offset tr + i)) by (apply local_index_Some; split; [lia|auto]).
    rewrite Hk. cbn [obind].
    destruct (nth_error_lt_Some (lv_indices v) (node_offset tr + i)) as [m Hm]; [lia|].
    unfold lv_index. rewrite Hm. cbn [obind]. destruct (Hc m) as (x & Hx & _); [eapply vinv_global; eauto|].
    rewrite Hx. cbn [obind]. destruct (upd_Some d (node_offset tr + i) x) as [d' Hd']; [lia|]. rewrite Hd'. exists d'. split; auto.
    split; [rewrite (upd_length _ _ _ _ Hd'); auto|]. intros i' k m' Hi' Hk' Hm'.
    rewrite (upd_nth_error _ _ _ _ k Hd'). apply local_index_Some in Hk' as [Hi2 ->].
    destruct (Nat.eqb_spec (node_offset tr + i') (node_offset tr + i)) as [Heq|Hne].
    + rewrite Heq in Hm'. congruence.
    + eapply (Hv i'); [lia| |exact Hm']. apply local_index_Some. auto.
  - rewrite Hd. cbn [obind]. eexists. split; [reflexivity|]. split; [reflexivity|]. cbn [lf_view sf_state]. split; auto.
    split; [exact Hel|]. split; auto. split.
    + cbn. now intros ->.
    + intros tree i k m H1 H2 H3. cbn in *. rewrite Htr in H1. injection H1 as <-. eapply Hv; eauto.
      apply local_index_Some in H2. lia.
Qed.

Lemma copy_inv sf f : obj_inv sf f -> exists f', lf_copy su f = Some f' /\ obj_inv sf f'.
Proof.
  intros (Hd & HV & HS). unfold lf_copy. rewrite (so_basis _ _ _ _ OKS). cbn [ss_root subspace_of_root].
  destruct (vinv_copy (lf_view f) HV) as (v & Hv & HV' & Hel & HI). unfold pb in Hv. rewrite Hv. cbn [obind].
  eexists. split; [reflexivity|]. split; [exact Hd|]. split; [exact HV'|]. unfold lf_context in *. cbn [lf_view].
  destruct (sf_state sf) as [[e c]|].
  - destruct HS as (H1 & H2 & H3 & H4). split; [congruence|]. split; auto. split; auto.
    intros tree i k m P1 P2 P3. cbn [lf_view lf_dofs] in *. unfold lv_bound. rewrite Hel, H1.
    (* the subtree of the copy has the same offset and size *)
    destruct (vinv_fresh v e HV') as (w & W1 & W2 & W3); [congruence|].
    destruct (vinv_fresh (lf_view f) e HV H1) as (w' & W1' & W2' & W3'). rewrite W1 in W1'. injection W1' as <-.
    specialize (W3 path). rewrite P1 in W3. specialize (W3' path).
    destruct (descendant (lv_tree w) path) as [t1|]; [|contradiction].
    destruct (descendant (lv_tree (lf_view f)) path) as [t2|] eqn:Et2; [|contradiction].
    destruct W3 as (A1 & A2 & _). destruct W3' as (B1 & B2 & _).
    apply (H4 t2 i k m); auto.
    + apply local_index_Some. apply local_index_Some in P2. lia.
    + unfold lv_index in *. rewrite <- P3. f_equal. symmetry. eapply HI; eauto.
  - congruence.
Qed.

Lemma assign_inv sf sg f g : obj_inv sf f -> obj_inv sg g -> obj_inv sg (lf_assign f g).
Proof.
  intros (Hd & HV & HS) (Hd' & HV' & HS'). split; [exact Hd'|]. split; [exact HV'|].
  unfold lf_context in *. cbn. destruct (sf_state sg) as [[e c]|]; auto. destruct HS' as (H1 & H2 & H3 & H4).
  split; auto. split; auto. split; auto. intros tree i k m. cbn. unfold lv_bound. rewrite H1. apply H4.
Qed.

Definition world_inv (sw : list (@sfun E) * coefs) (w : world E) : Prop :=
  Forall2 obj_inv (fst sw) (w_pool w) /\ w_coefs w = snd sw /\ coefs_ok b els su (snd sw).

Lemma Forall2_upd {A B} (Q : A -> B -> Prop) l l' i x y m : Forall2 Q l l' -> Q x y -> upd l i x = Some m ->
  exists m', upd l' i y = Some m' /\ Forall2 Q m m'.
Proof.
  intros H. revert i m. induction H as [|a c l l' Ha H IH]; intros i m HQ Hu; [destruct i; discriminate|].
  destruct i as [|i]; cbn in *.
  - injection Hu as <-. eexists. split; [reflexivity|]. constructor; auto.
  - destruct (upd l i x) as [m1|] eqn:Em; [|discriminate]. injection Hu as <-.
    destruct (IH i m1 HQ Em) as (m' & -> & HF). eexists. split; [reflexivity|]. constructor; auto.
Qed.

Lemma step_inv sw w o sw' : world_inv sw w -> op_ok b els su o -> sf_step sw o = Some sw' ->
  exists w', lf_step su w o = Some w' /\ world_inv sw' w'.
Proof.
  intros (HF & Hc & Hok) Ho Hs. destruct sw as [l c]. cbn [fst snd] in *. subst c.
  destruct o as [d|i e|i|i|i j|i|c']; cbn [sf_step lf_step] in *.
  - injection Hs as <-. eexists. split; [reflexivity|]. split; [|split; auto]. cbn. apply Forall2_app; auto. constructor; auto. apply new_inv.
  - apply obind_Some in Hs as (sf & Hi & Hs). apply obind_Some in Hs as (l' & Hu & Hs). injection Hs as <-.
    destruct (Forall2_nth_l _ _ _ _ _ HF Hi) as (f & Hf & Hinv). rewrite Hf. cbn [obind].
    destruct Hinv as (Hd & HV & _). destruct (bind_inv (w_coefs w) f e HV Ho Hok) as (f' & -> & Hf'). cbn [obind].
    rewrite Hd in Hf'. destruct (Forall2_upd _ _ _ _ _ f' _ HF Hf' Hu) as (m' & -> & HF'). cbn [obind]. eexists. split; [reflexivity|]. split; auto.
  - apply obind_Some in Hs as (sf & Hi & Hs). apply obind_Some in Hs as (l' & Hu & Hs). injection Hs as <-.
    destruct (Forall2_nth_l _ _ _ _ _ HF Hi) as (f & Hf & Hinv). rewrite Hf. cbn [obind].
    destruct Hinv as (Hd & HV & _).
    assert (HQ : obj_inv (SF (sf_deriv sf) None) (lf_unbind f)) by (split; [exact Hd|]; split; [now apply vinv_unbind|reflexivity]).
    destruct (Forall2_upd _ _ _ _ _ _ _ HF HQ Hu) as (m' & -> & HF'). cbn [obind]. eexists. split; [reflexivity|]. split; auto.
  - apply obind_Some in Hs as (sf & Hi & Hs). injection Hs as <-.
    destruct (Forall2_nth_l _ _ _ _ _ HF Hi) as (f & Hf & Hinv). rewrite Hf. cbn [obind].
    destruct (copy_inv sf f Hinv) as (f' & -> & Hf'). cbn [obind]. eexists. split; [reflexivity|]. split; [|split; auto]. cbn.
    apply Forall2_app; auto.
  - apply obind_Some in Hs as (sf & Hi & Hs). apply obind_Some in Hs as (sg & Hj & Hs).
    destruct (Forall2_nth_l _ _ _ _ _ HF Hi) as (f & Hf & Hinv). destruct (Forall2_nth_l _ _ _ _ _ HF Hj) as (g & Hg & Hinv').
    rewrite Hf. cbn [obind]. rewrite Hg. cbn [obind]. destruct Hinv as (Hd & HR). pose proof Hinv' as (Hd' & _).
    rewrite Hd, Hd'. destruct (Bool.eqb _ _); [|discriminate]. apply obind_Some in Hs as (l' & Hu & Hs). injection Hs as <-.
    destruct (Forall2_upd _ _ _ _ _ (lf_assign f g) _ HF (assign_inv sf sg f g (conj Hd HR) Hinv') Hu) as (m' & -> & HF'). cbn [obind].
    eexists. split; [reflexivity|]. split; auto.
  - apply obind_Some in Hs as (sf & Hi & Hs). destruct (Forall2_nth_l _ _ _ _ _ HF Hi) as (f & Hf & Hinv). rewrite Hf. cbn [obind].
    destruct Hinv as (Hd & HV & HS). unfold lf_derivative. rewrite Hd. destruct (sf_deriv sf); [discriminate|]. injection Hs as <-.
    destruct (sf_state sf) as [[e c]|].
    + destruct HS as (H1 & H2 & _). rewrite H1. destruct HV as [_ Hi']. destruct (Hi' e H1) as (He & _).
      destruct (new_inv true) as (_ & HVn & _).
      destruct (bind_inv (w_coefs w) (lf_new su true) e HVn He Hok) as (f' & -> & Hf'). cbn [obind].
      eexists. split; [reflexivity|]. split; [|split; auto]. cbn. apply Forall2_app; auto.
    + rewrite HS. cbn [obind]. eexists. split; [reflexivity|]. split; [|split; auto]. cbn. apply Forall2_app; auto. constructor; auto. apply new_inv.
  - injection Hs as <-. eexists. split; [reflexivity|]. split; auto.
Qed.
Lemma run_inv h : forall sw w sw', world_inv sw w -> Forall (op_ok b els su) h -> sf_run sw h = Some sw' ->
  exists w', lf_run su w h = Some w' /\ world_inv sw' w'.
Proof.
  induction h as [|o h IH]; intros sw w sw' HI Ho HR; cbn in *; [injection HR as <-; eauto|].
  inversion Ho; subst. apply obind_Some in HR as (s1 & S1 & HR). destruct (step_inv sw w o s1 HI H1 S1) as (w1 & -> & HI1). cbn. eauto.
Qed.

(** * Evaluation *)
Lemma combine_ok f n nb size sv :
  (forall i, i < nb -> exists k c, local_index n i = Some k /\ nth_error (lf_dofs f) k = Some c /\ length c = su_cdim su) ->
  length sv = nb -> Forall (fun s => length s = size) sv ->
  exists vals, combine_leaf su f n nb size sv = Some vals /\ length vals = su_cdim su /\ Forall (fun w => length w = size) vals /\
    forall j k, j < su_cdim su -> k < size ->
      nth k (nth j vals []) 0%R = rsum nb (fun i =>
        (match local_index n i with Some q => nth j (nth q (lf_dofs f) []) 0 | None => 0 end * nth k (nth i sv []) 0)%R).
Proof.
  intros Hd Hl Hs. unfold combine_leaf.
  destruct (forl_inv (fun i0 vals => length vals = su_cdim su /\ Forall (fun w => length w = size) vals /\
      forall j k, j < su_cdim su -> k < size ->
      nth k (nth j vals []) 0%R = rsum i0 (fun i =>
        (match local_index n i with Some q => nth j (nth q (lf_dofs f) []) 0 | None => 0 end * nth k (nth i sv []) 0)%R))
    nb 0 (fun i vals =>
    k <- local_index n i ;;
    c <- nth_error (lf_dofs f) k ;;
    forl (su_cdim su) 0 (fun j vals =>
      a <- nth_error c j ;;
      w <- nth_error vals j ;;
      x <- nth_error sv i ;;
      w' <- axpy a x w ;;
      upd vals j w') vals) (repeat (repeat 0%R size) (su_cdim su))) as (vals & H1 & H2 & H3 & H4).
  - split; [apply repeat_length|]. split.
    + apply Forall_forall. intros w Hw. apply repeat_spec in Hw as ->. apply repeat_length.
    + intros j k Hj Hk. rewrite rsum_0.
      assert (Hn : nth j (repeat (repeat 0%R size) (su_cdim su)) [] = repeat 0%R size).
      { apply nth_error_nth. rewrite nth_error_repeat_eq. destruct (Nat.ltb_spec j (su_cdim su)); [auto|lia]. }
      rewrite Hn. apply nth_error_nth. rewrite nth_error_repeat_eq. destruct (Nat.ltb_spec k size); [auto|lia].
  - intros i vals Hi (HL & HF & HV). destruct (Hd i ltac:(lia)) as (k & c & Hk & Hc & Hcl). rewrite Hk. cbn [obind]. rewrite Hc. cbn [obind].
    destruct (nth_error_lt_Some sv i) as [x Hx]; [lia|]. rewrite Forall_forall in Hs. pose proof (Hs x (nth_error_In _ _ Hx)) as Hxl.
    destruct (forl_inv (fun j0 vs => length vs = su_cdim su /\ Forall (fun w => length w = size) vs /\
       forall j q, j < su_cdim su -> q < size -> nth q (nth j vs []) 0%R =
         (nth q (nth j vals []) 0 + if j <? j0 then nth j c 0 * nth q x 0 else 0)%R)
       (su_cdim su) 0 (fun j vals =>
          a <- nth_error c j ;; w <- nth_error vals j ;; x <- nth_error sv i ;; w' <- axpy a x w ;; upd vals j w') vals)
      as (vs & V1 & V2 & V3 & V4).
    + split; auto. split; auto. intros j q _ _. destruct (Nat.ltb_spec j 0); [lia|]. lra.
    + intros j vs Hj (W1 & W2 & W3). destruct (nth_error_lt_Some c j) as [a Ha]; [lia|].
      destruct (nth_error_lt_Some vs j) as [w Hw]; [lia|]. rewrite Ha. cbn [obind]. rewrite Hw. cbn [obind]. rewrite Hx. cbn [obind].
      rewrite Forall_forall in W2. pose proof (W2 w (nth_error_In _ _ Hw)) as Hwl.
      destruct (axpy_ok a x w) as (w' & Hax & Hl' & Hn'); [congruence|]. rewrite Hax. cbn [obind].
      destruct (upd_Some vs j w') as [vs' Hu]; [lia|]. rewrite Hu. exists vs'. split; auto.
      split; [rewrite (upd_length _ _ _ _ Hu); auto|]. split.
      * apply Forall_forall. intros z Hz. apply In_nth_error in Hz as [r Hr]. rewrite (upd_nth_error _ _ _ _ r Hu) in Hr.
        destruct (Nat.eqb_spec r j); [injection Hr as <-; congruence|]. apply W2. eapply nth_error_In; eauto.
      * intros j' q Hj' Hq. specialize (W3 j' q Hj' Hq).
        destruct (Nat.eq_dec j' j) as [->|Hne].
        -- assert (E1 : nth j vs' [] = w') by (apply nth_error_nth; rewrite (upd_nth_error _ _ _ _ j Hu), Nat.eqb_refl; auto).
           rewrite E1, Hn' by congruence. rewrite (nth_error_nth _ _ [] Hw) in W3. rewrite W3, (nth_error_nth _ _ 0%R Ha).
           destruct (Nat.ltb_spec j j); [lia|]. destruct (Nat.ltb_spec j (j + 1)); [|lia]. lra.
        -- assert (E1 : nth j' vs' [] = nth j' vs []).
           { destruct (nth_error_lt_Some vs j') as [z Hz]; [lia|]. rewrite (nth_error_nth _ _ [] Hz). apply nth_error_nth.
             rewrite (upd_nth_error _ _ _ _ j' Hu). destruct (Nat.eqb_spec j' j); [lia|auto]. }
           rewrite E1, W3. destruct (Nat.ltb_spec j' j), (Nat.ltb_spec j' (j + 1)); try lia; lra.
    + exists vs. split; auto. split; auto. split; auto. intros j q Hj Hq. rewrite V4, HV by auto. rewrite Nat.add_1_r, rsum_S, Hk.
      rewrite (nth_error_nth _ _ [] Hc), (nth_error_nth _ _ [] Hx). cbn. destruct (Nat.ltb_spec j (su_cdim su)); [lra|lia].
  - exists vals. auto.
Qed.
End Run.
