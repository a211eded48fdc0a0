(** Proofs for C100: the loops of the Stokes example. *)
From Coq Require Import List Arith Lia Bool Reals Lra.
From Verif Require Import Lib Basis_model Basis_spec Basis_ok Basis_view Basis_proofs Basis_props DiscreteFunction_model DiscreteFunction_proofs
  Assembly_proofs Stokes_model Stokes_spec.
Import ListNotations.

Lemma addr_eqb_spec a a' : reflect (a = a') (addr_eqb a a').
Proof. unfold addr_eqb. destruct (list_eq_dec Nat.eq_dec a a'); constructor; auto. Qed.
Lemma addr_eqb_refl a : addr_eqb a a = true.
Proof. destruct (addr_eqb_spec a a); congruence. Qed.
Lemma addr_eqb_sym a a' : addr_eqb a a' = addr_eqb a' a.
Proof. destruct (addr_eqb_spec a a'), (addr_eqb_spec a' a); congruence. Qed.
Lemma in_addrs a l : existsb (addr_eqb a) l = true <-> In a l.
Proof.
  rewrite existsb_exists. split.
  - intros (q & H & Q). destruct (addr_eqb_spec a q) as [->|]; [exact H|discriminate].
  - intros H. exists a. split; auto. apply addr_eqb_refl.
Qed.

Section Proofs.
Context {E : Type}.
Variables (dim : nat) (v p : leaf E) (els : E -> Prop) (loc : E -> nat -> nat -> R).
Notation b := (stokes_basis dim v p).
Hypotheses (Hdim : 0 < dim) (Hv : leaf_ok els v) (Hp : leaf_ok els p).

Lemma stokes_wf : wf els b.
Proof.
  cbn. split; [discriminate|]. split; [|split; [exact Hp|exact I]]. split; [exact Hdim|]. split; [exact Hv|]. intros _. apply Forall_forall. intros t H. apply repeat_spec in H. subst. exact I.
Qed.

Definition valid (m : mi) : Prop := (exists r k, m = [0; r; k] /\ r < lf_dim v /\ k < dim) \/ (exists r, m = [1; r] /\ r < lf_dim p).
Lemma index_valid m : global_index els b m -> valid m.
Proof.
  intros H. apply (C08_index_tree_is_covered b els m stokes_wf) in H. destruct m as [|a m]; [discriminate|]. cbn in H. destruct a as [|[|a]]; cbn in H.
  - left. destruct m as [|r m]; [discriminate|]. cbn in H.
    destruct (nth_error (map (refine_dofs dim) (repeat DOF (lf_dim v))) r) as [t|] eqn:Q; [|discriminate].
    pose proof (nth_error_Some_lt _ _ _ Q) as L. rewrite map_length, repeat_length in L.
    rewrite nth_error_map, nth_error_repeat in Q by exact L. cbn in Q. injection Q as <-.
    destruct m as [|k m]; [discriminate|]. cbn in H. destruct (nth_error (repeat DOF dim) k) as [t|] eqn:Q; [|discriminate].
    pose proof (nth_error_Some_lt _ _ _ Q) as L2. rewrite repeat_length in L2. rewrite nth_error_repeat in Q by exact L2. injection Q as <-.
    destruct m; [|discriminate]. eauto 6.
  - right. destruct m as [|r m]; [discriminate|]. cbn in H. destruct (nth_error (repeat DOF (lf_dim p)) r) as [t|] eqn:Q; [|discriminate].
    pose proof (nth_error_Some_lt _ _ _ Q) as L2. rewrite repeat_length in L2. rewrite nth_error_repeat in Q by exact L2. injection Q as <-.
    destruct m; [|discriminate]. eauto.
  - destruct a; discriminate.
Qed.

Notation N e := (length (indices b e)).
Notation idx := (index_at b).
Definition freshs (w : lview E) : Prop := skel (lv_tree w) = skel (pb_node (build b)).
Lemma rebinds w e : freshs w -> els e -> exists w', lv_bind (build b) w e = Some w' /\ freshs w' /\ lv_size w' = N e /\
  forall i, i < N e -> lv_index w' i = Some (idx e i) /\ valid (idx e i).
Proof.
  intros Hw He. pose proof (build_ok b els stokes_wf) as OK.
  pose proof (bind_ok els _ _ w e OK He Hw) as B. pose proof (bind_new_ok els _ _ e OK He) as B1. cbn zeta in *.
  set (w' := LV _ _ _) in B. set (w1 := LV _ _ _) in B1.
  assert (S1 : lv_size w' = length (sp_keys (meaning b) e)) by (apply (ok_nsize _ _ _ OK _ e 0 He Hw)).
  assert (S2 : lv_size w1 = length (sp_keys (meaning b) e)) by (apply (ok_nsize _ _ _ OK _ e 0 He (new_skel _))).
  assert (L : N e = lv_size w1) by (unfold indices; rewrite B1, map_length, seq_length; reflexivity).
  exists w'. split; [exact B|]. split; [|split; [congruence|]].
  - unfold freshs. cbn [w' lv_tree]. now rewrite skel_bind.
  - intros i Hi. rewrite L in Hi.
    assert (D : idx e i = match lv_index w1 i with Some m => m | None => [] end).
    { unfold index_at, indices. rewrite B1. set (f := fun i : nat => _).
      rewrite (nth_indep _ [] (f 0)) by (rewrite map_length, seq_length; exact Hi). rewrite map_nth, seq_nth by exact Hi. reflexivity. }
    destruct (C06_every_local_dof_has_an_index b els e stokes_wf He) as (w2 & B2 & Q). rewrite B1 in B2. injection B2 as <-.
    destruct (proj1 (Q i) Hi) as [m Hm].
    assert (G : global_index els b m) by (exists e, i; split; [exact He|]; exists w1; split; [exact B1|split; auto]).
    rewrite D, Hm. split; [|now apply index_valid]. change (lv_index w' i) with (lv_index w1 i). exact Hm.
Qed.
Lemma freshs_new : freshs (lv_new (build b)).
Proof. apply new_skel. Qed.

(** * Addresses *)
Definition key (r c : mi) : addr := [nth 0 r 0; nth 0 c 0; nth 1 r 0; nth 1 c 0].
Definition full (r c : mi) : addr := [nth 0 r 0; nth 0 c 0; nth 1 r 0; nth 1 c 0; nth 2 r 0; nth 2 c 0].
Lemma matrix_entry_full r c : valid r -> valid c -> matrix_entry r c = Some (full r c).
Proof. intros [(r1 & r2 & -> & _)|(r1 & -> & _)] [(c1 & c2 & -> & _)|(c1 & -> & _)]; reflexivity. Qed.
Lemma stored_full r c M : valid r -> valid c -> stored dim M (full r c) = existsb (addr_eqb (key r c)) (bm_pat M).
Proof.
  intros [(r1 & r2 & -> & _ & R)|(r1 & -> & _)] [(c1 & c2 & -> & _ & C)|(c1 & -> & _)]; unfold stored, full, key, inner; cbn [nth Nat.eqb];
    rewrite ?(proj2 (Nat.ltb_lt _ _) R), ?(proj2 (Nat.ltb_lt _ _) C); change (0 <? 1) with true; now rewrite !andb_true_r.
Qed.
Lemma full_inj r c r' c' : valid r -> valid c -> valid r' -> valid c' -> full r c = full r' c' -> r = r' /\ c = c'.
Proof.
  intros [(r1 & r2 & -> & _)|(r1 & -> & _)] [(c1 & c2 & -> & _)|(c1 & -> & _)] [(r3 & r4 & -> & _)|(r3 & -> & _)] [(c3 & c4 & -> & _)|(c3 & -> & _)];
    unfold full; cbn [nth]; intros H; try discriminate; injection H; intros; subst; split; reflexivity.
Qed.
Definition has (M : bmat) (r c : mi) : Prop := In (key r c) (bm_pat M).
Lemma entry_full M r c : valid r -> valid c -> entry dim M r c = if existsb (addr_eqb (key r c)) (bm_pat M) then bm_val M (full r c) else 0%R.
Proof. intros Hr Hc. unfold entry. now rewrite matrix_entry_full, stored_full by auto. Qed.
Lemma change_ok M r c f : valid r -> valid c -> has M r c -> exists M', change dim r c f M = Some M' /\ bm_pat M' = bm_pat M /\
  forall r' c', valid r' -> valid c' -> entry dim M' r' c' = if addr_eqb r' r && addr_eqb c' c then f (entry dim M r c) else entry dim M r' c'.
Proof.
  intros Hr Hc H. unfold change. rewrite matrix_entry_full by auto. cbn [obind]. rewrite stored_full by auto. rewrite (proj2 (in_addrs _ _) H).
  eexists. split; [reflexivity|]. split; [reflexivity|]. intros r' c' Hr' Hc'. rewrite !entry_full by auto. cbn [bm_pat bm_val].
  rewrite (proj2 (in_addrs _ _) H).
  destruct (addr_eqb_spec r' r) as [->|N1]; [destruct (addr_eqb_spec c' c) as [->|N2]|]; cbn [andb].
  - rewrite (proj2 (in_addrs _ _) H), addr_eqb_refl. reflexivity.
  - destruct (addr_eqb_spec (full r c') (full r c)) as [Q|]; [|reflexivity]. apply full_inj in Q as [_ Q]; auto. congruence.
  - destruct (addr_eqb_spec (full r' c') (full r c)) as [Q|]; [|reflexivity]. apply full_inj in Q as [Q _]; auto. congruence.
Qed.

(** * The pattern *)
Lemma block_add_ok r c nb : valid r -> valid c -> block_add (build b) r c nb = Some (key r c :: nb).
Proof.
  intros [(r1 & r2 & -> & R & _)|(r1 & -> & R)] [(c1 & c2 & -> & C & _)|(c1 & -> & C)]; unfold block_add, key; cbn -[Nat.ltb];
    change (0 <? 2) with true; change (1 <? 2) with true; cbn -[Nat.ltb];
    rewrite ?(proj2 (Nat.ltb_lt _ _) R), ?(proj2 (Nat.ltb_lt _ _) C); reflexivity.
Qed.
Definition good (w : lview E) (e : E) : Prop := lv_size w = N e /\ forall i, i < N e -> lv_index w i = Some (idx e i) /\ valid (idx e i).
Lemma pattern_element_oks w e nb : good w e -> exists nb', block_pattern_element (build b) w nb = Some nb' /\ incl nb nb' /\
  forall i j, i < N e -> j < N e -> In (key (idx e i) (idx e j)) nb'.
Proof.
  intros [Hs Hd]. unfold block_pattern_element. rewrite Hs.
  destruct (forl_inv (fun k nb' => incl nb nb' /\ forall i j, i < k -> j < N e -> In (key (idx e i) (idx e j)) nb')
    (N e) 0 (fun i nb => row <- lv_index w i ;; forl (N e) 0 (fun j nb => col <- lv_index w j ;; block_add (build b) row col nb) nb) nb) as (nb' & E1 & P1 & P2).
  - split; [apply incl_refl|]. intros; lia.
  - intros i nb1 Hi [A1 A2]. destruct (Hd i ltac:(lia)) as [-> V1]. cbn [obind].
    destruct (forl_inv (fun k nb' => incl nb1 nb' /\ forall j, j < k -> In (key (idx e i) (idx e j)) nb')
      (N e) 0 (fun j nb => col <- lv_index w j ;; block_add (build b) (idx e i) col nb) nb1) as (nb2 & E2 & B1 & B2).
    + split; [apply incl_refl|]. intros; lia.
    + intros j nb3 Hj [C1 C2]. destruct (Hd j ltac:(lia)) as [-> V2]. cbn [obind]. rewrite block_add_ok by auto. eexists. split; [reflexivity|]. split.
      * intros x Hx. right. auto.
      * intros j' Hj'. destruct (Nat.eq_dec j' j) as [->|]; [now left|]. right. apply C2. lia.
    + exists nb2. split; [exact E2|]. split; [intros x Hx; auto|]. intros i' j Hi' Hj.
      destruct (Nat.eq_dec i' i) as [->|]; [apply B2; cbn; lia|]. apply B1, A2; lia.
  - exists nb'. auto.
Qed.
Definition covers (M : list addr) (e : E) : Prop := forall i j, i < N e -> j < N e -> In (key (idx e i) (idx e j)) M.
Lemma block_pattern_ok es : forall w nb, freshs w -> (forall e, In e es -> els e) ->
  exists nb', block_pattern (build b) w es nb = Some nb' /\ incl nb nb' /\ forall e, In e es -> covers nb' e.
Proof.
  induction es as [|e es IH]; intros w nb Hw He.
  - exists nb. split; [reflexivity|]. split; [apply incl_refl|]. intros e [].
  - cbn [block_pattern]. destruct (rebinds w e Hw (He e (or_introl eq_refl))) as (w' & -> & Hw' & G). cbn [obind].
    destruct (pattern_element_oks w' e nb G) as (nb1 & -> & P1 & P2). cbn [obind].
    destruct (IH w' nb1 Hw' ltac:(intros; apply He; now right)) as (nb2 & -> & Q1 & Q2). exists nb2. split; [reflexivity|].
    split; [intros x Hx; auto|]. intros e' [<-|K]; [|auto]. intros i j Hi Hj. apply Q1. auto.
Qed.

(** * Adding element matrices *)
Lemma add_element_ok w e M : good w e -> covers (bm_pat M) e ->
  exists M', add_element loc dim e w M = Some M' /\ bm_pat M' = bm_pat M /\
    forall r c, valid r -> valid c -> entry dim M' r c = (entry dim M r c + contribution b loc r c e)%R.
Proof.
  intros [Hs Hd] HC. unfold add_element. rewrite Hs.
  set (term r c i j := if addr_eqb (idx e i) r && addr_eqb (idx e j) c then loc e i j else 0%R).
  destruct (forl_inv (fun k M' => bm_pat M' = bm_pat M /\ forall r c, valid r -> valid c -> entry dim M' r c = (entry dim M r c + rsum k (fun i => rsum (N e) (term r c i)))%R)
    (N e) 0 (fun i M => row <- lv_index w i ;; forl (N e) 0 (fun j M => col <- lv_index w j ;; change dim row col (fun x => (x + loc e i j)%R) M) M) M) as (M' & E1 & P1 & P2).
  - split; [reflexivity|]. intros. rewrite rsum_0. lra.
  - intros i M1 Hi [A1 A2]. destruct (Hd i ltac:(lia)) as [-> V1]. cbn [obind].
    destruct (forl_inv (fun k M' => bm_pat M' = bm_pat M /\ forall r c, valid r -> valid c -> entry dim M' r c = (entry dim M1 r c + rsum k (term r c i))%R)
      (N e) 0 (fun j M => col <- lv_index w j ;; change dim (idx e i) col (fun x => (x + loc e i j)%R) M) M1) as (M2 & E2 & B1 & B2).
    + split; [exact A1|]. intros. rewrite rsum_0. lra.
    + intros j M3 Hj [C1 C2]. destruct (Hd j ltac:(lia)) as [-> V2]. cbn [obind].
      destruct (change_ok M3 (idx e i) (idx e j) (fun x => (x + loc e i j)%R) V1 V2) as (M4 & -> & D1 & D2).
      { unfold has. rewrite C1. apply HC; lia. }
      exists M4. split; [reflexivity|]. split; [congruence|]. intros r c Hr Hc. rewrite D2, Nat.add_1_r, rsum_S by auto. unfold term at 2.
      rewrite (addr_eqb_sym (idx e i) r), (addr_eqb_sym (idx e j) c).
      destruct (addr_eqb_spec r (idx e i)) as [->|N1]; [destruct (addr_eqb_spec c (idx e j)) as [->|N2]|]; cbn [andb]; rewrite C2 by auto; lra.
    + exists M2. split; [exact E2|]. split; [exact B1|]. intros r c Hr Hc. rewrite B2, A2, Nat.add_1_r, rsum_S by auto. cbn [Nat.add]. lra.
  - exists M'. split; [exact E1|]. split; [exact P1|]. intros r c Hr Hc. rewrite P2 by auto. reflexivity.
Qed.
Lemma add_elements_ok es : forall w M, freshs w -> (forall e, In e es -> els e) -> (forall e, In e es -> covers (bm_pat M) e) ->
  exists M', add_elements loc dim (build b) w es M = Some M' /\ bm_pat M' = bm_pat M /\
    forall r c, valid r -> valid c -> entry dim M' r c = (entry dim M r c + total b loc r c es)%R.
Proof.
  induction es as [|e es IH]; intros w M Hw He HC.
  - exists M. split; [reflexivity|]. split; [reflexivity|]. intros. unfold total. cbn. lra.
  - cbn [add_elements]. destruct (rebinds w e Hw (He e (or_introl eq_refl))) as (w' & -> & Hw' & G). cbn [obind].
    destruct (add_element_ok w' e M G (HC e (or_introl eq_refl))) as (M1 & -> & P1 & P2). cbn [obind].
    destruct (IH w' M1 Hw') as (M2 & -> & Q1 & Q2); [intros; apply He; now right|intros; rewrite P1; apply HC; now right|].
    exists M2. split; [reflexivity|]. split; [congruence|]. intros r c Hr Hc. rewrite Q2, P2 by auto. unfold total. cbn [map fold_right]. lra.
Qed.
Lemma assemble_stokes_ok es : (forall e, In e es -> els e) -> exists M, assemble_stokes loc dim (build b) es = Some M /\
  (forall e, In e es -> covers (bm_pat M) e) /\ forall r c, valid r -> valid c -> entry dim M r c = total b loc r c es.
Proof.
  intros He. unfold assemble_stokes. destruct (block_pattern_ok es (lv_new (build b)) [] freshs_new He) as (nb & -> & _ & P2). cbn [obind].
  destruct (add_elements_ok es (lv_new (build b)) (BM nb (fun _ => 0%R)) freshs_new He P2) as (M & -> & Q1 & Q2).
  exists M. split; [reflexivity|]. rewrite Q1. split; [exact P2|]. intros r c Hr Hc. rewrite Q2, entry_full by auto. cbn. destruct (existsb _ _); lra.
Qed.

(** * Rows of the identity *)
Definition delta (r c : mi) : R := if addr_eqb r c then 1%R else 0%R.
Lemma in_idx e m : In m (indices b e) <-> exists i, i < N e /\ idx e i = m.
Proof.
  split.
  - intros H. apply (In_nth _ _ []) in H as (i & Hi & Q). exists i. auto.
  - intros (i & Hi & <-). apply nth_In. exact Hi.
Qed.
Lemma identity_element_ok d w e M : good w e -> covers (bm_pat M) e ->
  exists M', identity_element dim d w M = Some M' /\ bm_pat M' = bm_pat M /\ forall r c, valid r -> valid c ->
    (d r = true -> In r (indices b e) -> In c (indices b e) -> entry dim M' r c = delta r c) /\
    (d r = false \/ ~ In r (indices b e) \/ ~ In c (indices b e) -> entry dim M' r c = entry dim M r c).
Proof.
  intros [Hs Hd] HC. unfold identity_element. rewrite Hs.
  destruct (forl_inv (fun k M' => bm_pat M' = bm_pat M /\ forall r c, valid r -> valid c ->
      (d r = true -> (exists i, i < k /\ idx e i = r) -> (forall i, k <= i < N e -> idx e i <> r) -> In c (indices b e) -> entry dim M' r c = delta r c) /\
      (d r = false \/ ~ In r (indices b e) \/ ~ In c (indices b e) -> entry dim M' r c = entry dim M r c))
    (N e) 0 (fun i M => row <- lv_index w i ;; if d row then forl (N e) 0 (fun j M => col <- lv_index w j ;; change dim row col (fun _ => if i =? j then 1%R else 0%R) M) M else Some M) M)
    as (M' & E1 & P1 & P2).
  - split; [reflexivity|]. intros r c _ _. split; [|auto]. intros _ (i & Hi & _). lia.
  - intros k M1 Hk [A1 A2]. destruct (Hd k ltac:(lia)) as [-> V1]. cbn [obind]. set (row := idx e k) in *.
    destruct (d row) eqn:D.
    + destruct (forl_inv (fun j M2 => bm_pat M2 = bm_pat M /\ (forall r c, valid r -> valid c -> r <> row \/ ~ In c (indices b e) -> entry dim M2 r c = entry dim M1 r c) /\
          (forall c, valid c -> c <> row -> (exists j', j' < j /\ idx e j' = c) -> entry dim M2 row c = 0%R) /\
          (k < j -> (forall j', k < j' < j -> idx e j' <> row) -> entry dim M2 row row = 1%R))
        (N e) 0 (fun j M => col <- lv_index w j ;; change dim row col (fun _ => if k =? j then 1%R else 0%R) M) M1) as (M2 & E2 & B1 & B2 & B3 & B4).
      * split; [exact A1|]. split; [auto|]. split; [intros c _ _ (j' & Hj' & _); lia|intros; lia].
      * intros j M3 Hj (C1 & C2 & C3 & C4). destruct (Hd j ltac:(lia)) as [-> V2]. cbn [obind].
        destruct (change_ok M3 row (idx e j) (fun _ => if k =? j then 1%R else 0%R) V1 V2) as (M4 & -> & D1 & D2).
        { unfold has. rewrite C1. apply HC; lia. }
        exists M4. split; [reflexivity|]. split; [congruence|]. split; [|split].
        -- intros r c Hr Hc H. rewrite D2 by auto. destruct (addr_eqb_spec r row) as [->|N1]; [|cbn [andb]; auto].
           destruct (addr_eqb_spec c (idx e j)) as [->|N2]; [|cbn [andb]; auto]. exfalso. destruct H as [H|H]; [congruence|]. apply H, in_idx. exists j. split; [lia|auto].
        -- intros c Hc NR (j' & Hj' & Q). rewrite D2, addr_eqb_refl by auto. cbn [andb]. destruct (addr_eqb_spec c (idx e j)) as [->|N2].
           ++ destruct (Nat.eqb_spec k j) as [<-|]; [contradiction NR; reflexivity|reflexivity].
           ++ apply C3; auto. exists j'. split; [|exact Q]. destruct (Nat.eq_dec j' j) as [->|]; [congruence|lia].
        -- intros Kj H. rewrite D2, addr_eqb_refl by auto. cbn [andb]. destruct (addr_eqb_spec row (idx e j)) as [Q|N2].
           ++ destruct (Nat.eqb_spec k j) as [|NK]; [reflexivity|]. exfalso. apply (H j); [lia|congruence].
           ++ assert (k <> j) by (intros ->; contradiction N2; reflexivity). apply C4; [lia|]. intros j' Hj'. apply H. lia.
      * exists M2. split; [exact E2|]. split; [exact B1|]. intros r c Hr Hc. split.
        -- intros Dr (i & Hi & Qi) HN HIc. destruct (list_eq_dec Nat.eq_dec r row) as [->|NR].
           ++ unfold delta. destruct (addr_eqb_spec row c) as [<-|NC].
              ** apply B4; [cbn; lia|]. intros j' Hj'. apply HN. cbn in Hj'. lia.
              ** apply B3; auto. apply in_idx in HIc as (j & Hj & <-). exists j. auto.
           ++ rewrite B2 by auto. apply (proj1 (A2 r c Hr Hc)); auto.
              ** exists i. split; [|exact Qi]. destruct (Nat.eq_dec i k) as [->|]; [exfalso; apply NR; symmetry; exact Qi|lia].
              ** intros i' Hi'. destruct (Nat.eq_dec i' k) as [->|]; [intros Q; apply NR; symmetry; exact Q|]. apply HN. lia.
        -- intros H. rewrite B2; auto.
           ++ apply (proj2 (A2 r c Hr Hc) H).
           ++ destruct H as [H|[H|H]]; [left; congruence| |auto]. left. intros ->. apply H, in_idx. exists k. split; [lia|reflexivity].
    + exists M1. split; [reflexivity|]. split; [exact A1|]. intros r c Hr Hc. split; [|apply (proj2 (A2 r c Hr Hc))].
      intros Dr (i & Hi & Qi) HN HIc. assert (NR : idx e k <> r) by (fold row; congruence). apply (proj1 (A2 r c Hr Hc)); auto.
      * exists i. split; [|exact Qi]. destruct (Nat.eq_dec i k) as [->|]; [congruence|lia].
      * intros i' Hi'. destruct (Nat.eq_dec i' k) as [->|]; [congruence|]. apply HN. lia.
  - exists M'. split; [exact E1|]. split; [exact P1|]. intros r c Hr Hc. split; [|apply (proj2 (P2 r c Hr Hc))].
    intros Dr Ir Ic. apply (proj1 (P2 r c Hr Hc)); auto; [|cbn; intros; lia]. apply in_idx in Ir as (i & Hi & Q). exists i. auto.
Qed.
Lemma identity_rows_ok d es : forall w M, freshs w -> (forall e, In e es -> els e) -> (forall e, In e es -> covers (bm_pat M) e) ->
  exists M', identity_rows dim (build b) d w es M = Some M' /\ bm_pat M' = bm_pat M /\ forall r c, valid r -> valid c ->
    (d r = true -> coupled b es r c -> entry dim M' r c = delta r c) /\
    (d r = false \/ ~ coupled b es r c -> entry dim M' r c = entry dim M r c).
Proof.
  assert (DEC : forall l (m : mi), In m l \/ ~ In m l) by (intros l m; destruct (in_dec (list_eq_dec Nat.eq_dec) m l); auto).
  induction es as [|e es IH]; intros w M Hw He HC.
  - exists M. split; [reflexivity|]. split; [reflexivity|]. intros r c _ _. split; [intros _ (e & [] & _)|auto].
  - cbn [identity_rows]. destruct (rebinds w e Hw (He e (or_introl eq_refl))) as (w' & -> & Hw' & G). cbn [obind].
    destruct (identity_element_ok d w' e M G (HC e (or_introl eq_refl))) as (M1 & -> & P1 & P2). cbn [obind].
    destruct (IH w' M1 Hw') as (M2 & -> & Q1 & Q2); [intros; apply He; now right|intros; rewrite P1; apply HC; now right|].
    exists M2. split; [reflexivity|]. split; [congruence|]. intros r c Hr Hc. destruct (P2 r c Hr Hc) as [P3 P4]. destruct (Q2 r c Hr Hc) as [Q3 Q4]. split.
    + intros Dr (e' & [<-|K] & K2 & K3); [|apply Q3; [exact Dr|exists e'; auto]].
      destruct (Exists_dec (fun e => In r (indices b e) /\ In c (indices b e)) es) as [X|X].
      { intros x. destruct (in_dec (list_eq_dec Nat.eq_dec) r (indices b x)), (in_dec (list_eq_dec Nat.eq_dec) c (indices b x)); tauto. }
      * apply Exists_exists in X as (x & X1 & X2). apply Q3; [exact Dr|]. exists x. tauto.
      * rewrite Q4; [apply P3; auto|]. right. intros (x & X1 & X2). apply X, Exists_exists. exists x. tauto.
    + intros H. rewrite Q4, P4; [reflexivity| |].
      * destruct H as [H|H]; [auto|]. right. destruct (DEC (indices b e) r) as [Y|]; [|auto]. destruct (DEC (indices b e) c) as [Z|]; [|auto].
        exfalso. apply H. exists e. cbn. auto.
      * destruct H as [H|H]; [auto|]. right. intros (x & X1 & X2). apply H. exists x. cbn. tauto.
Qed.
Lemma total_uncoupled es r c : ~ coupled b es r c -> total b loc r c es = 0%R.
Proof.
  unfold total. induction es as [|e es IH]; intros H; cbn; [reflexivity|]. rewrite IH.
  2:{ intros (x & X1 & X2). apply H. exists x. cbn. tauto. }
  assert (Z : contribution b loc r c e = 0%R); [|lra]. unfold contribution. apply rsum_zeros. intros i Hi. apply rsum_zeros. intros j Hj.
  destruct (addr_eqb_spec (idx e i) r) as [Q1|]; [|reflexivity]. destruct (addr_eqb_spec (idx e j) c) as [Q2|]; [|reflexivity].
  exfalso. apply H. exists e. cbn. rewrite !in_idx. split; [auto|]. split; eauto.
Qed.
End Proofs.
