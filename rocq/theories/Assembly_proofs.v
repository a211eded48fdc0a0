(** Proofs for C99: the loops of the assembly. *)
From Coq Require Import List Arith Lia Bool Reals Lra.
From Verif Require Import Lib Basis_model Basis_spec Basis_ok Basis_view Basis_proofs Basis_props DiscreteFunction_model DiscreteFunction_proofs
  PyArrays_model PyArrays_spec PyArrays_props Assembly_model Assembly_spec.
Import ListNotations.

Lemma rsum_zeros n f : (forall i, i < n -> f i = 0%R) -> rsum n f = 0%R.
Proof. induction n as [|n IH]; intros H; [reflexivity|]. rewrite rsum_S, IH, (H n) by (intros; try apply H; lia). lra. Qed.
Lemma rsum_pick1 n a f : a < n -> rsum n (fun i => if i =? a then f i else 0%R) = f a.
Proof.
  induction n as [|n IH]; intros H; [lia|]. rewrite rsum_S. destruct (Nat.eq_dec a n) as [->|N].
  - rewrite Nat.eqb_refl, rsum_zeros; [lra|]. intros i Hi. destruct (Nat.eqb_spec i n); [lia|reflexivity].
  - rewrite IH by lia. destruct (Nat.eqb_spec n a); [lia|lra].
Qed.
Lemma pos_eqb_spec p q : reflect (p = q) (pos_eqb p q).
Proof.
  destruct p as [a c], q as [a' c']. unfold pos_eqb. cbn. destruct (Nat.eqb_spec a a'), (Nat.eqb_spec c c'); constructor; congruence.
Qed.
Lemma in_pat p l : existsb (pos_eqb p) l = true <-> In p l.
Proof.
  rewrite existsb_exists. split.
  - intros (q & H & Q). destruct (pos_eqb_spec p q) as [->|]; [exact H|discriminate].
  - intros H. exists p. split; auto. destruct (pos_eqb_spec p p); congruence.
Qed.

(** Weighted sums of the entries of matrices and vectors. *)
Definition Phi (n : nat) (w val : nat -> nat -> R) : R := rsum n (fun r => rsum n (fun c => (w r c * val r c)%R)).
Definition Psi (n : nat) (w b : nat -> R) : R := rsum n (fun r => (w r * b r)%R).
Lemma Phi_add n w val r c x : r < n -> c < n ->
  Phi n w (fun r' c' => if pos_eqb (r', c') (r, c) then (val r' c' + x)%R else val r' c') = (Phi n w val + w r c * x)%R.
Proof.
  intros Hr Hc. unfold Phi.
  rewrite (rsum_ext n _ (fun r' => (rsum n (fun c' => w r' c' * val r' c') + (if r' =? r then w r' c * x else 0))%R)).
  - rewrite rsum_plus. f_equal. now rewrite (rsum_pick1 n r (fun r' => (w r' c * x)%R)).
  - intros r' _. rewrite (rsum_ext n _ (fun c' => (w r' c' * val r' c' + (if c' =? c then (if r' =? r then w r' c' * x else 0) else 0))%R)).
    + rewrite rsum_plus, (rsum_pick1 n c) by auto. reflexivity.
    + intros c' _. unfold pos_eqb. cbn. destruct (r' =? r), (c' =? c); cbn; lra.
Qed.
Lemma Psi_add n w b r x : r < n -> Psi n w (fun k => if k =? r then (b k + x)%R else b k) = (Psi n w b + w r * x)%R.
Proof.
  intros Hr. unfold Psi. rewrite (rsum_ext n _ (fun k => (w k * b k + (if k =? r then w k * x else 0))%R)).
  - now rewrite rsum_plus, (rsum_pick1 n r (fun k => (w k * x)%R)).
  - intros k _. destruct (k =? r); lra.
Qed.

Section Proofs.
Context {E : Type}.
Variables (b : bexpr E) (els : E -> Prop) (n : nat) (loc : E -> nat -> nat -> R) (locb : E -> nat -> R).
Hypotheses (Hwf : wf els b) (Hflat : flat b) (Hn : pb_size (build b) [] = Some n).
Notation N e := (length (numbers b e)).
Notation dof := (at_dof b).

Definition fresh (v : lview E) : Prop := skel (lv_tree v) = skel (pb_node (build b)).
Lemma rebind v e : fresh v -> els e -> exists v', lv_bind (build b) v e = Some v' /\ fresh v' /\ lv_size v' = N e /\
  forall i, i < N e -> view_number v' i = Some (dof e i) /\ dof e i < n.
Proof.
  intros Hv He. pose proof (build_ok b els Hwf) as OK.
  pose proof (bind_ok els _ _ v e OK He Hv) as B. pose proof (bind_new_ok els _ _ e OK He) as B1. cbn zeta in *.
  set (v' := LV _ _ _) in B. set (v1 := LV _ _ _) in B1.
  assert (S1 : lv_size v' = length (sp_keys (meaning b) e)) by (apply (ok_nsize _ _ _ OK _ e 0 He Hv)).
  assert (S2 : lv_size v1 = length (sp_keys (meaning b) e)) by (apply (ok_nsize _ _ _ OK _ e 0 He (new_skel _))).
  assert (L : N e = lv_size v1) by (unfold numbers; rewrite B1, map_length, seq_length; reflexivity).
  exists v'. split; [exact B|]. split; [|split; [congruence|]].
  - unfold fresh. cbn [v' lv_tree]. now rewrite skel_bind.
  - intros i Hi. rewrite L in Hi.
    assert (D : dof e i = match lv_index v1 i with Some [k] => k | _ => 0 end).
    { unfold at_dof, numbers. rewrite B1. set (f := fun i : nat => _).
      rewrite (nth_indep _ 0 (f 0)) by (rewrite map_length, seq_length; exact Hi). rewrite map_nth, seq_nth by exact Hi. reflexivity. }
    destruct (C06_every_local_dof_has_an_index b els e Hwf He) as (v2 & B2 & Q). rewrite B1 in B2. injection B2 as <-.
    destruct (proj1 (Q i) Hi) as [m Hm].
    assert (G : global_index els b m) by (exists e, i; split; [exact He|]; exists v1; split; [exact B1|split; auto]).
    destruct (flat_index b els Hwf n m Hflat Hn G) as (k & -> & Hk).
    rewrite D, Hm. split; [|exact Hk]. unfold view_number. change (lv_index v' i) with (lv_index v1 i). now rewrite Hm.
Qed.
Lemma fresh_new : fresh (lv_new (build b)).
Proof. apply new_skel. Qed.

(** * The pattern *)
Definition pat_ok (nb : list (nat * nat)) : Prop := NoDup nb /\ forall r c, In (r, c) nb -> r < n /\ c < n.
Lemma pat_add_ok r c nb : pat_ok nb -> r < n -> c < n ->
  exists nb', pat_add n r c nb = Some nb' /\ pat_ok nb' /\ forall p, In p nb' <-> In p nb \/ p = (r, c).
Proof.
  intros [P1 P2] Hr Hc. unfold pat_add. rewrite (proj2 (Nat.ltb_lt r n) Hr), (proj2 (Nat.ltb_lt c n) Hc). cbn [andb].
  destruct (existsb (pos_eqb (r, c)) nb) eqn:Q.
  - apply in_pat in Q. exists nb. split; [reflexivity|]. split; [now split|]. intros p. split; [auto|]. intros [H| ->]; auto.
  - exists ((r, c) :: nb). split; [reflexivity|]. split; [split|].
    + constructor; auto. intros H. apply in_pat in H. congruence.
    + intros r' c' [[= <- <-]|H]; auto.
    + intros p. cbn. split; intros [H|H]; auto.
Qed.
Lemma pattern_element_ok (v : lview E) e nb : lv_size v = N e -> (forall i, i < N e -> view_number v i = Some (dof e i) /\ dof e i < n) -> pat_ok nb ->
  exists nb', pattern_element n v nb = Some nb' /\ pat_ok nb' /\
    forall r c, In (r, c) nb' <-> In (r, c) nb \/ exists i j, i < N e /\ j < N e /\ r = dof e i /\ c = dof e j.
Proof.
  intros Hs Hd H0. unfold pattern_element. rewrite Hs.
  destruct (forl_inv (fun k nb' => pat_ok nb' /\ forall r c, In (r, c) nb' <-> In (r, c) nb \/ exists i j, i < k /\ j < N e /\ r = dof e i /\ c = dof e j)
    (N e) 0 (fun i nb => forl (N e) 0 (fun j nb => r <- view_number v i ;; c <- view_number v j ;; pat_add n r c nb) nb) nb) as (nb' & E1 & P1 & P2).
  - split; [exact H0|]. intros r c. split; [auto|]. intros [H|(i & j & H & _)]; [exact H|lia].
  - intros i nb1 Hi [A1 A2].
    destruct (forl_inv (fun k nb' => pat_ok nb' /\ forall r c, In (r, c) nb' <-> In (r, c) nb1 \/ exists j, j < k /\ r = dof e i /\ c = dof e j)
      (N e) 0 (fun j nb => r <- view_number v i ;; c <- view_number v j ;; pat_add n r c nb) nb1) as (nb2 & E2 & B1 & B2).
    + split; [exact A1|]. intros r c. split; [auto|]. intros [H|(j & H & _)]; [exact H|lia].
    + intros j nb3 Hj [C1 C2]. destruct (Hd i ltac:(lia)) as [-> R1]. destruct (Hd j ltac:(lia)) as [-> R2]. cbn [obind].
      destruct (pat_add_ok (dof e i) (dof e j) nb3 C1 R1 R2) as (nb4 & -> & D1 & D2). exists nb4. split; [reflexivity|]. split; [exact D1|].
      intros r c. rewrite D2, C2. split.
      * intros [[H|(j' & K1 & K2)]|[= -> ->]]; [auto|right; exists j'; split; [lia|auto]|right; exists j; split; [lia|auto]].
      * intros [H|(j' & K1 & -> & ->)]; [auto|]. destruct (Nat.eq_dec j' j) as [->|]; [auto|]. left. right. exists j'. split; [lia|auto].
    + exists nb2. split; [exact E2|]. split; [exact B1|]. intros r c. rewrite B2, A2. cbn [Nat.add]. split.
      * intros [[H|(i' & j & K1 & K2)]|(j & K1 & K2)]; [auto|right; exists i', j; split; [lia|auto]|right; exists i, j; split; [lia|auto]].
      * intros [H|(i' & j & K1 & K2 & K3)]; [auto|]. destruct (Nat.eq_dec i' i) as [->|]; [right; exists j; auto|]. left. right. exists i', j. split; [lia|auto].
  - exists nb'. auto.
Qed.
Lemma pattern_elements_ok es : forall v nb, fresh v -> (forall e, In e es -> els e) -> pat_ok nb ->
  exists nb', pattern_elements (build b) n v es nb = Some nb' /\ pat_ok nb' /\
    forall r c, In (r, c) nb' <-> In (r, c) nb \/ exists e, In e es /\ In r (numbers b e) /\ In c (numbers b e).
Proof.
  assert (IN : forall e r, In r (numbers b e) <-> exists i, i < N e /\ r = dof e i).
  { intros e r. split.
    - intros H. apply (In_nth _ _ 0) in H as (i & Hi & Q). exists i. split; auto.
    - intros (i & Hi & ->). apply nth_In. exact Hi. }
  induction es as [|e es IH]; intros v nb Hv He H0.
  - exists nb. split; [reflexivity|]. split; [exact H0|]. intros r c. split; [auto|]. intros [H|(e & [] & _)]; exact H.
  - cbn [pattern_elements]. destruct (rebind v e Hv (He e (or_introl eq_refl))) as (v' & -> & Hv' & S & D). cbn [obind].
    destruct (pattern_element_ok v' e nb S D H0) as (nb1 & -> & P1 & P2). cbn [obind].
    destruct (IH v' nb1 Hv' ltac:(intros; apply He; now right) P1) as (nb2 & -> & Q1 & Q2).
    exists nb2. split; [reflexivity|]. split; [exact Q1|]. intros r c. rewrite Q2, P2. split.
    + intros [[H|(i & j & K1 & K2 & K3 & K4)]|(e' & K1 & K2)]; [auto| |].
      * right. exists e. split; [now left|]. rewrite !IN. split; eauto.
      * right. exists e'. split; [now right|auto].
    + intros [H|(e' & [<-|K1] & K2 & K3)]; [auto| |].
      * left. right. apply IN in K2 as (i & A1 & A2). apply IN in K3 as (j & A3 & A4). exists i, j. auto.
      * right. exists e'. auto.
Qed.

(** * The matrix and the right hand side *)
Definition elem_sum (w : nat -> nat -> R) (e : E) : R := rsum (N e) (fun i => rsum (N e) (fun j => (w (dof e i) (dof e j) * loc e i j)%R)).
Definition elem_load (w : nat -> R) (e : E) : R := rsum (N e) (fun i => (w (dof e i) * locb e i)%R).
Definition same_mat (A A' : spm) : Prop := sm_n A' = sm_n A /\ sm_pat A' = sm_pat A /\
  forall r c, ~ In (r, c) (sm_pat A) -> sm_val A' r c = sm_val A r c.

Lemma mat_add_ok r c x A : In (r, c) (sm_pat A) -> r < n -> c < n ->
  exists A', mat_add r c x A = Some A' /\ same_mat A A' /\ forall w, Phi n w (sm_val A') = (Phi n w (sm_val A) + w r c * x)%R.
Proof.
  intros H Hr Hc. unfold mat_add. rewrite (proj2 (in_pat _ _) H). eexists. split; [reflexivity|]. split.
  - split; [reflexivity|]. split; [reflexivity|]. intros r' c' H'. cbn [sm_val]. destruct (pos_eqb_spec (r', c') (r, c)); [congruence|reflexivity].
  - intros w. now apply Phi_add.
Qed.
Lemma same_trans A B C : same_mat A B -> same_mat B C -> same_mat A C.
Proof. intros (H1 & H2 & H3) (K1 & K2 & K3). split; [congruence|]. split; [congruence|]. intros r c H. rewrite K3 by congruence. auto. Qed.

Lemma add_matrix_ok (v : lview E) e A : lv_size v = N e -> (forall i, i < N e -> view_number v i = Some (dof e i) /\ dof e i < n) ->
  (forall i j, i < N e -> j < N e -> In (dof e i, dof e j) (sm_pat A)) ->
  exists A', add_matrix loc e v A = Some A' /\ same_mat A A' /\ forall w, Phi n w (sm_val A') = (Phi n w (sm_val A) + elem_sum w e)%R.
Proof.
  intros Hs Hd HP. unfold add_matrix. rewrite Hs.
  destruct (forl_inv (fun k A' => same_mat A A' /\ forall w, Phi n w (sm_val A') = (Phi n w (sm_val A) + rsum k (fun i => rsum (N e) (fun j => w (dof e i) (dof e j) * loc e i j)))%R)
    (N e) 0 (fun i A => r <- view_number v i ;; forl (N e) 0 (fun j A => c <- view_number v j ;; mat_add r c (loc e i j) A) A) A) as (A' & E1 & P1 & P2).
  - split; [repeat split|]. intros w. rewrite rsum_0. lra.
  - intros i A1 Hi [S1 Q1]. destruct (Hd i ltac:(lia)) as [-> R1]. cbn [obind].
    destruct (forl_inv (fun k A' => same_mat A A' /\ forall w, Phi n w (sm_val A') = (Phi n w (sm_val A1) + rsum k (fun j => w (dof e i) (dof e j) * loc e i j))%R)
      (N e) 0 (fun j A => c <- view_number v j ;; mat_add (dof e i) c (loc e i j) A) A1) as (A2 & E2 & B1 & B2).
    + split; [exact S1|]. intros w. rewrite rsum_0. lra.
    + intros j A3 Hj [S3 Q3]. destruct (Hd j ltac:(lia)) as [-> R2]. cbn [obind].
      destruct (mat_add_ok (dof e i) (dof e j) (loc e i j) A3) as (A4 & -> & S4 & Q4); auto.
      { destruct S3 as (_ & -> & _). apply HP; lia. }
      exists A4. split; [reflexivity|]. split; [eapply same_trans; eauto|]. intros w. rewrite Q4, Q3, Nat.add_1_r, rsum_S. lra.
    + exists A2. split; [exact E2|]. split; [exact B1|]. intros w. rewrite B2, Q1, Nat.add_1_r, rsum_S. cbn [Nat.add]. lra.
  - exists A'. auto.
Qed.
Lemma add_rhs_ok (v : lview E) e y : lv_size v = N e -> (forall i, i < N e -> view_number v i = Some (dof e i) /\ dof e i < n) ->
  exists y', add_rhs locb n e v y = Some y' /\ forall w, Psi n w y' = (Psi n w y + elem_load w e)%R.
Proof.
  intros Hs Hd. unfold add_rhs. rewrite Hs.
  destruct (forl_inv (fun k y' => forall w, Psi n w y' = (Psi n w y + rsum k (fun i => w (dof e i) * locb e i))%R)
    (N e) 0 (fun i y => r <- view_number v i ;; vec_add n r (locb e i) y) y) as (y' & E1 & P1).
  - intros w. rewrite rsum_0. lra.
  - intros i y1 Hi Q1. destruct (Hd i ltac:(lia)) as [-> R1]. cbn [obind]. unfold vec_add. rewrite (proj2 (Nat.ltb_lt _ _) R1).
    eexists. split; [reflexivity|]. intros w. rewrite Psi_add, Q1, Nat.add_1_r, rsum_S by auto. lra.
  - exists y'. auto.
Qed.
Lemma assemble_elements_ok es : forall v A y, fresh v -> (forall e, In e es -> els e) ->
  (forall e r c, In e es -> In r (numbers b e) -> In c (numbers b e) -> In (r, c) (sm_pat A)) ->
  exists A' y', assemble_elements loc locb (build b) n v es A y = Some (A', y') /\ same_mat A A' /\
    (forall w, Phi n w (sm_val A') = (Phi n w (sm_val A) + fold_right Rplus 0 (map (elem_sum w) es))%R) /\
    (forall w, Psi n w y' = (Psi n w y + fold_right Rplus 0 (map (elem_load w) es))%R).
Proof.
  induction es as [|e es IH]; intros v A y Hv He HP.
  - exists A, y. split; [reflexivity|]. split; [repeat split|]. split; intros w; cbn; lra.
  - cbn [assemble_elements]. destruct (rebind v e Hv (He e (or_introl eq_refl))) as (v' & -> & Hv' & S & D). cbn [obind].
    destruct (add_matrix_ok v' e A S D) as (A1 & -> & S1 & P1).
    { intros i j Hi Hj. apply (HP e); [now left| |]; apply nth_In; auto. }
    cbn [obind]. destruct (add_rhs_ok v' e y S D) as (y1 & -> & P2). cbn [obind].
    destruct (IH v' A1 y1 Hv') as (A2 & y2 & -> & S2 & Q1 & Q2).
    { intros; apply He; now right. }
    { intros e' r c H. destruct S1 as (_ & -> & _). apply HP. now right. }
    exists A2, y2. split; [reflexivity|]. split; [eapply same_trans; eauto|]. cbn [map fold_right].
    split; intros w; [rewrite Q1, P1|rewrite Q2, P2]; lra.
Qed.
Lemma assemble_ok es : (forall e, In e es -> els e) ->
  exists A y, assemble loc locb (build b) es = Some (A, y) /\ sm_n A = n /\ pat_ok (sm_pat A) /\
    (forall r c, In (r, c) (sm_pat A) <-> exists e, In e es /\ In r (numbers b e) /\ In c (numbers b e)) /\
    (forall r c, ~ In (r, c) (sm_pat A) -> sm_val A r c = 0%R) /\
    (forall w, Phi n w (sm_val A) = fold_right Rplus 0%R (map (elem_sum w) es)) /\
    (forall w, Psi n w y = fold_right Rplus 0%R (map (elem_load w) es)).
Proof.
  intros He. unfold assemble. rewrite Hn. cbn [obind].
  destruct (pattern_elements_ok es (lv_new (build b)) [] fresh_new He) as (nb & -> & P1 & P2).
  { split; [constructor|]. intros r c []. }
  cbn [obind].
  destruct (assemble_elements_ok es (lv_new (build b)) (SM n nb (fun _ _ => 0%R)) (fun _ => 0%R) fresh_new He) as (A & y & -> & (S1 & S2 & S3) & Q1 & Q2).
  { intros e r c K1 K2 K3. apply P2. right. exists e. auto. }
  exists A, y. split; [reflexivity|]. cbn [sm_n sm_pat sm_val] in *. split; [exact S1|]. rewrite S2. split; [exact P1|]. split; [|split; [exact S3|split]].
  - intros r c. rewrite P2. split; [intros [[]|H]; exact H|auto].
  - intros w. rewrite Q1. unfold Phi. rewrite rsum_zeros; [lra|]. intros. apply rsum_zeros. intros. lra.
  - intros w. rewrite Q2. unfold Psi. rewrite rsum_zeros; [lra|]. intros. lra.
Qed.
End Proofs.
