(** C101: assembling with two local views at intersections gives the matrix of the form with intersection terms. *)
From Coq Require Import List Arith Lia Bool Reals Lra.
From Verif Require Import Lib Basis_model Basis_spec Basis_ok Basis_view Basis_proofs Basis_props DiscreteFunction_model DiscreteFunction_proofs
  PyArrays_model PyArrays_spec PyArrays_props Assembly_model Assembly_spec Assembly_proofs Assembly_props AssemblyDG_model AssemblyDG_spec.
Import ListNotations.

Section Proofs.
Context {E : Type}.
Variables (b : bexpr E) (els : E -> Prop) (n : nat) (inters : E -> list (option E)).
Variables (loc : E -> nat -> nat -> R) (off : E -> nat -> nat -> nat -> R) (locb : E -> nat -> R).
Hypotheses (Hwf : wf els b) (Hflat : flat b) (Hn : pb_size (build b) [] = Some n).
Notation N e := (length (numbers b e)).
Notation dof := (at_dof b).
Definition bound (v : lview E) (e : E) : Prop := lv_size v = N e /\ forall i, i < N e -> view_number v i = Some (dof e i) /\ dof e i < n.

Lemma in_numbers e r : In r (numbers b e) <-> exists i, i < N e /\ r = dof e i.
Proof.
  split.
  - intros H. apply (In_nth _ _ 0) in H as (i & Hi & Q). exists i. split; auto.
  - intros (i & Hi & ->). apply nth_In. exact Hi.
Qed.

(** * The pattern *)
Lemma pattern_pair_ok v w e o nb : bound v e -> bound w o -> pat_ok n nb ->
  exists nb', pattern_pair n v w nb = Some nb' /\ pat_ok n nb' /\
    forall r c, In (r, c) nb' <-> In (r, c) nb \/ (In r (numbers b e) /\ In c (numbers b o)).
Proof.
  intros [Hs Hd] [Hs' Hd'] H0. unfold pattern_pair. rewrite Hs, Hs'.
  destruct (forl_inv (fun k nb' => pat_ok n nb' /\ forall r c, In (r, c) nb' <-> In (r, c) nb \/ exists i j, i < k /\ j < N o /\ r = dof e i /\ c = dof o j)
    (N e) 0 (fun i nb => r <- view_number v i ;; forl (N o) 0 (fun j nb => c <- view_number w j ;; pat_add n r c nb) nb) nb) as (nb' & E1 & P1 & P2).
  - split; [exact H0|]. intros r c. split; [auto|]. intros [H|(i & j & H & _)]; [exact H|lia].
  - intros i nb1 Hi [A1 A2]. destruct (Hd i ltac:(lia)) as [-> R1]. cbn [obind].
    destruct (forl_inv (fun k nb' => pat_ok n nb' /\ forall r c, In (r, c) nb' <-> In (r, c) nb1 \/ exists j, j < k /\ r = dof e i /\ c = dof o j)
      (N o) 0 (fun j nb => c <- view_number w j ;; pat_add n (dof e i) c nb) nb1) as (nb2 & E2 & B1 & B2).
    + split; [exact A1|]. intros r c. split; [auto|]. intros [H|(j & H & _)]; [exact H|lia].
    + intros j nb3 Hj [C1 C2]. destruct (Hd' j ltac:(lia)) as [-> R2]. cbn [obind].
      destruct (pat_add_ok n (dof e i) (dof o j) nb3 C1 R1 R2) as (nb4 & -> & D1 & D2). exists nb4. split; [reflexivity|]. split; [exact D1|].
      intros r c. rewrite D2, C2. split.
      * intros [[H|(j' & K1 & K2)]|[= -> ->]]; [auto|right; exists j'; split; [lia|auto]|right; exists j; split; [lia|auto]].
      * intros [H|(j' & K1 & -> & ->)]; [auto|]. destruct (Nat.eq_dec j' j) as [->|]; [auto|]. left. right. exists j'. split; [lia|auto].
    + exists nb2. split; [exact E2|]. split; [exact B1|]. intros r c. rewrite B2, A2. cbn [Nat.add]. split.
      * intros [[H|(i' & j & K1 & K2)]|(j & K1 & K2)]; [auto|right; exists i', j; split; [lia|auto]|right; exists i, j; split; [lia|auto]].
      * intros [H|(i' & j & K1 & K2 & K3)]; [auto|]. destruct (Nat.eq_dec i' i) as [->|]; [right; exists j; auto|]. left. right. exists i', j. split; [lia|auto].
  - exists nb'. split; [exact E1|]. split; [exact P1|]. intros r c. rewrite P2, !in_numbers. split.
    + intros [H|(i & j & K1 & K2 & K3 & K4)]; [auto|]. right. split; eauto.
    + intros [H|[(i & K1 & K2) (j & K3 & K4)]]; [auto|]. right. exists i, j. auto.
Qed.
Lemma new_bound o : els o -> exists w, lv_bind (build b) (lv_new (build b)) o = Some w /\ bound w o.
Proof. intros Ho. destruct (rebind b els n Hwf Hflat Hn _ o (fresh_new b) Ho) as (w & B & _ & S & D). exists w. split; [exact B|split; auto]. Qed.
Lemma pattern_inters_ok v e is : forall nb, bound v e -> (forall o, In (Some o) is -> els o) -> pat_ok n nb ->
  exists nb', pattern_inters (build b) n v is nb = Some nb' /\ pat_ok n nb' /\
    forall r c, In (r, c) nb' <-> In (r, c) nb \/ exists o, In (Some o) is /\ In r (numbers b e) /\ In c (numbers b o).
Proof.
  induction is as [|[o|] is IH]; intros nb Hv He H0; cbn [pattern_inters].
  - exists nb. split; [reflexivity|]. split; [exact H0|]. intros r c. split; [auto|]. intros [H|(o & [] & _)]; exact H.
  - destruct (new_bound o (He o (or_introl eq_refl))) as (w & -> & Hw). cbn [obind].
    destruct (pattern_pair_ok v w e o nb Hv Hw H0) as (nb1 & -> & P1 & P2). cbn [obind].
    destruct (IH nb1 Hv ltac:(intros; apply He; now right) P1) as (nb2 & -> & Q1 & Q2). exists nb2. split; [reflexivity|]. split; [exact Q1|].
    intros r c. rewrite Q2, P2. split.
    + intros [[H|H]|(o' & K1 & K2)]; [auto|right; exists o; cbn; auto|right; exists o'; cbn; auto].
    + intros [H|(o' & [[= <-]|K1] & K2)]; [auto|auto|]. right. exists o'. auto.
  - destruct (IH nb Hv ltac:(intros; apply He; now right) H0) as (nb2 & -> & Q1 & Q2). exists nb2. split; [reflexivity|]. split; [exact Q1|].
    intros r c. rewrite Q2. split; intros [H|(o' & K1 & K2)]; auto; right; exists o'; cbn; [auto|]. destruct K1 as [K1|K1]; [discriminate|auto].
Qed.
Definition in_pattern (es : list E) (r c : nat) : Prop := exists e o, In e es /\ near inters e o /\ In r (numbers b e) /\ In c (numbers b o).
Lemma pattern_dg_ok es : forall v nb, fresh b v -> (forall e, In e es -> els e) -> (forall e o, In e es -> In (Some o) (inters e) -> els o) -> pat_ok n nb ->
  exists nb', pattern_dg inters (build b) n v es nb = Some nb' /\ pat_ok n nb' /\ forall r c, In (r, c) nb' <-> In (r, c) nb \/ in_pattern es r c.
Proof.
  induction es as [|e es IH]; intros v nb Hv He Ho H0; cbn [pattern_dg].
  - exists nb. split; [reflexivity|]. split; [exact H0|]. intros r c. split; [auto|]. intros [H|(e & o & [] & _)]; exact H.
  - destruct (rebind b els n Hwf Hflat Hn v e Hv (He e (or_introl eq_refl))) as (v' & -> & Hv' & S & D). cbn [obind].
    destruct (pattern_element_ok b n v' e nb S D H0) as (nb1 & -> & P1 & P2). cbn [obind].
    destruct (pattern_inters_ok v' e (inters e) nb1 (conj S D) (fun o => Ho e o (or_introl eq_refl)) P1) as (nb2 & -> & Q1 & Q2). cbn [obind].
    destruct (IH v' nb2 Hv') as (nb3 & -> & R1 & R2); [intros; apply He; now right|intros e' o' K; apply Ho; now right|exact Q1|].
    exists nb3. split; [reflexivity|]. split; [exact R1|]. intros r c. rewrite R2, Q2, P2. split.
    + intros [[[H|(i & j & K1 & K2 & K3 & K4)]|(o & K1 & K2 & K3)]|(e' & o & K1 & K2)]; [auto| | |].
      * right. exists e, e. split; [now left|]. split; [now left|]. rewrite !in_numbers. split; eauto.
      * right. exists e, o. split; [now left|]. split; [now right|]. auto.
      * right. exists e', o. split; [now right|]. exact K2.
    + intros [H|(e' & o & [<-|K1] & [->|K2] & K3 & K4)]; [auto| | | |].
      * left. left. right. apply in_numbers in K3 as (i & A1 & A2). apply in_numbers in K4 as (j & A3 & A4). exists i, j. auto.
      * left. right. exists o. auto.
      * right. exists e', e'. split; [exact K1|]. split; [now left|]. auto.
      * right. exists e', o. split; [exact K1|]. split; [now right|]. auto.
Qed.

(** * The matrix *)
Definition pair_sum (w : nat -> nat -> R) (e : E) (k : nat) (o : E) : R := rsum (N e) (fun i => rsum (N o) (fun j => (w (dof e i) (dof o j) * off e k i j)%R)).
Definition opt_sum (w : nat -> nat -> R) (e : E) (k : nat) (x : option E) : R := match x with Some o => pair_sum w e k o | None => 0%R end.
Lemma add_pair_ok v w' e k o A : bound v e -> bound w' o -> (forall i j, i < N e -> j < N o -> In (dof e i, dof o j) (sm_pat A)) ->
  exists A', add_pair off e k v w' A = Some A' /\ same_mat A A' /\ forall w, Phi n w (sm_val A') = (Phi n w (sm_val A) + pair_sum w e k o)%R.
Proof.
  intros [Hs Hd] [Hs' Hd'] HP. unfold add_pair. rewrite Hs, Hs'.
  destruct (forl_inv (fun m A' => same_mat A A' /\ forall w, Phi n w (sm_val A') = (Phi n w (sm_val A) + rsum m (fun i => rsum (N o) (fun j => w (dof e i) (dof o j) * off e k i j)))%R)
    (N e) 0 (fun i A => r <- view_number v i ;; forl (N o) 0 (fun j A => c <- view_number w' j ;; mat_add r c (off e k i j) A) A) A) as (A' & E1 & P1 & P2).
  - split; [repeat split|]. intros w. rewrite rsum_0. lra.
  - intros i A1 Hi [S1 Q1]. destruct (Hd i ltac:(lia)) as [-> R1]. cbn [obind].
    destruct (forl_inv (fun m A' => same_mat A A' /\ forall w, Phi n w (sm_val A') = (Phi n w (sm_val A1) + rsum m (fun j => w (dof e i) (dof o j) * off e k i j))%R)
      (N o) 0 (fun j A => c <- view_number w' j ;; mat_add (dof e i) c (off e k i j) A) A1) as (A2 & E2 & B1 & B2).
    + split; [exact S1|]. intros w. rewrite rsum_0. lra.
    + intros j A3 Hj [S3 Q3]. destruct (Hd' j ltac:(lia)) as [-> R2]. cbn [obind].
      destruct (mat_add_ok n (dof e i) (dof o j) (off e k i j) A3) as (A4 & -> & S4 & Q4); auto.
      { destruct S3 as (_ & -> & _). apply HP; lia. }
      exists A4. split; [reflexivity|]. split; [eapply same_trans; eauto|]. intros w. rewrite Q4, Q3, Nat.add_1_r, rsum_S. lra.
    + exists A2. split; [exact E2|]. split; [exact B1|]. intros w. rewrite B2, Q1, Nat.add_1_r, rsum_S. cbn [Nat.add]. lra.
  - exists A'. auto.
Qed.
Lemma add_inters_ok v e is : forall k A, bound v e -> (forall o, In (Some o) is -> els o) ->
  (forall o r c, In (Some o) is -> In r (numbers b e) -> In c (numbers b o) -> In (r, c) (sm_pat A)) ->
  exists A', add_inters off (build b) e v k is A = Some A' /\ same_mat A A' /\
    forall w, Phi n w (sm_val A') = (Phi n w (sm_val A) + fold_right Rplus 0 (map (fun m => opt_sum w e (k + m) (nth m is None)) (seq 0 (length is))))%R.
Proof.
  induction is as [|x is IH]; intros k A Hv He HP.
  - exists A. split; [reflexivity|]. split; [repeat split|]. intros w. cbn. lra.
  - assert (STEP : exists A1, match x with Some o => w <- lv_bind (build b) (lv_new (build b)) o ;; add_pair off e k v w A | None => Some A end = Some A1 /\
      same_mat A A1 /\ forall w, Phi n w (sm_val A1) = (Phi n w (sm_val A) + opt_sum w e k x)%R).
    { destruct x as [o|]; [|exists A; split; [reflexivity|]; split; [repeat split|]; intros w; cbn; lra].
      destruct (new_bound o (He o (or_introl eq_refl))) as (w' & -> & Hw). cbn [obind]. apply add_pair_ok; auto.
      intros i j Hi Hj. apply (HP o); [now left| |]; apply nth_In; auto. }
    destruct STEP as (A1 & E1 & S1 & Q1). destruct (IH (k + 1) A1 Hv) as (A2 & E2 & S2 & Q2).
    { intros; apply He; now right. }
    { intros o r c H. destruct S1 as (_ & -> & _). apply HP. now right. }
    exists A2. split; [|split; [eapply same_trans; eauto|]].
    + cbn [add_inters]. destruct x as [o|]; [|injection E1 as ->; exact E2]. destruct (lv_bind _ _ o) as [w'|]; [|discriminate]. cbn [obind] in *. rewrite E1. exact E2.
    + intros w. rewrite Q2, Q1. cbn [length seq map fold_right nth]. rewrite Nat.add_0_r, <- seq_shift, map_map.
      rewrite (sum_ext (fun m => opt_sum w e (k + 1 + m) (nth m is None)) (fun m => opt_sum w e (k + S m) (nth m is None))); [lra|].
      intros m _. f_equal. lia.
Qed.
Definition dg_sum (w : nat -> nat -> R) (e : E) : R :=
  (elem_sum b loc w e + fold_right Rplus 0 (map (fun m => opt_sum w e m (nth m (inters e) None)) (seq 0 (length (inters e)))))%R.
Lemma assemble_dg_elements_ok es : forall v A y, fresh b v -> (forall e, In e es -> els e) -> (forall e o, In e es -> In (Some o) (inters e) -> els o) ->
  (forall r c, in_pattern es r c -> In (r, c) (sm_pat A)) ->
  exists A' y', assemble_dg_elements inters loc off locb (build b) n v es A y = Some (A', y') /\ same_mat A A' /\
    (forall w, Phi n w (sm_val A') = (Phi n w (sm_val A) + fold_right Rplus 0 (map (dg_sum w) es))%R) /\
    (forall w, Psi n w y' = (Psi n w y + fold_right Rplus 0 (map (elem_load b locb w) es))%R).
Proof.
  induction es as [|e es IH]; intros v A y Hv He Ho HP; cbn [assemble_dg_elements].
  - exists A, y. split; [reflexivity|]. split; [repeat split|]. split; intros w; cbn; lra.
  - destruct (rebind b els n Hwf Hflat Hn v e Hv (He e (or_introl eq_refl))) as (v' & -> & Hv' & S & D). cbn [obind].
    destruct (add_matrix_ok b n loc v' e A S D) as (A1 & -> & S1 & P1).
    { intros i j Hi Hj. apply HP. exists e, e. split; [now left|]. split; [now left|]. split; apply nth_In; auto. }
    cbn [obind]. destruct (add_inters_ok v' e (inters e) 0 A1 (conj S D) (fun o => Ho e o (or_introl eq_refl))) as (A2 & -> & S2 & P2).
    { intros o r c K1 K2 K3. destruct S1 as (_ & -> & _). apply HP. exists e, o. split; [now left|]. split; [now right|]. auto. }
    cbn [obind]. destruct (add_rhs_ok b n locb v' e y S D) as (y1 & -> & P3). cbn [obind].
    pose proof (same_trans _ _ _ S1 S2) as S12.
    destruct (IH v' A2 y1 Hv') as (A3 & y3 & -> & S3 & Q1 & Q2).
    { intros; apply He; now right. }
    { intros e' o' K; apply Ho; now right. }
    { intros r c (e' & o' & K1 & K2). destruct S12 as (_ & -> & _). apply HP. exists e', o'. split; [now right|]. exact K2. }
    exists A3, y3. split; [reflexivity|]. split; [eapply same_trans; eauto|]. cbn [map fold_right]. unfold dg_sum at 1.
    split; intros w; [rewrite Q1, P2, P1; cbn [Nat.add]|rewrite Q2, P3]; lra.
Qed.
Lemma dg_sum_form v u e : dg_sum (fun r c => (v r * u c)%R) e = (element_form b loc v u e + inters_form b inters off v u e)%R.
Proof.
  unfold dg_sum, inters_form. rewrite elem_sum_form. f_equal. apply sum_ext. intros k _. destruct (nth k (inters e) None) as [o|]; [|reflexivity].
  cbn [opt_sum inter_form]. apply rsum_ext. intros i _. apply rsum_ext. intros j _. ring.
Qed.
End Proofs.

(** The pattern couples exactly the DOFs of an element with those of the same element or a neighbour; all accesses are inside of it,
    and the matrix and vector are those of the form with element and intersection terms. *)
Theorem C101_dg_assembly {E} (b : bexpr E) els n inters (loc : E -> nat -> nat -> R) (off : E -> nat -> nat -> nat -> R) (locb : E -> nat -> R) es :
  wf els b -> flat b -> pb_size (build b) [] = Some n ->
  (forall e, In e es -> els e) -> (forall e o, In e es -> In (Some o) (inters e) -> els o) ->
  exists A rhs, assemble_dg inters loc off locb (build b) es = Some (A, rhs) /\ sm_n A = n /\
    NoDup (sm_pat A) /\ (forall r c, In (r, c) (sm_pat A) -> r < n /\ c < n) /\
    (forall r c, In (r, c) (sm_pat A) <-> exists e o, In e es /\ near inters e o /\ In r (numbers b e) /\ In c (numbers b o)) /\
    (forall r c, ~ In (r, c) (sm_pat A) -> sm_val A r c = 0%R) /\
    (forall v u, rsum n (fun r => (v r * rsum n (fun c => sm_val A r c * u c))%R) = dg_form b inters loc off v u es) /\
    (forall v, rsum n (fun r => (v r * rhs r)%R) = load b locb v es) /\
    (forall r c, r < n -> c < n -> sm_val A r c = dg_form b inters loc off (unit_vector r) (unit_vector c) es) /\
    (forall r, r < n -> rhs r = load b locb (unit_vector r) es).
Proof.
  intros Hwf Hf Hn He Ho. unfold assemble_dg. rewrite Hn. cbn [obind].
  destruct (pattern_dg_ok b els n inters Hwf Hf Hn es (lv_new (build b)) [] (fresh_new b) He Ho) as (nb & -> & [P1 P1'] & P2).
  { split; [constructor|]. intros r c []. }
  cbn [obind].
  destruct (assemble_dg_elements_ok b els n inters loc off locb Hwf Hf Hn es (lv_new (build b)) (SM n nb (fun _ _ => 0%R)) (fun _ => 0%R) (fresh_new b) He Ho) as (A & y & -> & (S1 & S2 & S3) & Q1 & Q2).
  { intros r c K. apply P2. right. exact K. }
  cbn [sm_n sm_pat sm_val] in *.
  assert (F : forall v u, rsum n (fun r => (v r * rsum n (fun c => sm_val A r c * u c))%R) = dg_form b inters loc off v u es).
  { intros v u. unfold dg_form. rewrite (sum_ext _ (dg_sum b inters loc off (fun r c => (v r * u c)%R))) by (intros; symmetry; apply dg_sum_form).
    pose proof (Q1 (fun r c => (v r * u c)%R)) as Q. unfold Phi at 2 in Q. rewrite (rsum_zeros n (fun r => rsum n (fun c => (v r * u c * 0)%R))) in Q by (intros; apply rsum_zeros; intros; lra).
    rewrite Rplus_0_l in Q. rewrite <- Q. unfold Phi. apply rsum_ext. intros r _. rewrite <- rsum_scal. apply rsum_ext. intros c _. ring. }
  assert (G : forall v, rsum n (fun r => (v r * y r)%R) = load b locb v es).
  { intros v. pose proof (Q2 v) as Q. unfold Psi in Q. rewrite (rsum_zeros n (fun r => (v r * 0)%R)) in Q by (intros; lra). rewrite Rplus_0_l in Q. exact Q. }
  exists A, y. split; [reflexivity|]. split; [exact S1|]. rewrite S2. split; [exact P1|]. split; [exact P1'|]. split; [|split; [exact S3|split; [exact F|split; [exact G|split]]]].
  - intros r c. rewrite P2. split; [intros [[]|H]; exact H|intros H; right; exact H].
  - intros r c Hr Hc. rewrite <- F. unfold unit_vector.
    rewrite (rsum_ext n _ (fun k => if k =? r then sm_val A k c else 0%R)); [now rewrite rsum_pick1|].
    intros k _. rewrite (rsum_ext n _ (fun l => if l =? c then sm_val A k l else 0%R)) by (intros l _; destruct (l =? c); lra).
    rewrite rsum_pick1 by auto. destruct (k =? r); lra.
  - intros r Hr. rewrite <- G. unfold unit_vector. rewrite (rsum_ext n _ (fun k => if k =? r then y k else 0%R)); [now rewrite rsum_pick1|].
    intros k _. destruct (k =? r); lra.
Qed.

(** * A case: a DG basis with two DOFs on each of two segments *)
Definition ex101_dg : leaf nat := {| lf_dim := 4; lf_maxnode := 2; lf_fe := fun _ => 2; lf_indices := fun e => [2 * e; 2 * e + 1] |}.
Definition ex101_inters (e : nat) : list (option nat) := if e =? 0 then [None; Some 1] else [Some 0; None].
Example C101_hypotheses_met : wf ex_els (BLeaf ex101_dg) /\ flat (BLeaf ex101_dg) /\ pb_size (build (BLeaf ex101_dg)) [] = Some 4 /\
  (forall e, In e [0; 1] -> ex_els e) /\ (forall e o, In e [0; 1] -> In (Some o) (ex101_inters e) -> ex_els o) /\
  numbers (BLeaf ex101_dg) 0 = [0; 1] /\ numbers (BLeaf ex101_dg) 1 = [2; 3].
Proof.
  split; [|split; [|split; [reflexivity|split; [intros e [<-|[<-|[]]]; unfold ex_els; lia|split; [|split; reflexivity]]]]].
  - constructor; unfold ex_els; cbn; auto.
    + intros e g He [<-|[<-|[]]]; lia.
    + intros g Hg. exists (g / 2). pose proof (Nat.div_mod g 2 ltac:(lia)). pose proof (Nat.mod_upper_bound g 2 ltac:(lia)). split; [apply Nat.div_lt_upper_bound; lia|lia].
  - intros k i Hk Hi. cbn in Hk. injection Hk as <-. do 4 (destruct i as [|i]; [reflexivity|]). lia.
  - intros e o [<-|[<-|[]]]; cbn; intros [[=]|[[=]|[]]]; subst; unfold ex_els; lia.
Qed.
(** The entry that couples the two elements is the one of the intersection seen from the row's element. *)
Example C101_coupling : exists A rhs, assemble_dg ex101_inters (fun _ _ _ => 1%R) (fun e k i j => INR (1 + e)) (fun _ _ => 0%R) (build (BLeaf ex101_dg)) [0; 1] = Some (A, rhs) /\
  sm_val A 1 2 = 1%R /\ sm_val A 2 1 = 2%R.
Proof.
  destruct C101_hypotheses_met as (H1 & H2 & H3 & H4 & H5 & H6 & H7).
  destruct (C101_dg_assembly (BLeaf ex101_dg) ex_els 4 ex101_inters (fun _ _ _ => 1%R) (fun e k i j => INR (1 + e)) (fun _ _ => 0%R) [0; 1] H1 H2 H3 H4 H5) as (A & rhs & K & _ & _ & _ & _ & _ & _ & _ & V & _).
  exists A, rhs. split; [exact K|]. rewrite !V by lia. unfold dg_form, element_form, inters_form, inter_form, at_dof. cbn [map fold_right ex101_inters Nat.eqb length seq nth].
  rewrite H6, H7. unfold rsum, unit_vector. cbn. lra.
Qed.
Print Assumptions C101_dg_assembly.
