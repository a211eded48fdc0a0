(** C100: the blocked matrix of the Stokes example, and its rows of the identity. *)
From Coq Require Import List Arith Lia Bool Reals Lra.
From Verif Require Import Lib Basis_model Basis_spec Basis_ok Basis_props DiscreteFunction_model DiscreteFunction_proofs
  Assembly_proofs Assembly_props Stokes_model Stokes_spec Stokes_proofs.
Import ListNotations.

Section Props.
Context {E : Type}.
Variables (dim : nat) (v p : leaf E) (es : list E) (loc : E -> nat -> nat -> R).
Notation b := (stokes_basis dim v p).
Notation unknown := (global_index (fun e => In e es) b).
(** The leaf bases number their DOFs on the elements without gaps. *)
Hypotheses (Hdim : 0 < dim) (Hv : leaf_ok (fun e => In e es) v) (Hp : leaf_ok (fun e => In e es) p).
Notation wfb := (stokes_wf dim v p _ Hdim Hv Hp).

(** Different pairs of unknowns have different entries. *)
Theorem C100_no_aliasing row col row' col' : unknown row -> unknown col -> unknown row' -> unknown col' ->
  matrix_entry row col <> None /\ (matrix_entry row col = matrix_entry row' col' -> row = row' /\ col = col').
Proof.
  intros H1 H2 H3 H4. rewrite !(matrix_entry_full dim v p) by (eapply index_valid; eauto). split; [discriminate|].
  intros [= Q1 Q2 Q3 Q4 Q5 Q6]. apply (full_inj dim v p); try (eapply index_valid; eauto). unfold full. congruence.
Qed.

Lemma unknown_coupled row : unknown row -> coupled b es row row.
Proof.
  intros (e & i & He & w & B & Hm & Hi). exists e. split; [exact He|]. assert (In row (indices b e)); [|auto].
  unfold indices. rewrite B. apply in_map_iff. exists i. rewrite Hm. split; [reflexivity|]. apply in_seq. lia.
Qed.

(** Assembly never leaves the blocks of the matrix, and each entry is the sum of what the elements add to it. *)
Theorem C100_stokes_matrix : exists M, assemble_stokes loc dim (build b) es = Some M /\
  forall row col, unknown row -> unknown col ->
    entry dim M row col = total b loc row col es /\
    (coupled b es row col -> exists a, matrix_entry row col = Some a /\ stored dim M a = true).
Proof.
  destruct (assemble_stokes_ok dim v p _ loc Hdim Hv Hp es (fun e H => H)) as (M & K & C & T). exists M. split; [exact K|].
  intros row col Hr Hc. pose proof (index_valid dim v p _ Hdim Hv Hp row Hr) as Vr. pose proof (index_valid dim v p _ Hdim Hv Hp col Hc) as Vc.
  split; [now apply T|]. intros (e & He & Ir & Ic). exists (full row col). rewrite (matrix_entry_full dim v p) by auto. split; [reflexivity|].
  rewrite (stored_full dim v p) by auto. apply in_addrs. apply in_idx in Ir as (i & Hi & <-). apply in_idx in Ic as (j & Hj & <-). now apply (C e He).
Qed.

(** The loop over the elements turns the rows of the marked unknowns into rows of the identity, also where an index occurs more than
    once in an element, and leaves all other rows alone. *)
Theorem C100_dirichlet_rows M d : assemble_stokes loc dim (build b) es = Some M ->
  exists M', identity_rows dim (build b) d (lv_new (build b)) es M = Some M' /\
    forall row col, unknown row -> unknown col ->
      entry dim M' row col = if d row then (if list_eq_dec Nat.eq_dec row col then 1%R else 0%R) else entry dim M row col.
Proof.
  intros H. destruct (assemble_stokes_ok dim v p _ loc Hdim Hv Hp es (fun e H => H)) as (M0 & K & C & T). rewrite H in K. injection K as <-.
  destruct (identity_rows_ok dim v p _ loc Hdim Hv Hp d es (lv_new (build b)) M (freshs_new dim v p) (fun e H => H) C) as (M' & K & _ & Q).
  exists M'. split; [exact K|]. intros row col Hr Hc.
  pose proof (index_valid dim v p _ Hdim Hv Hp row Hr) as Vr. pose proof (index_valid dim v p _ Hdim Hv Hp col Hc) as Vc.
  destruct (Q row col Vr Vc) as [Q1 Q2]. destruct (d row) eqn:D; [|apply Q2; auto].
  destruct (Exists_dec (fun e => In row (indices b e) /\ In col (indices b e)) es) as [X|X].
  { intros x. destruct (in_dec (list_eq_dec Nat.eq_dec) row (indices b x)), (in_dec (list_eq_dec Nat.eq_dec) col (indices b x)); tauto. }
  - apply Exists_exists in X as (x & X1 & X2). rewrite Q1; [|reflexivity|exists x; tauto]. unfold delta, addr_eqb. destruct (list_eq_dec Nat.eq_dec row col); reflexivity.
  - assert (U : ~ coupled b es row col) by (intros (x & X1 & X2); apply X, Exists_exists; exists x; tauto).
    rewrite Q2, T, (total_uncoupled dim v p loc es row col U) by auto. destruct (list_eq_dec Nat.eq_dec row col) as [<-|]; [|reflexivity].
    exfalso. apply U, unknown_coupled, Hr.
Qed.

(** Thus the solutions of the final system are the vectors with the given values at the marked unknowns that satisfy the
    equations of all others. *)
Theorem C100_solutions M M' d L rhs y : assemble_stokes loc dim (build b) es = Some M ->
  identity_rows dim (build b) d (lv_new (build b)) es M = Some M' ->
  NoDup L -> (forall m, In m L <-> unknown m) ->
  (solves_system dim M' L rhs y <->
   forall row, unknown row ->
     if d row then y row = rhs row
     else fold_right Rplus 0%R (map (fun col => (total b loc row col es * y col)%R) L) = rhs row).
Proof.
  intros H K ND HL. destruct (C100_dirichlet_rows M d H) as (M2 & K2 & Q). rewrite K in K2. injection K2 as <-.
  destruct C100_stokes_matrix as (M2 & K2 & T). rewrite H in K2. injection K2 as <-.
  assert (ROW : forall row, unknown row -> fold_right Rplus 0%R (map (fun col => (entry dim M' row col * y col)%R) L) =
    if d row then y row else fold_right Rplus 0%R (map (fun col => (total b loc row col es * y col)%R) L)).
  { intros row Hr. destruct (d row) eqn:D.
    - assert (P : forall l, NoDup l -> (forall m, In m l -> unknown m) -> fold_right Rplus 0%R (map (fun col => (entry dim M' row col * y col)%R) l) = if in_dec (list_eq_dec Nat.eq_dec) row l then y row else 0%R).
      { induction l as [|m l IH]; intros NDl Hl; cbn [map fold_right]; [destruct (in_dec _ row []) as [[]|]; reflexivity|].
        inversion NDl as [|? ? N1 N2]; subst. rewrite IH, Q, D by (auto; try (apply Hl; now left); intros; apply Hl; now right).
        destruct (list_eq_dec Nat.eq_dec row m) as [<-|NE].
        - destruct (in_dec _ row l) as [|_]; [contradiction|]. destruct (in_dec _ row (row :: l)) as [_|N3]; [lra|]. exfalso. apply N3. now left.
        - destruct (in_dec _ row l) as [I1|I1], (in_dec _ row (m :: l)) as [I2|I2]; cbn in I2; try lra; exfalso; [tauto|]. destruct I2; [congruence|tauto]. }
      rewrite P by (auto; intros m; apply HL). destruct (in_dec _ row L) as [|N]; [reflexivity|]. exfalso. apply N, HL, Hr.
    - apply sum_ext. intros col Hc. apply HL in Hc. rewrite Q, D by auto. now rewrite (proj1 (T row col Hr Hc)). }
  unfold solves_system. split.
  - intros S row Hr. specialize (S row (proj2 (HL row) Hr)). rewrite ROW in S by auto. destruct (d row); exact S.
  - intros S row Hr. apply HL in Hr. rewrite ROW by auto. specialize (S row Hr). destruct (d row); exact S.
Qed.
End Props.

(** * A case: two segments, two velocity components and a pressure *)
Lemma ex100_leaf : leaf_ok (fun e => In e [1; 0]) ex_p1.
Proof.
  destruct ex_p1_ok as [H1 H2 H3 H4]. assert (I : forall e, In e [1; 0] <-> ex_els e) by (intros e; unfold ex_els; cbn; lia).
  constructor; intros; try rewrite I in *; eauto. destruct (H4 g H) as (e & K1 & K2). exists e. rewrite I. auto.
Qed.
Definition ex100_loc (e i j : nat) : R := INR (1 + i + j).
Example C100_hypotheses_met : 0 < 2 /\ leaf_ok (fun e => In e [1; 0]) ex_p1 /\
  (exists L, NoDup L /\ length L = 9 /\ forall m, In m L <-> global_index (fun e => In e [1; 0]) (stokes_basis 2 ex_p1 ex_p1) m) /\
  indices (stokes_basis 2 ex_p1 ex_p1) 0 = [[0; 0; 0]; [0; 1; 0]; [0; 0; 1]; [0; 1; 1]; [1; 0]; [1; 1]] /\
  total (stokes_basis 2 ex_p1 ex_p1) ex100_loc [0; 1; 0] [1; 1] [1; 0] = 12%R.
Proof.
  split; [lia|]. split; [exact ex100_leaf|]. split; [|split; [reflexivity|]].
  - destruct (C05_dimension_counts_global_indices (stokes_basis 2 ex_p1 ex_p1) (fun e => In e [1; 0])) as (L & H1 & H2 & H3).
    { apply stokes_wf; [lia| |]; exact ex100_leaf. }
    exists L. split; [exact H1|]. split; [exact H2|]. exact H3.
  - unfold total, contribution, index_at.
    change (indices (stokes_basis 2 ex_p1 ex_p1) 0) with [[0; 0; 0]; [0; 1; 0]; [0; 0; 1]; [0; 1; 1]; [1; 0]; [1; 1]].
    change (indices (stokes_basis 2 ex_p1 ex_p1) 1) with [[0; 1; 0]; [0; 2; 0]; [0; 1; 1]; [0; 2; 1]; [1; 1]; [1; 2]].
    unfold rsum, ex100_loc. cbn [length seq map fold_right nth addr_eqb]. cbn -[INR Rplus]. rewrite !INR_IZR_INZ. cbn. lra.
Qed.
(** A periodic mesh with one cell: both vertices of the cell have the same index, and the row of the identity is right still. *)
Definition ex100_per : leaf nat := {| lf_dim := 1; lf_maxnode := 2; lf_fe := fun _ => 2; lf_indices := fun _ => [0; 0] |}.
Example C100_repeated_index : exists M M', assemble_stokes ex100_loc 1 (build (stokes_basis 1 ex100_per ex100_per)) [0] = Some M /\
  identity_rows 1 (build (stokes_basis 1 ex100_per ex100_per)) (fun m => hd 0 m =? 0) (lv_new (build (stokes_basis 1 ex100_per ex100_per))) [0] M = Some M' /\
  entry 1 M' [0; 0; 0] [0; 0; 0] = 1%R /\ entry 1 M' [0; 0; 0] [1; 0] = 0%R.
Proof.
  assert (LO : leaf_ok (fun e => In e [0]) ex100_per).
  { constructor; cbn; auto; [intros e g _ [<-|[<-|[]]]; lia|]. intros g Hg. exists 0. split; [auto|]. left. lia. }
  destruct (C100_stokes_matrix 1 ex100_per ex100_per [0] ex100_loc ltac:(lia) LO LO) as (M & K & _).
  destruct (C100_dirichlet_rows 1 ex100_per ex100_per [0] ex100_loc ltac:(lia) LO LO M (fun m => hd 0 m =? 0) K) as (M' & K' & Q).
  assert (G : forall i m, nth_error [[0; 0; 0]; [0; 0; 0]; [1; 0]; [1; 0]] i = Some m -> global_index (fun e => In e [0]) (stokes_basis 1 ex100_per ex100_per) m).
  { intros i m H. exists 0, i. split; [cbn; auto|]. eexists. split; [reflexivity|]. split; [exact H|]. apply nth_error_Some_lt in H. exact H. }
  exists M, M'. split; [exact K|]. split; [exact K'|]. rewrite !Q by (try (apply (G 0); reflexivity); apply (G 2); reflexivity). split; reflexivity.
Qed.

Print Assumptions C100_no_aliasing.
Print Assumptions C100_stokes_matrix.
Print Assumptions C100_dirichlet_rows.
Print Assumptions C100_solutions.
