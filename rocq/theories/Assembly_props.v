(** C99: assembling with local views gives the matrix and the vector of the weak form. *)
From Coq Require Import List Arith Lia Bool Reals Lra Permutation.
From Verif Require Import Lib Basis_model Basis_spec Basis_ok Basis_view Basis_proofs Basis_props DiscreteFunction_model DiscreteFunction_proofs
  PyArrays_model PyArrays_spec PyArrays_props Assembly_model Assembly_spec Assembly_proofs.
Import ListNotations.

Lemma sum_ext {A} (f g : A -> R) l : (forall x, In x l -> f x = g x) -> fold_right Rplus 0%R (map f l) = fold_right Rplus 0%R (map g l).
Proof. induction l as [|x l IH]; intros H; cbn; [reflexivity|]. rewrite (H x), IH by (intros; try apply H; cbn; auto). reflexivity. Qed.
Lemma sum_perm {A} (f : A -> R) l l' : Permutation l l' -> fold_right Rplus 0%R (map f l) = fold_right Rplus 0%R (map f l').
Proof. induction 1; cbn; lra. Qed.
(** The sum over stored entries is the sum over all columns. *)
Lemma sum_stored n l : forall f : nat -> R, NoDup l -> (forall c, In c l -> c < n) -> (forall c, c < n -> ~ In c l -> f c = 0%R) ->
  fold_right Rplus 0%R (map f l) = rsum n f.
Proof.
  induction l as [|c l IH]; intros f ND R Z; cbn.
  - symmetry. apply rsum_zeros. intros i Hi. apply Z; auto.
  - inversion ND as [|? ? Hc ND']; subst. set (g := fun k => if k =? c then 0%R else f k).
    rewrite (sum_ext f g l). 2:{ intros k Hk. unfold g. destruct (Nat.eqb_spec k c); [congruence|reflexivity]. }
    rewrite (IH g ND').
    + rewrite <- (rsum_pick1 n c f) by (apply R; now left). rewrite <- rsum_plus. apply rsum_ext. intros k _. unfold g. destruct (k =? c); lra.
    + intros; apply R; now right.
    + intros k Hk H. unfold g. destruct (Nat.eqb_spec k c); [reflexivity|]. apply Z; auto. intros [|]; congruence.
Qed.

Section Props.
Context {E : Type}.
Variables (b : bexpr E) (els : E -> Prop) (n : nat) (loc : E -> nat -> nat -> R) (locb : E -> nat -> R).

Lemma elem_sum_form v u e : elem_sum b loc (fun r c => (v r * u c)%R) e = element_form b loc v u e.
Proof. unfold elem_sum, element_form. apply rsum_ext. intros i _. apply rsum_ext. intros j _. ring. Qed.
Lemma sums_form v u es : fold_right Rplus 0%R (map (elem_sum b loc (fun r c => (v r * u c)%R)) es) = form b loc v u es.
Proof. apply sum_ext. intros. apply elem_sum_form. Qed.

(** The assembled system is that of the weak form: for all coefficient vectors the quadratic expression of the
    matrix is the sum of the element forms, and the entries are the form of pairs of basis functions. *)
Theorem C99_assembly es : wf els b -> flat b -> pb_size (build b) [] = Some n -> (forall e, In e es -> els e) ->
  exists A rhs, assemble loc locb (build b) es = Some (A, rhs) /\ sm_n A = n /\
    NoDup (sm_pat A) /\ (forall r c, In (r, c) (sm_pat A) -> r < n /\ c < n) /\
    (forall r c, In (r, c) (sm_pat A) <-> exists e, In e es /\ In r (numbers b e) /\ In c (numbers b e)) /\
    (forall r c, ~ In (r, c) (sm_pat A) -> sm_val A r c = 0%R) /\
    (forall v u, rsum n (fun r => (v r * rsum n (fun c => sm_val A r c * u c))%R) = form b loc v u es) /\
    (forall v, rsum n (fun r => (v r * rhs r)%R) = load b locb v es) /\
    (forall r c, r < n -> c < n -> sm_val A r c = form b loc (unit_vector r) (unit_vector c) es) /\
    (forall r, r < n -> rhs r = load b locb (unit_vector r) es).
Proof.
  intros Hwf Hf Hn He. destruct (assemble_ok b els n loc locb Hwf Hf Hn es He) as (A & y & H1 & H2 & [H3 H4] & H5 & H6 & H7 & H8).
  assert (F : forall v u, rsum n (fun r => (v r * rsum n (fun c => sm_val A r c * u c))%R) = form b loc v u es).
  { intros v u. rewrite <- sums_form, <- H7. unfold Phi. apply rsum_ext. intros r _. rewrite <- rsum_scal. apply rsum_ext. intros c _. ring. }
  exists A, y. do 6 (split; [assumption|]). split; [exact F|]. split; [intros v; apply H8|]. split.
  - intros r c Hr Hc. rewrite <- F. unfold unit_vector.
    rewrite (rsum_ext n _ (fun k => if k =? r then sm_val A k c else 0%R)); [now rewrite rsum_pick1|].
    intros k _. rewrite (rsum_ext n _ (fun l => if l =? c then sm_val A k l else 0%R)) by (intros l _; destruct (l =? c); lra).
    rewrite rsum_pick1 by auto. destruct (k =? r); lra.
  - intros r Hr. unfold load. change (fold_right Rplus 0%R (map (element_load b locb (unit_vector r)) es)) with (fold_right Rplus 0%R (map (elem_load b locb (unit_vector r)) es)).
    rewrite <- H8. unfold Psi, unit_vector. rewrite (rsum_ext n _ (fun k => if k =? r then y k else 0%R)); [now rewrite rsum_pick1|].
    intros k _. destruct (k =? r); lra.
Qed.

(** The result does not depend on the order of the elements. *)
Theorem C99_order_is_irrelevant es es' A rhs A' rhs' : wf els b -> flat b -> pb_size (build b) [] = Some n ->
  (forall e, In e es -> els e) -> Permutation es es' ->
  assemble loc locb (build b) es = Some (A, rhs) -> assemble loc locb (build b) es' = Some (A', rhs') ->
  (forall r c, In (r, c) (sm_pat A) <-> In (r, c) (sm_pat A')) /\
  (forall r c, sm_val A r c = sm_val A' r c) /\ (forall r, r < n -> rhs r = rhs' r).
Proof.
  intros Hwf Hf Hn He P H H'.
  destruct (C99_assembly es Hwf Hf Hn He) as (A1 & y1 & K & _ & _ & R1 & P1 & Z1 & _ & _ & V1 & L1). rewrite H in K. injection K as <- <-.
  destruct (C99_assembly es' Hwf Hf Hn) as (A2 & y2 & K & _ & _ & R2 & P2 & Z2 & _ & _ & V2 & L2).
  { intros e Q. apply He. eapply Permutation_in; [symmetry; exact P|exact Q]. }
  rewrite H' in K. injection K as <- <-.
  assert (PP : forall r c, In (r, c) (sm_pat A) <-> In (r, c) (sm_pat A')).
  { intros r c. rewrite P1, P2. split; intros (e & Q & S); exists e; (split; [|exact S]); (eapply Permutation_in; [|exact Q]); auto. now symmetry. }
  split; [exact PP|]. split.
  - intros r c. destruct (in_dec (fun p q => reflect_dec _ _ (pos_eqb_spec p q)) (r, c) (sm_pat A)) as [Q|Q].
    + destruct (R1 r c Q) as [Hr Hc]. rewrite V1, V2 by auto. apply sum_perm, P.
    + rewrite Z1, Z2; auto. now rewrite <- PP.
  - intros r Hr. rewrite L1, L2 by auto. apply sum_perm, P.
Qed.

Lemma form_sym es : (forall e i j, loc e i j = loc e j i) -> forall v u, form b loc v u es = form b loc u v es.
Proof.
  intros S v u. apply sum_ext. intros e _. unfold element_form. rewrite rsum_swap. apply rsum_ext. intros i _. apply rsum_ext. intros j _. rewrite (S e j i). ring.
Qed.

Lemma in_row A i c : In c (row A i) <-> In (i, c) (sm_pat A).
Proof.
  unfold row. rewrite in_map_iff. split.
  - intros ([i' c'] & <- & H). apply filter_In in H as [H Q]. cbn in Q. apply Nat.eqb_eq in Q. now subst.
  - intros H. exists (i, c). split; [reflexivity|]. apply filter_In. split; [exact H|]. cbn. apply Nat.eqb_refl.
Qed.
Lemma row_nodup A i : NoDup (sm_pat A) -> NoDup (row A i).
Proof.
  unfold row. induction (sm_pat A) as [|[r c] l IH]; intros H; cbn; [constructor|]. inversion H as [|? ? H1 H2]; subst.
  destruct (Nat.eqb_spec r i) as [->|]; [|auto]. cbn. constructor; [|auto].
  rewrite in_map_iff. intros ([r' c'] & Q & K). apply filter_In in K as [K Q2]. cbn in *. apply Nat.eqb_eq in Q2. subst. contradiction.
Qed.
(** What elimination leaves in the matrix and in the right hand side. *)
Lemma eliminate_entries es A rhs d x : wf els b -> flat b -> pb_size (build b) [] = Some n -> (forall e, In e es -> els e) ->
  assemble loc locb (build b) es = Some (A, rhs) ->
  (forall i, i < n -> d i = true -> exists e, In e es /\ In i (numbers b e)) ->
  let '(A', rhs') := eliminate d x A rhs in
  sm_n A' = n /\ sm_pat A' = sm_pat A /\
  (forall i c, i < n -> sm_val A' i c = if d i then unit_vector i c else if d c then 0%R else sm_val A i c) /\
  (forall i, i < n -> rhs' i = if d i then x i else (rhs i - rsum n (fun c => sm_val A i c * x c))%R).
Proof.
  intros Hwf Hf Hn He H Hd.
  destruct (C99_assembly es Hwf Hf Hn He) as (A1 & y1 & K & S1 & N1 & R1 & P1 & Z1 & _). rewrite H in K. injection K as <- <-.
  unfold eliminate. cbn [sm_n sm_pat sm_val]. split; [exact S1|]. split; [reflexivity|].
  assert (ROW : forall i c, existsb (Nat.eqb c) (row A i) = true <-> In (i, c) (sm_pat A)).
  { intros i c. rewrite <- in_row, existsb_exists. split; [intros (k & K1 & K2); apply Nat.eqb_eq in K2; now subst|intros K1; exists c; split; [exact K1|apply Nat.eqb_refl]]. }
  split.
  - intros i c Hi. unfold unit_vector. destruct (existsb (Nat.eqb c) (row A i)) eqn:Q.
    + rewrite (Nat.eqb_sym i c). reflexivity.
    + assert (M : ~ In (i, c) (sm_pat A)) by (rewrite <- ROW; congruence). rewrite (Z1 _ _ M).
      destruct (d i) eqn:D; [|destruct (d c); reflexivity]. destruct (Nat.eqb_spec c i) as [->|]; [|reflexivity].
      exfalso. apply M, P1. destruct (Hd i Hi D) as (e & K1 & K2). exists e. auto.
  - intros i Hi. destruct (d i); [reflexivity|]. unfold mmv. f_equal. apply (sum_stored n (row A i) (fun c => (sm_val A i c * x c)%R)).
    + now apply row_nodup.
    + intros c Hc. apply in_row, R1 in Hc. apply Hc.
    + intros c _ Hc. rewrite in_row in Hc. rewrite (Z1 _ _ Hc). ring.
Qed.

(** The solutions after the elimination of the Dirichlet values are the solutions of the weak form with these
    values. *)
Theorem C99_dirichlet es A rhs d x : wf els b -> flat b -> pb_size (build b) [] = Some n -> (forall e, In e es -> els e) ->
  assemble loc locb (build b) es = Some (A, rhs) ->
  (forall i, i < n -> d i = true -> exists e, In e es /\ In i (numbers b e)) ->
  (forall i, i < n -> d i = false -> x i = 0%R) ->
  forall y, let '(A', rhs') := eliminate d x A rhs in
    solves A' rhs' y <->
    (forall i, i < n -> d i = true -> y i = x i) /\
    (forall v, (forall i, i < n -> d i = true -> v i = 0%R) -> form b loc v y es = load b locb v es).
Proof.
  intros Hwf Hf Hn He H Hd Hx y.
  destruct (C99_assembly es Hwf Hf Hn He) as (A1 & y1 & K & S1 & N1 & R1 & P1 & Z1 & F1 & G1 & V1 & L1). rewrite H in K. injection K as <- <-.
  pose proof (eliminate_entries es A rhs d x Hwf Hf Hn He H Hd) as EL. destruct (eliminate d x A rhs) as [A' rhs']. destruct EL as (E1 & E2 & E3 & E4).
  assert (ROWD : forall i, i < n -> d i = true -> rsum n (fun c => (sm_val A' i c * y c)%R) = y i).
  { intros i Hi D. rewrite (rsum_ext n _ (fun c => if c =? i then y c else 0%R)); [now apply rsum_pick1|].
    intros c _. rewrite E3, D by auto. unfold unit_vector. destruct (c =? i); lra. }
  assert (ROWN : (forall i, i < n -> d i = true -> y i = x i) -> forall i, i < n -> d i = false ->
      (rsum n (fun c => sm_val A' i c * y c) = rsum n (fun c => sm_val A i c * y c) - rsum n (fun c => sm_val A i c * x c))%R).
  { intros Hy i Hi D. assert (Q : (rsum n (fun c => sm_val A' i c * y c) + rsum n (fun c => sm_val A i c * x c) = rsum n (fun c => sm_val A i c * y c))%R).
    - rewrite <- rsum_plus. apply rsum_ext. intros c Hc. rewrite E3, D by auto. destruct (d c) eqn:Dc; [rewrite (Hy c Hc Dc)|rewrite (Hx c Hc Dc)]; lra.
    - lra. }
  unfold solves. rewrite E1. split.
  - intros S. assert (Hy : forall i, i < n -> d i = true -> y i = x i).
    { intros i Hi D. rewrite <- (ROWD i Hi D), (S i Hi), E4, D; auto. }
    split; [exact Hy|]. intros v Hv. rewrite <- F1, <- G1. apply rsum_ext. intros r Hr. destruct (d r) eqn:D; [rewrite (Hv r Hr D); lra|].
    f_equal. pose proof (S r Hr) as Q. rewrite E4, D, ROWN in Q by auto. lra.
  - intros [Hy W] i Hi. rewrite E4 by auto. destruct (d i) eqn:D; [rewrite ROWD by auto; auto|]. rewrite ROWN by auto.
    assert (Q : rsum n (fun c => (sm_val A i c * y c)%R) = rhs i).
    { assert (U : form b loc (unit_vector i) y es = load b locb (unit_vector i) es).
      { apply W. intros k Hk Dk. unfold unit_vector. destruct (Nat.eqb_spec k i); [congruence|reflexivity]. }
      rewrite <- (L1 i Hi) in U. rewrite <- U, <- F1. unfold unit_vector. rewrite <- (rsum_pick1 n i (fun k => rsum n (fun c => (sm_val A k c * y c)%R)) Hi). apply rsum_ext.
      intros k _. destruct (k =? i); lra. }
    rewrite Q. lra.
Qed.

(** Symmetric element matrices give a symmetric matrix, before and after the elimination. *)
Theorem C99_symmetric es A rhs d x : wf els b -> flat b -> pb_size (build b) [] = Some n -> (forall e, In e es -> els e) ->
  assemble loc locb (build b) es = Some (A, rhs) ->
  (forall i, i < n -> d i = true -> exists e, In e es /\ In i (numbers b e)) ->
  (forall e i j, loc e i j = loc e j i) ->
  (forall r c, r < n -> c < n -> sm_val A r c = sm_val A c r) /\
  let '(A', _) := eliminate d x A rhs in forall r c, r < n -> c < n -> sm_val A' r c = sm_val A' c r.
Proof.
  intros Hwf Hf Hn He H Hd Hs.
  destruct (C99_assembly es Hwf Hf Hn He) as (A1 & y1 & K & S1 & N1 & R1 & P1 & Z1 & F1 & G1 & V1 & L1). rewrite H in K. injection K as <- <-.
  assert (SY : forall r c, r < n -> c < n -> sm_val A r c = sm_val A c r) by (intros r c Hr Hc; rewrite !V1 by auto; now apply form_sym).
  split; [exact SY|].
  pose proof (eliminate_entries es A rhs d x Hwf Hf Hn He H Hd) as EL. destruct (eliminate d x A rhs) as [A' rhs']. destruct EL as (E1 & E2 & E3 & E4).
  intros r c Hr Hc. destruct (Nat.eq_dec c r) as [->|NE]; [reflexivity|]. rewrite !E3 by auto. unfold unit_vector. destruct (Nat.eqb_spec c r); [congruence|].
  destruct (Nat.eqb_spec r c) as [->|]; [congruence|]. destruct (d r), (d c); auto.
Qed.
End Props.

(** * A case: two segments, P1 in two interleaved components (six DOFs) *)
Definition ex99_loc (e i j : nat) : R := if i =? j then 2%R else (-1)%R.
Definition ex99_d (i : nat) : bool := i <? 2.
Definition ex99_x (i : nat) : R := if i <? 2 then 3%R else 0%R.
Example C99_hypotheses_met :
  wf ex_els ex83_b /\ flat ex83_b /\ pb_size (build ex83_b) [] = Some 6 /\ (forall e, In e [1; 0] -> ex_els e) /\
  numbers ex83_b 0 <> [] /\ numbers ex83_b 0 <> numbers ex83_b 1 /\
  (forall i, i < 6 -> ex99_d i = true -> exists e, In e [1; 0] /\ In i (numbers ex83_b e)) /\
  (forall i, i < 6 -> ex99_d i = false -> ex99_x i = 0%R) /\ (forall e i j, ex99_loc e i j = ex99_loc e j i).
Proof.
  split; [exact ex83_wf|]. split; [repeat split|]. split; [reflexivity|]. split; [intros e [<-|[<-|[]]]; unfold ex_els; lia|].
  split; [vm_compute; discriminate|]. split; [vm_compute; discriminate|]. split; [|split].
  - intros i _ D. unfold ex99_d in D. apply Nat.ltb_lt in D.
    assert (Q : existsb (Nat.eqb i) (numbers ex83_b 0) = true) by (destruct i as [|[|]]; [reflexivity|reflexivity|lia]).
    apply existsb_exists in Q as (k & K1 & K2). apply Nat.eqb_eq in K2. subst. exists 0. split; [cbn; auto|exact K1].
  - intros i _ D. unfold ex99_x. unfold ex99_d in D. now rewrite D.
  - intros e i j. unfold ex99_loc. now rewrite Nat.eqb_sym.
Qed.
(** The DOF shared by the two elements gets both contributions. *)
Example C99_shared : exists A rhs, assemble ex99_loc (fun _ _ => 1%R) (build ex83_b) [1; 0] = Some (A, rhs) /\
  exists r, r < 6 /\ sm_val A r r = 4%R /\ rhs r = 2%R /\ In (r, r) (sm_pat A).
Proof.
  destruct C99_hypotheses_met as (H1 & H2 & H3 & H4 & _).
  destruct (C99_assembly ex83_b ex_els 6 ex99_loc (fun _ _ => 1%R) [1; 0] H1 H2 H3 H4) as (A & rhs & K & _ & _ & _ & P & _ & _ & _ & V & L).
  exists A, rhs. split; [exact K|]. exists 2. split; [lia|]. rewrite V, L by lia.
  unfold form, load, element_form, element_load, at_dof.
  change (numbers ex83_b 0) with [0; 2; 1; 3]. change (numbers ex83_b 1) with [2; 4; 3; 5].
  split; [|split]; [unfold unit_vector, ex99_loc, rsum; cbn; lra|unfold unit_vector, rsum; cbn; lra|].
  apply P. exists 0. cbn. auto.
Qed.

Print Assumptions C99_assembly.
Print Assumptions C99_order_is_irrelevant.
Print Assumptions C99_dirichlet.
Print Assumptions C99_symmetric.
