(** C102: the Poisson example assembles the weak form of the Poisson equation. *)
From Coq Require Import List Arith Lia Bool Reals Lra.
From Verif Require Import Lib Basis_model Basis_spec Basis_ok Basis_props DiscreteFunction_model DiscreteFunction_proofs
  PyArrays_model PyArrays_spec PyArrays_props Assembly_model Assembly_spec Assembly_proofs Assembly_props LocalAssembler_model LocalAssembler_spec.
Import ListNotations.

Lemma rsum_nonneg n f : (forall i, i < n -> (0 <= f i)%R) -> (0 <= rsum n f)%R.
Proof. induction n as [|n IH]; intros H; [rewrite rsum_0; lra|]. rewrite rsum_S. pose proof (H n ltac:(lia)). pose proof (IH ltac:(intros; apply H; lia)). lra. Qed.
Lemma rsum_nonneg_zero n f : (forall i, i < n -> (0 <= f i)%R) -> rsum n f = 0%R -> forall i, i < n -> f i = 0%R.
Proof.
  induction n as [|n IH]; intros H Z i Hi; [lia|]. rewrite rsum_S in Z. pose proof (H n ltac:(lia)). pose proof (rsum_nonneg n f ltac:(intros; apply H; lia)).
  destruct (Nat.eq_dec i n) as [->|]; [lra|]. apply IH; [intros; apply H; lia|lra|lia].
Qed.
Lemma sum_nonneg {A} (g : A -> R) l : (forall x, In x l -> 0 <= g x)%R -> (0 <= fold_right Rplus 0 (map g l))%R.
Proof. induction l as [|x l IH]; intros H; cbn; [lra|]. pose proof (H x (or_introl eq_refl)). pose proof (IH ltac:(intros; apply H; now right)). lra. Qed.
Lemma sum_nonneg_zero {A} (g : A -> R) l : (forall x, In x l -> 0 <= g x)%R -> fold_right Rplus 0%R (map g l) = 0%R -> forall x, In x l -> g x = 0%R.
Proof.
  induction l as [|x l IH]; intros H Z y Hy; [destruct Hy|]. cbn in Z. pose proof (H x (or_introl eq_refl)). pose proof (sum_nonneg g l ltac:(intros; apply H; now right)).
  destruct Hy as [<-|Hy]; [lra|]. apply IH; auto; [intros; apply H; now right|lra].
Qed.
Lemma rsum_sum {A} n (g : nat -> A -> R) l : rsum n (fun i => fold_right Rplus 0%R (map (g i) l)) = fold_right Rplus 0%R (map (fun x => rsum n (fun i => g i x)) l).
Proof. induction l as [|x l IH]; cbn; [apply rsum_zeros; auto|]. rewrite rsum_plus, IH. reflexivity. Qed.
Lemma sum_scal {A} a (g : A -> R) l : (a * fold_right Rplus 0 (map g l))%R = fold_right Rplus 0%R (map (fun x => (a * g x)%R) l).
Proof. induction l as [|x l IH]; cbn; [lra|]. rewrite <- IH. ring. Qed.

Section Proofs.
Context {E X : Type}.
Variables (b : bexpr E) (dim : nat) (quad quadb : E -> list (X * R)).
Variables (refj jinv : E -> X -> nat -> nat -> R) (ie : E -> X -> R) (shape : E -> X -> nat -> R) (f : E -> X -> R).
Notation grad := (gradient b dim refj jinv).
Notation mat := (element_matrix b dim quad refj jinv ie).
Notation vec := (element_rhs b quadb ie shape f).
Notation jac := (jacobian dim refj jinv).
Definition mterm (e : E) (i j : nat) (q : X * R) : R := (row_times_row dim (jac e (fst q) i) (jac e (fst q) j) * snd q * ie e (fst q))%R.
Definition vterm (e : E) (i : nat) (q : X * R) : R := (shape e (fst q) i * f e (fst q) * snd q * ie e (fst q))%R.

Lemma point_matrix_ok n e q M : exists M', point_matrix dim refj jinv ie n e q M = Some M' /\ forall i j, i < n -> j < n -> M' i j = (M i j + mterm e i j q)%R.
Proof.
  unfold point_matrix.
  destruct (forl_inv (fun k M' => forall i j, i < n -> j < n -> M' i j = (M i j + (if i <? k then mterm e i j q else 0))%R)
    n 0 (fun i M => forl n 0 (fun j M => dense_add n i j (row_times_row dim (jac e (fst q) i) (jac e (fst q) j) * snd q * ie e (fst q))%R M) M) M) as (M' & E1 & P).
  - intros i j _ _. cbn. lra.
  - intros k M1 Hk A.
    destruct (forl_inv (fun l M' => forall i j, i < n -> j < n -> M' i j = (M1 i j + (if (i =? k) && (j <? l) then mterm e i j q else 0))%R)
      n 0 (fun j M => dense_add n k j (row_times_row dim (jac e (fst q) k) (jac e (fst q) j) * snd q * ie e (fst q))%R M) M1) as (M2 & E2 & B).
    + intros i j _ _. rewrite andb_false_r. lra.
    + intros l M3 Hl C. unfold dense_add. rewrite (proj2 (Nat.ltb_lt k n)), (proj2 (Nat.ltb_lt l n)) by lia. cbn [andb]. eexists. split; [reflexivity|].
      intros i j Hi Hj. cbn beta. rewrite C by auto. destruct (Nat.eqb_spec i k) as [->|]; cbn [andb]; [|lra].
      destruct (Nat.eqb_spec j l) as [->|NE].
      * rewrite (proj2 (Nat.ltb_ge l l)), (proj2 (Nat.ltb_lt l (l + 1))) by lia. unfold mterm. lra.
      * destruct (Nat.ltb_spec j l), (Nat.ltb_spec j (l + 1)); try lia; lra.
    + exists M2. split; [exact E2|]. intros i j Hi Hj. rewrite B, A by auto. cbn [Nat.add]. rewrite (proj2 (Nat.ltb_lt j n)) by auto. rewrite andb_true_r.
      destruct (Nat.eqb_spec i k) as [->|NE].
      * rewrite (proj2 (Nat.ltb_ge k k)), (proj2 (Nat.ltb_lt k (k + 1))) by lia. lra.
      * destruct (Nat.ltb_spec i k), (Nat.ltb_spec i (k + 1)); try lia; lra.
  - exists M'. split; [exact E1|]. intros i j Hi Hj. rewrite P by auto. cbn [Nat.add]. now rewrite (proj2 (Nat.ltb_lt i n)) by auto.
Qed.
Lemma points_matrix_ok n e qs : forall M, exists M', points_matrix dim refj jinv ie n e qs M = Some M' /\
  forall i j, i < n -> j < n -> M' i j = (M i j + fold_right Rplus 0 (map (mterm e i j) qs))%R.
Proof.
  induction qs as [|q qs IH]; intros M; cbn [points_matrix map fold_right].
  - exists M. split; [reflexivity|]. intros. lra.
  - destruct (point_matrix_ok n e q M) as (M1 & -> & P). cbn [obind]. destruct (IH M1) as (M2 & -> & Q). exists M2. split; [reflexivity|].
    intros i j Hi Hj. rewrite Q, P by auto. lra.
Qed.
Lemma point_rhs_ok n e q y : exists y', point_rhs ie shape f n e q y = Some y' /\ forall i, i < n -> y' i = (y i + vterm e i q)%R.
Proof.
  unfold point_rhs.
  destruct (forl_inv (fun k y' => forall i, i < n -> y' i = (y i + (if i <? k then vterm e i q else 0))%R)
    n 0 (fun i y => dense_vec_add n i (shape e (fst q) i * f e (fst q) * snd q * ie e (fst q))%R y) y) as (y' & E1 & P).
  - intros i _. cbn. lra.
  - intros k y1 Hk A. unfold dense_vec_add. rewrite (proj2 (Nat.ltb_lt k n)) by lia. eexists. split; [reflexivity|]. intros i Hi. cbn beta. rewrite A by auto.
    destruct (Nat.eqb_spec i k) as [->|NE].
    + rewrite (proj2 (Nat.ltb_ge k k)), (proj2 (Nat.ltb_lt k (k + 1))) by lia. unfold vterm. lra.
    + destruct (Nat.ltb_spec i k), (Nat.ltb_spec i (k + 1)); try lia; lra.
  - exists y'. split; [exact E1|]. intros i Hi. rewrite P by auto. cbn [Nat.add]. now rewrite (proj2 (Nat.ltb_lt i n)) by auto.
Qed.
Lemma points_rhs_ok n e qs : forall y, exists y', points_rhs ie shape f n e qs y = Some y' /\
  forall i, i < n -> y' i = (y i + fold_right Rplus 0 (map (vterm e i) qs))%R.
Proof.
  induction qs as [|q qs IH]; intros y; cbn [points_rhs map fold_right].
  - exists y. split; [reflexivity|]. intros. lra.
  - destruct (point_rhs_ok n e q y) as (y1 & -> & P). cbn [obind]. destruct (IH y1) as (y2 & -> & Q). exists y2. split; [reflexivity|].
    intros i Hi. rewrite Q, P by auto. lra.
Qed.

Lemma local_matrix_ok n e : exists M, local_matrix dim quad refj jinv ie n e = Some M /\ forall i j, i < n -> j < n ->
  M i j = integral ie quad (fun e x => rsum dim (fun k => (jac e x i k * jac e x j k)%R)) e.
Proof.
  unfold local_matrix. destruct (points_matrix_ok n e (quad e) (fun _ _ => 0%R)) as (M & -> & P). exists M. split; [reflexivity|].
  intros i j Hi Hj. rewrite P by auto. rewrite Rplus_0_l. reflexivity.
Qed.
Lemma local_rhs_ok n e : exists y, local_rhs quadb ie shape f n e = Some y /\ forall i, i < n -> y i = integral ie quadb (fun e x => (f e x * shape e x i)%R) e.
Proof.
  unfold local_rhs. destruct (points_rhs_ok n e (quadb e) (fun _ => 0%R)) as (y & -> & P). exists y. split; [reflexivity|].
  intros i Hi. rewrite P by auto. rewrite Rplus_0_l. apply sum_ext. intros q _. unfold vterm. ring.
Qed.
(** The local assemblers never leave the element matrix and vector, and compute the quadratures of the products of the gradients, and
    of the source term with the shape functions. *)
Theorem C102_local_assemblers n e :
  (exists M, local_matrix dim quad refj jinv ie n e = Some M /\ forall i j, i < n -> j < n ->
     M i j = integral ie quad (fun e x => rsum dim (fun k => (rsum dim (fun l => refj e x i l * jinv e x l k) * rsum dim (fun l => refj e x j l * jinv e x l k))%R)) e) /\
  (exists y, local_rhs quadb ie shape f n e = Some y /\ forall i, i < n -> y i = integral ie quadb (fun e x => (f e x * shape e x i)%R) e).
Proof. split; [apply local_matrix_ok|apply local_rhs_ok]. Qed.

Lemma element_form_gradients v u e : element_form b mat v u e = integral ie quad (fun e x => rsum dim (fun k => (grad v e x k * grad u e x k)%R)) e.
Proof.
  unfold element_form. destruct (local_matrix_ok (nshape b e) e) as (M & K & P).
  rewrite (rsum_ext _ _ (fun i => fold_right Rplus 0%R (map (fun q => rsum (nshape b e) (fun j => (v (at_dof b e i) * mterm e i j q * u (at_dof b e j))%R)) (quad e)))).
  2:{ intros i Hi. rewrite <- rsum_sum. apply rsum_ext. intros j Hj. unfold element_matrix. rewrite K, P by auto. unfold integral.
      rewrite sum_scal, Rmult_comm, sum_scal. apply sum_ext. intros q _. unfold mterm, row_times_row. ring. }
  rewrite rsum_sum. unfold integral. apply sum_ext. intros q _.
  rewrite (rsum_ext _ _ (fun i => rsum (nshape b e) (fun j => rsum dim (fun k => (v (at_dof b e i) * jac e (fst q) i k * (u (at_dof b e j) * jac e (fst q) j k) * (snd q * ie e (fst q)))%R)))).
  2:{ intros i _. apply rsum_ext. intros j _. unfold mterm, row_times_row.
      rewrite (rsum_ext dim (fun k => (v (at_dof b e i) * jac e (fst q) i k * (u (at_dof b e j) * jac e (fst q) j k) * (snd q * ie e (fst q)))%R)
        (fun k => (v (at_dof b e i) * u (at_dof b e j) * (snd q * ie e (fst q)) * (jac e (fst q) i k * jac e (fst q) j k))%R)) by (intros; ring).
      rewrite rsum_scal. ring. }
  rewrite (rsum_ext _ _ (fun i => rsum dim (fun k => (v (at_dof b e i) * jac e (fst q) i k * (grad u e (fst q) k * (snd q * ie e (fst q))))%R))).
  2:{ intros i _. rewrite rsum_swap. apply rsum_ext. intros k _. unfold gradient. fold (nshape b e).
      rewrite (rsum_ext _ _ (fun j => (v (at_dof b e i) * jac e (fst q) i k * (snd q * ie e (fst q)) * (u (at_dof b e j) * jac e (fst q) j k))%R)) by (intros; ring).
      rewrite rsum_scal. unfold jacobian. ring. }
  rewrite rsum_swap. transitivity (rsum dim (fun k => (snd q * ie e (fst q) * (grad v e (fst q) k * grad u e (fst q) k))%R)).
  - apply rsum_ext. intros k _. rewrite (rsum_ext _ _ (fun i => (grad u e (fst q) k * (snd q * ie e (fst q)) * (v (at_dof b e i) * jac e (fst q) i k))%R)) by (intros; ring).
    rewrite rsum_scal. unfold gradient at 2. unfold jacobian, nshape. ring.
  - rewrite rsum_scal. ring.
Qed.
Lemma form_gradients v u es : form b mat v u es = dirichlet_form b dim quad refj jinv ie v u es.
Proof. unfold form, dirichlet_form, on_elements. apply sum_ext. intros e _. apply element_form_gradients. Qed.
Lemma load_source v es : load b vec v es = source b quadb ie shape f v es.
Proof.
  unfold load, source, on_elements. apply sum_ext. intros e _. unfold element_load. destruct (local_rhs_ok (nshape b e) e) as (y & K & P).
  rewrite (rsum_ext _ _ (fun i => fold_right Rplus 0%R (map (fun q => (v (at_dof b e i) * (f e (fst q) * shape e (fst q) i * snd q * ie e (fst q)))%R) (quadb e)))).
  2:{ intros i Hi. unfold element_rhs. rewrite K, P by auto. unfold integral. now rewrite sum_scal. }
  rewrite rsum_sum. unfold integral. apply sum_ext. intros q _.
  rewrite (rsum_ext _ _ (fun i => (f e (fst q) * snd q * ie e (fst q) * (v (at_dof b e i) * shape e (fst q) i))%R)) by (intros; ring).
  rewrite rsum_scal. unfold value, nshape. ring.
Qed.

(** The assembled system is the weak form of the Poisson equation: stiffness matrix and load vector. *)
Theorem C102_poisson els n es : wf els b -> flat b -> pb_size (build b) [] = Some n -> (forall e, In e es -> els e) ->
  exists A rhs, assemble mat vec (build b) es = Some (A, rhs) /\ sm_n A = n /\
    (forall v u, rsum n (fun r => (v r * rsum n (fun c => sm_val A r c * u c))%R) = dirichlet_form b dim quad refj jinv ie v u es) /\
    (forall v, rsum n (fun r => (v r * rhs r)%R) = source b quadb ie shape f v es) /\
    (forall r c, r < n -> c < n -> sm_val A r c = sm_val A c r).
Proof.
  intros Hwf Hf Hn He. destruct (C99_assembly b els n mat vec es Hwf Hf Hn He) as (A & rhs & K & S & _ & _ & _ & _ & F & G & V & _).
  exists A, rhs. split; [exact K|]. split; [exact S|]. split; [intros; rewrite F; apply form_gradients|]. split; [intros; rewrite G; apply load_source|].
  intros r c Hr Hc. rewrite !V, !form_gradients by auto. unfold dirichlet_form, on_elements. apply sum_ext. intros e _. unfold integral. apply sum_ext. intros q _.
  f_equal. f_equal. apply rsum_ext. intros k _. ring.
Qed.

(** The energy is not negative, and is zero only for functions with zero gradient at all quadrature points. *)
Theorem C102_energy u es : (forall e q, In e es -> In q (quad e) -> (0 < snd q * ie e (fst q))%R) ->
  (0 <= dirichlet_form b dim quad refj jinv ie u u es)%R /\
  (dirichlet_form b dim quad refj jinv ie u u es = 0%R <-> forall e q k, In e es -> In q (quad e) -> k < dim -> grad u e (fst q) k = 0%R).
Proof.
  intros W.
  assert (SQ : forall e x, (0 <= rsum dim (fun k => grad u e x k * grad u e x k))%R) by (intros; apply rsum_nonneg; intros; apply Rle_0_sqr).
  assert (P1 : forall e q, In e es -> In q (quad e) -> (0 <= rsum dim (fun k => grad u e (fst q) k * grad u e (fst q) k) * snd q * ie e (fst q))%R).
  { intros e q He Hq. rewrite Rmult_assoc. apply Rmult_le_pos; [apply SQ|]. apply Rlt_le, W; auto. }
  assert (P2 : forall e, In e es -> (0 <= integral ie quad (fun e x => rsum dim (fun k => (grad u e x k * grad u e x k)%R)) e)%R) by (intros e He; apply sum_nonneg; intros q Hq; now apply P1).
  split; [now apply sum_nonneg|]. split.
  - intros Z e q k He Hq Hk. pose proof (sum_nonneg_zero _ es P2 Z e He) as Z1. pose proof (sum_nonneg_zero _ (quad e) (fun q Hq => P1 e q He Hq) Z1 q Hq) as Z2. cbn beta in Z2.
    rewrite Rmult_assoc in Z2. apply Rmult_integral in Z2 as [Z2|Z2]; [|pose proof (W e q He Hq); lra].
    pose proof (rsum_nonneg_zero dim _ (fun k _ => Rle_0_sqr (grad u e (fst q) k)) Z2 k Hk) as Z3. now apply Rsqr_0_uniq in Z3.
  - intros H. unfold dirichlet_form, on_elements. rewrite (sum_ext _ (fun _ => 0%R) es).
    + clear. induction es; cbn; lra.
    + intros e He. unfold integral. rewrite (sum_ext _ (fun _ => 0%R) (quad e)).
      * clear. induction (quad e); cbn; lra.
      * intros q Hq. rewrite (rsum_zeros dim); [ring|]. intros k Hk. rewrite (H e q k He Hq Hk). ring.
Qed.

(** Two solutions of the system with Dirichlet values have the same gradients at all quadrature points. *)
Theorem C102_gradient_is_unique els n es A rhs d x y y' : wf els b -> flat b -> pb_size (build b) [] = Some n -> (forall e, In e es -> els e) ->
  (forall e q, In e es -> In q (quad e) -> (0 < snd q * ie e (fst q))%R) ->
  assemble mat vec (build b) es = Some (A, rhs) ->
  (forall i, i < n -> d i = true -> exists e, In e es /\ In i (numbers b e)) ->
  (forall i, i < n -> d i = false -> x i = 0%R) ->
  solves (fst (eliminate d x A rhs)) (snd (eliminate d x A rhs)) y -> solves (fst (eliminate d x A rhs)) (snd (eliminate d x A rhs)) y' ->
  forall e q k, In e es -> In q (quad e) -> k < dim -> grad y e (fst q) k = grad y' e (fst q) k.
Proof.
  intros Hwf Hf Hn He W K Hd Hx S S'.
  pose proof (C99_dirichlet b els n mat vec es A rhs d x Hwf Hf Hn He K Hd Hx) as T.
  pose proof (T y) as T1. pose proof (T y') as T2. destruct (eliminate d x A rhs) as [A' rhs']. cbn [fst snd] in *.
  apply T1 in S as [D1 W1]. apply T2 in S' as [D2 W2].
  set (z := fun i => (y i - y' i)%R).
  assert (GZ : forall e q k, grad z e q k = (grad y e q k - grad y' e q k)%R).
  { intros e q k. unfold gradient, z. rewrite (rsum_ext _ _ (fun i => (y (at_dof b e i) * rsum dim (fun l => refj e q i l * jinv e q l k) + (-1) * (y' (at_dof b e i) * rsum dim (fun l => refj e q i l * jinv e q l k)))%R)) by (intros; ring).
    rewrite rsum_plus, rsum_scal. ring. }
  assert (Z : dirichlet_form b dim quad refj jinv ie z z es = 0%R).
  { assert (V0 : forall i, i < n -> d i = true -> z i = 0%R) by (intros i Hi Di; unfold z; rewrite D1, D2 by auto; ring).
    pose proof (W1 z V0) as Q1. pose proof (W2 z V0) as Q2. rewrite form_gradients in Q1, Q2. rewrite <- Q2 in Q1.
    assert (L : (dirichlet_form b dim quad refj jinv ie z z es = dirichlet_form b dim quad refj jinv ie z y es + (-1) * dirichlet_form b dim quad refj jinv ie z y' es)%R); [|lra].
    unfold dirichlet_form, on_elements. rewrite sum_scal.
    assert (SP : forall (g1 g2 : E -> R) l, (fold_right Rplus 0 (map g1 l) + fold_right Rplus 0 (map g2 l))%R = fold_right Rplus 0%R (map (fun e => (g1 e + g2 e)%R) l)) by (induction l as [|? ? IHl]; cbn; [lra|rewrite <- IHl; lra]).
    assert (SP2 : forall (g1 g2 : X * R -> R) l, (fold_right Rplus 0 (map g1 l) + fold_right Rplus 0 (map g2 l))%R = fold_right Rplus 0%R (map (fun e => (g1 e + g2 e)%R) l)) by (induction l as [|? ? IHl]; cbn; [lra|rewrite <- IHl; lra]).
    rewrite SP. apply sum_ext. intros e _. unfold integral. rewrite sum_scal, SP2. apply sum_ext. intros q _.
    rewrite (rsum_ext dim (fun k => (grad z e (fst q) k * grad z e (fst q) k)%R) (fun k => (grad z e (fst q) k * grad y e (fst q) k + (-1) * (grad z e (fst q) k * grad y' e (fst q) k))%R)) by (intros k _; rewrite (GZ e (fst q) k); ring).
    rewrite rsum_plus, rsum_scal. ring. }
  intros e q k Hi Hq Hk. pose proof (proj1 (proj2 (C102_energy z es W)) Z e q k Hi Hq Hk) as G. rewrite GZ in G. lra.
Qed.
End Proofs.

(** The hypotheses are met: two intervals of length 1/2, linear shape functions, the midpoint rule, one Dirichlet DOF. *)
Definition ex102_b : bexpr nat := BLeaf ex_p1.
Definition ex102_quad (_ : nat) : list (R * R) := [((1/2)%R, 1%R)].
Definition ex102_refj (_ : nat) (_ : R) (i _ : nat) : R := if i =? 0 then (-1)%R else 1%R.
Definition ex102_jinv (_ : nat) (_ : R) (_ _ : nat) : R := 2%R.
Definition ex102_ie (_ : nat) (_ : R) : R := (1/2)%R.
Definition ex102_shape (_ : nat) (x : R) (i : nat) : R := if i =? 0 then (1 - x)%R else x.
Definition ex102_d (i : nat) : bool := i =? 0.
Definition ex102_x (i : nat) : R := if i =? 0 then 5%R else 0%R.
Example C102_hypotheses_met :
  wf ex_els ex102_b /\ flat ex102_b /\ pb_size (build ex102_b) [] = Some 3 /\ (forall e, In e [0; 1] -> ex_els e) /\
  (forall e q, In e [0; 1] -> In q (ex102_quad e) -> (0 < snd q * ex102_ie e (fst q))%R) /\
  (forall i, i < 3 -> ex102_d i = true -> exists e, In e [0; 1] /\ In i (numbers ex102_b e)) /\
  (forall i, i < 3 -> ex102_d i = false -> ex102_x i = 0%R).
Proof.
  split; [assert (W := ex83_wf); unfold ex83_b in W; cbn [wf] in W; apply W|]. split; [repeat split|]. split; [reflexivity|]. split; [intros e [<-|[<-|[]]]; unfold ex_els; lia|].
  split; [intros e q _ [<-|[]]; unfold ex102_ie; cbn; lra|]. split.
  - intros i _ D. unfold ex102_d in D. apply Nat.eqb_eq in D as ->. exists 0. split; [now left|]. cbn. auto.
  - intros i _ D. unfold ex102_d in D. unfold ex102_x. now rewrite D.
Qed.
(** The matrix and the right hand side of the example are those of the textbook. *)
Example C102_textbook : exists A rhs,
  assemble (element_matrix ex102_b 1 ex102_quad ex102_refj ex102_jinv ex102_ie) (element_rhs ex102_b ex102_quad ex102_ie ex102_shape (fun _ _ => 1%R)) (build ex102_b) [0; 1] = Some (A, rhs) /\
  sm_val A 0 0 = 2%R /\ sm_val A 0 1 = (-2)%R /\ sm_val A 1 1 = 4%R /\ sm_val A 0 2 = 0%R /\ rhs 0 = (1/4)%R /\ rhs 1 = (1/2)%R.
Proof.
  destruct C102_hypotheses_met as (H1 & H2 & H3 & H4 & _).
  destruct (C99_assembly ex102_b ex_els 3 (element_matrix ex102_b 1 ex102_quad ex102_refj ex102_jinv ex102_ie)
    (element_rhs ex102_b ex102_quad ex102_ie ex102_shape (fun _ _ => 1%R)) [0; 1] H1 H2 H3 H4) as (A & rhs & K & _ & _ & _ & _ & _ & _ & _ & V & L).
  exists A, rhs. split; [exact K|]. rewrite !V, !L by lia. rewrite !form_gradients, !load_source.
  unfold dirichlet_form, source, on_elements, integral, gradient, value, nshape, at_dof.
  change (numbers ex102_b 0) with [0; 1]. change (numbers ex102_b 1) with [1; 2].
  unfold unit_vector, ex102_quad, ex102_refj, ex102_jinv, ex102_ie, ex102_shape, rsum. cbn. repeat split; lra.
Qed.

Print Assumptions C102_local_assemblers.
Print Assumptions C102_poisson.
Print Assumptions C102_energy.
Print Assumptions C102_gradient_is_unique.
