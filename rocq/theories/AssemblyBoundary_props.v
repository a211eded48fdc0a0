(** C99, continued: the whole example: mark the boundary DOFs, assemble, eliminate. *)
From Coq Require Import List Arith Lia Bool Reals Lra.
From Verif Require Import Lib Basis_model Basis_spec Basis_ok Basis_props DiscreteFunction_model
  PyArrays_model PyArrays_spec PyArrays_props SubEntityDOFs_model SubEntityDOFs_spec SubEntityDOFs_props BoundaryTrace_spec
  BoundaryMarks_model BoundaryMarks_spec BoundaryMarks_props BoundaryMarks_examples Assembly_model Assembly_spec Assembly_proofs Assembly_props.
Import ListNotations.

(** With the flags of the boundary DOFs (poisson-pq2.cc:266-283), the assembled matrix and the eliminated values, exactly the
    solutions of the discrete boundary value problem solve the linear system. *)
Theorem C99_boundary_value_problem {E} (b : bexpr E) els co g (loc : E -> nat -> nat -> R) (locb : E -> nat -> R) (x : nat -> R) :
  wf els b -> boundary_ok b co els g [] -> flat b -> pb_size (build b) [] = Some (pb_dim (build b)) ->
  (forall i, i < pb_dim (build b) -> ~ boundary_dof b co [] g [i] -> x i = 0%R) ->
  exists flags A rhs, py_mark_boundary co (build b) g = Some flags /\ assemble loc locb (build b) (bg_elements g) = Some (A, rhs) /\
    forall y, let '(A', rhs') := eliminate (fun i => nth i flags false) x A rhs in
      solves A' rhs' y <->
      (forall i, boundary_dof b co [] g [i] -> y i = x i) /\
      (forall v, (forall i, boundary_dof b co [] g [i] -> v i = 0%R) -> form b loc v y (bg_elements g) = load b locb v (bg_elements g)).
Proof.
  intros Hwf BO Hf Hn Hx. set (n := pb_dim (build b)) in *.
  destruct (C98_python_flags b els co g Hwf BO Hf Hn) as (a & M & L & Q).
  assert (He : forall e, In e (bg_elements g) -> els e) by (apply (bo_elements _ _ _ _ _ BO)).
  destruct (C99_assembly b els n loc locb (bg_elements g) Hwf Hf Hn He) as (A & rhs & AS & _).
  exists a, A, rhs. split; [exact M|]. split; [exact AS|]. intros y.
  assert (D : forall i, i < n -> (nth i a false = true <-> boundary_dof b co [] g [i])).
  { intros i Hi. rewrite <- Q. rewrite (nth_error_nth' a false) by (unfold n in Hi; lia). split; [intros ->; reflexivity|now intros [= ->]]. }
  assert (B : forall i, boundary_dof b co [] g [i] -> i < n).
  { intros i Hi. apply Q in Hi. unfold n. rewrite <- L. apply nth_error_Some. congruence. }
  pose proof (C99_dirichlet b els n loc locb (bg_elements g) A rhs (fun i => nth i a false) x Hwf Hf Hn He AS) as T. cbn beta in T.
  assert (T1 : forall i, i < n -> nth i a false = true -> exists e, In e (bg_elements g) /\ In i (numbers b e)).
  { intros i Hi Di. apply D in Di; auto. destruct Di as (e & s & v & k & K1 & _ & K2 & _ & K3). exists e. split; [exact K1|].
    unfold numbers. rewrite K2. apply in_map_iff. exists k. rewrite K3. split; [reflexivity|]. apply in_seq.
    destruct (C06_every_local_dof_has_an_index b els e Hwf (He e K1)) as (v2 & B2 & Z). rewrite K2 in B2. injection B2 as <-.
    split; [lia|]. apply Z. eauto. }
  assert (T2 : forall i, i < n -> nth i a false = false -> x i = 0%R).
  { intros i Hi Di. apply Hx; auto. rewrite <- D by auto. congruence. }
  specialize (T T1 T2 y). destruct (eliminate _ _ _ _) as [A' rhs']. rewrite T. split; intros [H1 H2]; split.
  - intros i Hi. apply H1; [auto|]. apply D; auto.
  - intros v Hv. apply H2. intros i Hi Di. apply Hv, D; auto.
  - intros i Hi Di. apply H1, D; auto.
  - intros v Hv. apply H2. intros i Hi. apply Hv; auto. apply D; auto.
Qed.

(** The two segments of C98_python_met with boundary values 3. *)
Example C99_boundary_met :
  wf ex_els ex83_b /\ boundary_ok ex83_b ex98_co ex_els ex98_bg [] /\ flat ex83_b /\ pb_size (build ex83_b) [] = Some (pb_dim (build ex83_b)) /\
  let x := fun i => if nth i [true; true; false; false; true; true] false then 3%R else 0%R in
  (forall i, i < pb_dim (build ex83_b) -> ~ boundary_dof ex83_b ex98_co [] ex98_bg [i] -> x i = 0%R) /\ x 1 = 3%R.
Proof.
  destruct C98_python_met as (H1 & H2 & H3 & H4 & H5). repeat (split; [assumption|]). cbn zeta. split; [|reflexivity].
  intros i _ N. destruct (C98_python_flags ex83_b ex_els ex98_co ex98_bg H1 H2 H3 H4) as (a & M & L & Q). rewrite H5 in M. injection M as <-.
  destruct (nth i [true; true; false; false; true; true] false) eqn:D; [|reflexivity]. exfalso. apply N, Q.
  destruct (Nat.lt_ge_cases i 6) as [K|K].
  - rewrite (nth_error_nth' _ false) by exact K. now rewrite D.
  - rewrite nth_overflow in D by exact K. discriminate.
Qed.
Print Assumptions C99_boundary_value_problem.
