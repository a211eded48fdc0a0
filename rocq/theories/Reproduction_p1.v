(** C81: linear functions on the two triangles (0,0), (2,0), (1,3) and (2,0), (4,2), (1,3)
    meet the hypotheses of the general theorem. *)
From Coq Require Import List Arith Lia Bool Reals Lra.
From Verif Require Import Lib Basis_model Basis_spec Container_model Container_spec Interpolate_model Interpolate_props
  DiscreteFunction_model DiscreteFunction_spec DiscreteFunction_proofs Projection_spec MonomialSet_spec Nodal_spec.
From Verif Require Import GeometryType_model Mapper_model Mapper_spec Mapper_props Keys_check MeshSize_model.
From Verif Require Import NodalFunctions_proofs NodalFunctions_example Reproduction_spec Reproduction_props Reproduction_nodal Reproduction_example.
From Verif Require Triangle_example.
Import ListNotations.
Local Open Scope R_scope.
Notation P2 := Triangle_example.P.

Definition p1_keys : list localkey := [(0, 2, 0); (1, 2, 0); (2, 2, 0)]%nat.
Definition p1_leaf := mapper_leaf grid2 (mapper2 1 0 0) mcmgVertexLayout [[false; true]] (fun _ : bool => p1_keys).
Definition p1_shape (e : bool) (x : list R) : list R := [1 - nth 0 x 0 - nth 1 x 0; nth 0 x 0; nth 1 x 0].
Definition p1_setup := su2 p1_leaf 3 p1_shape (fun _ k _ => if (k =? 0)%nat then [-1; 1; 0] else [-1; 0; 1]).
(** the function q0 + q1 z0 + q2 z1, at the point of the element with local coordinates x *)
Definition p1_u (q0 q1 q2 : R) (z : list R) : R := q0 + q1 * nth 0 z 0 + q2 * nth 1 z 0.
Definition p1_point (e : bool) (x : list R) : list R := image 2 (P2 e) [nth 0 x 0; nth 1 x 0].

Example C81_reproduction_met : forall q0 q1 q2 : R,
  let b := BLeaf p1_leaf in let t := TDyn TScalar in
  let interp := fun e (_ : list nat) => map (fun i => p1_u q0 q1 q2 (nth i (P2 e) [])) [0; 1; 2]%nat in
  let F := fun (_ : list nat) (_ : nat) e x => p1_u q0 q1 q2 (p1_point e x) in
  setup_ok b [] els2 p1_setup /\ su_cdim p1_setup = 1%nat /\
  consistent els2 b [] interp /\ locally_reproduced els2 b [] p1_setup interp F /\
  call_ok b els2 [] t interp (CBlk []) [false; true] /\
  (exists c', interpolate t (fun _ => true) interp 0 (subspace_of_root (build b) []) [false; true] (CBlk []) = Done c' /\
    forall e x, exists y, is_value b [] p1_setup e (contents t c') x y) /\
  forall e, exists w n, leaf_of b [] e w [] n /\ node_size n <> 0%nat.
Proof.
  intros q0 q1 q2 b t interp F.
  assert (LO : layout_ok mcmgVertexLayout) by (intros s s' [_ L]; unfold mcmgVertexLayout, gt_dim; now rewrite L).
  assert (KO : keys_ok els2 grid2 mcmgVertexLayout (fun _ => p1_keys)) by (intros [|] _; apply keys_check_ok; reflexivity).
  assert (MO : mapper_ok els2 grid2 mcmgVertexLayout (mapper2 1 0 0)) by (apply mapper2_ok; try split; reflexivity).
  pose proof (proj1 (C30_mapper_leaf els2 grid2 mcmgVertexLayout [[false; true]] (fun _ => p1_keys) (mapper2 1 0 0) grid2_ok LO types2_ok MO KO)) as L2.
  assert (LI : forall e p, length (interp e p) = 3%nat) by reflexivity.
  assert (LD : lf_dim p1_leaf <> 0%nat) by (cbn; lia).
  assert (OKS : setup_ok b [] els2 p1_setup).
  { apply setup2_ok; auto. }
  split; [exact OKS|]. split; [reflexivity|].
  split. { apply (mapper_consistent els2 grid2 mcmgVertexLayout [[false; true]] (fun _ => p1_keys) (mapper2 1 0 0)); auto using grid2_ok, types2_ok.
    - intros [|i p] l Hl; [injection Hl as <-; reflexivity|discriminate].
    - intros p e e' a a' s s' c i s1 s2 x x' _ _ K K' _ _ Q X1 X2. unfold interp in X1, X2.
      destruct a as [|[|[|a]]]; [..|destruct a; discriminate K]; injection K as <- <- <-; (destruct a' as [|[|[|a']]]; [..|destruct a'; discriminate K']);
        injection K' as <-; injection X1 as <-; injection X2 as <-; destruct e, e'; cbn in Q; try discriminate; reflexivity. }
  split. { intros [|i p] l e x k Hl _ Hk; [|discriminate]. injection Hl as <-. split; [reflexivity|]. cbn in Hk. assert (k = 0)%nat as -> by lia.
    change (length (interp e [])) with 3%nat. unfold rsum. cbn [seq map fold_right]. unfold F, p1_u, p1_point, interp, shape_of. cbn [p1_setup su2 su_shape].
    unfold p1_shape, p1_u, image, comb, bary, total. generalize (nth 0 x 0) (nth 1 x 0). intros r s. destruct e; cbn -[Rplus Rmult Rminus]; ring. }
  split; [apply (call2_ok p1_leaf 3 interp L2 (fun _ => eq_refl) LD LI)|].
  split. { destruct (run2 p1_leaf 3 interp L2 (fun _ => eq_refl) LD LI) as [c' RUN]. exists c'. split; [exact RUN|].
    intros e x. destruct (values_exist b [] els2 p1_setup (contents t c') e x OKS) as (y & _ & HV & _); [now apply (contents2_ok p1_leaf 3 interp L2 (fun _ => eq_refl) LD LI)|apply all2|]. eauto. }
  intros e. destruct (leaf2_ex p1_leaf 3 L2 (fun _ => eq_refl) e) as (w & n & H1 & H2). exists w, n. split; auto. now rewrite H2.
Qed.
