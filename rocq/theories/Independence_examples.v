(** The hypotheses of C69 are met: the Hermite and linear components of [ex66_b]. *)
From Coq Require Import List Arith Bool Reals Lia Lra.
From Verif Require Import Lib Basis_model Basis_spec Basis_proofs Basis_props Container_model Container_spec Container_props
  FlatVector_model FlatVector_props Interpolate_model Interpolate_props DiscreteFunction_model DiscreteFunction_spec DiscreteFunction_proofs DiscreteFunction_props
  Projection_model Projection_spec Projection_props Projection_examples Independence_spec Independence_props.
Import ListNotations.
#[local] Arguments Nat.ltb : simpl never.

(** Points of the reference interval. *)
Definition ex69_pts (e : nat) (x : R) : Prop := (0 <= x <= 1)%R.
Example ex69_independent : independent ex66_b [] ex_els ex69_pts ex66_su.
Proof.
  intros e v p n a He L H0 i Hi. destruct (ex66_leaf e v p n L) as [Hp Hn]. rewrite Hn in *. clear L.
  assert (Q : p = [1] \/ (p = [0; 0] \/ p = [0; 1])) by tauto. destruct Q as [-> | Q].
  - pose proof (H0 0%R 0 ltac:(split; lra) Nat.lt_0_1) as A. pose proof (H0 1%R 0 ltac:(split; lra) Nat.lt_0_1) as B. cbn in A, B, Hi. unfold shape_of in A, B. cbn in A, B.
    do 2 (destruct i as [|i]; [lra|]). lia.
  - assert (F : forall x, (0 <= x <= 1)%R -> (a 0%nat * (1 - 3 * x * x + 2 * x * x * x) + a 1%nat * ((x - 2 * x * x + x * x * x) / 2) +
        a 2%nat * (3 * x * x - 2 * x * x * x) + a 3%nat * ((x * x * x - x * x) / 2))%R = 0%R).
    { intros x Hx. pose proof (H0 x 0 Hx Nat.lt_0_1) as A. destruct Q as [-> | ->]; cbn in A; unfold shape_of in A; cbn in A; lra. }
    assert (Hi' : i < 4) by (destruct Q as [-> | ->]; exact Hi).
    pose proof (F 0%R ltac:(lra)). pose proof (F 1%R ltac:(lra)). pose proof (F (/ 2)%R ltac:(lra)). pose proof (F (/ 4)%R ltac:(lra)).
    do 4 (destruct i as [|i]; [lra|]). lia.
Qed.
Example ex69_no_empty : no_empty_blocks ex66_b.
Proof. unfold no_empty_blocks. cbn. repeat constructor; discriminate. Qed.
(** The contracts of C69_dual_elements_are_independent and C69_lagrange_elements_are_independent
    are met as well. *)
Example ex69_dual : dual ex66_b [] ex_els ex66_su ex66_asks ex66_interpolation /\ derivatives_follow ex66_b [] ex_els ex66_su.
Proof.
  split; [apply ex66_dual|]. intros e v p n a He L H0 x r g Hr Hg.
  rewrite (rsum_ext _ _ (fun i => (0 * 0)%R)).
  - rewrite rsum_scal. ring.
  - intros i Hi. rewrite (ex69_independent e v p n a He L (fun x k _ => H0 x k) i Hi). ring.
Qed.
(** The linear component as a subspace. *)
Definition ex69_su : setup nat R := SU (subspace_of_root (build ex66_b) [1]) 1 (fun _ => 1) 1 1 (fun _ _ x => [[1 - x]; [x]]%R)
  (fun _ _ _ => [[- (1)]; [1]]%R) (fun _ _ _ _ => 2%R) (CVal 0%R) (fun _ => FScalar) (CBlk [CVal 0%R]) (fun _ => FVec (Some 1) FScalar).
Example ex69_nodal : nodal ex66_b [1] ex_els ex69_pts ex69_su (fun _ _ j => INR j).
Proof.
  intros e v p n He (H1 & H2 & H3) _. injection H1 as <-. destruct p; cbn in H2; [|destruct n0; discriminate]. injection H2 as <-. cbn.
  split; [lia|]. intros i j Hi Hj. unfold shape_of, ex69_pts. cbn. do 2 (destruct i as [|i]; [do 2 (destruct j as [|j]; [cbn; split; lra|]); lia|]). lia.
Qed.

(** Two vectors of this basis that give the same function agree. *)
Example C69_example c c' m : coefs_ok ex66_b ex_els ex66_su c -> coefs_ok ex66_b ex_els ex66_su c' ->
  same_function ex_els ex69_pts ex66_su c c' -> In m [[0; 5; 1]; [1; 2]] -> c m = c' m.
Proof.
  intros H1 H2 H3 Hm. apply (C69_coefficients_are_unique nat R ex66_b ex_els ex69_pts ex66_su); auto using ex66_setup_ok, ex69_independent.
  destruct Hm as [<-|[<-|[]]].
  - exists 1, 7. split; [unfold ex_els; lia|]. eexists. split; [reflexivity|]. split; [reflexivity|]. cbn. lia.
  - exists 1, 9. split; [unfold ex_els; lia|]. eexists. split; [reflexivity|]. split; [reflexivity|]. cbn. lia.
Qed.
