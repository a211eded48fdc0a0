(** The closest facet and its normal (C45). *)
From Coq Require Import Reals Arith List Lra Lia.
From Verif Require Import Lib FaceNormal_model.
Import ListNotations.
Open Scope R_scope.

(** * Specification *)
Definition dist (dim : nat) (a b : vec) : R := two_norm dim (fun k => a k - b k).
Section Polytope.
Variables (dim faces : nat) (center normal : nat -> vec).
(** The polytope with these facets, and facet i of it. *)
Definition inside (z : vec) : Prop := forall i, (i < faces)%nat -> 0 <= dot dim (fun k => center i k - z k) (normal i).
Definition on_facet (i : nat) (z : vec) : Prop := inside z /\ dot dim (fun k => center i k - z k) (normal i) = 0.
(** Facet [f] contains a point at distance [r] of x, and no facet a point nearer to x. *)
Definition nearest_facet (x : vec) (f : nat) (r : R) : Prop :=
  (exists z, on_facet f z /\ dist dim x z = r) /\
  forall j z, (j < faces)%nat -> on_facet j z -> r <= dist dim x z.
End Polytope.

(** * Vectors *)
Section Dot.
Variable dim : nat.
Lemma dot_ext a a' b b' : (forall k, (k < dim)%nat -> a k = a' k /\ b k = b' k) -> dot dim a b = dot dim a' b'.
Proof. induction dim as [|d IH]; intros H; cbn; auto. destruct (H d) as [-> ->]; [lia|]. rewrite IH; auto. Qed.
Lemma dot_comm a b : dot dim a b = dot dim b a.
Proof. induction dim as [|d IH]; cbn; [auto|]. rewrite IH. ring. Qed.
Lemma dot_lin a b c s : dot dim (fun k => a k + s * b k) c = dot dim a c + s * dot dim b c.
Proof. induction dim as [|d IH]; cbn; [ring|]. rewrite IH. ring. Qed.
Lemma dot_scal a b s : dot dim (fun k => s * a k) b = s * dot dim a b.
Proof. induction dim as [|d IH]; cbn; [ring|]. rewrite IH. ring. Qed.
Lemma dot_pos a : 0 <= dot dim a a.
Proof. induction dim as [|d IH]; cbn; [lra|]. pose proof (Rle_0_sqr (a d)). unfold Rsqr in *. lra. Qed.
Lemma norm_sq a : two_norm dim a * two_norm dim a = dot dim a a.
Proof. apply sqrt_sqrt, dot_pos. Qed.
Lemma norm_pos a : 0 <= two_norm dim a.
Proof. apply sqrt_pos. Qed.
Lemma cauchy_schwarz a b : dot dim a b <= two_norm dim a * two_norm dim b.
Proof.
  destruct (Req_dec (two_norm dim a) 0) as [Ha|Ha].
  { (* a = 0 *) assert (forall k, (k < dim)%nat -> a k = 0) as H.
    { pose proof (norm_sq a) as Hn. rewrite Ha in Hn. clear Ha. induction dim as [|d IH]; intros k Hk; [lia|]. cbn in Hn.
      pose proof (dot_pos a) as Hp. assert (0 <= dot d a a) by (clear; induction d; cbn; [lra|]; pose proof (Rle_0_sqr (a d)); unfold Rsqr in *; lra).
      pose proof (Rle_0_sqr (a d)). unfold Rsqr in *. assert (dot d a a = 0) by lra.
      destruct (Nat.eq_dec k d) as [->|]; [|apply IH; [lra|lia]]. assert (a d * a d = 0) by lra. nra. }
    rewrite Ha. rewrite (dot_ext a (fun _ => 0) b b) by auto. rewrite Rmult_0_l. right. clear. induction dim; cbn; [auto|]. lra. }
  destruct (Req_dec (two_norm dim b) 0) as [Hb|Hb].
  { assert (forall k, (k < dim)%nat -> b k = 0) as H.
    { pose proof (norm_sq b) as Hn. rewrite Hb in Hn. clear Hb Ha. induction dim as [|d IH]; intros k Hk; [lia|]. cbn in Hn.
      assert (0 <= dot d b b) by (clear; induction d; cbn; [lra|]; pose proof (Rle_0_sqr (b d)); unfold Rsqr in *; lra).
      pose proof (Rle_0_sqr (b d)). unfold Rsqr in *. assert (dot d b b = 0) by lra.
      destruct (Nat.eq_dec k d) as [->|]; [|apply IH; [lra|lia]]. assert (b d * b d = 0) by lra. nra. }
    rewrite Hb. rewrite (dot_ext a a b (fun _ => 0)) by auto. rewrite Rmult_0_r. right. clear. induction dim; cbn; [auto|]. lra. }
  pose proof (norm_pos a). pose proof (norm_pos b). set (p := two_norm dim a) in *. set (q := two_norm dim b) in *.
  pose proof (dot_pos (fun k => q * a k + (- p) * b k)) as H1.
  rewrite dot_lin, dot_scal in H1. rewrite (dot_comm a), (dot_comm b), !dot_lin, !dot_scal in H1.
  rewrite <- (norm_sq a), <- (norm_sq b) in H1. fold p q in H1. rewrite (dot_comm b a) in H1.
  assert (0 < p * q) by (apply Rmult_lt_0_compat; lra). nra.
Qed.
End Dot.

Section Proofs.
Variables (dim faces : nat) (center normal : nat -> vec) (maxd : R).
Hypothesis Hn : forall i, (i < faces)%nat -> two_norm dim (normal i) <> 0.
Notation fd := (face_distance dim center normal).

Lemma fd_dot x i : (i < faces)%nat -> fd x i * two_norm dim (normal i) = dot dim (fun k => center i k - x k) (normal i).
Proof.
  intros Hi. unfold face_distance. rewrite dot_comm.
  rewrite (dot_ext dim _ (fun k => / two_norm dim (normal i) * normal i k) _ (fun k => center i k - x k)).
  2:{ intros k _. split; [unfold Rdiv; ring|reflexivity]. }
  rewrite dot_scal, dot_comm. field. auto.
Qed.

Lemma fold_first x n s best0 b : (b, best0) = (b, best0) ->
  let r := fold_left (fun '(index, best) i => if Rlt_dec (fd x i) best then (i, fd x i) else (index, best)) (seq s n) (b, best0) in
  snd r <= best0 /\ (forall i, (s <= i < s + n)%nat -> snd r <= fd x i) /\
  ((r = (b, best0)) \/ (s <= fst r < s + n)%nat /\ snd r = fd x (fst r) /\ fd x (fst r) < best0 /\ forall i, (s <= i < fst r)%nat -> fd x (fst r) < fd x i).
Proof.
  intros _. revert s b best0. induction n as [|n IH]; intros s b best0; cbn [seq fold_left].
  - cbn. split; [lra|]. split; [intros; lia|]. auto.
  - destruct (Rlt_dec (fd x s) best0) as [Hl|Hl].
    + specialize (IH (S s) s (fd x s)). cbn zeta in IH. set (r := fold_left _ _ _) in *. destruct IH as (A & B & C). cbn zeta.
      split; [lra|]. split. { intros i Hi. destruct (Nat.eq_dec i s) as [->|]; [auto|apply B; lia]. }
      right. destruct C as [->|(C1 & C2 & C3 & C4)]; cbn [fst snd].
      * split; [lia|]. split; auto. split; auto. intros i Hi; lia.
      * split; [lia|]. split; auto. split; [lra|]. intros i Hi. destruct (Nat.eq_dec i s) as [->|]; [auto|apply C4; lia].
    + specialize (IH (S s) b best0). cbn zeta in IH. set (r := fold_left _ _ _) in *. destruct IH as (A & B & C). cbn zeta.
      split; auto. split. { intros i Hi. destruct (Nat.eq_dec i s) as [->|]; [lra|apply B; lia]. }
      destruct C as [->|(C1 & C2 & C3 & C4)]; [auto|]. right. split; [lia|]. split; auto. split; auto.
      intros i Hi. destruct (Nat.eq_dec i s) as [->|]; [lra|apply C4; lia].
Qed.

(** Among the facets the first with the smallest signed distance is returned, provided
    that one of the distances is below the largest double. *)
Theorem C45_first_minimiser x :
  (exists i, (i < faces)%nat /\ fd x i < maxd) ->
  let f := closest_face dim faces center normal maxd x in
  (f < faces)%nat /\ (forall i, (i < faces)%nat -> fd x f <= fd x i) /\ (forall i, (i < f)%nat -> fd x f < fd x i).
Proof.
  intros (i0 & Hi0 & Hlt). unfold closest_face. destruct (fold_first x faces 0 maxd 0%nat eq_refl) as (A & B & C).
  set (r := fold_left _ _ _) in *. destruct C as [E|(C1 & C2 & C3 & C4)].
  - specialize (B i0 ltac:(lia)). rewrite E in B. cbn in B. lra.
  - cbn zeta. rewrite <- C2. split; [lia|]. split; [intros i Hi; apply B; lia|]. rewrite C2. intros i Hi. apply C4. lia.
Qed.

(** For a point inside the element the facet returned is one nearest to it. *)
Theorem C45_nearest_facet x :
  (exists i, (i < faces)%nat /\ fd x i < maxd) -> inside dim faces center normal x ->
  let f := closest_face dim faces center normal maxd x in
  nearest_facet dim faces center normal x f (fd x f).
Proof.
  intros He Hin. destruct (C45_first_minimiser x He) as (F1 & F2 & _). cbn zeta in *.
  set (f := closest_face _ _ _ _ _ _) in *. pose proof (Hn f F1) as Hnf. pose proof (norm_pos dim (normal f)) as Hpf.
  assert (Hfd : 0 <= fd x f).
  { pose proof (Hin f F1) as H. rewrite <- fd_dot in H by auto. destruct (Rlt_le_dec (fd x f) 0); [|auto]. nra. }
  set (h := fd x f / two_norm dim (normal f)).
  assert (Hd : forall i, dot dim (fun k => center i k - (x k + h * normal f k)) (normal i)
             = dot dim (fun k => center i k - x k) (normal i) - h * dot dim (normal f) (normal i)).
  { intros i. rewrite (dot_ext dim _ (fun k => (center i k - x k) + (- h) * normal f k) _ (normal i)).
    2:{ intros k _. split; [ring|reflexivity]. } rewrite dot_lin. ring. }
  split.
  - exists (fun k => x k + h * normal f k). split; [split|].
    + intros i Hi. rewrite Hd, <- fd_dot by auto. pose proof (F2 i Hi). pose proof (cauchy_schwarz dim (normal f) (normal i)) as CS.
      pose proof (norm_pos dim (normal i)). pose proof (Hn i Hi).
      assert (h * dot dim (normal f) (normal i) <= fd x f * two_norm dim (normal i)).
      { apply Rle_trans with (h * (two_norm dim (normal f) * two_norm dim (normal i))).
        - apply Rmult_le_compat_l; [|auto]. unfold h. apply Rmult_le_pos; [auto|]. left. apply Rinv_0_lt_compat. lra.
        - right. unfold h. field. auto. }
      assert (fd x f * two_norm dim (normal i) <= fd x i * two_norm dim (normal i)) by (apply Rmult_le_compat_r; auto).
      lra.
    + rewrite Hd, <- fd_dot, <- norm_sq by auto. unfold h. field. auto.
    + unfold dist. unfold two_norm at 1.
      rewrite (dot_ext dim _ (fun k => (- h) * normal f k) _ (fun k => (- h) * normal f k)).
      2:{ intros k _. split; ring. }
      rewrite dot_scal, dot_comm, dot_scal, <- norm_sq.
      replace (- h * (- h * (two_norm dim (normal f) * two_norm dim (normal f)))) with (Rsqr (fd x f)) by (unfold h, Rsqr; field; auto).
      now apply sqrt_Rsqr.
  - intros j z Hj (Hz & Hz0). apply Rle_trans with (fd x j); [auto|].
    pose proof (fd_dot x j Hj) as H. pose proof (Hn j Hj). pose proof (norm_pos dim (normal j)).
    rewrite (dot_ext dim _ (fun k => (center j k - z k) + (-1) * (x k - z k)) _ (normal j)) in H by (intros; split; [ring|reflexivity]).
    rewrite dot_lin, Hz0 in H. pose proof (cauchy_schwarz dim (fun k => -1 * (x k - z k)) (normal j)) as CS. rewrite dot_scal in CS.
    assert (Hdz : two_norm dim (fun k => -1 * (x k - z k)) = dist dim x z).
    { unfold dist, two_norm. f_equal. rewrite dot_scal, dot_comm, dot_scal. ring. }
    rewrite Hdz in CS. apply Rmult_le_reg_r with (two_norm dim (normal j)); lra.
Qed.

(** The value of the grid function is a unit vector, orthogonal to the images of the
    directions in that facet and pointing out of the element. [jac] are the rows of the
    Jacobian and [jit] those of its inverse transposed. *)
Theorem C45_unit_outer_normal gdim (jac jit : nat -> vec) x :
  (forall t n, dot gdim (fun r => dot dim (jac r) t) (fun r => dot dim (jit r) n) = dot dim t n) ->
  (exists i, (i < faces)%nat /\ fd x i < maxd) ->
  let f := closest_face dim faces center normal maxd x in
  let v := face_normal dim faces center normal maxd gdim jit x in
  two_norm gdim v = 1 /\
  forall t, (dot dim t (normal f) = 0 -> dot gdim (fun r => dot dim (jac r) t) v = 0) /\
            (0 < dot dim t (normal f) -> 0 < dot gdim (fun r => dot dim (jac r) t) v).
Proof.
  intros HJ He. destruct (C45_first_minimiser x He) as (F1 & _ & _). cbn zeta in *. unfold face_normal.
  set (f := closest_face _ _ _ _ _ _) in *. set (n := fun r => dot dim (jit r) (normal f)).
  assert (HN : two_norm gdim n <> 0).
  { intros H0. pose proof (cauchy_schwarz gdim (fun r => dot dim (jac r) (normal f)) n) as CS. unfold n in CS at 1. rewrite HJ, H0, Rmult_0_r in CS.
    pose proof (norm_sq dim (normal f)) as Hs. pose proof (Hn f F1). pose proof (norm_pos dim (normal f)). nra. }
  pose proof (norm_pos gdim n). split.
  - unfold two_norm at 1. rewrite (dot_ext gdim _ (fun r => / two_norm gdim n * n r) _ (fun r => / two_norm gdim n * n r)).
    2:{ intros; split; unfold Rdiv; apply Rmult_comm. }
    rewrite dot_scal, dot_comm, dot_scal, <- norm_sq. rewrite <- sqrt_1. f_equal. field. auto.
  - intros t. set (u := fun r => dot dim (jac r) t).
    assert (E : dot gdim u (fun r => n r / two_norm gdim n) = / two_norm gdim n * dot dim t (normal f)).
    { rewrite <- HJ. fold u. fold n. rewrite dot_comm. rewrite (dot_ext gdim _ (fun r => / two_norm gdim n * n r) _ u).
      2:{ intros; split; [unfold Rdiv; apply Rmult_comm|reflexivity]. }
      now rewrite dot_scal, dot_comm. }
    change (fun r => dot dim (jit r) (normal f) / two_norm gdim n) with (fun r => n r / two_norm gdim n). rewrite E.
    split; [intros ->; ring|]. intros Ht. apply Rmult_lt_0_compat; auto. apply Rinv_0_lt_compat. lra.
Qed.
End Proofs.

(** * The hypotheses are met: the reference triangle, and the map (x,y) -> (2x+y, 3y) *)
Definition ex_center (i : nat) : vec := fun k => match i, k with O, O => 1/2 | O, _ => 0 | S O, O => 0 | S O, _ => 1/2 | _, _ => 1/2 end.
Definition ex_normal (i : nat) : vec := fun k => match i, k with O, O => 0 | O, _ => -1 | S O, O => -1 | S O, _ => 0 | _, _ => 1 end.
Definition ex_x : vec := fun k => match k with 0%nat => 1/2 | _ => 1/4 end.
Lemma ex_norms i : two_norm 2 (ex_normal i) <> 0.
Proof. unfold two_norm. apply Rgt_not_eq. apply sqrt_lt_R0. destruct i as [|[|i]]; cbn; lra. Qed.
Example C45_normals_nonzero : forall i, (i < 3)%nat -> two_norm 2 (ex_normal i) <> 0.
Proof. intros. apply ex_norms. Qed.
Example C45_point_inside : inside 2 3 ex_center ex_normal ex_x.
Proof. intros i Hi. destruct i as [|[|[|]]]; try lia; cbn; lra. Qed.
Example C45_distance_below : exists i, (i < 3)%nat /\ face_distance 2 ex_center ex_normal ex_x i < 100.
Proof.
  exists 0%nat. split; [lia|]. unfold face_distance. assert (two_norm 2 (ex_normal 0) = 1) as ->.
  { unfold two_norm. cbn. replace (0 + 0 * 0 + -1 * -1) with 1 by ring. apply sqrt_1. }
  cbn. lra.
Qed.
Example C45_jacobian_met :
  let jac := fun r k => match r, k with O, O => 2 | O, _ => 1 | _, O => 0 | _, _ => 3 end in
  let jit := fun r k => match r, k with O, O => 1/2 | O, _ => 0 | _, O => -1/6 | _, _ => 1/3 end in
  forall t n : vec, dot 2 (fun r => dot 2 (jac r) t) (fun r => dot 2 (jit r) n) = dot 2 t n.
Proof. intros jac jit t n. cbn. field. Qed.

Print Assumptions C45_first_minimiser.
Print Assumptions C45_nearest_facet.
Print Assumptions C45_unit_outer_normal.
