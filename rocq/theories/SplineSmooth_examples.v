(** C68: the constructors give smooth bases, and an example. *)
From Coq Require Import List Arith Lia Reals Lra Bool Sorted.
From Verif Require Import Lib Basis_model Basis_spec BSpline_model BSpline_spec BSpline_numbering BSpline_oned BSpline_tensor BSpline_props SplineSmooth_spec SplineSmooth_props.
Import ListNotations.
Local Open Scope R_scope.
#[local] Arguments Nat.ltb : simpl never.
#[local] Arguments Nat.eqb : simpl never.

(** The inner knots of a basis constructed from a knot vector without repeated knots
    are simple, whether the knot vector is opened or not. *)
Theorem C68_ctor_simple_knots : forall kv p (makeOpen : bool) d,
  spaced kv -> (2 <= length kv)%nat -> ctor_knots kv p makeOpen = Some d ->
  d_order d = p /\ knots_sorted d /\ inner_multiplicity d 1.
Proof.
  intros kv p o d SP L Hd. destruct kv as [|k0 kv'] eqn:Ek; [cbn in L; lia|]. rewrite <- Ek in *.
  assert (K0 : nth 0 kv 0 = k0) by (rewrite Ek; reflexivity).
  assert (KL : nth (length kv - 1) kv 0 = last kv 0) by (apply nth_ext_error, last_nth_error; rewrite Ek; discriminate).
  set (P := if o then p else 0%nat).
  assert (Ed : d = DIR (repeat k0 P ++ kv ++ repeat (last kv 0) P) p (length kv - 1)).
  { rewrite Ek in Hd |- *. unfold ctor_knots in Hd. injection Hd as <-. unfold P. destruct o; reflexivity. }
  assert (SPn : forall i, (i + 1 < length kv)%nat -> nth i kv 0 < nth (i + 1) kv 0).
  { intros i Hi. destruct (nth_error_lt_Some kv i ltac:(lia)) as (a & Ha). destruct (nth_error_lt_Some kv (i + 1) ltac:(lia)) as (b & Hb).
    pose proof (SP _ _ _ Ha Hb). pose proof tol_pos. rewrite (nth_ext_error _ _ _ Ha), (nth_ext_error _ _ _ Hb). lra. }
  assert (LK : length (d_knots d) = (P + length kv + P)%nat) by (rewrite Ed; cbn [d_knots]; rewrite !app_length, !repeat_length; lia).
  assert (B : forall i, (i < length kv)%nat -> knot d (P + i) = nth i kv 0).
  { intros i Hi. unfold knot. rewrite Ed. cbn [d_knots]. rewrite app_nth2 by (rewrite repeat_length; lia). rewrite repeat_length, app_nth1 by lia. f_equal. lia. }
  assert (A : forall i, (i <= P)%nat -> knot d i = k0).
  { intros i Hi. destruct (Nat.eq_dec i P) as [->|].
    - replace P with (P + 0)%nat by lia. rewrite B by lia. exact K0.
    - unfold knot. rewrite Ed. cbn [d_knots]. rewrite app_nth1 by (rewrite repeat_length; lia). rewrite (nth_indep _ 0 k0) by (rewrite repeat_length; lia). apply nth_repeat. }
  assert (C : forall i, (P + length kv - 1 <= i < P + length kv + P)%nat -> knot d i = last kv 0).
  { intros i Hi. destruct (Nat.eq_dec i (P + length kv - 1)) as [->|].
    - replace (P + length kv - 1)%nat with (P + (length kv - 1))%nat by lia. rewrite B by lia. exact KL.
    - unfold knot. rewrite Ed. cbn [d_knots]. rewrite app_nth2 by (rewrite repeat_length; lia). rewrite repeat_length, app_nth2 by lia.
      rewrite (nth_indep _ 0 (last kv 0)) by (rewrite repeat_length; lia). apply nth_repeat. }
  split; [rewrite Ed; reflexivity|]. split.
  - intros i Hi. rewrite LK in Hi. destruct (le_lt_dec (i + 1) P) as [H|H]; [rewrite !A by lia; apply Rle_refl|].
    destruct (le_lt_dec (P + length kv) (i + 1)) as [H'|H']; [rewrite !C by lia; apply Rle_refl|].
    replace (i + 1)%nat with (P + (i - P + 1))%nat by lia. replace i with (P + (i - P))%nat at 1 by lia. rewrite !B by lia.
    apply Rlt_le, SPn. lia.
  - intros i Hi Hm. rewrite LK in *. rewrite (A 0%nat) in Hi by lia. rewrite (C (P + length kv + P - 1)%nat) in Hi by lia.
    destruct (le_lt_dec i P) as [H|H]; [rewrite (A i H) in Hi; lra|].
    destruct (le_lt_dec (P + length kv - 1) i) as [H'|H']; [rewrite (C i) in Hi by lia; lra|].
    replace (i + 1)%nat with (P + (i - P + 1))%nat by lia. replace i with (P + (i - P))%nat at 1 by lia. rewrite !B by lia. apply SPn. lia.
Qed.

(** The same for the uniform constructor. *)
Theorem C68_uniform_simple_knots : forall ll ur n p (makeOpen : bool),
  (1 <= n)%nat -> ll + INR n * / 10 ^ 8 <= ur ->
  let d := ctor_uniform ll ur n p makeOpen in
  d_order d = p /\ knots_sorted d /\ inner_multiplicity d 1.
Proof.
  intros ll ur n p o Hn HR d.
  set (kv := map (fun j => (ll + INR j * (ur - ll) / INR n)) (seq 0 (n + 1))).
  assert (Pn : 0 < INR n) by (apply lt_0_INR; lia).
  assert (G : / 10 ^ 8 <= (ur - ll) / INR n).
  { apply Rmult_le_reg_r with (INR n); [exact Pn|]. unfold Rdiv. rewrite (Rmult_assoc (ur - ll)), Rinv_l by lra. lra. }
  assert (E : forall i, nth_error kv i = if (i <? n + 1)%nat then Some (ll + INR i * (ur - ll) / INR n) else None).
  { intros i. unfold kv. rewrite nth_error_map_eq, nth_error_seq. destruct (i <? n + 1)%nat; reflexivity. }
  assert (LK : length kv = (n + 1)%nat) by (unfold kv; rewrite map_length, seq_length; reflexivity).
  assert (SP : spaced kv).
  { intros i a b Ha Hb. rewrite E in Ha, Hb. destruct (Nat.ltb_spec i (n + 1)); [|discriminate].
    destruct (Nat.ltb_spec (i + 1) (n + 1)); [|discriminate]. injection Ha as <-. injection Hb as <-.
    rewrite plus_INR. change (INR 1) with 1%R. unfold Rdiv in *. rewrite !Rmult_assoc. lra. }
  assert (E0 : nth_error kv 0 = Some ll).
  { rewrite E. destruct (Nat.ltb_spec 0 (n + 1)); [|lia]. f_equal. cbn [INR]. unfold Rdiv. ring. }
  assert (EL : last kv 0 = ur).
  { pose proof (last_nth_error kv) as H. rewrite LK, E in H. replace (n + 1 - 1)%nat with n in H by lia.
    destruct (Nat.ltb_spec n (n + 1)); [|lia]. assert (kv <> []) as Hne by (intros Hq; rewrite Hq in LK; cbn in LK; lia).
    specialize (H Hne). injection H as H. rewrite <- H. field. lra. }
  apply (C68_ctor_simple_knots kv p o d SP); [lia|].
  unfold ctor_knots. destruct kv as [|k0 kv'] eqn:Hkv; [cbn in LK; lia|]. cbn [nth_error] in E0. injection E0 as ->.
  rewrite EL, LK. replace (n + 1 - 1)%nat with n by lia. unfold d, ctor_uniform. fold kv. rewrite Hkv. reflexivity.
Qed.

(** Simple knots and order p: p - 1 derivatives. *)
Corollary simple_smooth d r : inner_multiplicity d 1 -> (r + 1 <= d_order d)%nat -> smooth r d.
Proof. intros M H. exists 1%nat. split; [lia|exact M]. Qed.

(** Two elements of order 2 times three of order 1: the elements 0 and 1 share the face
    where the first coordinate is 1; values and the derivative across the face agree
    there, for all coefficients and all points of the face. *)
Definition exd0 := DIR [0; 0; 0; 1; 3; 3; 3] 2 2.
Definition exd1 := DIR [0; 0; 1; 2; 5; 5] 1 3.
Lemma ex_ctor0 : ctor_knots [0; 1; 3] 2 true = Some exd0. Proof. reflexivity. Qed.
Lemma ex_ctor1 : ctor_knots [0; 1; 2; 5] 1 true = Some exd1. Proof. reflexivity. Qed.
Ltac spaced_tac := intros i a b Ha Hb; do 4 (destruct i as [|i]; [cbn in Ha, Hb; try discriminate; injection Ha as <-; injection Hb as <-; lra|]); destruct i; discriminate Hb.
Lemma ex_sp0 : spaced [0; 1; 3]. Proof. spaced_tac. Qed.
Lemma ex_sp1 : spaced [0; 1; 2; 5]. Proof. spaced_tac. Qed.
Lemma ex_ok : Forall dir_ok [exd0; exd1] /\ Forall knots_sorted [exd0; exd1].
Proof.
  destruct (C37_ctor_open _ _ _ ex_sp0 ltac:(cbn; lia) ex_ctor0) as (A1 & A2 & _).
  destruct (C37_ctor_open _ _ _ ex_sp1 ltac:(cbn; lia) ex_ctor1) as (B1 & B2 & _).
  split; (constructor; [assumption|constructor; [assumption|constructor]]).
Qed.
Ltac spans_tac :=
  split; [repeat constructor|]; intros s; split;
  [intros H; cbn in H; intuition (subst; do 2 eexists; (split; [reflexivity|]); (split; [reflexivity|]); lra)
  |intros (a & b & Ha & Hb & Q); do 7 (destruct s as [|s]; [cbn in Ha, Hb; try discriminate; injection Ha as <-; injection Hb as <-; first [cbn; tauto|exfalso; pose proof tol_pos; lra]|]);
   destruct s; discriminate Ha].
Lemma ex_spans0 : spans_of (d_knots exd0) [2; 3]%nat.
Proof. unfold exd0. cbn [d_knots]. spans_tac. Qed.
Lemma ex_spans1 : spans_of (d_knots exd1) [1; 2; 3]%nat.
Proof. unfold exd1. cbn [d_knots]. spans_tac. Qed.
Lemma ex_el0 : element_spans [exd0; exd1] 0 [2; 1]%nat.
Proof.
  exists [0; 0]%nat. split; [reflexivity|]. split; [repeat constructor|]. cbn [combine].
  constructor; [exists [2; 3]%nat; split; [exact ex_spans0|reflexivity]|]. constructor; [exists [1; 2; 3]%nat; split; [exact ex_spans1|reflexivity]|constructor].
Qed.
Lemma ex_el1 : element_spans [exd0; exd1] 1 [3; 1]%nat.
Proof.
  exists [1; 0]%nat. split; [reflexivity|]. split; [repeat constructor|]. cbn [combine].
  constructor; [exists [2; 3]%nat; split; [exact ex_spans0|reflexivity]|]. constructor; [exists [1; 2; 3]%nat; split; [exact ex_spans1|reflexivity]|constructor].
Qed.
Lemma ex_mult : inner_multiplicity exd0 1 /\ inner_multiplicity exd1 1.
Proof.
  split.
  - apply (C68_ctor_simple_knots _ 2 true _ ex_sp0 ltac:(cbn; lia) ex_ctor0).
  - apply (C68_ctor_simple_knots _ 1 true _ ex_sp1 ltac:(cbn; lia) ex_ctor1).
Qed.

Example C68_ex : forall c y, 0 <= y <= 1 ->
  let dirs := [exd0; exd1] in
  combination c (lf_indices (bspline_leaf dirs) 0%nat) (lb_evaluateFunction dirs [2; 1]%nat [1; y]) =
  combination c (lf_indices (bspline_leaf dirs) 1%nat) (lb_evaluateFunction dirs [3; 1]%nat [0; y]) /\
  exists D D', lb_evaluate_1 dirs [2; 1]%nat 0%nat [1; y] = Some D /\ lb_evaluate_1 dirs [3; 1]%nat 0%nat [0; y] = Some D' /\
    combination c (lf_indices (bspline_leaf dirs) 0%nat) D / 1 = combination c (lf_indices (bspline_leaf dirs) 1%nat) D' / 2.
Proof.
  intros c y Hy dirs. destruct ex_ok as [D S]. destruct ex_mult as [M0 M1].
  assert (X : in_cube dirs [1; y]) by (split; [reflexivity|]; constructor; [lra|constructor; [exact Hy|constructor]]).
  assert (Y : in_cube dirs [0; y]) by (split; [reflexivity|]; constructor; [lra|constructor; [exact Hy|constructor]]).
  assert (P : global_point dirs [2; 1]%nat [1; y] = global_point dirs [3; 1]%nat [0; y]).
  { unfold dirs, exd0, exd1. cbn [global_point knot d_knots nth Nat.add]. f_equal. ring. }
  assert (SM0 : smooth_enough dirs []).
  { intros k d Hk. unfold times. cbn [count_occ]. destruct k as [|[|k]]; cbn in Hk; [| |destruct k; discriminate]; injection Hk as <-; apply simple_smooth; trivial; cbn; lia. }
  assert (SM1 : smooth_enough dirs [0%nat]).
  { intros k d Hk. destruct k as [|[|k]]; cbn in Hk; [| |destruct k; discriminate]; injection Hk as <-; apply simple_smooth; trivial; cbn; lia. }
  split; [apply C68_continuous; try assumption; [exact ex_el0|exact ex_el1]|].
  destruct (C68_gradient_continuous dirs 0%nat 1%nat [2; 1]%nat [3; 1]%nat [1; y] [0; y] c 0%nat D S ex_el0 ex_el1 X Y P ltac:(cbn; lia) SM1)
    as (_ & _ & o & o' & _ & _ & H1 & H2 & _ & H3).
  exists o, o'. split; [exact H1|]. split; [exact H2|].
  replace (width dirs [2; 1]%nat 0%nat) with 1 in H3 by (unfold width, dirs, exd0; cbn [nth_error knot d_knots nth Nat.add]; ring).
  replace (width dirs [3; 1]%nat 0%nat) with 2 in H3 by (unfold width, dirs, exd0; cbn [nth_error knot d_knots nth Nat.add]; ring).
  exact H3.
Qed.

Print Assumptions C68_continuous.
Print Assumptions C68_gradient_continuous.
Print Assumptions C68_second_derivatives_continuous.
Print Assumptions C68_ctor_simple_knots.
Print Assumptions C68_uniform_simple_knots.
