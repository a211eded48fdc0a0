(** Rational arithmetic for the coefficient tables of the nodal finite elements, and some
    linear algebra with lists. *)
From Coq Require Import Reals QArith Qreals Lra Lia List Arith Bool.
From Verif Require Import Lib MonomialSet_spec MonomialSet_props Nodal_spec Nodal_poly.
Import ListNotations.
Local Open Scope R_scope.
#[local] Arguments total : simpl never.

(** * Scalar products and linear combinations *)
Lemma dot_cons a b l m : dot (a :: l) (b :: m) = a * b + dot l m. Proof. reflexivity. Qed.
Lemma dot_nil_l m : dot [] m = 0. Proof. reflexivity. Qed.
Lemma dot_nil_r l : dot l [] = 0. Proof. destruct l; reflexivity. Qed.
Lemma dot_comm a : forall b, dot a b = dot b a.
Proof. induction a as [|x a IH]; intros [|y b]; try reflexivity. rewrite !dot_cons, IH. ring. Qed.
Lemma dot_vadd a : forall b v, length a = length v -> length b = length v -> dot (vadd a b) v = dot a v + dot b v.
Proof.
  induction a as [|x a IH]; intros [|y b] [|z v] H1 H2; try discriminate; [unfold dot, total; cbn; ring|].
  cbn [vadd combine map fst snd]. change (map (fun p : R * R => fst p + snd p) (combine a b)) with (vadd a b).
  rewrite !dot_cons, IH by (cbn in *; lia). ring.
Qed.
Lemma dot_vscale t a : forall v, dot (vscale t a) v = t * dot a v.
Proof. induction a as [|x a IH]; intros [|z v]; unfold vscale; cbn [map]; rewrite ?dot_nil_l, ?dot_nil_r, ?dot_cons; try ring. fold (vscale t a). rewrite IH. ring. Qed.
Lemma dot_repeat0 n v : dot (repeat 0 n) v = 0.
Proof. revert v. induction n as [|n IH]; intros [|z v]; cbn [repeat]; rewrite ?dot_nil_l, ?dot_nil_r, ?dot_cons; auto. rewrite IH. ring. Qed.
Lemma vadd_length a b : length (vadd a b) = Nat.min (length a) (length b).
Proof. unfold vadd. now rewrite map_length, combine_length. Qed.
Lemma vscale_length t a : length (vscale t a) = length a. Proof. apply map_length. Qed.
Lemma comb_cons n a c r M : comb n (a :: c) (r :: M) = vadd (vscale a r) (comb n c M). Proof. reflexivity. Qed.
Lemma comb_length n c : forall M, Forall (fun r => length r = n) M -> length (comb n c M) = n.
Proof.
  induction c as [|a c IH]; intros M H; [apply repeat_length|]. destruct M as [|r M]; [apply repeat_length|].
  inversion H; subst. rewrite comb_cons, vadd_length, vscale_length, IH by auto. lia.
Qed.
(** (c M) v = c (M v) *)
Lemma dot_assoc n c : forall M v, Forall (fun r => length r = n) M -> length v = n ->
  dot c (map (fun r => dot r v) M) = dot (comb n c M) v.
Proof.
  induction c as [|a c IH]; intros M v HM Hv.
  - unfold comb. cbn. now rewrite dot_repeat0.
  - destruct M as [|r M]; [unfold comb; cbn; now rewrite dot_repeat0, dot_nil_r|].
    inversion HM; subst. cbn [map]. rewrite dot_cons, comb_cons, dot_vadd, dot_vscale, IH by (rewrite ?vscale_length, ?comb_length; auto). reflexivity.
Qed.
Lemma dot_unit_vec n i : forall v, length v = n -> dot (unit_vec n i) v = nth i v 0.
Proof.
  unfold unit_vec. assert (H : forall s v, length v = n -> dot (map (fun j => if Nat.eqb j (s + i) then 1 else 0) (seq s n)) v = nth i v 0).
  { induction n as [|n IH] in i |- *; intros s v Hv; destruct v as [|a v]; try discriminate; [destruct i; reflexivity|].
    cbn [seq map]. rewrite dot_cons. destruct i as [|i].
    - rewrite Nat.add_0_r, Nat.eqb_refl. cbn [nth].
      assert (Z : forall k, dot (map (fun j => if Nat.eqb j s then 1 else 0) (seq (S (s + k)) n)) v = 0).
      { clear IH Hv a. induction n as [|n IH] in v |- *; intros k; [reflexivity|]. destruct v as [|a v]; [reflexivity|]. cbn [seq map]. rewrite dot_cons.
        destruct (Nat.eqb_spec (S (s + k)) s); [lia|]. replace (S (S (s + k))) with (S (s + S k)) by lia. rewrite IH. ring. }
      specialize (Z 0%nat). rewrite Nat.add_0_r in Z. rewrite Z. ring.
    - destruct (Nat.eqb_spec s (s + S i)); [lia|]. cbn [nth]. replace (s + S i)%nat with (S s + i)%nat by lia. rewrite IH by (cbn in Hv; lia). ring. }
  intros v Hv. now rewrite <- (H 0%nat).
Qed.
Lemma dot_nth_unit n i c : length c = n -> dot c (unit_vec n i) = nth i c 0.
Proof. intros H. rewrite dot_comm. now apply dot_unit_vec. Qed.

(** * Rational vectors *)
Definition rv (l : list Q) : list R := map Q2R l.
Definition qdot (a b : list Q) : Q := fold_right Qplus 0%Q (map (fun p => fst p * snd p)%Q (combine a b)).
Lemma dot_rv a : forall b, dot (rv a) (rv b) = Q2R (qdot a b).
Proof.
  assert (Z : Q2R 0 = 0) by (unfold Q2R; cbn; lra).
  unfold rv, qdot. induction a as [|x a IH]; intros [|y b]; cbn [map combine fold_right]; rewrite ?dot_nil_l, ?dot_nil_r; auto.
  rewrite dot_cons, IH, Q2R_plus, Q2R_mult. reflexivity.
Qed.
Lemma Q2R_IZR z : Q2R (inject_Z z) = IZR z.
Proof. unfold Q2R, inject_Z. cbn. rewrite Rinv_1. ring. Qed.
Fixpoint qvec_eqb (a b : list Q) : bool :=
  match a, b with [], [] => true | x :: a, y :: b => Qeq_bool x y && qvec_eqb a b | _, _ => false end.
Lemma qvec_eqb_ok a : forall b, qvec_eqb a b = true -> rv a = rv b.
Proof.
  unfold rv. induction a as [|x a IH]; intros [|y b]; cbn; try discriminate; auto.
  intros H. apply andb_true_iff in H. destruct H as [H1 H2]. f_equal; [|auto]. apply Qeq_eqR, Qeq_bool_iff, H1.
Qed.
Definition qunit (n i : nat) : list Q := map (fun j => if Nat.eqb j i then 1%Q else 0%Q) (seq 0 n).
Lemma rv_unit n i : rv (qunit n i) = unit_vec n i.
Proof.
  unfold rv, qunit, unit_vec. rewrite map_map. apply map_ext. intros j. destruct (Nat.eqb j i); unfold Q2R; cbn; lra.
Qed.
Fixpoint qpow (x : Q) (n : nat) : Q := match n with 0%nat => 1%Q | S m => (x * qpow x m)%Q end.
Lemma Q2R_pow x n : Q2R (qpow x n) = Q2R x ^ n.
Proof. induction n; cbn; [unfold Q2R; cbn; lra|]. now rewrite Q2R_mult, IHn. Qed.
Definition qgen (fs : list (Q -> Q)) (x : list Q) : Q := fold_right Qmult 1%Q (map (fun p => fst p (snd p)) (combine fs x)).
Definition qpd (n : nat) (x : Q) : Q := (inject_Z (Z.of_nat n) * qpow x (n - 1))%Q.
Definition qpd2 (n : nat) (x : Q) : Q := (inject_Z (Z.of_nat (n * (n - 1))) * qpow x (n - 2))%Q.
Definition qpw (n : nat) (x : Q) : Q := qpow x n.
Definition rel (f : R -> R) (q : Q -> Q) : Prop := forall x, f (Q2R x) = Q2R (q x).
Lemma rel_pw n : rel (pw n) (qpw n). Proof. intros x. symmetry. apply Q2R_pow. Qed.
Lemma rel_pd n : rel (pd n) (qpd n).
Proof. intros x. unfold pd, qpd. now rewrite Q2R_mult, Q2R_IZR, Q2R_pow, <- INR_IZR_INZ. Qed.
Lemma rel_pd2 n : rel (pd2 n) (qpd2 n).
Proof. intros x. unfold pd2, qpd2. now rewrite Q2R_mult, Q2R_IZR, Q2R_pow, <- INR_IZR_INZ. Qed.
Lemma gen_rel fs qs x : Forall2 rel fs qs -> gen fs (rv x) = Q2R (qgen qs x).
Proof.
  intros H. revert x. unfold gen, qgen, rv. induction H as [|f q fs qs Hf H IH]; intros [|a x]; cbn; try (unfold Q2R; cbn; lra).
  now rewrite IH, Q2R_mult, Hf.
Qed.
Lemma pw_rel e : Forall2 rel (map pw e) (map qpw e).
Proof. induction e; constructor; auto. apply rel_pw. Qed.
Lemma upd_rel fs qs i f q : Forall2 rel fs qs -> rel f q ->
  match upd fs i f, upd qs i q with Some a, Some b => Forall2 rel a b | None, None => True | _, _ => False end.
Proof.
  intros H Hf. revert i. induction H as [|f0 q0 fs qs H0 H IH]; intros [|i]; cbn; auto.
  specialize (IH i). destruct (upd fs i f), (upd qs i q); cbn; auto.
Qed.
Definition qmono (e : list nat) (x : list Q) : Q := qgen (map qpw e) x.
Definition qdmono (e : list nat) (k : nat) (x : list Q) : Q :=
  match upd (map qpw e) k (qpd (nth k e 0%nat)) with Some fs => qgen fs x | None => 0%Q end.
Definition ddmono (e : list nat) (k l : nat) (x : list R) : R :=
  match upd (map pw e) k (pd (nth k e 0%nat)) with
  | Some fs => match upd fs l (if Nat.eqb k l then pd2 (nth k e 0%nat) else pd (nth l e 0%nat)) with Some gs => gen gs x | None => 0 end
  | None => 0
  end.
Definition qddmono (e : list nat) (k l : nat) (x : list Q) : Q :=
  match upd (map qpw e) k (qpd (nth k e 0%nat)) with
  | Some fs => match upd fs l (if Nat.eqb k l then qpd2 (nth k e 0%nat) else qpd (nth l e 0%nat)) with Some gs => qgen gs x | None => 0%Q end
  | None => 0%Q
  end.
Lemma mono_rv e x : mono e (rv x) = Q2R (qmono e x).
Proof. rewrite mono_gen. apply gen_rel, pw_rel. Qed.
Lemma dmono_rv e k x : dmono e k (rv x) = Q2R (qdmono e k x).
Proof.
  unfold dmono, qdmono. pose proof (upd_rel _ _ k _ _ (pw_rel e) (rel_pd (nth k e 0%nat))) as H.
  destruct (upd (map pw e) k _), (upd (map qpw e) k _); try contradiction; [now apply gen_rel|unfold Q2R; cbn; lra].
Qed.
Lemma ddmono_rv e k l x : ddmono e k l (rv x) = Q2R (qddmono e k l x).
Proof.
  unfold ddmono, qddmono. pose proof (upd_rel _ _ k _ _ (pw_rel e) (rel_pd (nth k e 0%nat))) as H.
  destruct (upd (map pw e) k _) as [fs|], (upd (map qpw e) k _) as [qs|]; try contradiction; [|unfold Q2R; cbn; lra].
  assert (Hr : rel (if Nat.eqb k l then pd2 (nth k e 0%nat) else pd (nth l e 0%nat)) (if Nat.eqb k l then qpd2 (nth k e 0%nat) else qpd (nth l e 0%nat))).
  { destruct (Nat.eqb k l); [apply rel_pd2|apply rel_pd]. }
  pose proof (upd_rel _ _ l _ _ H Hr) as H'.
  destruct (upd fs l _), (upd qs l _); try contradiction; [now apply gen_rel|unfold Q2R; cbn; lra].
Qed.
Lemma ddmono_partial e k l x : length e = length x -> (k < length x)%nat -> (l < length x)%nat ->
  partial (dmono e k) l x (ddmono e k l x).
Proof.
  intros HL Hk Hl. unfold ddmono.
  destruct (upd (map pw e) k (pd (nth k e 0%nat))) as [fs|] eqn:Hf; [|apply upd_None in Hf; rewrite map_length in Hf; lia].
  assert (Lf : length fs = length x) by (apply upd_length in Hf; rewrite map_length in Hf; lia).
  destruct (upd fs l _) as [gs|] eqn:Hg; [|apply upd_None in Hg; lia].
  eapply partial_ext with (g := gen fs); auto.
  - intros z _. unfold dmono. now rewrite Hf.
  - eapply (gen_partial_at fs gs (if Nat.eqb l k then pd (nth k e 0%nat) else pw (nth l e 0%nat))); [exact Lf| |exact Hg|].
    + rewrite (upd_nth_error _ _ _ _ l Hf). destruct (Nat.eqb_spec l k) as [->|N].
      * reflexivity.
      * destruct (nth_error_lt_Some e l) as [n Hn]; [lia|]. rewrite nth_error_map_eq, Hn. cbn. apply nth_error_nth with (d := 0%nat) in Hn. rewrite <- Hn. reflexivity.
    + intros t. destruct (Nat.eqb_spec l k) as [->|N]; [rewrite Nat.eqb_refl; apply pd_d|].
      destruct (Nat.eqb_spec k l) as [->|]; [congruence|]. apply pw_d.
Qed.

(** * Elements given by tables of rational numbers
    A shape function is a rational row of coefficients of the monomials with exponents
    [ex]; a node is a rational combination of values and derivatives at rational points. *)
Definition node : Type := list (Q * list nat * list Q).
Definition derivs (p : list R -> R) (dp : nat -> list R -> R) (ddp : nat -> nat -> list R -> R) (ks : list nat) : list R -> R :=
  match ks with [] => p | [k] => dp k | k :: l :: _ => ddp k l end.
Definition apply_node (N : node) p dp ddp : R := total (map (fun t => Q2R (fst (fst t)) * derivs p dp ddp (snd (fst t)) (rv (snd t))) N).
Definition mono_at (ks : list nat) (e : list nat) : list R -> R := derivs (mono e) (dmono e) (ddmono e) ks.
Definition qmono_at (ks e : list nat) (x : list Q) : Q :=
  match ks with [] => qmono e x | [k] => qdmono e k x | k :: l :: _ => qddmono e k l x end.
Lemma mono_at_rv ks e x : mono_at ks e (rv x) = Q2R (qmono_at ks e x).
Proof. destruct ks as [|k [|l ks]]; cbn; [apply mono_rv|apply dmono_rv|apply ddmono_rv]. Qed.
Definition shape (ex : list (list nat)) (C : list (list R)) (ks : list nat) (x : list R) : list R :=
  map (fun row => dot row (map (fun e => mono_at ks e x) ex)) C.
Definition qnode_row (ex : list (list nat)) (N : node) (row : list Q) : Q :=
  fold_right Qplus 0%Q (map (fun t => fst (fst t) * qdot row (map (fun e => qmono_at (snd (fst t)) e (snd t)) ex))%Q N).
Definition qnode_mono (N : node) (e : list nat) : Q :=
  fold_right Qplus 0%Q (map (fun t => fst (fst t) * qmono_at (snd (fst t)) e (snd t))%Q N).
Lemma Q2R_0 : Q2R 0 = 0. Proof. unfold Q2R; cbn; lra. Qed.
Lemma dot_lin {A} c a (f g : A -> R) : forall l, dot c (map (fun r => a * f r + g r) l) = a * dot c (map f l) + dot c (map g l).
Proof.
  induction c as [|x c IH]; intros [|r l]; cbn [map]; rewrite ?dot_nil_l, ?dot_nil_r, ?dot_cons; try ring. rewrite IH. ring.
Qed.
Lemma dot_zero {A} c : forall l : list A, dot c (map (fun _ => 0) l) = 0.
Proof. induction c as [|x c IH]; intros [|r l]; cbn [map]; rewrite ?dot_nil_l, ?dot_nil_r, ?dot_cons; auto. rewrite IH. ring. Qed.
Lemma shape_rv ex C ks x : shape ex (map rv C) ks (rv x) = rv (map (fun row => qdot row (map (fun e => qmono_at ks e x) ex)) C).
Proof.
  unfold shape, rv. rewrite !map_map. apply map_ext. intros row. fold (rv row). fold (rv x).
  rewrite <- dot_rv. f_equal. unfold rv at 2. rewrite map_map. apply map_ext. intros e. apply mono_at_rv.
Qed.
Lemma node_shape ex C N c :
  apply_node N (fun x => dot c (shape ex (map rv C) [] x)) (fun k x => dot c (shape ex (map rv C) [k] x)) (fun k l x => dot c (shape ex (map rv C) [k; l] x))
  = dot c (rv (map (qnode_row ex N) C)).
Proof.
  unfold apply_node, qnode_row. induction N as [|[[q ks] x] N IH]; cbn [map].
  - unfold rv. cbn. rewrite map_map, Q2R_0. symmetry. apply (dot_zero c C).
  - rewrite total_cons. cbn [fst snd]. rewrite IH. clear IH.
    assert (E : derivs (fun x => dot c (shape ex (map rv C) [] x)) (fun k x => dot c (shape ex (map rv C) [k] x)) (fun k l x => dot c (shape ex (map rv C) [k; l] x)) ks (rv x)
      = dot c (shape ex (map rv C) ks (rv x))) by (destruct ks as [|k [|l ks]]; reflexivity).
    rewrite E, shape_rv. unfold rv. rewrite !map_map. rewrite <- dot_lin. f_equal. apply map_ext. intros row. cbn [fold_right].
    rewrite Q2R_plus, Q2R_mult. reflexivity.
Qed.
Lemma node_mono N e : apply_node N (mono e) (dmono e) (ddmono e) = Q2R (qnode_mono N e).
Proof.
  unfold apply_node, qnode_mono. induction N as [|[[q ks] x] N IH]; cbn [map]; [unfold total; cbn; now rewrite Q2R_0|].
  rewrite total_cons. cbn [fst snd fold_right]. rewrite IH, Q2R_plus, Q2R_mult. f_equal. f_equal. apply (mono_at_rv ks e x).
Qed.
Lemma node_lin N a p dp ddp q dq ddq :
  apply_node N (fun x => a * p x + q x) (fun k x => a * dp k x + dq k x) (fun k l x => a * ddp k l x + ddq k l x)
  = a * apply_node N p dp ddp + apply_node N q dq ddq.
Proof.
  unfold apply_node. induction N as [|[[t ks] x] N IH]; cbn [map]; [unfold total; cbn; ring|].
  rewrite !total_cons, IH. cbn [fst snd]. destruct ks as [|k [|l ks]]; cbn [derivs]; ring.
Qed.
Lemma node_zero N : apply_node N (fun _ => 0) (fun _ _ => 0) (fun _ _ _ => 0) = 0.
Proof.
  unfold apply_node. induction N as [|[[t ks] x] N IH]; cbn [map]; [reflexivity|].
  rewrite total_cons, IH. cbn [fst snd]. destruct ks as [|k [|l ks]]; cbn [derivs]; ring.
Qed.
Lemma node_ext N p dp ddp q dq ddq :
  (forall t, In t N -> derivs p dp ddp (snd (fst t)) (rv (snd t)) = derivs q dq ddq (snd (fst t)) (rv (snd t))) ->
  apply_node N p dp ddp = apply_node N q dq ddq.
Proof. intros H. unfold apply_node. f_equal. apply map_ext_in. intros t Ht. now rewrite H. Qed.

(** Duality of shape functions and nodes: a check with rational numbers *)
Fixpoint check_dual_from (ex : list (list nat)) (C : list (list Q)) (i : nat) (Ns : list node) : bool :=
  match Ns with
  | [] => true
  | N :: r => qvec_eqb (map (qnode_row ex N) C) (qunit (length C) i) && check_dual_from ex C (S i) r
  end.
Definition check_dual ex C Ns : bool := Nat.eqb (length Ns) (length C) && check_dual_from ex C 0 Ns.
Lemma dual_ok ex C Ns c : check_dual ex C Ns = true -> length c = length C ->
  map (fun N => apply_node N (fun x => dot c (shape ex (map rv C) [] x)) (fun k x => dot c (shape ex (map rv C) [k] x)) (fun k l x => dot c (shape ex (map rv C) [k; l] x))) Ns = c.
Proof.
  unfold check_dual. intros H Hc. apply andb_true_iff in H. destruct H as [HL H]. apply Nat.eqb_eq in HL.
  assert (G : forall i, check_dual_from ex C i Ns = true ->
    map (fun N => apply_node N (fun x => dot c (shape ex (map rv C) [] x)) (fun k x => dot c (shape ex (map rv C) [k] x)) (fun k l x => dot c (shape ex (map rv C) [k; l] x))) Ns = map (fun m => nth m c 0) (seq i (length Ns))).
  { clear H HL. induction Ns as [|N Ns IH]; intros i H; [reflexivity|].
    cbn [check_dual_from] in H. apply andb_true_iff in H. destruct H as [H1 H2]. cbn [map length seq]. f_equal; [|now apply IH].
    rewrite node_shape, (qvec_eqb_ok _ _ H1), rv_unit. now apply dot_nth_unit. }
  rewrite (G 0%nat H), HL, <- Hc. apply map_nth_seq.
Qed.

(** Reproduction of monomials *)
Definition qadd (a b : list Q) : list Q := map (fun p => fst p + snd p)%Q (combine a b).
Definition qcomb (n : nat) (c : list Q) (M : list (list Q)) : list Q :=
  fold_right qadd (repeat 0%Q n) (map (fun p => map (Qmult (fst p)) (snd p)) (combine c M)).
Lemma rv_qadd a : forall b, rv (qadd a b) = vadd (rv a) (rv b).
Proof. unfold rv, qadd, vadd. induction a as [|x a IH]; intros [|y b]; cbn; auto. f_equal; [apply Q2R_plus|apply IH]. Qed.
Lemma comb_rv n c : forall M, comb n (rv c) (map rv M) = rv (qcomb n c M).
Proof.
  assert (Z : repeat 0 n = rv (repeat 0%Q n)) by (unfold rv; induction n; cbn; auto; f_equal; auto; now rewrite Q2R_0).
  induction c as [|a c IH]; intros [|r M]; try exact Z.
  change (comb n (rv (a :: c)) (map rv (r :: M))) with (vadd (vscale (Q2R a) (rv r)) (comb n (rv c) (map rv M))).
  change (qcomb n (a :: c) (r :: M)) with (qadd (map (Qmult a) r) (qcomb n c M)).
  rewrite IH, rv_qadd. f_equal. unfold vscale, rv. rewrite !map_map. apply map_ext. intros b. now rewrite Q2R_mult.
Qed.
(** e is the i-th of the exponents *)
Definition check_mono (ex : list (list nat)) (C : list (list Q)) (Ns : list node) (i : nat) : bool :=
  qvec_eqb (qcomb (length ex) (map (fun N => qnode_mono N (nth i ex [])) Ns) C) (qunit (length ex) i).
Definition check_rows (ex : list (list nat)) (C : list (list Q)) : bool := forallb (fun r => Nat.eqb (length r) (length ex)) C.
Lemma reproduce_mono ex C Ns i ks x : check_rows ex C = true -> check_mono ex C Ns i = true -> (i < length ex)%nat ->
  dot (map (fun N => apply_node N (mono (nth i ex [])) (dmono (nth i ex [])) (ddmono (nth i ex []))) Ns) (shape ex (map rv C) ks x)
  = mono_at ks (nth i ex []) x.
Proof.
  intros HC H Hi. unfold shape.
  assert (F : Forall (fun r => length r = length ex) (map rv C)).
  { apply Forall_forall. intros r Hr. apply in_map_iff in Hr. destruct Hr as (q & <- & Hq). unfold rv. rewrite map_length.
    unfold check_rows in HC. rewrite forallb_forall in HC. now apply Nat.eqb_eq, HC. }
  rewrite (dot_assoc (length ex)) by (auto; apply map_length).
  replace (map (fun N => apply_node N (mono (nth i ex [])) (dmono (nth i ex [])) (ddmono (nth i ex []))) Ns)
    with (rv (map (fun N => qnode_mono N (nth i ex [])) Ns)).
  - unfold check_mono in H. rewrite comb_rv, (qvec_eqb_ok _ _ H), rv_unit.
    rewrite dot_unit_vec by apply map_length.
    rewrite nth_indep with (d' := mono_at ks [] x) by (rewrite map_length; auto).
    exact (map_nth (fun e => mono_at ks e x) ex [] i).
  - unfold rv. rewrite map_map. apply map_ext. intros N. symmetry. apply node_mono.
Qed.
Definition ddpoly (p : list (R * list nat)) (k l : nat) (x : list R) : R := total (map (fun t => fst t * ddmono (snd t) k l x) p).
Definition poly_at (ks : list nat) (p : list (R * list nat)) : list R -> R := derivs (poly p) (dpoly p) (ddpoly p) ks.
Lemma node_poly_cons N c e p : apply_node N (poly ((c, e) :: p)) (dpoly ((c, e) :: p)) (ddpoly ((c, e) :: p))
  = c * apply_node N (mono e) (dmono e) (ddmono e) + apply_node N (poly p) (dpoly p) (ddpoly p).
Proof. rewrite <- node_lin. apply node_ext. intros [[q ks] x] _. cbn [fst snd]. destruct ks as [|k [|l ks]]; reflexivity. Qed.
Lemma dot_lin_l {A} a (f g : A -> R) v : forall l, dot (map (fun r => a * f r + g r) l) v = a * dot (map f l) v + dot (map g l) v.
Proof. intros l. rewrite dot_comm, dot_lin. rewrite (dot_comm v (map f l)), (dot_comm v (map g l)). reflexivity. Qed.
(** the linear combination of the shape functions with the nodal values of p is p *)
Lemma reproduce_poly ex C Ns p ks x : check_rows ex C = true ->
  (forall t, In t p -> exists i, (i < length ex)%nat /\ nth i ex [] = snd t /\ check_mono ex C Ns i = true) ->
  dot (map (fun N => apply_node N (poly p) (dpoly p) (ddpoly p)) Ns) (shape ex (map rv C) ks x) = poly_at ks p x.
Proof.
  intros HC. induction p as [|[c e] p IH]; intros H.
  - replace (map (fun N => apply_node N (poly []) (dpoly []) (ddpoly [])) Ns) with (map (fun _ : node => 0) Ns).
    + rewrite dot_comm, dot_zero. destruct ks as [|k [|l ks]]; reflexivity.
    + apply map_ext. intros N. symmetry. exact (node_zero N).
  - rewrite (map_ext _ (fun N => c * apply_node N (mono e) (dmono e) (ddmono e) + apply_node N (poly p) (dpoly p) (ddpoly p))) by (intros N; apply node_poly_cons).
    rewrite dot_lin_l, IH by (intros t Ht; apply H; now right).
    destruct (H (c, e)) as (i & Hi & He & Hm); [now left|]. cbn [snd] in He. subst e. rewrite reproduce_mono by auto.
    destruct ks as [|k [|l ks]]; reflexivity.
Qed.
Definition check_monos ex C Ns (n : nat) : bool :=
  forallb (fun i => implb (Nat.leb (degree (nth i ex [])) n) (check_mono ex C Ns i)) (seq 0 (length ex)).
Lemma check_monos_ok ex C Ns n e : check_monos ex C Ns n = true -> In e ex -> (degree e <= n)%nat ->
  exists i, (i < length ex)%nat /\ nth i ex [] = e /\ check_mono ex C Ns i = true.
Proof.
  intros H He Hn. destruct (In_nth ex e [] He) as (i & Hi & E). exists i. split; [|split]; auto.
  unfold check_monos in H. rewrite forallb_forall in H. specialize (H i). rewrite in_seq in H. specialize (H ltac:(lia)).
  rewrite E in H. apply Nat.leb_le in Hn. now rewrite Hn in H.
Qed.

(** all exponents of length d with entries up to n *)
Fixpoint boxes (d n : nat) : list (list nat) :=
  match d with 0%nat => [[]] | S d' => concat (map (fun a => map (cons a) (boxes d' n)) (seq 0 (S n))) end.
Lemma in_boxes d n e : length e = d -> (forall a, In a e -> (a <= n)%nat) -> In e (boxes d n).
Proof.
  revert e. induction d as [|d IH]; intros [|a e] HL H; try discriminate; [now left|].
  apply in_concat. exists (map (cons a) (boxes d n)). split.
  - apply in_map_iff. exists a. split; auto. apply in_seq. specialize (H a (or_introl eq_refl)). lia.
  - apply in_map, IH; [cbn in HL; lia|]. intros b Hb. apply H. now right.
Qed.
Lemma in_degree e a : In a e -> (a <= degree e)%nat.
Proof. intros H. destruct (In_nth_error _ _ H) as [i Hi]. now apply nth_error_degree in Hi. Qed.
Definition in_dec_list (e : list nat) (l : list (list nat)) : bool := if in_dec (list_eq_dec Nat.eq_dec) e l then true else false.
Lemma in_list d n l : forallb (fun e => implb (Nat.leb (degree e) n) (in_dec_list e l)) (boxes d n) = true ->
  forall e, length e = d -> (degree e <= n)%nat -> In e l.
Proof.
  intros H e HL HD. rewrite forallb_forall in H. specialize (H e (in_boxes d n e HL (fun a Ha => Nat.le_trans _ _ _ (in_degree e a Ha) HD))).
  apply Nat.leb_le in HD. rewrite HD in H. cbn in H. unfold in_dec_list in H. now destruct (in_dec _ e l).
Qed.
