(** C62: functions made of callables are their sequence of derivatives. *)
From Coq Require Import List Arith Bool Lia.
From Verif Require Import Lib Callables_model Callables_spec.
Import ListNotations.

Section Props.
Context {X V : Type}.
Implicit Types (f g : fobj X V) (m : vars X V).
(** The sequence of an object. *)
Definition ent (h : holder X V) : entry X V := match h with HVal c => Fixed c | HRef k => Var k end.
Fixpoint seqof f : list (entry X V) :=
  match f with FOne h => [ent h] | FMore h d => ent h :: seqof d | FErased g => seqof g | FErasedPlain c => [Fixed c] | FEmpty => [] end.
(** FMore never ends in an empty wrapper. *)
Fixpoint good f : Prop :=
  match f with FMore _ d => seqof d <> [] /\ good d | FErased g => good g | _ => True end.
Lemma deriv_seq f : good f -> match seqof f with
  | _ :: e :: s => exists d, deriv f = Some d /\ seqof d = e :: s /\ good d
  | _ => deriv f = None end.
Proof.
  induction f as [h|h d IH|g IH|c|]; cbn; auto.
  - intros [A B]. destruct (seqof d) eqn:E; [congruence|]. exists d. auto.
  - intros A. specialize (IH A). destruct (seqof g) as [|a [|b s]]; [now rewrite IH|now rewrite IH|].
    destruct IH as (d & -> & B & C). exists (FErased d). auto.
Qed.
Lemma eval_seq m f x : good f -> eval m f x = match seqof f with [] => None | e :: _ => value m e x end.
Proof. induction f as [h|h d IH|g IH|c|]; cbn; auto; intros; now destruct h. Qed.
Lemma make_seq l f : make l = Some f -> seqof f = map entry_of l /\ good f /\ l <> [].
Proof.
  revert f. induction l as [|a [|b r] IH]; intros f H.
  - discriminate.
  - injection H as <-. destruct a; cbn; repeat split; auto; discriminate.
  - change (obind (make (b :: r)) (fun df => Some (FMore (hold a) df)) = Some f) in H.
    apply obind_Some in H as (df & H & [= <-]). destruct (IH _ H) as (A & B & C).
    cbn [seqof good map]. rewrite A. repeat split; auto; try discriminate. now destruct a.
Qed.
Lemma make_Some l : l <> [] -> exists f, make l = Some f.
Proof.
  induction l as [|a [|b r] IH]; intros H; [congruence|eexists; reflexivity|].
  destruct IH as (f & Hf); [discriminate|]. exists (FMore (hold a) f). change (make (a :: b :: r)) with (obind (make (b :: r)) (fun df => Some (FMore (hold a) df))).
  now rewrite Hf.
Qed.
Lemma alive_all m (l : list (arg X V)) : forallb (alive m) l = true <-> forall k, In (ALeft k) l -> has m k.
Proof.
  rewrite forallb_forall. split.
  - intros H k Hk. specialize (H _ Hk). cbn in H. destruct (nth_error m k) as [[c|]|] eqn:E; try discriminate. exists c. exact E.
  - intros H [k|c] Ha; cbn; auto. destruct (H k Ha) as (c & ->). auto.
Qed.
(** ** Refinement *)
Definition rel (w : world X V) (s : sworld X V) : Prop :=
  w_vars w = s_vars s /\ map seqof (w_funs w) = s_funs s /\ Forall good (w_funs w).
Lemma rel_add m l f fs : Forall good fs -> map seqof fs = l -> good f -> rel (World m (fs ++ [f])) (SWorld m (l ++ [seqof f])).
Proof. intros A <- C. repeat split; cbn; [now rewrite map_app|]. apply Forall_app. auto. Qed.
Lemma fun_good fs i f : Forall good fs -> nth_error fs i = Some f -> good f.
Proof. intros H E. rewrite Forall_forall in H. eapply H, nth_error_In, E. Qed.
Lemma step_sound w s o w' : rel w s -> step w o = Some w' -> exists s', sstep s o s' /\ rel w' s'.
Proof.
  destruct w as [m fs], s as [m' l]. intros (A & B & C) H. cbn in A, B, C. subst m' l. destruct o as [c|k c|k|a|i|[k|c]|i|i|]; cbn in H.
  - injection H as <-. eexists. split; [constructor|]. repeat split; auto.
  - destruct (nth_error m k) as [[c0|]|] eqn:E; try discriminate. apply obind_Some in H as (m' & H & [= <-]).
    eexists. split; [econstructor; [eexists; eauto|eauto]|]. repeat split; auto.
  - destruct (nth_error m k) as [[c0|]|] eqn:E; try discriminate. apply obind_Some in H as (m' & H & [= <-]).
    eexists. split; [econstructor; [eexists; eauto|eauto]|]. repeat split; auto.
  - destruct (forallb (alive m) a) eqn:E; [|discriminate]. apply obind_Some in H as (f & H & [= <-]).
    destruct (make_seq _ _ H) as (D & F & N). eexists. split; [constructor; auto; now apply alive_all|]. rewrite <- D. now apply rel_add.
  - apply obind_Some in H as (f & H & [= <-]). eexists. split; [constructor; rewrite nth_error_map, H; reflexivity|].
    change (seqof f) with (seqof (FErased f)). apply rel_add; auto. exact (fun_good _ _ _ C H).
  - destruct (nth_error m k) as [[c|]|] eqn:E; try discriminate. injection H as <-. eexists. split; [econstructor; eauto|].
    change [Fixed c] with (seqof (FErasedPlain c)). now apply rel_add.
  - injection H as <-. eexists. split; [constructor|]. change [Fixed c] with (seqof (FErasedPlain c)). now apply rel_add.
  - apply obind_Some in H as (f & H & [= <-]). eexists. split; [constructor; rewrite nth_error_map, H; reflexivity|].
    apply rel_add; auto. exact (fun_good _ _ _ C H).
  - apply obind_Some in H as (f & H & H2). apply obind_Some in H2 as (d & H2 & [= <-]).
    pose proof (deriv_seq f (fun_good _ _ _ C H)) as D. rewrite H2 in D. destruct (seqof f) as [|e [|e' r]] eqn:E; try discriminate.
    destruct D as (d' & [= <-] & D & G). eexists. split; [econstructor; rewrite nth_error_map, H; cbn; rewrite E; reflexivity|].
    rewrite <- D. now apply rel_add.
  - injection H as <-. eexists. split; [constructor|]. change (@nil (entry X V)) with (seqof FEmpty). now apply rel_add.
Qed.
Lemma step_complete w s o s' : rel w s -> sstep s o s' -> exists w', step w o = Some w'.
Proof.
  destruct w as [m fs]. intros (A & B & C) H. destruct H as [m1 l c|m1 l k c m2 [c0 H] H2|m1 l k m2 [c0 H] H2|m1 l a N H|m1 l i s H|m1 l c|m1 l k c H|m1 l i s H|m1 l i e e' s H|m1 l];
    cbn in A, B, C |- *; subst; eauto.
  - rewrite H, H2. cbn. eauto.
  - rewrite H, H2. cbn. eauto.
  - rewrite (proj2 (alive_all m1 a) H). destruct (make_Some a N) as (f & ->). cbn. eauto.
  - rewrite nth_error_map in H. destruct (nth_error fs i); [|discriminate]. cbn. eauto.
  - rewrite H. eauto.
  - rewrite nth_error_map in H. destruct (nth_error fs i); [|discriminate]. cbn. eauto.
  - rewrite nth_error_map in H. destruct (nth_error fs i) as [f|] eqn:E; [|discriminate]. injection H as H. cbn.
    pose proof (deriv_seq f (fun_good _ _ _ C E)) as D. rewrite H in D. destruct D as (d & -> & _). cbn. eauto.
Qed.
Lemma run_sound p : forall w s w', rel w s -> run w p = Some w' -> exists s', srun s p s' /\ rel w' s'.
Proof.
  induction p as [|o p IH]; intros w s w' R H; cbn in H.
  - injection H as <-. exists s. split; auto. constructor.
  - apply obind_Some in H as (w1 & H1 & H2). destruct (step_sound _ _ _ _ R H1) as (s1 & S1 & R1). destruct (IH _ _ _ R1 H2) as (s2 & S2 & R2).
    exists s2. split; auto. econstructor; eauto.
Qed.
Lemma sstep_det s o s1 s2 : @sstep X V s o s1 -> sstep s o s2 -> s1 = s2.
Proof. intros A B. inversion A; subst; inversion B; subst; congruence. Qed.
Lemma run_complete p : forall w s s', rel w s -> srun s p s' -> exists w', run w p = Some w' /\ rel w' s'.
Proof.
  induction p as [|o p IH]; intros w s s' R H; inversion H; subst.
  - exists w. auto.
  - destruct (step_complete _ _ _ _ R H3) as (w1 & W1). destruct (step_sound _ _ _ _ R W1) as (s1 & S1 & R1).
    rewrite (sstep_det _ _ _ _ S1 H3) in *. destruct (IH _ _ _ R1 H5) as (w2 & W2 & R2). exists w2. cbn. rewrite W1. auto.
Qed.
Lemma rel_init : rel (World [] []) (SWorld [] []).
Proof. repeat split; constructor. Qed.
Lemma order_seq k : forall f, good f -> (forall g, derivative_of_order k f g -> seqof g = skipn k (seqof f) /\ good g) /\
  (k < length (seqof f) -> exists g, derivative_of_order k f g).
Proof.
  induction k as [|k IH]; intros f G.
  - split; [|intros _; exists f; constructor]. intros g H. inversion H; subst. auto.
  - pose proof (deriv_seq f G) as D. split.
    + intros g H. inversion H as [|? ? g1 ? H1 H2]; subst. rewrite H1 in D. destruct (seqof f) as [|e [|e' r]]; try discriminate.
      destruct D as (d & [= <-] & A & B). destruct (proj1 (IH g1 B) g H2) as (Q & Q2). rewrite A in Q. auto.
    + intros L. destruct (seqof f) as [|e [|e' r]]; cbn in L; try lia. destruct D as (d & D & A & B).
      destruct (proj2 (IH d B)) as (g & Hg); [rewrite A; cbn in *; lia|]. exists g. econstructor; eauto.
Qed.

(** ** Theorems *)
(** A program runs, without throwing and without using a destroyed variable, exactly if it
    runs on sequences.  The k-th derivative of a function exists exactly if the sequence has
    a k-th entry (for k = 0: always), and evaluates it. *)
Theorem C62_sequence (p : list (op X V)) : (forall w, run (World [] []) p = Some w -> exists s, srun (SWorld [] []) p s) /\
  (forall s, srun (SWorld [] []) p s -> exists w, run (World [] []) p = Some w /\ w_vars w = s_vars s /\ length (w_funs w) = length (s_funs s) /\
     forall i f l, nth_error (w_funs w) i = Some f -> nth_error (s_funs s) i = Some l -> forall k,
       ((exists g, derivative_of_order k f g) <-> k = 0 \/ k < length l) /\
       (forall g x, derivative_of_order k f g -> eval (w_vars w) g x = match nth_error l k with Some e => value (s_vars s) e x | None => None end)).
Proof.
  split.
  - intros w H. destruct (run_sound p _ _ _ rel_init H) as (s & S & _). eauto.
  - intros s H. destruct (run_complete p _ _ _ rel_init H) as (w & W & R1 & R2 & R3). exists w. split; auto. split; auto. split; [now rewrite <- R2, map_length|].
    intros i f l Hf Hl k. rewrite <- R2, nth_error_map, Hf in Hl. injection Hl as <-. pose proof (fun_good _ _ _ R3 Hf) as G.
    destruct (order_seq k f G) as [A B]. split; [split|].
    + intros (g & Hg). destruct k as [|k]; [now left|right]. revert f Hf G A B Hg. intros f _ G _ _ Hg. revert k g f G Hg.
      induction k as [|k IH]; intros g f G Hg; inversion Hg as [|? ? g1 ? H1 H2]; subst; pose proof (deriv_seq f G) as D; rewrite H1 in D;
        destruct (seqof f) as [|e [|e' r]]; try discriminate; [cbn; lia|].
      destruct D as (d & [= <-] & E & F). specialize (IH _ _ F H2). rewrite E in IH. cbn in *. lia.
    + intros [->|L]; auto. exists f. constructor.
    + intros g x Hg. destruct (A g Hg) as (E & F). rewrite (eval_seq _ _ _ F), E, R1.
      clear. revert k. induction (seqof f) as [|e r IH]; intros [|k]; cbn; auto.
Qed.
(** If only temporaries are passed, functions and their derivatives do not depend on anything
    that happens later. *)
Lemma srun_app p q : forall s s2, @srun X V s (p ++ q) s2 -> exists s1, srun s p s1 /\ srun s1 q s2.
Proof.
  induction p as [|o p IH]; intros s s2 H; [exists s; split; [constructor|auto]|]. inversion H; subst. destruct (IH _ _ H5) as (s1 & A & B).
  exists s1. split; auto. econstructor; eauto.
Qed.
Definition fixed (e : entry X V) : Prop := match e with Fixed _ => True | Var _ => False end.
Lemma sstep_fixed s o s' : @sstep X V s o s' -> (forall l, o = OMake l -> Forall temporary l) -> Forall (Forall fixed) (s_funs s) -> Forall (Forall fixed) (s_funs s').
Proof.
  intros H T F. pose proof (proj1 (Forall_forall _ _) F) as F'.
  destruct H; cbn in *; auto; apply Forall_app; (split; [exact F|]); constructor; auto; try (repeat constructor; fail); try (eapply F', nth_error_In; eauto; fail).
  - specialize (T _ eq_refl). clear -T. induction T as [|a r Ta T IH]; cbn; constructor; auto. now destruct a.
  - assert (Q : Forall fixed (e :: e' :: s)) by (eapply F', nth_error_In; eauto). now inversion Q.
Qed.
Lemma srun_fixed p : forall s s', @srun X V s p s' -> temporaries p -> Forall (Forall fixed) (s_funs s) -> Forall (Forall fixed) (s_funs s').
Proof.
  induction p as [|o p IH]; intros s s' H T F; inversion H; subst; auto. eapply IH; eauto.
  - intros l Hl. apply T. now right.
  - eapply sstep_fixed; eauto. intros l ->. apply T. now left.
Qed.
Lemma step_keeps (w w' : world X V) o : step w o = Some w' -> exists fs, w_funs w' = w_funs w ++ fs.
Proof.
  intros H. destruct o as [c|k c|k|a|i|[k|c]|i|i|]; cbn in H.
  all: repeat match goal with
    | H : (match ?a with _ => _ end) = Some _ |- _ => destruct a; try discriminate
    | H : (if ?a then _ else _) = Some _ |- _ => destruct a; try discriminate
    | H : obind _ _ = Some _ |- _ => apply obind_Some in H as (? & ? & H)
    end; injection H as <-; cbn; eauto; exists []; now rewrite app_nil_r.
Qed.
Lemma run_keeps p : forall w w' : world X V, run w p = Some w' -> exists fs, w_funs w' = w_funs w ++ fs.
Proof.
  induction p as [|o p IH]; intros w w' H; cbn in H.
  - injection H as <-. exists []. now rewrite app_nil_r.
  - apply obind_Some in H as (w1 & H1 & H2). destruct (step_keeps _ _ _ H1) as (a & A). destruct (IH _ _ H2) as (b & B). exists (a ++ b). now rewrite B, A, app_assoc.
Qed.
Lemma run_app p q : forall w : world X V, run w (p ++ q) = (w1 <- run w p ;; run w1 q).
Proof. induction p as [|o p IH]; intros w; cbn; auto. destruct (step w o); cbn; auto. Qed.
Theorem C62_values (p q : list (op X V)) w w' i f k g x : temporaries p ->
  run (World [] []) p = Some w -> run w q = Some w' -> nth_error (w_funs w) i = Some f -> derivative_of_order k f g ->
  nth_error (w_funs w') i = Some f /\ eval (w_vars w') g x = eval (w_vars w) g x.
Proof.
  intros T H1 H2 Hf Hg. split.
  { destruct (run_keeps _ _ _ H2) as (fs & ->). rewrite nth_error_app1; auto. eapply nth_error_Some_lt; eauto. }
  destruct (run_sound p _ _ _ rel_init H1) as (s & S & R1 & R2 & R3). pose proof (fun_good _ _ _ R3 Hf) as G.
  destruct (order_seq k f G) as [A _]. destruct (A g Hg) as (E & F). rewrite !(eval_seq _ _ _ F), E.
  pose proof (srun_fixed p _ _ S T ltac:(constructor)) as Q. rewrite Forall_forall in Q.
  assert (Qf : Forall fixed (seqof f)). { apply Q. rewrite <- R2. apply in_map. eapply nth_error_In; eauto. }
  clear -Qf. revert k. induction Qf as [|e r He Hr IH]; intros [|k]; cbn; auto. now destruct e.
Qed.
End Props.

(** ** The ranges *)
Lemma invalid_order k D : range_of_order k RInvalid D = RInvalid.
Proof. induction k; cbn; auto. Qed.
Lemma one_order K k : range_of_order k (RMat K 1 1) (DVec K 1) = RMat K 1 1.
Proof. induction k; cbn; auto. now rewrite Nat.eqb_refl. Qed.
Lemma num1 K n : default_range (RNum K) (DVec K n) = RVec K n.
Proof. cbn. destruct K; cbn; now rewrite ?Nat.eqb_refl. Qed.
Lemma vec1 K m n : default_range (RVec K m) (DVec K n) = RMat K m n.
Proof. cbn. now rewrite Nat.eqb_refl. Qed.
Lemma mat1 K r c n : default_range (RMat K r c) (DVec K n) = if r =? 1 then RMat K c n else RInvalid.
Proof. destruct r as [|[|r]]; cbn; auto. now rewrite Nat.eqb_refl. Qed.
Arguments default_range : simpl never.
(** The derivative of order k has a range exactly in these cases, for functions of vectors. *)
Theorem C62_ranges K m n k :
  (range_of_order k (RNum K) (DVec K n) <> RInvalid <-> k <= 2 \/ n = 1) /\
  (range_of_order k (RVec K m) (DVec K n) <> RInvalid <-> k <= 1 \/ m = 1 /\ (k <= 2 \/ n = 1)) /\
  (range_of_order k (RNum 0) (DNum 0) = RNum 0).
Proof.
  assert (M : forall k r c, range_of_order k (RMat K r c) (DVec K n) <> RInvalid <-> k = 0 \/ r = 1 /\ (k = 1 \/ c = 1 /\ (k = 2 \/ n = 1))).
  { clear k. assert (M1 : forall k r c, range_of_order (S k) (RMat K r c) (DVec K n) = if r =? 1 then range_of_order k (RMat K c n) (DVec K n) else RInvalid).
    { intros. cbn [range_of_order]. rewrite mat1. destruct (r =? 1); auto using invalid_order. }
    intros [|[|[|k]]] r c.
    - cbn. split; auto; discriminate.
    - rewrite M1. destruct (Nat.eqb_spec r 1); cbn; split; intros; try discriminate; try lia; congruence.
    - rewrite M1. destruct (Nat.eqb_spec r 1); [|split; [congruence|lia]]. rewrite M1. destruct (Nat.eqb_spec c 1); cbn; split; intros; try discriminate; try lia; congruence.
    - rewrite M1. destruct (Nat.eqb_spec r 1); [|split; [congruence|lia]]. rewrite M1. destruct (Nat.eqb_spec c 1); [|split; [congruence|lia]].
      rewrite M1. destruct (Nat.eqb_spec n 1) as [->|]; [|split; [congruence|lia]]. rewrite one_order. split; intros; try discriminate; lia. }
  assert (V : forall k m, range_of_order k (RVec K m) (DVec K n) <> RInvalid <-> k <= 1 \/ m = 1 /\ (k <= 2 \/ n = 1)).
  { clear k m. intros [|k] m; [cbn; split; [lia|discriminate]|]. cbn [range_of_order]. rewrite vec1, M. lia. }
  split; [|split; [apply V|]].
  - destruct k as [|k]; [cbn; split; [lia|discriminate]|]. cbn [range_of_order]. rewrite num1, V. lia.
  - induction k; cbn; auto.
Qed.
(** Then it has one entry for each component and each k-tuple of directions. *)
Theorem C62_range_entries K n k : forall R, (R = RNum K \/ (exists m, R = RVec K m) \/ (exists r c, R = RMat K r c)) ->
  range_of_order k R (DVec K n) <> RInvalid -> entries (range_of_order k R (DVec K n)) = entries R * n ^ k.
Proof.
  induction k as [|k IH]; intros R HR H; [cbn; lia|]. cbn [range_of_order] in *.
  destruct HR as [->|[(m & ->)|(r & c & ->)]].
  - rewrite num1 in *. rewrite IH; eauto. cbn. lia.
  - rewrite vec1 in *. rewrite IH; eauto. cbn. lia.
  - rewrite mat1 in *. destruct (Nat.eqb_spec r 1) as [->|]; [|now rewrite invalid_order in H]. rewrite IH; eauto. cbn. lia.
Qed.

(** ** Examples *)
Definition ex_p : list (op nat nat) :=
  [OMake [ARight (fun x => x * x); ARight (fun x => 2 * x); ARight (fun _ => 2)]; OErase 0; ODeriv 1; OCopy 2; ODeriv 3].
Example C62_hypotheses_met : temporaries ex_p /\ exists w, run (World [] []) ex_p = Some w /\
  map (fun f => eval (w_vars w) f 5) (w_funs w) = [Some 25; Some 25; Some 10; Some 10; Some 2] /\
  (exists f, nth_error (w_funs w) 4 = Some f /\ deriv f = None) /\
  exists s, srun (SWorld [] []) ex_p s.
Proof.
  split. { intros l [[= <-]|[H|[H|[H|[H|[]]]]]]; try discriminate. repeat constructor. }
  destruct (run (World [] []) ex_p) as [w|] eqn:E; [|discriminate]. exists w. split; auto.
  assert (E2 := E). injection E as <-. split; [reflexivity|]. split; [eexists; split; reflexivity|]. apply (proj1 (C62_sequence ex_p) _ E2).
Qed.
(** With variables of the user as arguments the function is not copied ("Constructor copying
    the given functions"): its value follows the variable, and it cannot be used after the
    end of life of the variable. *)
Theorem C62_copying_refuted : exists (p : list (op nat nat)) q q' w w1 w2 f,
  run (World [] []) p = Some w /\ nth_error (w_funs w) 0 = Some f /\ eval (w_vars w) f 3 = Some 9 /\
  run w q = Some w1 /\ nth_error (w_funs w1) 0 = Some f /\ eval (w_vars w1) f 3 = Some 6 /\
  run w q' = Some w2 /\ nth_error (w_funs w2) 0 = Some f /\ eval (w_vars w2) f 3 = None.
Proof.
  exists [OVar (fun x => x * x); OMake [ALeft 0]], [OSet 0 (fun x => 2 * x)], [ODestroy 0]. do 4 eexists.
  repeat split; reflexivity.
Qed.
Example C62_ranges_met : range_of_order 2 (RNum 0) (DVec 0 3) = RMat 0 3 3 /\ range_of_order 3 (RNum 0) (DVec 0 3) = RInvalid /\
  range_of_order 1 (RVec 0 2) (DVec 0 3) = RMat 0 2 3 /\ range_of_order 2 (RVec 0 2) (DVec 0 3) = RInvalid.
Proof. repeat split; reflexivity. Qed.
Print Assumptions C62_sequence.
Print Assumptions C62_values.
Print Assumptions C62_ranges.
Print Assumptions C62_range_entries.
Print Assumptions C62_copying_refuted.
