(** Updating forgets the old state. *)
From Coq Require Import List Arith Bool Lia NArith.
From Verif Require Import Lib Basis_model Basis_proofs GeometryType_model Mapper_model Orientation_model Families_model Update_model Update_spec.
Import ListNotations.
Local Open Scope nat_scope.

(** * Loops that overwrite every entry *)
Definition agree {W} (n : nat) (P : nat -> Prop) (o o' : list W) : Prop :=
  length o = n /\ length o' = n /\ forall j, P j -> nth_error o j = nth_error o' j.
Definition sim {W} (n : nat) (P : nat -> Prop) (x y : option (list W)) : Prop :=
  match x, y with Some o, Some o' => agree n P o o' | None, None => True | _, _ => False end.
Lemma agree_weaken {W} n (P Q : nat -> Prop) (o o' : list W) : (forall j, Q j -> P j) -> agree n P o o' -> agree n Q o o'.
Proof. intros I (L & L' & H). repeat split; auto. Qed.
Lemma sim_weaken {W} n (P Q : nat -> Prop) (x y : option (list W)) : (forall j, Q j -> P j) -> sim n P x y -> sim n Q x y.
Proof. destruct x, y; cbn; auto. apply agree_weaken. Qed.
Lemma sim_bind {W} n m P Q x y (k k' : list W -> option (list W)) : sim n P x y ->
  (forall o o', agree n P o o' -> sim m Q (k o) (k' o')) -> sim m Q (obind x k) (obind y k').
Proof. destruct x, y; cbn; auto; try tauto. Qed.
Lemma upd_sim {W} n (P : nat -> Prop) (o o' : list W) i w : agree n P o o' -> sim n (fun j => P j \/ j = i) (upd o i w) (upd o' i w).
Proof.
  intros (L & L' & H). destruct (Nat.lt_ge_cases i n) as [Hi|Hi].
  - destruct (upd_Some o i w ltac:(lia)) as [a U]. destruct (upd_Some o' i w ltac:(lia)) as [b V]. rewrite U, V. cbn. split; [|split].
    + now rewrite (upd_length _ _ _ _ U).
    + now rewrite (upd_length _ _ _ _ V).
    + intros j Hj. rewrite (upd_nth_error _ _ _ _ j U), (upd_nth_error _ _ _ _ j V). destruct (Nat.eqb_spec j i); auto. destruct Hj; [auto|contradiction].
  - assert (N : upd o i w = None) by (apply upd_None; lia). assert (N' : upd o' i w = None) by (apply upd_None; lia). rewrite N, N'. exact I.
Qed.
(** Changing an entry on which the lists agree *)
Lemma step_sim {W} n (P : nat -> Prop) (o o' : list W) i (f : W -> W) : P i -> agree n P o o' ->
  sim n P (w <- nth_error o i ;; upd o i (f w)) (w <- nth_error o' i ;; upd o' i (f w)).
Proof.
  intros Hi A. rewrite <- (proj2 (proj2 A) i Hi). destruct (nth_error o i); cbn; auto.
  apply (sim_weaken n (fun j => P j \/ j = i)); auto. now apply upd_sim.
Qed.
Lemma foreach_sim {A W} n (l : list A) (body : A -> list W -> option (list W)) (new : A -> nat -> Prop) : forall P,
  (forall a Q o o', In a l -> agree n Q o o' -> sim n (fun j => Q j \/ new a j) (body a o) (body a o')) ->
  forall o o', agree n P o o' -> sim n (fun j => P j \/ exists a, In a l /\ new a j) (foreach l body o) (foreach l body o').
Proof.
  induction l as [|a l IH]; intros P Hb o o' A0; cbn [foreach].
  - cbn. apply (agree_weaken n P); auto. intros j [Hj|(a & [] & _)]; auto.
  - eapply sim_bind; [apply Hb; [now left|exact A0]|]. intros o1 o1' A1.
    apply (sim_weaken n (fun j => (P j \/ new a j) \/ exists b, In b l /\ new b j)).
    + intros j [Hj|(b & [<-|Hin] & Hn)]; [left; now left|left; now right|right; eauto].
    + apply IH; auto. intros. apply Hb; auto. now right.
Qed.
Lemma foreach_keep {A W} n (l : list A) (body : A -> list W -> option (list W)) (P : nat -> Prop) :
  (forall a o o', In a l -> agree n P o o' -> sim n P (body a o) (body a o')) ->
  forall o o', agree n P o o' -> sim n P (foreach l body o) (foreach l body o').
Proof.
  induction l as [|a l IH]; intros Hb o o' A0; cbn [foreach]; auto.
  eapply sim_bind; [apply Hb; [now left|exact A0]|]. intros o1 o1' A1. apply IH; auto. intros. apply Hb; auto. now right.
Qed.
Lemma forl_keep {W} n (body : nat -> list W -> option (list W)) (P : nat -> Prop) :
  (forall i o o', agree n P o o' -> sim n P (body i o) (body i o')) ->
  forall k s o o', agree n P o o' -> sim n P (forl k s body o) (forl k s body o').
Proof.
  intros Hb. induction k; intros s o o' A0; cbn [forl]; auto.
  eapply sim_bind; [apply Hb; exact A0|]. intros o1 o1' A1. apply IHk; auto.
Qed.
Lemma sim_all {W} n (P : nat -> Prop) (x y : option (list W)) : (forall j, j < n -> P j) -> sim n P x y -> x = y.
Proof.
  intros Hn. destruct x as [o|], y as [o'|]; cbn; try tauto. intros (L & L' & A). f_equal.
  apply nth_error_ext. intros j. destruct (Nat.lt_ge_cases j n) as [Hj|Hj]; auto.
  rewrite (proj2 (nth_error_None o j)), (proj2 (nth_error_None o' j)) by lia. reflexivity.
Qed.
Lemma vresize_len {W} (l : list W) n d : length (vresize l n d) = n.
Proof. unfold vresize. rewrite app_length, firstn_length, repeat_length. lia. Qed.
Lemma start {W} (l l' : list W) n d : agree n (fun _ => False) (vresize l n d) (vresize l' n d).
Proof. repeat split; try apply vresize_len. tauto. Qed.
Lemma fill_sim t off n : forall k (a a' : list (option fe)) P, agree n P a a' ->
  sim n (fun j => P j \/ off <= j < off + k) (fill t off k a) (fill t off k a').
Proof.
  intros k. unfold fill. assert (G : forall s (a a' : list (option fe)) P, agree n P a a' ->
    sim n (fun j => P j \/ s + off <= j < s + off + k) (forl k s (fun i a => upd a (i + off) (Some (FE t i))) a) (forl k s (fun i a => upd a (i + off) (Some (FE t i))) a')).
  { induction k; intros s a a' P A; cbn [forl].
    - cbn. apply (agree_weaken n P); auto. intros j [Hj|Hj]; auto; lia.
    - eapply sim_bind; [apply upd_sim; exact A|]. intros o o' A1.
      eapply sim_weaken; [|apply (IHk (s + 1) o o' _ A1)]. cbn. intros j [Hj|Hj]; [tauto|]. destruct (Nat.eq_dec j (s + off)); [tauto|]. right. lia. }
  intros a a' P A. eapply sim_weaken; [|apply (G 0 a a' P A)]. cbn. auto.
Qed.

Section Maps.
Context {E : Type} (g : fgrid E).
Definition all_numbers : Prop := forall j, j < fg_size g -> exists e, In e (fg_elements g) /\ fg_idx g e = j.
Lemma rt_variants_forget fixed old old' : rt_variants g fixed old = rt_variants g fixed old'.
Proof.
  unfold rt_variants. destruct fixed as [t|].
  - apply (sim_all (rt_num g t) (fun j => False \/ 0 <= j < 0 + rt_num g t)); [lia|]. apply fill_sim, start.
  - cbn zeta. set (ns := rt_num g Simplex). set (nc := rt_num g Cube). set (ny := rt_num g Pyramid). set (nr := rt_num g Prism). clearbody ns nc ny nr.
    assert (S1 := fill_sim Simplex 0 (ns + nc) ns _ _ _ (start old old' (ns + nc) None)).
    destruct (fill Simplex 0 ns (vresize old (ns + nc) None)) as [a1|], (fill Simplex 0 ns (vresize old' (ns + nc) None)) as [a1'|]; cbn [obind sim] in S1 |- *; auto; try contradiction.
    assert (S2 := fill_sim Cube ns (ns + nc) nc _ _ _ S1).
    destruct (fill Cube ns nc a1) as [a2|], (fill Cube ns nc a1') as [a2'|]; cbn [obind sim] in S2 |- *; auto; try contradiction.
    assert (Some a2 = Some a2') as X; [|now injection X as ->].
    apply (sim_all (ns + nc) _ (Some a2) (Some a2')) in S2; auto. cbn. lia.
Qed.
Lemma nd_variants_forget fixed old old' : nd_variants g fixed old = nd_variants g fixed old'.
Proof.
  unfold nd_variants. destruct fixed as [t|].
  - apply (sim_all (nd_num g t) (fun j => False \/ 0 <= j < 0 + nd_num g t)); [lia|]. apply fill_sim, start.
  - cbn zeta. set (ns := nd_num g Simplex). set (nc := nd_num g Cube). clearbody ns nc.
    assert (S1 := fill_sim Simplex 0 (ns + nc) ns _ _ _ (start old old' (ns + nc) None)).
    destruct (fill Simplex 0 ns (vresize old (ns + nc) None)) as [a1|], (fill Simplex 0 ns (vresize old' (ns + nc) None)) as [a1'|]; cbn [obind sim] in S1 |- *; auto; try contradiction.
    assert (S2 := fill_sim Cube ns (ns + nc) nc _ _ _ S1). apply (sim_all (ns + nc)) in S2; auto. lia.
Qed.
(** A cell sets its entry to zero and changes nothing else. *)
Lemma cells_forget (body : E -> list N -> option (list N)) old old' : all_numbers ->
  (forall e n Q o o', In e (fg_elements g) -> agree n Q o o' -> sim n (fun j => Q j \/ j = fg_idx g e) (body e o) (body e o')) ->
  foreach (fg_elements g) body (vresize old (fg_size g) 0%N) = foreach (fg_elements g) body (vresize old' (fg_size g) 0%N).
Proof.
  intros C Hb. eapply (sim_all (fg_size g)); [|apply (foreach_sim (fg_size g) (fg_elements g) body (fun e j => j = fg_idx g e) _ (fun a Q o o' Ha A => Hb a _ Q o o' Ha A) _ _ (start old old' _ _))].
  cbn. intros j Hj. right. destruct (C j Hj) as (e & He & <-). eauto.
Qed.
Lemma keep_or {W} n (P : nat -> Prop) i (f : W -> W) (b : bool) (o o' : list W) : P i -> agree n P o o' ->
  sim n P (if b then w <- nth_error o i ;; upd o i (f w) else Some o) (if b then w <- nth_error o' i ;; upd o' i (f w) else Some o').
Proof. intros Hi A. destruct b; [now apply step_sim|exact A]. Qed.
Lemma rt_update_forget fixed m m' : all_numbers -> rt_update g fixed m = rt_update g fixed m'.
Proof.
  intros C. unfold rt_update. rewrite (rt_variants_forget fixed (fm_variants m) (fm_variants m')).
  destruct (rt_variants g fixed (fm_variants m')); cbn; auto. rewrite (cells_forget (rt_cell g fixed) (fm_orient m) (fm_orient m') C); auto.
  intros e n Q o o' He A. unfold rt_cell. eapply sim_bind; [apply upd_sim; exact A|]. intros o1 o1' A1. cbn beta in A1.
  eapply sim_bind; [apply foreach_keep; [|exact A1]|].
  - intros x o2 o2' _ A2. unfold rt_inter. destruct (rt_test g e x); cbn; auto. unfold set_bit. apply (keep_or n); auto.
  - intros o2 o2' A2. destruct fixed; [exact A2|]. unfold rt_offset, add_off. cbn zeta.
    apply (sim_bind n n (fun j => Q j \/ j = fg_idx g e)); [apply (keep_or n); [now right|exact A2]|]. intros o3 o3' A3. destruct (fg_dim g =? 3); [|exact A3].
    apply (sim_bind n n (fun j => Q j \/ j = fg_idx g e)); [apply (keep_or n); [now right|exact A3]|]. intros o4 o4' A4. apply (keep_or n); auto.
Qed.
Lemma bdm_update_forget m m' : all_numbers -> bdm_update g m = bdm_update g m'.
Proof.
  intros C. unfold bdm_update.
  assert (F : forall t k old old', fill t 0 k (vresize old k None) = fill t 0 k (vresize old' k None)).
  { intros t k old old'. apply (sim_all k (fun j => False \/ 0 <= j < 0 + k)); [lia|]. apply fill_sim, start. }
  rewrite (F Cube _ (bm_cube m) (bm_cube m')), (F Simplex _ (bm_simplex m) (bm_simplex m')).
  rewrite (cells_forget (bdm_cell g) (bm_orient m) (bm_orient m') C); auto.
  intros e n Q o o' He A. unfold bdm_cell. eapply sim_bind; [apply upd_sim; exact A|]. intros o1 o1' A1. cbn beta in A1.
  apply foreach_keep; auto. intros x o2 o2' _ A2. unfold bdm_inter. destruct (bdm_test g e x); cbn; auto. unfold set_bit. apply (keep_or n); auto.
Qed.
Lemma nd_update_forget fixed m m' : all_numbers -> nd_update g fixed m = nd_update g fixed m'.
Proof.
  intros C. unfold nd_update. cbn zeta. rewrite (nd_variants_forget fixed (fm_variants m) (fm_variants m')).
  destruct (nd_variants g fixed (fm_variants m')); cbn; auto. rewrite (cells_forget (nd_cell g fixed) (fm_orient m) (fm_orient m') C); auto.
  intros e n Q o o' He A. unfold nd_cell. eapply sim_bind; [apply upd_sim; exact A|]. intros o1 o1' A1. cbn beta in A1.
  eapply sim_bind; [apply forl_keep; [|exact A1]|].
  - intros i o2 o2' A2. unfold nd_edge. apply (keep_or n); auto.
  - intros o2 o2' A2. destruct fixed; [exact A2|]. apply (keep_or n); auto.
Qed.
End Maps.

(** * Objects made from a recipe *)
Section Fits.
Context {E X H D : Type}.
Variable mcmg : layout -> view E X -> option (mapper X).
Variable dim : nat.
Variables (lk : nat -> gt -> list localkey) (tk : gt -> list localkey) (fk : family -> gt -> list localkey).
Notation world := (world E X H D).
Notation obj := (obj X H D).
Notation construct := (construct mcmg dim lk tk fk).
Notation update := (update mcmg).

Definition lfits (n : nat) (l : lagrange (X := X) (H := H)) : Prop := lg_order l = n /\ mo_layout (lg_mapper l) = fun t d => Some (lagrange_layout n t d).
Definition xfits (f : family) (x : extra X H) : Prop :=
  match f, x with
  | RaviartThomas _ _, XMap em _ => mo_layout em = elementLayout
  | Nedelec _, XMap em _ => mo_layout em = elementLayout
  | BDM _, XBDM _ _ => True
  | Hermite _, XHermite vm _ => mo_layout vm = vertexLayout
  | Argyris, XArgyris vm em _ _ => mo_layout vm = vertexLayout /\ mo_layout em = elementLayout
  | Morley, XMorley em _ => mo_layout em = elementLayout
  | (LagrangeDG _ | Hierarchical _ | Bubble _ | Refined _), XNone => True
  | _, _ => False
  end.
Inductive fits : recipe D -> obj -> Prop :=
| f_lagrange n l : lfits n l -> fits (KLagrange n) (OLagrange l)
| f_mapper f gv m mx x : mo_layout m = family_layout dim f -> xfits f x -> fits (KMapper f) (OMapper f gv m mx x)
| f_turek gv : fits KRannacherTurek (ORannacherTurek gv)
| f_bspline dirs gv : fits (KBSpline dirs) (OBSpline dirs gv)
| f_th hi gv q1 q2 : lfits 1 q1 -> lfits 2 q2 -> fits (KTaylorHood hi) (OTaylorHood hi gv q1 q2)
| f_power st n s r o : fits r o -> fits (KPower st n s r) (OPower st n s o)
| f_composite s rs os : Forall2 fits rs os -> fits (KComposite s rs) (OComposite s os)
| f_restricted d gv r o : fits r o -> fits (KRestricted d r) (ORestricted d gv o)
| f_periodic calls m num r o : fits r o -> fits (KPeriodic calls r) (OPeriodic m num o).

Fixpoint recipe_rect' (P : recipe D -> Prop)
  (p1 : forall n, P (KLagrange n)) (p2 : forall f, P (KMapper f)) (p3 : P KRannacherTurek) (p4 : forall d, P (KBSpline d)) (p5 : forall hi, P (KTaylorHood hi))
  (p6 : forall st n s r, P r -> P (KPower st n s r)) (p7 : forall s rs, Forall P rs -> P (KComposite s rs))
  (p8 : forall d r, P r -> P (KRestricted d r)) (p9 : forall c r, P r -> P (KPeriodic c r)) (r : recipe D) : P r :=
  let rec := recipe_rect' P p1 p2 p3 p4 p5 p6 p7 p8 p9 in
  match r with
  | KLagrange n => p1 n | KMapper f => p2 f | KRannacherTurek => p3 | KBSpline d => p4 d | KTaylorHood hi => p5 hi
  | KPower st n s r => p6 st n s r (rec r)
  | KComposite s rs => p7 s rs ((fix go (rs : list (recipe D)) : Forall P rs := match rs with [] => Forall_nil P | r :: l => Forall_cons (P := P) r (rec r) (go l) end) rs)
  | KRestricted d r => p8 d r (rec r)
  | KPeriodic c r => p9 c r (rec r)
  end.

Ltac binds := repeat match goal with
  | H : obind ?x _ = Some _ |- _ => let E := fresh "E" in destruct x eqn:E; cbn [obind] in H; [|discriminate]
  | H : match ?x with Some _ => _ | None => None end = Some _ |- _ => let E := fresh "E" in destruct x eqn:E; [|discriminate]
  | H : (let (_, _) := ?p in _) = Some _ |- _ => destruct p
  | H : (if ?b then _ else _) = Some _ |- _ => let E := fresh "E" in destruct b eqn:E; [|discriminate]
  | H : Some _ = Some _ |- _ => injection H as <-
  end.
Lemma mapper_new_layout (w : world) h lay m : mapper_new mcmg w h lay = Some m -> mo_layout m = lay.
Proof. unfold mapper_new. intros K. binds. reflexivity. Qed.
Lemma mapper_update_layout (w : world) h m m' : mapper_update mcmg w h m = Some m' -> mo_layout m' = mo_layout m.
Proof. unfold mapper_update. intros K. binds. reflexivity. Qed.
Lemma mapper_update_new (w : world) h m : mapper_update mcmg w h m = mapper_new mcmg w h (mo_layout m).
Proof. reflexivity. Qed.
Lemma lagrange_new_fits (w : world) n h l : lagrange_new mcmg w n h = Some l -> lfits n l.
Proof. unfold lagrange_new. intros K. binds. split; auto. cbn. now apply mapper_new_layout in E0. Qed.
Lemma extra_new_fits (w : world) f h x : extra_new mcmg w f h = Some x -> xfits f x.
Proof.
  unfold extra_new. intros K. destruct f; binds; cbn; auto;
  repeat match goal with Q : mapper_new _ _ _ _ = Some _ |- _ => apply mapper_new_layout in Q | Q : mapper_update _ _ _ _ = Some _ |- _ => apply mapper_update_layout in Q end; try congruence; auto.
Qed.
Lemma init_fits (w : world) r : forall o, fits r o -> fits r (init dim w o).
Proof.
  induction r using recipe_rect'; intros o F; inversion F; subst; cbn; constructor; auto.
  match goal with Q : Forall2 fits _ _ |- _ => revert Q end. clear F. rename H0 into IH. revert os. induction rs as [|r rs IHr]; intros os Q; inversion Q; subst; cbn; constructor.
  - inversion IH; auto.
  - apply IHr; [now inversion IH|auto].
Qed.
Lemma construct_fits (w : world) r : forall h o, construct w r h = Some o -> fits r o.
Proof.
  induction r using recipe_rect'; intros h o K; cbn [Update_model.construct] in K.
  - binds. constructor. now apply lagrange_new_fits in E0.
  - unfold mapper_based_new in K. binds. constructor; [now apply mapper_new_layout in E0|now apply extra_new_fits in E1].
  - binds. constructor.
  - binds. constructor.
  - binds. constructor; eapply lagrange_new_fits; eauto.
  - binds. constructor. eauto.
  - binds. constructor. rename E0 into K. clear s. revert l K. induction H0 as [|r rs Hr Hrs IH]; intros l K; cbn in K.
    + injection K as <-. constructor.
    + binds. constructor; eauto.
  - binds. constructor. eauto.
  - binds. constructor. apply init_fits. eauto.
Qed.
Lemma lagrange_update_fits (w : world) h n l : lfits n l -> lfits n (fst (lagrange_update mcmg w h l)).
Proof.
  intros [F1 F2]. unfold lagrange_update. destruct (lagrange_check _ _); [|now split]. destruct (mapper_update _ _ _ _) eqn:K; split; auto. cbn. apply mapper_update_layout in K. congruence.
Qed.
Lemma extra_update_fits (w : world) h f x x' : xfits f x -> extra_update mcmg w f h x = Some x' -> xfits f x'.
Proof.
  intros F K. destruct f, x; cbn in F; try contradiction; cbn in K; binds; cbn; auto;
  repeat match goal with Q : mapper_update _ _ _ _ = Some _ |- _ => apply mapper_update_layout in Q end; try congruence.
Qed.
Definition update_all (w : world) (h : H) : list obj -> list obj * bool := fix go os :=
  match os with
  | [] => ([], true)
  | o :: r => let (o', b) := update w h o in if b then let (r', b') := go r in (o' :: r', b') else (o' :: r, false)
  end.
Lemma update_composite (w : world) h s os : update w h (OComposite s os) = let (os', b) := update_all w h os in (OComposite s os', b).
Proof. reflexivity. Qed.
Lemma update_fits (w : world) r : forall h o, fits r o -> fits r (fst (update w h o)).
Proof.
  induction r using recipe_rect'; intros h o F; inversion F; subst; cbn [Update_model.update].
  - assert (Q := lagrange_update_fits w h n l ltac:(auto)). destruct (lagrange_update _ _ _ _). now constructor.
  - unfold mapper_based_update. destruct (mapper_update _ _ _ _) as [m'|] eqn:K.
    + apply mapper_update_layout in K. destruct (extra_update _ _ _ _ _) eqn:K'; constructor; try congruence. eapply extra_update_fits; eauto.
    + constructor; auto.
  - constructor.
  - constructor.
  - assert (Q1 := lagrange_update_fits w h 1 q1 ltac:(auto)). assert (Q2 := lagrange_update_fits w h 2 q2 ltac:(auto)).
    destruct (lagrange_update mcmg w h q1) as [q1' []]; [destruct (lagrange_update mcmg w h q2)|]; now constructor.
  - assert (Q := IHr h o0 ltac:(auto)). destruct (update w h o0). now constructor.
  - fold (update_all w h).
    assert (Forall2 fits rs (fst (update_all w h os))) as Q; [|destruct (update_all w h os); now constructor].
    match goal with Q : Forall2 fits _ _ |- _ => revert Q end. clear F. rename H0 into IH. revert os. induction rs as [|r rs IHr]; intros os Q; inversion Q; subst; cbn; [constructor|].
    apply Forall_cons_iff in IH as [IH1 IH2]. assert (Q1 := IH1 h y ltac:(auto)). destruct (update w h y) as [y' []]; cbn in Q1.
    + specialize (IHr IH2 l' ltac:(auto)). fold (update_all w h). destruct (update_all w h l'). constructor; auto.
    + constructor; auto.
  - assert (Q := IHr (domain w d) o0 ltac:(auto)). destruct (update w (domain w d) o0). now constructor.
  - assert (Q := IHr h o0 ltac:(auto)). destruct (update w h o0). now constructor.
Qed.
Lemma run_fits r t : forall o, fits r o -> fits r (run mcmg dim o t).
Proof.
  induction t as [|[w h] t IH]; intros o F; cbn; auto. apply IH. assert (Q := update_fits w r h o F). unfold basis_update. destruct (update w h o) as [o' []]; cbn in *; auto. now apply init_fits.
Qed.

(** * Update is construction *)
Lemma lagrange_check_ctor (w : world) h n : Lagrange_model.lagrange_ctor (vw_grid (content w h)) n (vw_types (content w h)) = true -> lagrange_check n (vw_types (content w h)) = true.
Proof. unfold Lagrange_model.lagrange_ctor, lagrange_check. rewrite !andb_true_iff. tauto. Qed.
Lemma lagrange_update_new (w : world) h n l l' : lfits n l -> lagrange_new mcmg w n h = Some l' -> lagrange_update mcmg w h l = (l', true).
Proof.
  intros [F1 F2] K. unfold lagrange_new in K. binds. unfold lagrange_update. rewrite F1, (lagrange_check_ctor w h n E1), mapper_update_new, F2, E0. reflexivity.
Qed.
Lemma numbered_by_all (w : world) h m m' : no_gaps mcmg (content w h) -> mapper_update mcmg w h m = Some m' -> mo_layout m = elementLayout -> all_numbers (numbered_by w h m').
Proof.
  intros [_ N] K L. unfold mapper_update in K. rewrite L in K. binds. intros j Hj. cbn in *. exact (N _ eq_refl j Hj).
Qed.
Lemma extra_update_new (w : world) h f x x' : no_gaps mcmg (content w h) -> f <> Morley -> xfits f x -> extra_new mcmg w f h = Some x' -> extra_update mcmg w f h x = Some x'.
Proof.
  intros G NM F K. destruct f, x; cbn in F; try contradiction; cbn in K |- *; binds; auto.
  - rewrite mapper_update_new, F, E0. cbn [obind].
    assert (m0 = m1) as ->. { rewrite mapper_update_new, (mapper_new_layout _ _ _ _ E0), E0 in E1. now injection E1. }
    rewrite (rt_update_forget _ fixed m (FM [] [])), E2; auto. eapply numbered_by_all; [auto|exact E1|]. now apply mapper_new_layout in E0.
  - rewrite (bdm_update_forget _ m (BM [] [] (repeat 0%N (fg_size (vw_fgrid (content w h)))))), E0; auto. exact (proj1 G).
  - rewrite mapper_update_new, F, E0. cbn [obind].
    assert (m0 = m1) as ->. { rewrite mapper_update_new, (mapper_new_layout _ _ _ _ E0), E0 in E1. now injection E1. }
    rewrite (nd_update_forget _ fixed m (FM [] (repeat 0%N (fg_size (vw_fgrid (content w h)))))), E2; auto. eapply numbered_by_all; [auto|exact E1|]. now apply mapper_new_layout in E0.
  - rewrite mapper_update_new, F, E0. cbn [obind]. now rewrite E1.
  - destruct F as [F1 F2]. rewrite !mapper_update_new, F1, F2, E0, E1. cbn [obind]. now rewrite E2, E3.
Qed.
Lemma update_construct (w : world) : (forall h, no_gaps mcmg (content w h)) -> forall r, complete r -> forall h o o', fits r o -> construct w r h = Some o' ->
  exists o1, update w h o = (o1, true) /\ init dim w o1 = init dim w o'.
Proof.
  intros G r. induction r using recipe_rect'; intros C h o o' F K; inversion F; subst; inversion C; subst; cbn [Update_model.construct Update_model.update] in K |- *.
  - binds. rewrite (lagrange_update_new w h n l l0) by auto. eexists; split; reflexivity.
  - unfold mapper_based_new in K. binds. unfold mapper_based_update. rewrite mapper_update_new, H1, E0, (extra_update_new w h f x e) by auto. eexists; split; reflexivity.
  - binds. eexists; split; reflexivity.
  - binds. eexists; split; reflexivity.
  - binds. destruct (IHr ltac:(auto) h o0 _ ltac:(auto) E0) as (o2 & -> & I). eexists; split; [reflexivity|]. cbn. now rewrite I.
  - binds. fold (update_all w h).
    assert (exists os', update_all w h os = (os', true) /\ map (init dim w) os' = map (init dim w) l) as (os' & -> & I).
    { match goal with Q : Forall2 fits _ _ |- _ => revert Q end. match goal with Q : Forall complete _ |- _ => revert Q end. clear F C. rename H0 into IH. revert os l E0. induction rs as [|r rs IHr]; intros os l K CC Q; inversion Q; subst; cbn in K.
      - injection K as <-. exists []. auto.
      - binds. apply Forall_cons_iff in IH as [IH1 IH2]. apply Forall_cons_iff in CC as [CC1 CC2]. destruct (IH1 CC1 h y o ltac:(auto) E0) as (y' & U & I). destruct (IHr IH2 l' l0 eq_refl ltac:(auto) ltac:(auto)) as (os' & U' & I').
        exists (y' :: os'). cbn. rewrite U. rewrite U'. split; auto. now rewrite I, I'. }
    eexists; split; [reflexivity|]. cbn. now rewrite I.
  - binds. destruct (IHr ltac:(auto) (domain w d) o0 _ ltac:(auto) E0) as (o2 & -> & I). eexists; split; [reflexivity|]. cbn. now rewrite I.
Qed.
Lemma update_numbering (w : world) : (forall h, no_gaps mcmg (content w h)) -> forall r, numbering r -> forall h o o' o1, fits r o -> construct w r h = Some o' ->
  update w h o = (o1, true) -> as_prebasis dim lk tk fk w (init dim w o1) = as_prebasis dim lk tk fk w (init dim w o').
Proof.
  intros G r. induction r using recipe_rect'; intros C h o o' o1 F K U; inversion F; subst; inversion C; subst.
  - destruct (update_construct w G (KLagrange n) (c_lagrange n) h (OLagrange l) o' F K) as (o2 & U' & I). rewrite U in U'. injection U' as <-. now rewrite I.
  - cbn [Update_model.construct Update_model.update] in K, U. unfold mapper_based_new in K. binds. unfold mapper_based_update in U. rewrite mapper_update_new, H1, E0 in U. destruct (extra_update _ _ _ _ _); [|discriminate]. injection U as <-. reflexivity.
  - cbn [Update_model.construct Update_model.update] in K, U. binds. injection U as <-. reflexivity.
  - cbn [Update_model.construct Update_model.update] in K, U. binds. injection U as <-. reflexivity.
  - cbn [Update_model.construct Update_model.update] in K, U. binds. rewrite (lagrange_update_new w h 1 q1 _ ltac:(auto) E0), (lagrange_update_new w h 2 q2 _ ltac:(auto) E1) in U. injection U as <-. reflexivity.
  - cbn [Update_model.construct Update_model.update] in K, U. binds. destruct (update w h o0) as [o3 b] eqn:U'. injection U as <- ->. cbn. now rewrite (IHr ltac:(auto) h o0 o o3 ltac:(auto) E0 U').
  - cbn [Update_model.construct Update_model.update] in K, U. binds. fold (update_all w h) in U. destruct (update_all w h os) as [os' b] eqn:U'. injection U as <- ->. cbn. f_equal. rewrite !map_map.
    match goal with Q : Forall2 fits _ _ |- _ => revert Q end. match goal with Q : Forall numbering _ |- _ => revert Q end. clear F C. rename H0 into IH. revert os l os' E0 U'. induction rs as [|r rs IHr]; intros os l os' K U' CC Q; inversion Q; subst; cbn in K, U'.
    + injection K as <-. injection U' as <-. reflexivity.
    + binds. apply Forall_cons_iff in IH as [IH1 IH2]. apply Forall_cons_iff in CC as [CC1 CC2]. destruct (update w h y) as [y' b] eqn:Uy. destruct b; [|discriminate]. fold (update_all w h) in U'. destruct (update_all w h l') as [l1 b] eqn:Ul. injection U' as <- ->.
      cbn. rewrite (IH1 CC1 h y o y' ltac:(auto) E0 Uy). f_equal. now apply (IHr IH2 l').
  - destruct (update_construct w G (KRestricted d r) (c_restricted d r ltac:(auto)) h _ o' F K) as (o2 & U' & I). rewrite U in U'. injection U' as <-. now rewrite I.
Qed.
Lemma update_grid_view (w : world) r : complete r -> forall h o o1 h', fits r o -> update w h o = (o1, true) -> grid_view (init dim w o1) = Some h' -> h' = h.
Proof.
  induction r using recipe_rect'; intros C h o o1 h' F U V; inversion F; subst; inversion C; subst; cbn [Update_model.update] in U.
  - unfold lagrange_update in U. destruct (lagrange_check _ _); [|discriminate]. destruct (mapper_update _ _ _ _); [|discriminate]. injection U as <-. now injection V.
  - unfold mapper_based_update in U. destruct (mapper_update _ _ _ _); [|discriminate]. destruct (extra_update _ _ _ _ _); [|discriminate]. injection U as <-. now injection V.
  - injection U as <-. now injection V.
  - injection U as <-. now injection V.
  - destruct (update w h o0) as [o2 b] eqn:U'. injection U as <- ->. cbn in V. eapply IHr; eauto.
  - fold (update_all w h) in U. destruct (update_all w h os) as [os' b] eqn:U'. injection U as <- ->. cbn in V.
    destruct os as [|y l]; cbn in U'; [injection U' as <-; discriminate|]. inversion H4; subst. destruct (update w h y) as [y' b] eqn:Uy. destruct b; [|discriminate]. fold (update_all w h) in U'. destruct (update_all w h l) as [l1 b] eqn:Ul. injection U' as <- ->. cbn in V.
    apply Forall_cons_iff in H0 as [IH1 _]. match goal with Q : Forall complete _ |- _ => apply Forall_cons_iff in Q as [CC1 _] end. eapply IH1; eauto.
  - destruct (update w (domain w d) o0) as [o2 b] eqn:U'. injection U as <- ->. now injection V.
Qed.
End Fits.
