(** Interrupted calls of interpolate (C76). *)
From Coq Require Import List Arith Bool Lia.
From Verif Require Import Lib Basis_model Basis_spec Basis_proofs Basis_ok Basis_view Basis_props
  Container_model Container_spec Container_proofs Container_desc Container_props Interpolate_model Interpolate_props
  Interrupt_model.
Import ListNotations.
#[local] Arguments Nat.ltb : simpl never.

(** * Resizing a container that already has the right shape *)
Section Resize.
Context {V : Type}.
Notation cont := (cont V).

Lemma each_same (f : nat -> cont -> res cont) l : forall i,
  (forall j x, nth_error l j = Some x -> f (i + j) x = Done x) -> each f i l = Done l.
Proof. intros i H. apply each_Done. split; auto. intros j x Hx. exists x. auto. Qed.

Lemma shape_nth (l l' : list cont) i x : map shape l' = map shape l -> nth_error l' i = Some x ->
  exists y, nth_error l i = Some y /\ shape x = shape y.
Proof.
  intros H Hx. apply (f_equal (fun m => nth_error m i)) in H. rewrite !nth_error_map_eq, Hx in H.
  destruct (nth_error l i) as [y|]; [|discriminate]. exists y. cbn in H. split; congruence.
Qed.
Lemma shape_len (l l' : list cont) : map shape l' = map shape l -> length l' = length l.
Proof. intros H. apply (f_equal (@length _)) in H. now rewrite !map_length in H. Qed.

Definition tup_resize (zero : V) size pre := fix go ts (l : list cont) i {struct ts} := match ts, l with
                                | [], [] => Done []
                                | t' :: ts', x :: l' =>
                                    rbind (resize zero size t' x (pre ++ [i])) (fun y =>
                                    rbind (go ts' l' (i + 1)) (fun r => Done (y :: r)))
                                | _, _ => Undef
                                end.
Lemma resize_same (zero : V) size : forall t (c c' c'' : cont) pre,
  resize zero size t c pre = Done c' -> shape c'' = shape c' -> resize zero size t c'' pre = Done c''.
Proof.
  induction t as [|t IH|n t IH|ts IH] using cty_ind'; intros c c' c'' pre H HS;
    cbn [resize] in *; (destruct (size pre) as [n0|]; [|discriminate]).
  - destruct c; [|discriminate]. destruct (n0 =? 0); [|discriminate]. injection H as <-. now destruct c''.
  - destruct c as [v|l]; [discriminate|]. destruct (n0 =? 0) eqn:E0.
    + destruct (length l =? 0) eqn:El; [discriminate|]. injection H as <-.
      destruct c'' as [|l'']; [discriminate|]. injection HS as HS. apply shape_len in HS. now rewrite HS, El.
    + destruct (each _ 0 _) as [l'| |] eqn:El; try discriminate. injection H as <-. apply each_Done in El as [HL He].
      destruct c'' as [|l'']; [discriminate|]. injection HS as HS. pose proof (shape_len _ _ HS) as Hl.
      rewrite vresize_length in HL.
      assert (HV : vresize l'' n0 (default zero t) = l'').
      { apply nth_error_ext. intros i. rewrite vresize_nth. destruct (Nat.ltb_spec i n0).
        - destruct (nth_error_lt_Some l'' i) as [x Hx]; [lia|]. rewrite Hx. f_equal. now apply nth_error_nth.
        - symmetry. apply nth_error_None. lia. }
      rewrite HV, each_same; [reflexivity|]. intros j x Hx. destruct (shape_nth _ _ _ _ HS Hx) as (y & Hy & Hxy).
      destruct (nth_error_lt_Some (vresize l n0 (default zero t)) j) as [z Hz].
      { rewrite vresize_length, <- HL. eapply nth_error_Some_lt; eauto. }
      destruct (He j z Hz) as (y' & Hy' & Hr). rewrite Hy in Hy'. injection Hy' as <-. eapply IH; eauto.
  - destruct c as [v|l]; [discriminate|]. destruct (n0 =? 0) eqn:E0.
    + injection H as <-. now destruct c''.
    + destruct (negb (length l =? n0)) eqn:En; [discriminate|].
      destruct (each _ 0 _) as [l'| |] eqn:El; try discriminate. injection H as <-. apply each_Done in El as [HL He].
      destruct c'' as [|l'']; [discriminate|]. injection HS as HS. pose proof (shape_len _ _ HS) as Hl.
      rewrite Hl, HL, En, each_same; [reflexivity|]. intros j x Hx. destruct (shape_nth _ _ _ _ HS Hx) as (y & Hy & Hxy).
      destruct (nth_error_lt_Some l j) as [z Hz]; [rewrite <- HL; eapply nth_error_Some_lt; eauto|].
      destruct (He j z Hz) as (y' & Hy' & Hr). rewrite Hy in Hy'. injection Hy' as <-. eapply IH; eauto.
  - destruct c as [v|l]; [discriminate|]. destruct (n0 =? 0) eqn:E0.
    + injection H as <-. now destruct c''.
    + destruct (negb (length l =? n0)) eqn:En; [discriminate|].
      match type of H with rbind ?g _ = _ => destruct g as [l'| |] eqn:El end; try discriminate. injection H as <-.
      destruct c'' as [|l'']; [discriminate|]. injection HS as HS.
      assert (HL : forall o l l' l'', Forall (fun t => forall (c c' c'' : cont) pre,
          resize zero size t c pre = Done c' -> shape c'' = shape c' -> resize zero size t c'' pre = Done c'') ts ->
        map shape l'' = map shape l' -> tup_resize zero size pre ts l o = Done l' ->
        length l' = length l /\ tup_resize zero size pre ts l'' o = Done l'').
      { clear. 
        induction ts as [|t ts IHts]; intros o l l' l'' IH HS El.
        - destruct l; [|discriminate]. injection El as <-. destruct l''; [|discriminate]. auto.
        - destruct l as [|z l]; [discriminate|]. apply Forall_cons_iff in IH as [IH1 IH2].
          cbn [tup_resize] in El.
          destruct (resize zero size t z (pre ++ [o])) as [w| |] eqn:Ew; try discriminate. cbn [rbind] in El.
          match type of El with rbind ?g _ = _ => destruct g as [r| |] eqn:Er end; try discriminate. injection El as <-.
          destruct l'' as [|w'' l'']; [discriminate|]. injection HS as HS1 HS2.
          destruct (IHts (o + 1) l r l'' IH2 HS2 Er) as [IL IR]. split; [cbn; congruence|].
          cbn [tup_resize]. rewrite (IH1 z w w'' (pre ++ [o]) Ew HS1). cbn [rbind]. rewrite IR. reflexivity. }
      destruct (HL 0 l l' l'' IH HS El) as [HL' HG]. clear HL. rename HL' into HL. unfold tup_resize in HG. rewrite (shape_len _ _ HS), HL, En, HG. reflexivity.
Qed.
End Resize.

(** * The writes of an interrupted call *)
Section Proofs.
Context {E V : Type}.
Notation cont := (cont V).
Variables (b : bexpr E) (els : E -> Prop) (path : list nat).
Variables (t : cty) (mask : mi -> bool) (zero : V).
Notation s := (subspace_of_root (build b) path).

(** Starting from two containers that differ only in entries the sequence overwrites. *)
Lemma writes_forget ws : forall c c' : cont, has_ty t c -> shape c' = shape c ->
  (forall w, In w ws -> addressable t c (fst w)) ->
  (forall a v, at_path c a = Some (CVal v) -> at_path c' a = Some (CVal v) \/
     exists m x, In (m, x) ws /\ mask m = true /\ backend_at t c m = Some a) ->
  writes t mask ws c' = writes t mask ws c.
Proof.
  induction ws as [|[m x] ws IH]; intros c c' Ht HS Ha Hv.
  - cbn. f_equal. symmetry. apply cont_ext; [congruence|]. intros p v Hp.
    destruct (Hv p v Hp) as [H|(m & x & [] & _)]; auto.
  - cbn [writes]. unfold write1. cbn [fst snd]. destruct (mask m) eqn:Em.
    + destruct (Ha (m, x) (or_introl eq_refl)) as (Hx & a0 & v0 & H1 & H2). cbn [fst] in *.
      destruct (addressable_shape t c c' m Ht HS) as (_ & a0' & v0' & H1' & H2').
      { split; eauto. }
      assert (a0' = a0) as -> by (pose proof (backend_shape t c c' m a0 Ht HS Hx H1); congruence).
      destruct (put_spec c (CVal x) a0 (CVal v0) H2) as (c1 & Hc1 & Hr & Ho).
      destruct (put_spec c' (CVal x) a0 (CVal v0') H2') as (c1' & Hc1' & Hr' & Ho').
      pose proof (put_shape c c1 a0 v0 x H2 Hc1) as HS1.
      pose proof (put_shape c' c1' a0 v0' x H2' Hc1') as HS1'.
      assert (Ht1 : has_ty t c1) by (apply (has_ty_shape t c c1); auto).
      unfold backend_write. rewrite H1, H1'. cbn [obind]. rewrite Hc1, Hc1'. cbn [obind].
      apply IH; auto; [congruence| |].
      * intros w Hw. apply (addressable_shape t c c1); auto. apply Ha. now right.
      * intros a v Hav. destruct (list_eq_dec Nat.eq_dec a a0) as [->|Hne]; [left; congruence|].
        assert (Hc : exists u, at_path c a = Some (CVal u)).
        { pose proof (shape_path c1 a) as Q. rewrite HS1, shape_path, Hav in Q.
          destruct (at_path c a) as [[u|l]|]; try discriminate. eauto. }
        destruct Hc as [u Hu]. destruct (scalar_paths c a0 a v0 u H2 Hu ltac:(auto)) as [A B].
        rewrite (Ho a A B) in Hav. assert (v = u) as -> by congruence.
        destruct (Hv a u Hu) as [Q|(m' & x' & Q1 & Q2 & Q3)].
        -- left. rewrite (Ho' a A B). exact Q.
        -- destruct Q1 as [[= <- <-]|Q1]; [congruence|]. right. exists m', x'. split; auto. split; auto.
           eapply (backend_shape t c c1); eauto. apply (Ha (m', x')). now right.
    + cbn [obind]. apply IH; auto; [intros w Hw; apply Ha; now right|].
      intros a v Hav. destruct (Hv a v Hav) as [Q|(m' & x' & Q1 & Q2 & Q3)]; auto.
      destruct Q1 as [[= <- <-]|Q1]; [congruence|]. right. eauto.
Qed.

Section Call.
Variable interp : E -> list nat -> list V.
Hypothesis Hwf : wf els b.
Hypothesis Hpath : exists n, descendant (pb_node (build b)) path = Some n.
Hypothesis Hint : interp_ok b path els interp.

(** One leaf is a sequence of writes (element_writes for the subspace at that leaf). *)
Lemma leaf_writes v e v' tree p nd : view_ok b v -> els e ->
  sv_bind s v e = Some v' -> sv_tree s v' = Some tree -> In (p, nd) (for_each_leaf tree) ->
  exists ws, (forall c, interpolate_leaf t mask interp v' (p, nd) c = writes t mask ws c) /\
    forall m x, In (m, x) ws -> local_value b path interp e m x.
Proof.
  intros Hv He HB HT Hn. apply leaf_nodes_descendant in Hn as [Hd Hl].
  unfold sv_tree in HT. cbn [ss_path subspace_of_root] in HT.
  assert (Hd' : descendant (lv_tree v') (path ++ p) = Some nd) by (rewrite descendant_app', HT; exact Hd).
  set (interp' := fun e q => interp e (p ++ q)).
  assert (Hp' : exists n, descendant (pb_node (build b)) (path ++ p) = Some n).
  { destruct (descendant (pb_node (build b)) (path ++ p)) as [n|] eqn:En; [eauto|]. exfalso.
    apply (skel_descendant mask path _ (lv_tree v')) in En; [congruence|].
    destruct (element_writes t mask interp b els path Hwf Hpath Hint v e Hv He) as (v1 & ws & H1 & H2 & _).
 rewrite HB in H1. injection H1 as <-.
    symmetry. rewrite (tskel_skel _ _ H2). apply new_skel. }
  assert (Hi' : interp_ok b (path ++ p) els interp').
  { intros e0 v0 q n He0 Hb0 Hd0 Hl0. unfold interp'. rewrite <- app_assoc in Hd0. eapply Hint; eauto. }
  destruct (element_writes t mask interp' b els (path ++ p) Hwf Hp' Hi' v e Hv He) as (v1 & ws & H1 & H2 & H3 & H4).
  unfold sv_bind in H1, HB.  cbn [ss_root subspace_of_root] in H1, HB. rewrite HB in H1. injection H1 as <-.
  exists ws. split.
  - intros c. rewrite <- H3. unfold interpolate_local, sv_tree. cbn [ss_path subspace_of_root]. rewrite Hd'. cbn [obind].
    destruct nd as [mx g fe bd|]; [|discriminate]. cbn [for_each_leaf interpolate_leaves].
    unfold interpolate_leaf, interp'. destruct (node_size (NLeaf mx g fe bd) =? 0); [reflexivity|].
    destruct bd as [e0|]; [|reflexivity]. rewrite app_nil_r.
    match goal with |- ?x = obind ?y _ => change y with x; destruct x; reflexivity end.
  - intros m x Hw. apply H4 in Hw as (v2 & q & n & j & k & P1 & P2 & P3 & P4 & P5 & P6).
    exists v2, (p ++ q), n, j, k. rewrite <- app_assoc in P2. auto 10.
Qed.

Variables (start_throws : bool) (bind_throws : nat -> E -> bool) (leaf_throws : nat -> E -> list nat -> bool).

(** All DOFs can be written. *)
Definition good (c : cont) : Prop := has_ty t c /\ forall m, global_index els b m -> addressable t c m.
Lemma good_shape c c' : good c -> shape c' = shape c -> good c'.
Proof.
  intros [H1 H2] HS. split; [apply (has_ty_shape t c c'); auto|]. intros m Hm. apply (addressable_shape t c c'); auto.
Qed.
Lemma good_writes ws c : good c -> (forall m x, In (m, x) ws -> exists e, els e /\ local_value b path interp e m x) ->
  exists c', writes t mask ws c = Some c' /\ good c'.
Proof.
  intros HG Hw. destruct (writes_ok t mask ws c (proj1 HG)) as (c' & W & HS & _).
  - intros [m x] Hm. destruct (Hw m x Hm) as (e & He & Hv). apply HG. cbn.
    eapply (local_value_global interp b els path Hwf e m x); eauto.
  - exists c'. split; auto. eapply good_shape; eauto.
Qed.

Lemma leaves_x v e v' tree : view_ok b v -> els e -> sv_bind s v e = Some v' -> sv_tree s v' = Some tree ->
  forall l, (forall pn, In pn l -> In pn (for_each_leaf tree)) -> forall n c, good c ->
  match interpolate_leaves_x t mask interp leaf_throws n v' l c with
  | Finished (_, c') => interpolate_leaves t mask interp v' l c = Some c'
  | Stopped c' => exists ws, writes t mask ws c = Some c' /\ forall m x, In (m, x) ws -> local_value b path interp e m x
  | _ => False
  end.
Proof.
  intros Hv He HB HT. induction l as [|[p nd] l IH]; intros Hl n c HG; [reflexivity|].
  cbn [interpolate_leaves_x interpolate_leaves].
  destruct (leaf_writes v e v' tree p nd Hv He HB HT (Hl _ (or_introl eq_refl))) as (ws & W1 & W2).
  destruct (good_writes ws c HG) as (c1 & W3 & HG1); [eauto|].
  assert (HI : interpolate_leaf t mask interp v' (p, nd) c = Some c1) by now rewrite W1.
  assert (HX : interpolate_leaf_x t mask interp leaf_throws n v' (p, nd) c = Stopped c \/
               exists n', interpolate_leaf_x t mask interp leaf_throws n v' (p, nd) c = Finished (n', c1)).
  { unfold interpolate_leaf_x. pose proof HI as HI2. unfold interpolate_leaf in HI2.
    destruct (node_size nd =? 0); [injection HI2 as <-; eauto|].
    destruct nd as [mx g fe [e0|]|]; try discriminate. clear HI2.
    destruct (leaf_throws n e0 p); [auto|]. rewrite HI. eauto. }
  destruct HX as [HX|[n' HX]]; rewrite HX.
  - exists []. split; [reflexivity|]. intros m x [].
  - rewrite HI. cbn [obind]. specialize (IH (fun pn H => Hl pn (or_intror H)) n' c1 HG1).
    destruct (interpolate_leaves_x _ _ _ _ n' v' l c1) as [[n2 c2]|c2| |]; auto.
    destruct IH as (ws2 & A1 & A2). exists (ws ++ ws2). split; [rewrite writes_app, W3; exact A1|].
    intros m x Hm. apply in_app_or in Hm as [Hm|Hm]; auto.
Qed.

Lemma elements_x es : (forall e, In e es -> els e) -> forall n v c, view_ok b v -> good c ->
  match interpolate_elements_x t mask interp bind_throws leaf_throws n s v es c with
  | Finished c' => interpolate_elements t mask interp s v es c = Some c'
  | Stopped c' => exists es1 es2 ws1 ws2, es = es1 ++ es2 /\ writes t mask (ws1 ++ ws2) c = Some c' /\
      (forall m x, In (m, x) ws1 <-> exists e, In e es1 /\ local_value b path interp e m x) /\
      (forall m x, In (m, x) ws2 -> exists e, hd_error es2 = Some e /\ local_value b path interp e m x)
  | _ => False
  end.
Proof.
  induction es as [|e es IH]; intros Hes n v c Hv HG; [reflexivity|].
  assert (He : els e) by (apply Hes; now left).
  cbn [interpolate_elements_x interpolate_elements]. destruct (bind_throws n e).
  { exists [], (e :: es), [], []. split; [reflexivity|]. split; [reflexivity|].
    split; [|intros m x []]. intros m x. split; [intros []|]. intros (e0 & [] & _). }
  destruct (element_writes t mask interp b els path Hwf Hpath Hint v e Hv He) as (v' & ws & H1 & H2 & H3 & H4).
 rewrite H1. cbn [obind].
  destruct (good_writes ws c HG) as (c1 & W3 & HG1).
  { intros m x Hm. exists e. split; auto. now apply H4. }
  assert (HI : interpolate_local t mask interp s v' c = Some c1) by now rewrite H3.
  rewrite HI. cbn [obind]. unfold interpolate_local in HI. destruct (sv_tree s v') as [tree|] eqn:ET; [|discriminate].
  cbn [obind] in HI.
  pose proof (leaves_x v e v' tree Hv He H1 ET (for_each_leaf tree) (fun _ H => H) (S n) c HG) as HL.
  destruct (interpolate_leaves_x _ _ _ _ (S n) v' _ c) as [[n2 c2]|c2| |]; auto.
  - assert (c2 = c1) as -> by congruence.
    specialize (IH (fun e0 H => Hes e0 (or_intror H)) n2 v' c1 H2 HG1).
    destruct (interpolate_elements_x _ _ _ _ _ n2 s v' es c1) as [c3|c3| |]; auto.
    destruct IH as (es1 & es2 & ws1 & ws2 & -> & A1 & A2 & A3).
    exists (e :: es1), es2, (ws ++ ws1), ws2. split; [reflexivity|].
    split; [rewrite <- app_assoc, writes_app, W3; exact A1|]. split; auto.
    intros m x. rewrite in_app_iff, H4, A2. split.
    + intros [H|(e0 & H & H')]; [exists e; split; [now left|auto]|exists e0; split; [now right|auto]].
    + intros (e0 & [<-|H] & H'); eauto.
  - destruct HL as (ws2 & A1 & A2). exists [], (e :: es), [], ws2. split; [reflexivity|]. split; [exact A1|].
    split; [|intros m x Hm; exists e; split; [reflexivity|auto]].
    intros m x. split; [intros []|]. intros (e0 & [] & _).
Qed.
End Call.

(** Which DOFs an element has does not depend on the function. *)
Lemma local_value_other (interp interp' : E -> list nat -> list V) e m x : wf els b -> els e -> interp_ok b path els interp' ->
  local_value b path interp e m x -> exists x', local_value b path interp' e m x'.
Proof.
  intros Hwf He Hi (v & p & n & j & k & H1 & H2 & H3 & H4 & H5 & _).
  destruct (nth_error_lt_Some (interp' e p) j) as [x' Hx'].
  { pose proof (Hi e v p n He H1 H2 H3) as Q. apply local_index_Some in H4. lia. }
  exists x', v, p, n, j, k. auto 10.
Qed.
End Proofs.

(** * Specification *)
Section Spec.
Context {E V : Type}.
Notation cont := (cont V).

(** The container [c'] is what some interrupted attempts to interpolate, one after the
    other, leave of [c].  Each attempt may interpolate another function, may fail at any
    point, and may visit the elements in another order. *)
Inductive after_attempts (b : bexpr E) (els : E -> Prop) (path : list nat) (t : cty) (mask : mi -> bool) (zero : V)
  (es : list E) (c : cont) : cont -> Prop :=
| no_attempt : after_attempts b els path t mask zero es c c
| failed_attempt c1 c2 interp start_throws bind_throws leaf_throws es' :
    after_attempts b els path t mask zero es c c1 ->
    interp_ok b path els interp -> (forall e, In e es' -> In e es) ->
    interpolate_x t mask interp start_throws bind_throws leaf_throws zero (subspace_of_root (build b) path) es' c1 = Stopped c2 ->
    after_attempts b els path t mask zero es c c2.
End Spec.

Section Props.
Context {E V : Type}.
Notation cont := (cont V).
Variables (b : bexpr E) (els : E -> Prop) (path : list nat).
Variables (t : cty) (mask : mi -> bool) (interp : E -> list nat -> list V) (zero : V).
Variables (start_throws : bool) (bind_throws : nat -> E -> bool) (leaf_throws : nat -> E -> list nat -> bool).
Notation s := (subspace_of_root (build b) path).
Notation run := (interpolate_x t mask interp start_throws bind_throws leaf_throws zero s).

(** Resizing for the same basis again changes nothing, whatever values were written in
    between. *)
Theorem C76_resize_again (c c0 c1 : cont) :
  backend_resize zero (pb_size (build b)) t c = Done c0 -> shape c1 = shape c0 ->
  backend_resize zero (pb_size (build b)) t c1 = Done c1.
Proof. intros H HS. eapply resize_same; eauto. Qed.

Lemma run_good c es c0 : call_ok b els path t interp c es ->
  backend_resize zero (pb_size (build b)) t c = Done c0 -> good b els t c0.
Proof. intros HC HR. destruct (interpolate_writes b els path t mask interp zero c es c0 HC HR) as (H1 & H2 & _). split; auto. Qed.

(** An interrupted call is never undefined, and one that is not interrupted does what
    interpolate() does. *)
Theorem C76_completed c es :
  call_ok b els path t interp c es ->
  match run es c with
  | Finished c' => interpolate t mask interp zero s es c = Done c'
  | Stopped _ => exists c0, backend_resize zero (pb_size (build b)) t c = Done c0
  | Refused => interpolate t mask interp zero s es c = Throw
  | Broken => False
  end.
Proof.
  intros HC. pose proof (C25_throws_iff_resize_throws b els path t mask interp zero c es HC) as HT.

  unfold interpolate_x, interpolate in *. cbn [ss_root subspace_of_root] in *.
  destruct (backend_resize zero (pb_size (build b)) t c) as [c0| |] eqn:HR; auto.
  pose proof (run_good c es c0 HC HR) as HG. destruct HC as [H1 H2 H3 H4 H5 H6].
  destruct start_throws; [eauto|].
  pose proof (elements_x b els path t mask interp H1 H2 H3 bind_throws leaf_throws es H4 0 (lv_new (build b)) c0 eq_refl HG) as HX.
  change (sv_new s) with (lv_new (build b)).
  destruct (interpolate_elements_x _ _ _ _ _ 0 s _ es c0) as [c'|c'| |]; [|now eauto|now auto|now auto].
  now rewrite HX.
Qed.

Lemma stopped_writes c es c1 : call_ok b els path t interp c es -> run es c = Stopped c1 ->
  exists c0 es1 es2 ws1 ws2, backend_resize zero (pb_size (build b)) t c = Done c0 /\ good b els t c0 /\
    es = es1 ++ es2 /\ writes t mask (ws1 ++ ws2) c0 = Some c1 /\
    (forall m x, In (m, x) ws1 <-> exists e, In e es1 /\ local_value b path interp e m x) /\
    (forall m x, In (m, x) ws2 -> exists e, hd_error es2 = Some e /\ local_value b path interp e m x).
Proof.
  intros HC HR. unfold interpolate_x in HR. cbn [ss_root subspace_of_root] in HR.
  destruct (backend_resize zero (pb_size (build b)) t c) as [c0| |] eqn:HZ; try discriminate.
  pose proof (run_good c es c0 HC HZ) as HG. destruct HC as [H1 H2 H3 H4 H5 H6]. exists c0.
  destruct start_throws.
  - injection HR as <-. exists [], es, [], []. split; [reflexivity|]. split; [exact HG|]. split; [reflexivity|].
    split; [reflexivity|]. split; [|intros m x []]. intros m x. split; [intros []|]. intros (e & [] & _).
  - pose proof (elements_x b els path t mask interp H1 H2 H3 bind_throws leaf_throws es H4 0 (lv_new (build b)) c0 eq_refl HG) as HX.
 change (sv_new s) with (lv_new (build b)) in HR.
    rewrite HR in HX. destruct HX as (es1 & es2 & ws1 & ws2 & X1 & X2 & X3 & X4). exists es1, es2, ws1, ws2. auto 10.
Qed.

(** Lemma behind the theorems: what is left in the container. *)
Lemma stopped_effect c es c1 : call_ok b els path t interp c es -> run es c = Stopped c1 ->
  exists c0 es1 es2, backend_resize zero (pb_size (build b)) t c = Done c0 /\ es = es1 ++ es2 /\
    shape c1 = shape c0 /\ has_ty t c1 /\
    (forall m, global_index els b m -> backend_at t c1 m = backend_at t c0 m) /\
    forall a v, at_path c0 a = Some (CVal v) ->
      (exists e m x, (In e es1 \/ hd_error es2 = Some e) /\ local_value b path interp e m x /\ mask m = true /\
         backend_at t c0 m = Some a /\ at_path c1 a = Some (CVal x)) \/
      (at_path c1 a = Some (CVal v) /\
       forall e m x, In e es1 -> local_value b path interp e m x -> mask m = true -> backend_at t c0 m <> Some a).
Proof.
  intros HC HR. destruct (stopped_writes c es c1 HC HR) as (c0 & es1 & es2 & ws1 & ws2 & HZ & HG & -> & HW & H1 & H2).
  exists c0, es1, es2. split; [auto|]. split; [reflexivity|].
  pose proof (call_basis _ _ _ _ _ _ _ HC) as Hwf. pose proof (call_elements _ _ _ _ _ _ _ HC) as Hes.
  assert (HIn : forall m x, In (m, x) (ws1 ++ ws2) -> exists e, (In e es1 \/ hd_error es2 = Some e) /\ local_value b path interp e m x).
  { intros m x Hm. apply in_app_or in Hm as [Hm|Hm]; [apply H1 in Hm as (e & P & Q); eauto|apply H2 in Hm as (e & P & Q); eauto]. }
  assert (Hin' : forall e, In e es1 \/ hd_error es2 = Some e -> els e).
  { intros e [H|H]; apply Hes; apply in_or_app; auto. right. destruct es2; [discriminate|]. injection H as <-. now left. }
  destruct (writes_ok t mask (ws1 ++ ws2) c0 (proj1 HG)) as (c' & W1 & W2 & W3).
  { intros [m x] Hm. destruct (HIn m x Hm) as (e & He & Hv). apply HG. cbn.
    eapply (local_value_global interp b els path Hwf e m x); eauto. }
  rewrite HW in W1. injection W1 as <-. split; auto. split; [apply (has_ty_shape t c0 c1); auto; apply HG|]. split.
  - intros m Hm. destruct (proj2 HG m Hm) as (Hx & a & v & Ha & _). rewrite Ha. apply (backend_shape t c0 c1); auto. apply HG.
  - intros a v Hv. destruct (W3 a v Hv) as [(m & x & P1 & P2 & P3 & P4)|[P1 P2]].
    + left. destruct (HIn m x P1) as (e & He & Hl). exists e, m, x. auto.
    + right. split; auto. intros e m x He Hl. apply (P2 m x). apply in_or_app. left. apply H1. eauto.
Qed.

(** When a call is interrupted, the container has the shape the basis asks for, and each
    DOF has its previous value or, if it is marked, an interpolation value. *)
Theorem C76_interrupted_container c es c1 :
  call_ok b els path t interp c es -> run es c = Stopped c1 ->
  exists c0, backend_resize zero (pb_size (build b)) t c = Done c0 /\ shape c1 = shape c0 /\ has_ty t c1 /\
    forall m, global_index els b m ->
      read t c1 m = read t c0 m \/
      (mask m = true /\ exists e x, In e es /\ local_value b path interp e m x /\ read t c1 m = Some (CVal x)).
Proof.
  intros HC HR. destruct (stopped_effect c es c1 HC HR) as (c0 & es1 & es2 & HZ & -> & HS & Ht & HB & HV).
  exists c0. split; auto. split; auto. split; auto. intros m Hm. unfold read. rewrite (HB m Hm).
  destruct (addressed b els path t mask interp zero c _ c0 m HC HZ Hm) as (a & v & Ha & Hv). rewrite Ha, Hv.
  destruct (HV a v Hv) as [(e & m' & x & P1 & P2 & P3 & P4 & P5)|[P1 _]]; [|auto]. right.
  assert (Hin : In e (es1 ++ es2)).
  { apply in_or_app. destruct P1 as [P1|P1]; auto. right. destruct es2; [discriminate|]. injection P1 as <-. now left. }
  assert (m' = m) as ->.
  { eapply (C21_distinct_indices_distinct_entries b els zero t c c0 m' m a);
      eauto using call_basis, call_container, value_global. }
  split; auto. exists e, x. auto.
Qed.

(** The elements are processed one after the other: those before the interruption are
    finished, at most one is under way, and the DOFs only of later ones are as before. *)
Theorem C76_progress c es c1 :
  call_ok b els path t interp c es -> run es c = Stopped c1 ->
  exists c0 es1 es2, backend_resize zero (pb_size (build b)) t c = Done c0 /\ es = es1 ++ es2 /\
    (forall e m x, In e es1 -> mask m = true -> local_value b path interp e m x ->
       exists e' x', (In e' es1 \/ hd_error es2 = Some e') /\ local_value b path interp e' m x' /\ read t c1 m = Some (CVal x')) /\
    (forall m, global_index els b m ->
       (forall e x, In e es1 \/ hd_error es2 = Some e -> ~ local_value b path interp e m x) -> read t c1 m = read t c0 m).
Proof.
  intros HC HR. destruct (stopped_effect c es c1 HC HR) as (c0 & es1 & es2 & HZ & -> & HS & Ht & HB & HV).
  exists c0, es1, es2. split; auto. split; auto.
  assert (Hin : forall e, In e es1 \/ hd_error es2 = Some e -> In e (es1 ++ es2)).
  { intros e P1. apply in_or_app. destruct P1 as [P1|P1]; auto. right. destruct es2; [discriminate|]. injection P1 as <-. now left. }
  assert (HU : forall e m m' a x, (In e es1 \/ hd_error es2 = Some e) -> local_value b path interp e m' x -> global_index els b m ->
             backend_at t c0 m' = Some a -> backend_at t c0 m = Some a -> m' = m).
  { intros e m m' a x P1 P2 P3 P4 P5. eapply (C21_distinct_indices_distinct_entries b els zero t c c0 m' m a);
      eauto using call_basis, call_container, value_global. }
  split.
  - intros e m x He Hm Hv. assert (Gm : global_index els b m) by (eapply (value_global b els path t interp c _ e m x HC); eauto).
    destruct (addressed b els path t mask interp zero c _ c0 m HC HZ Gm) as (a & v & Ha & Hav).
    destruct (HV a v Hav) as [(e' & m' & x' & P1 & P2 & P3 & P4 & P5)|[_ P2]]; [|exfalso; eapply P2; eauto].
    assert (m' = m) as -> by eauto. exists e', x'. split; auto. split; auto. unfold read. now rewrite (HB m Gm), Ha.
  - intros m Gm Hno. destruct (addressed b els path t mask interp zero c _ c0 m HC HZ Gm) as (a & v & Ha & Hav).
    unfold read. rewrite (HB m Gm), Ha, Hav.
    destruct (HV a v Hav) as [(e' & m' & x' & P1 & P2 & P3 & P4 & P5)|[P1 _]]; auto. exfalso.
    assert (m' = m) as -> by eauto. eapply Hno; eauto.
Qed.
End Props.

Section Retry.
Context {E V : Type}.
Notation cont := (cont V).
Variables (b : bexpr E) (els : E -> Prop) (path : list nat).
Variables (t : cty) (mask : mi -> bool) (interp : E -> list nat -> list V) (zero : V).
Notation s := (subspace_of_root (build b) path).

(** [c1] is [c0] except for marked DOFs of the elements [es]. *)
Definition touched (es : list E) (c0 c1 : cont) : Prop :=
  shape c1 = shape c0 /\ forall a v, at_path c0 a = Some (CVal v) -> at_path c1 a = Some (CVal v) \/
    exists e m x, In e es /\ local_value b path interp e m x /\ mask m = true /\ backend_at t c0 m = Some a.

Lemma attempts_touched c es c1 : call_ok b els path t interp c es -> after_attempts b els path t mask zero es c c1 ->
  c1 = c \/ exists c0, backend_resize zero (pb_size (build b)) t c = Done c0 /\ touched es c0 c1.
Proof.
  intros HC HA. induction HA as [|c1 c2 interp' st bt lt es' HA IH Hi Hsub HX]; [auto|]. right.
  destruct HC as [Hwf Hpath Hint Hes Hty Hsol].
  assert (HC : call_ok b els path t interp c es) by (constructor; auto).
  assert (HL : forall e m x, In e es' -> local_value b path interp' e m x -> exists x', local_value b path interp e m x').
  { intros e m x He Hv. eapply (local_value_other b els path interp' interp); eauto. }
  destruct IH as [->|(c0 & HR & HS & HT)].
  - assert (HC' : call_ok b els path t interp' c es') by (constructor; auto).
    destruct (stopped_effect b els path t mask interp' zero st bt lt c es' c2 HC' HX) as (c0 & es1 & es2 & HZ & -> & HS & Ht & HB & HV).
    exists c0. split; auto. split; auto. intros a v Hav.
    destruct (HV a v Hav) as [(e & m & x & P1 & P2 & P3 & P4 & P5)|[P1 _]]; auto. right.
    assert (He : In e (es1 ++ es2)).
    { apply in_or_app. destruct P1 as [P1|P1]; auto. right. destruct es2; [discriminate|]. injection P1 as <-. now left. }
    destruct (HL e m x He P2) as [x' Hx']. exists e, m, x'. auto.
  - pose proof (run_good b els path t mask interp zero c es c0 HC HR) as HG0.
    assert (Ht1 : has_ty t c1) by (apply (has_ty_shape t c0 c1); auto; apply HG0).
    assert (HC' : call_ok b els path t interp' c1 es') by (constructor; auto).
    destruct (stopped_effect b els path t mask interp' zero st bt lt c1 es' c2 HC' HX) as (c1' & es1 & es2 & HZ & -> & HS2 & Ht2 & HB & HV).
    rewrite (C76_resize_again b t zero c c0 c1 HR HS) in HZ. injection HZ as <-.
    exists c0. split; auto. split; [congruence|]. intros a v Hav.
    destruct (HT a v Hav) as [Hv1|Q]; auto.
    destruct (HV a v Hv1) as [(e & m & x & P1 & P2 & P3 & P4 & P5)|[P1 _]]; auto. right.
    assert (He : In e (es1 ++ es2)).
    { apply in_or_app. destruct P1 as [P1|P1]; auto. right. destruct es2; [discriminate|]. injection P1 as <-. now left. }
    destruct (HL e m x He P2) as [x' Hx']. exists e, m, x'. split; auto. split; auto. split; auto.
    assert (Gm : global_index els b m) by (eapply (local_value_global interp b els path Hwf e m x'); eauto).
    destruct (proj2 HG0 m Gm) as (Hpm & a' & v' & Ha' & _).
    pose proof (backend_shape t c0 c1 m a' (proj1 HG0) HS Hpm Ha') as Hb. congruence.
Qed.

(** After any number of interrupted attempts, a call gives exactly what it would have
    given without them. *)
Theorem C76_retry c es c1 :
  call_ok b els path t interp c es -> after_attempts b els path t mask zero es c c1 ->
  interpolate t mask interp zero s es c1 = interpolate t mask interp zero s es c.
Proof.
  intros HC HA. destruct (attempts_touched c es c1 HC HA) as [->|(c0 & HR & HS & HT)]; [reflexivity|].
  pose proof (run_good b els path t mask interp zero c es c0 HC HR) as HG.
  destruct HC as [Hwf Hpath Hint Hes Hty Hsol].
  destruct (elements_writes t mask interp b els path Hwf Hpath Hint es (lv_new (build b)) eq_refl Hes) as (wss & H1 & H2).
  unfold interpolate. cbn [ss_root subspace_of_root]. rewrite HR, (C76_resize_again b t zero c c0 c1 HR HS).
  change (sv_new s) with (lv_new (build b)). rewrite !H1.
  assert (HIn : forall m x, In (m, x) (concat wss) <-> exists e, In e es /\ local_value b path interp e m x).
  { intros m x. rewrite in_concat. split.
    - intros (ws & G1 & G2). apply In_nth_error in G1 as [i Hi].
      destruct (Forall2_nth_r _ _ _ _ _ H2 Hi) as (e & He & P). exists e. split; [eapply nth_error_In; eauto|]. now apply P.
    - intros (e & G1 & G2). apply In_nth_error in G1 as [i Hi].
      destruct (Forall2_nth_l _ _ _ _ _ H2 Hi) as (ws & Hws & P). exists ws. split; [eapply nth_error_In; eauto|]. now apply P. }
  rewrite (writes_forget t mask (concat wss) c0 c1 (proj1 HG) HS); [reflexivity| |].
  - intros [m x] Hm. apply HIn in Hm as (e & He & Hv). apply HG. cbn.
    eapply (local_value_global interp b els path Hwf e m x); eauto.
  - intros a v Hav. destruct (HT a v Hav) as [Q|(e & m & x & P1 & P2 & P3 & P4)]; auto.
    right. exists m, x. split; [apply HIn; eauto|auto].
Qed.

(** In particular, interpolating twice is the same as interpolating once. *)
Theorem C76_twice c es c' :
  call_ok b els path t interp c es -> interpolate t mask interp zero s es c = Done c' ->
  interpolate t mask interp zero s es c' = Done c'.
Proof.
  intros HC HI. pose proof (C25_throws_iff_resize_throws b els path t mask interp zero c es HC) as HT.
 rewrite HI in HT. destruct HT as [c0 HR].
  pose proof (run_good b els path t mask interp zero c es c0 HC HR) as HG.
  destruct (interpolate_effect b els path t mask interp zero c es c0 HC HR) as (c1 & G1 & Ht & HS & HB & HV).
 rewrite HI in G1. injection G1 as <-.
  transitivity (interpolate t mask interp zero s es c); [|exact HI]. clear HI. destruct HC as [Hwf Hpath Hint Hes Hty Hsol].
  destruct (elements_writes t mask interp b els path Hwf Hpath Hint es (lv_new (build b)) eq_refl Hes) as (wss & H1 & H2).
  unfold interpolate. cbn [ss_root subspace_of_root]. rewrite HR, (C76_resize_again b t zero c c0 c' HR HS).
  change (sv_new s) with (lv_new (build b)). rewrite !H1.
  assert (HIn : forall m x, In (m, x) (concat wss) <-> exists e, In e es /\ local_value b path interp e m x).
  { intros m x. rewrite in_concat. split.
    - intros (ws & G1 & G2). apply In_nth_error in G1 as [i Hi].
      destruct (Forall2_nth_r _ _ _ _ _ H2 Hi) as (e & He & P). exists e. split; [eapply nth_error_In; eauto|]. now apply P.
    - intros (e & G1 & G2). apply In_nth_error in G1 as [i Hi].
      destruct (Forall2_nth_l _ _ _ _ _ H2 Hi) as (ws & Hws & P). exists ws. split; [eapply nth_error_In; eauto|]. now apply P. }
  rewrite (writes_forget t mask (concat wss) c0 c' (proj1 HG) HS); [reflexivity| |].
  - intros [m x] Hm. apply HIn in Hm as (e & He & Hv). apply HG. cbn.
    eapply (local_value_global interp b els path Hwf e m x); eauto.
  - intros a v Hav. destruct (HV a v Hav) as [(e & m & x & P1 & P2 & P3 & P4 & P5)|[P1 _]]; auto.
    right. exists m, x. split; [apply HIn; eauto|auto].
Qed.
End Retry.

(** * The hypotheses are met *)

(** The call of Interpolate_props, interrupted when the fourth call into foreign code
    is made: element 1 is finished or under way, element 0 not begun; the interrupted
    container is neither the old nor the final one. *)
Definition ex_throw (n : nat) (e : nat) (p : list nat) : bool := n =? 3.
Example C76_hypotheses_met :
  call_ok ex_b ex_els [] ex_cty ex_interp ex_cont [1; 0] /\
  exists c1 c' c0,
    interpolate_x ex_cty ex_mask ex_interp false (fun _ _ => false) ex_throw 0 (subspace_of_root (build ex_b) []) [1; 0] ex_cont = Stopped c1 /\
    interpolate ex_cty ex_mask ex_interp 0 (subspace_of_root (build ex_b) []) [1; 0] ex_cont = Done c' /\
    backend_resize 0 (pb_size (build ex_b)) ex_cty ex_cont = Done c0 /\ c1 <> c' /\ c1 <> c0 /\
    after_attempts ex_b ex_els [] ex_cty ex_mask 0 [1; 0] ex_cont c1.
Proof.
  split; [apply C25_hypotheses_met|].
  destruct (interpolate_x ex_cty ex_mask ex_interp false (fun _ _ => false) ex_throw 0 (subspace_of_root (build ex_b) []) [1; 0] ex_cont)
    as [?|c1| |] eqn:E1; try (vm_compute in E1; discriminate).
  destruct (interpolate ex_cty ex_mask ex_interp 0 (subspace_of_root (build ex_b) []) [1; 0] ex_cont) as [c'| |] eqn:E2;
    try (vm_compute in E2; discriminate).
  destruct (backend_resize 0 (pb_size (build ex_b)) ex_cty ex_cont) as [c0| |] eqn:E3; try (vm_compute in E3; discriminate).
  exists c1, c', c0. split; auto. split; auto. split; auto.
  split; [vm_compute in E1, E2; congruence|]. split; [vm_compute in E1, E3; congruence|].
  eapply failed_attempt; [apply no_attempt|apply ex_interp_ok| |exact E1]. auto.
Qed.

(** interpolate() is not atomic: an interrupted call can leave a container that is neither
    as before the interpolation nor as after it. *)
Theorem C76_atomic_refuted :
  exists c1 c' c0 : cont nat,
    interpolate_x ex_cty ex_mask ex_interp false (fun _ _ => false) ex_throw 0 (subspace_of_root (build ex_b) []) [1; 0] ex_cont = Stopped c1 /\
    interpolate ex_cty ex_mask ex_interp 0 (subspace_of_root (build ex_b) []) [1; 0] ex_cont = Done c' /\
    backend_resize 0 (pb_size (build ex_b)) ex_cty ex_cont = Done c0 /\ c1 <> c' /\ c1 <> c0.
Proof. destruct C76_hypotheses_met as (_ & c1 & c' & c0 & H). exists c1, c', c0. tauto. Qed.

Print Assumptions C76_resize_again.
Print Assumptions C76_completed.
Print Assumptions C76_interrupted_container.
Print Assumptions C76_progress.
Print Assumptions C76_retry.
Print Assumptions C76_twice.
Print Assumptions C76_atomic_refuted.
