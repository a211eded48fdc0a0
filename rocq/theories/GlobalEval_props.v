(** Global and local evaluation of grid functions (C61). *)
From Coq Require Import List Arith Bool Reals Lia Lra.
From Verif Require Import Lib LocalFunction_model LocalFunction_spec Lifetime_spec GlobalEval_model GlobalEval_spec.
From Verif Require LocalFunction_props.
Import ListNotations.

Section Props.
Context {E X Y V : Type}.
Variable G : grid E X Y.
Variable find : (E -> bool) -> Y -> option E.
Variable loc : E -> Y -> X.
Notation desc := (desc E X Y V).

Fixpoint desc_ind' (P : desc -> Prop) (HA : forall es f, P (DAna es f)) (HN : forall es f, P (DNormal es f)) (HD : forall es deps v dv, P (DDis es deps v dv))
  (HC : forall h l, Forall P l -> P (DComp h l)) (HO : forall es d, P d -> P (DCoarse es d)) (HF : forall es d, P d -> P (DFine es d)) (HE : forall d, P d -> P (DErased d)) (d : desc) : P d :=
  match d with
  | DAna es f => HA es f | DNormal es f => HN es f | DDis es deps v dv => HD es deps v dv
  | DComp h l => HC h l ((fix go l := match l return Forall P l with [] => Forall_nil _ | n :: r => Forall_cons _ (desc_ind' P HA HN HD HC HO HF HE n) (go r) end) l)
  | DCoarse es n => HO es n (desc_ind' P HA HN HD HC HO HF HE n)
  | DFine es n => HF es n (desc_ind' P HA HN HD HC HO HF HE n)
  | DErased n => HE n (desc_ind' P HA HN HD HC HO HF HE n)
  end.
Lemma nearest_contains cs e a l x y : nested_ok G -> nearest G cs e a l -> contains G e x y -> contains G a (up_along G l x) y /\ cs a = true.
Proof. intros NE H. revert x. induction H as [e He|e f a l He Hf Hn IH]; intros x Hx; cbn; auto. apply IH. eapply ne_father; eauto. Qed.
Lemma located_contains fs e x d z y : grid_ok G -> nested_ok G -> located G fs e x d z -> contains G e x y -> contains G d z y /\ fs d = true.
Proof.
  intros OK NE. induction 1 as [e x He|e x c d z He [Hc1 Hc2] Hl IH]; intros Hx; auto. apply IH.
  eapply ne_child; eauto. destruct (ne_cover _ NE e x) as (c' & A & B); [apply Hx|intros H; rewrite H in Hc1; destruct Hc1|].
  unfold inside in *. specialize (Hc2 c' A). pose proof (go_dist _ OK c (gr_down G c x)). lra.
Qed.
Lemma dis_geval es deps (v : E -> X -> V) dv y e x : search_ok G find loc -> es e = true -> contains G e x y -> single_valued G (DDis es deps v dv) y ->
  geval G find loc (DDis es deps v dv) y = Some (v e x).
Proof.
  intros SE He Hx HS. cbn. destruct (find es y) as [e'|] eqn:Ef; [|now destruct (se_finds _ _ _ SE _ _ _ _ He Hx Ef)].
  destruct (se_found _ _ _ SE _ _ _ Ef) as [A B]. cbn. f_equal. symmetry. now apply HS.
Qed.
Lemma value_geval (d : desc) : grid_ok G -> nested_ok G -> search_ok G find loc ->
  forall e x y v, same_sets d -> no_normal d -> single_valued G d y -> dset d e = true -> contains G e x y -> value G (fn d) e x v -> geval G find loc d y = Some v.
Proof.
  intros OK NE SE. induction d as [es f|es f|es deps v0 dv|h l IH|es d IH|es d IH|d IH] using desc_ind'; intros e x y v HS HN HV He Hx Hv.
  - inversion Hv; subst. destruct Hx as [_ <-]. reflexivity.
  - contradiction.
  - inversion Hv; subst. now apply dis_geval.
  - cbn [fn] in Hv. inversion Hv as [| | |? ? vs ? ? Hvs| |]; subst. cbn [geval].
    assert (K : (fix go l := match l with [] => Some [] | d :: r => v <- geval G find loc d y ;; vs <- go r ;; Some (v :: vs) end) l = Some vs).
    { cbn [same_sets no_normal single_valued] in *. revert He HS. generalize (dset (DComp h l)). intros D He HS. clear Hv. revert vs Hvs. induction l as [|d l IHl]; intros vs Hvs.
      - inversion Hvs; subst. reflexivity.
      - cbn [map] in Hvs. inversion Hvs as [|? ? ? ? v1 vs1 V1 V2]; subst. inversion IH as [|? ? I1 I2]; subst. destruct HS as (S1 & S2 & S3), HN as (N1 & N2), HV as (U1 & U2).
        rewrite (I1 e x y v1); auto; [|congruence]. cbn [obind]. rewrite (IHl I2 N2 U2 S3 vs1 V2). reflexivity. }
    rewrite K. reflexivity.
  - cbn [fn] in Hv. inversion Hv as [| | | |? ? ? ? a l ? Hn Hg|]; subst. destruct (nearest_contains _ _ _ _ _ _ NE Hn Hx) as [A B]. cbn [geval]. apply (IH a (up_along G l x) y); auto.
  - cbn [fn] in Hv. inversion Hv as [| | | | |? ? ? ? a z ? Hn Hg]; subst. destruct (located_contains _ _ _ _ _ _ OK NE Hn Hx) as [A B]. cbn [geval]. apply (IH a z y); auto.
  - cbn [geval]. now apply (IH e x y).
Qed.

(** A local function bound to an element [e] of the function computes at [x] what the global
    function computes at the point with local coordinate [x], if the discrete functions in it
    are single-valued there, e.g. because they are continuous or the point is inside an
    element. *)
Theorem C61_agree (d : desc) e x y o : grid_ok G -> nested_ok G -> search_ok G find loc ->
  composed_ok (fn d) -> same_sets d -> no_normal d -> dset d e = true -> fits G (fn d) e -> contains G e x y -> single_valued G d y ->
  lbind G (lnew (fn d)) e = Some o -> exists v o', leval G o x = Some (v, o') /\ geval G find loc d y = Some v.
Proof.
  intros OK NE SE CO HS HN He Hf Hx HV Hb. destruct (LocalFunction_props.bind_ok G OK (fn d) _ None e (LocalFunction_props.new_ok G _ CO) Hf) as (o1 & B1 & B2).
  rewrite Hb in B1. injection B1 as <-. destruct (LocalFunction_props.eval_ok G OK (fn d) o e x B2) as (v & o' & A & _ & B). exists v, o'. unfold leval.
  rewrite (LocalFunction_props.fn_ok G _ _ _ B2). split; auto. eapply value_geval; eauto.
Qed.
(** The same for the derivatives. *)
Lemma dderiv_sets (d : desc) : forall d', dderiv d = Some d' -> same_sets d -> no_normal d -> same_sets d' /\ no_normal d' /\ dset d' = dset d /\ dgf (fn d) = Some (fn d') /\ composed_ok (fn d').
Proof.
  induction d as [es f|es f|es deps v dv|h l|es d IH|es d IH|d IH]; cbn; intros d' H HS HN; try discriminate; try contradiction.
  - injection H as <-. cbn. auto 6.
  - destruct dv; [|discriminate]. injection H as <-. cbn. auto 6.
  - apply obind_Some in H as (d1 & H1 & [= <-]). destruct (IH d1 H1 HS HN) as (A & B & C & D & F). cbn. rewrite D, C. auto 6.
  - apply obind_Some in H as (d1 & H1 & [= <-]). destruct (IH d1 H1 HS HN) as (A & B & C & D & F). cbn. rewrite D, C. auto 6.
  - apply obind_Some in H as (d1 & H1 & [= <-]). destruct (IH d1 H1 HS HN) as (A & B & C & D & F). cbn. auto 6.
Qed.
Theorem C61_derivatives_agree (d d' : desc) e x y o o' : grid_ok G -> nested_ok G -> search_ok G find loc ->
  composed_ok (fn d) -> same_sets d -> no_normal d -> dset d e = true -> fits G (fn d) e -> contains G e x y ->
  dderiv d = Some d' -> single_valued G d' y ->
  lbind G (lnew (fn d)) e = Some o -> lderivative o = Some o' -> derivable (fn d) true = true ->
  exists v o2, leval G o' x = Some (v, o2) /\ geval G find loc d' y = Some v.
Proof.
  intros OK NE SE CO HS HN He Hf Hx Hd HV Hb Hl Hbl. destruct (dderiv_sets d d' Hd HS HN) as (A & B & C & D & F).
  destruct (LocalFunction_props.bind_ok G OK (fn d) _ None e (LocalFunction_props.new_ok G _ CO) Hf) as (o1 & B1 & B2). rewrite Hb in B1. injection B1 as <-.
  destruct (LocalFunction_props.deriv_ok G (fn d) o (Some e) (fn d') B2 D Hbl) as (o1 & D1 & D2). rewrite Hl in D1. injection D1 as <-.
  destruct (LocalFunction_props.eval_ok G OK (fn d') o' e x D2) as (v & o2 & E1 & _ & E2). exists v, o2. unfold leval. rewrite (LocalFunction_props.fn_ok G _ _ _ D2). split; auto.
  eapply value_geval; eauto. now rewrite C.
Qed.
(** A function with a face normal function in it can only be evaluated locally. *)
Theorem C61_no_global_face_normals (d : desc) y v : geval G find loc d y = Some v -> no_normal d.
Proof.
  revert v. induction d as [es f|es f|es deps v0 dv|h l IH|es d IH|es d IH|d IH] using desc_ind'; intros v H; cbn in *; eauto; try discriminate.
  apply obind_Some in H as (vs & H & _). revert vs H. induction l as [|d l IHl]; intros vs H; auto. inversion IH as [|? ? I1 I2]; subst.
  apply obind_Some in H as (v1 & H1 & H2). apply obind_Some in H2 as (vs1 & H2 & _). split; [eauto|]. apply (IHl I2 vs1 H2).
Qed.
End Props.

(** ** Examples: an interval and its two halves *)
Inductive el := Root | Left | Right.
Open Scope R_scope.
Definition two : grid el R R := GR _ _ _
  (fun e => match e with Root => None | _ => Some Root end)
  (fun e => match e with Root => 0%nat | _ => 1%nat end) 1
  (fun e => match e with Root => [Left; Right] | _ => [] end)
  (fun e x => match e with Root => x | Left => x / 2 | Right => (x + 1) / 2 end)
  (fun e x => match e with Root => x | Left => 2 * x | Right => 2 * x - 1 end)
  (fun _ x => Rmax 0 (Rmax (- x) (x - 1)))
  (fun e x => match e with Root => x | Left => x / 2 | Right => (x + 1) / 2 end).
Definition halves (e : el) : bool := match e with Root => false | _ => true end.
Definition whole (e : el) : bool := match e with Root => true | _ => false end.
Definition ex_loc (e : el) (y : R) : R := match e with Root => y | Left => 2 * y | Right => 2 * y - 1 end.
Definition ex_in (e : el) (y : R) : bool := if Rle_dec 0 (ex_loc e y) then if Rle_dec (ex_loc e y) 1 then true else false else false.
Definition ex_find (es : el -> bool) (y : R) : option el := List.find (fun e => es e && ex_in e y) [Root; Left; Right].
Lemma ex_inside e x : inside two e x <-> 0 <= x <= 1.
Proof. unfold inside. cbn. unfold Rmax. split; intros H; repeat destruct (Rle_dec _ _); try lra; revert H; repeat destruct (Rle_dec _ _); lra. Qed.
Lemma ex_in_true e y : ex_in e y = true <-> 0 <= ex_loc e y <= 1.
Proof. unfold ex_in. destruct (Rle_dec 0 (ex_loc e y)), (Rle_dec (ex_loc e y) 1); split; intros; try discriminate; try lra; auto. Qed.
Lemma ex_search : search_ok two ex_find ex_loc.
Proof.
  constructor.
  - intros es y e H. apply find_some in H as [_ H]. apply andb_true_iff in H as [H1 H2]. apply ex_in_true in H2. split; auto. split; [now apply ex_inside|]. destruct e; cbn; lra.
  - intros es y e x He [H1 H2] HN. apply ex_inside in H1. assert (K := find_none _ _ HN e). cbn in K.
    assert (A : ex_in e y = true) by (apply ex_in_true; destruct e; cbn in *; lra). rewrite He, A in K. destruct e; cbn in K; intuition discriminate.
Qed.
Lemma ex_nested : nested_ok two.
Proof.
  constructor.
  - intros e f x y H [A B]. apply ex_inside in A. destruct e; try discriminate; injection H as <-; (split; [apply ex_inside|]); cbn in *; lra.
  - intros e c x y H [A B] C. split; auto. destruct e; cbn in H; [|contradiction|contradiction]. destruct H as [<-|[<-|[]]]; cbn in *; lra.
  - intros e x H N. apply ex_inside in H. destruct e; cbn in N; try congruence. destruct (Rle_dec x (1 / 2)).
    + exists Left. split; [now left|]. apply ex_inside. cbn. lra.
    + exists Right. split; [right; now left|]. apply ex_inside. cbn. lra.
Qed.
Lemma ex_ok : grid_ok two.
Proof.
  constructor.
  - intros [] f H; try discriminate; injection H as <-; reflexivity.
  - intros [] c H; cbn in H; try contradiction. destruct H as [<-|[<-|[]]]; cbn; lia.
  - intros e x. cbn. apply Rmax_l.
Qed.
(** The continuous function 0 on the left and 2 y - 1 on the right half, as a function on the
    whole interval, added to y². *)
Definition hat (e : el) (x : R) : R := match e with Right => x | _ => 0 end.
Definition ex_fun : desc el R R R := DComp (fun l => fold_right Rplus 0 l) [DAna whole (fun k y => match k with 0%nat => y * y | _ => 2 * y end); DFine whole (DDis halves [] hat None)].
Example C61_hypotheses_met x y : contains two Root x y ->
  composed_ok (fn ex_fun) /\ same_sets ex_fun /\ no_normal ex_fun /\ dset ex_fun Root = true /\ fits two (fn ex_fun) Root /\ single_valued two ex_fun y /\ exists o, lbind two (lnew (fn ex_fun)) Root = Some o.
Proof.
  intros _. cbn. split; [repeat split; discriminate|]. split; [auto|]. split; [auto|]. split; [reflexivity|]. split; [|split; [|eauto]].
  - split; auto. split; auto. apply ref_down; [reflexivity|discriminate|]. intros c [<-|[<-|[]]]; apply ref_here; cbn; auto.
  - split; auto. split; auto. intros e e' z z' He He' [A1 A2] [B1 B2]. apply ex_inside in A1, B1. destruct e, e'; try discriminate; cbn in *; lra.
Qed.
(** A function with the value 0 on the left and 1 on the right half: at 1/2 the local function
    of the right half says 1, the global function 0. *)
Theorem C61_discontinuous_refuted : exists (d : desc el R R R) o v v',
  no_normal d /\ same_sets d /\ dset d Right = true /\ contains two Right 0 (1 / 2) /\
  lbind two (lnew (fn d)) Right = Some o /\ leval two o 0 = Some (v, o) /\ geval two ex_find ex_loc d (1 / 2) = Some v' /\ v <> v'.
Proof.
  exists (DDis halves [] (fun e _ => match e with Right => 1 | _ => 0 end) None). eexists. exists 1, 0. split; [exact I|]. split; [exact I|]. split; [reflexivity|].
  split. { split; [apply ex_inside|cbn]; lra. }
  split; [reflexivity|]. split; [reflexivity|]. split; [|lra].
  cbn [geval fn lnew]. assert (F : ex_find halves (1 / 2) = Some Left).
  { unfold ex_find. cbn [List.find halves andb]. rewrite (proj2 (ex_in_true Left (1 / 2))); [reflexivity|cbn; lra]. }
  rewrite F. reflexivity.
Qed.
Print Assumptions C61_agree.
Print Assumptions C61_derivatives_agree.
Print Assumptions C61_no_global_face_normals.
Print Assumptions C61_discontinuous_refuted.
