(** Lifetimes of objects in Python (C85, C86). *)
From Coq Require Import List Arith Bool Lia.
From Verif Require Import Lib PyLifetime_model PyLifetime_spec.
Import ListNotations.
#[local] Arguments Nat.ltb : simpl never.
#[local] Arguments Nat.leb : simpl never.

(** * Sweeping *)
Lemma nth_sweep w x : nth_error (sweep w) x = option_map (fun o => if refcount w x o =? 0 then die o else o) (nth_error w x).
Proof.
  unfold sweep. rewrite nth_error_map.
  assert (H : forall s, nth_error (combine (seq s (length w)) w) x = option_map (fun o => (s + x, o)) (nth_error w x)).
  { revert x. induction w as [|o w IH]; intros [|x] s; cbn; auto.
    - now rewrite Nat.add_0_r.
    - rewrite IH. now rewrite Nat.add_succ_r. }
  rewrite (H 0). now destruct (nth_error w x).
Qed.
Lemma sweep_length w : length (sweep w) = length w.
Proof. unfold sweep. rewrite map_length, combine_length, seq_length. apply Nat.min_id. Qed.
Lemma list_sum_cons y l : list_sum (y :: l) = y + list_sum l.
Proof. reflexivity. Qed.
Lemma list_sum_ge l x : In x l -> x <= list_sum l.
Proof. induction l as [|y l IH]; [intros []|]. rewrite list_sum_cons. intros [->|H]; [lia|]. specialize (IH H). lia. Qed.
Lemma list_sum_pos l : 0 < list_sum l -> exists x, In x l /\ 0 < x.
Proof.
  induction l as [|y l IH]; [cbn; lia|]. rewrite list_sum_cons. intros H. destruct y as [|y]; [|exists (S y); split; [now left|lia]].
  destruct IH as (x & Hx & Hp); [lia|]. exists x. split; auto. now right.
Qed.
Lemma owner_counts w x o z oz : nth_error w z = Some oz -> o_alive oz = true -> In x (owns oz) -> 0 < refcount w x o.
Proof.
  intros Hz Ha Hi. unfold refcount. assert (owned_by x oz <= list_sum (map (owned_by x) w)).
  { apply list_sum_ge, in_map. eapply nth_error_In; eauto. }
  unfold owned_by at 1 in H. rewrite Ha in H. apply (count_occ_In Nat.eq_dec) in Hi. lia.
Qed.
Lemma counted w x o : 0 < refcount w x o -> 0 < o_vars o \/ 0 < o_lost o \/
  exists z oz, nth_error w z = Some oz /\ o_alive oz = true /\ In x (owns oz).
Proof.
  unfold refcount. intros H. destruct (o_vars o); [|left; lia]. destruct (o_lost o); [|right; left; lia]. right; right.
  destruct (list_sum_pos _ H) as (n & Hn & Hp). apply in_map_iff in Hn as (oz & <- & Hz). apply In_nth_error in Hz as [z Hz].
  exists z, oz. split; auto. unfold owned_by in Hp. destruct (o_alive oz); [|lia]. split; auto. now apply (count_occ_In Nat.eq_dec).
Qed.

(** * What is owned is alive *)
Definition inv_owned (w : world) : Prop :=
  (forall x o y, nth_error w x = Some o -> o_alive o = true -> In y (owns o) -> alive w y) /\
  (forall x o, nth_error w x = Some o -> 0 < o_vars o -> o_alive o = true).
Lemma alive_new w k l r x : alive w x -> alive (new w k l r) x.
Proof. intros (o & H & A). exists o. split; auto. unfold new. rewrite nth_error_app1; auto. now apply nth_error_Some_lt in H. Qed.
Lemma nth_new w k l r x o : nth_error (new w k l r) x = Some o ->
  nth_error w x = Some o \/ x = length w /\ o = Obj k true 1 0 l None r.
Proof.
  unfold new. destruct (Nat.lt_ge_cases x (length w)) as [H|H].
  - rewrite nth_error_app1 by auto. auto.
  - rewrite nth_error_app2 by auto. destruct (x - length w) as [|d] eqn:E; cbn; [|destruct d; discriminate].
    intros [= <-]. right. split; auto. lia.
Qed.
Lemma sweep_owned w : inv_owned w -> inv_owned (sweep w).
Proof.
  intros [HA HC]. assert (HS : forall x o, nth_error w x = Some o -> o_alive o = true -> 0 < refcount w x o -> alive (sweep w) x).
  { intros x o Hx Ha Hc. exists o. rewrite nth_sweep, Hx. cbn. destruct (Nat.eqb_spec (refcount w x o) 0); [lia|auto]. }
  split.
  - intros x o y Hx Ha Hy. rewrite nth_sweep in Hx. destruct (nth_error w x) as [o'|] eqn:Ex; [|discriminate]. cbn in Hx.
    destruct (refcount w x o' =? 0); injection Hx as <-; [discriminate|].
    destruct (HA _ _ _ Ex Ha Hy) as (oy & Hoy & Hya). apply (HS y oy); auto. exact (owner_counts w y oy x o' Ex Ha Hy).
  - intros x o Hx Hv. rewrite nth_sweep in Hx. destruct (nth_error w x) as [o'|] eqn:Ex; [|discriminate]. cbn in Hx.
    destruct (Nat.eqb_spec (refcount w x o') 0) as [E0|]; injection Hx as <-; [|eauto].
    unfold refcount in E0. cbn in Hv. lia.
Qed.
Lemma new_owned w k l r : inv_owned w -> (forall y, In y l -> alive w y) -> inv_owned (new w k l r).
Proof.
  intros [HA HC] Hl. split.
  - intros x o y Hx Ha Hy. apply alive_new. apply nth_new in Hx as [Hx|[-> ->]]; [eauto|]. unfold owns in Hy. cbn in Hy.
    rewrite app_nil_r in Hy. auto.
  - intros x o Hx Hv. apply nth_new in Hx as [Hx|[-> ->]]; eauto.
Qed.
Lemma alive_upd w w' i o o' x : nth_error w i = Some o -> upd w i o' = Some w' -> o_alive o' = o_alive o -> alive w x -> alive w' x.
Proof.
  intros Hi Hu Ha (ox & Hx & Hxa). unfold alive. rewrite (upd_nth_error _ _ _ _ x Hu). destruct (Nat.eqb_spec x i) as [->|]; [|eauto].
  rewrite Hi in Hx. injection Hx as <-. exists o'. split; congruence.
Qed.
Lemma upd_owned w w' i o o' : inv_owned w -> nth_error w i = Some o -> upd w i o' = Some w' -> o_alive o' = o_alive o ->
  (0 < o_vars o' -> o_alive o' = true) -> (o_alive o' = true -> forall y, In y (owns o') -> alive w y) -> inv_owned w'.
Proof.
  intros [HA HC] Hi Hu Ha Hv Ho. split.
  - intros x ox y Hx Hxa Hy. apply (alive_upd w w' i o o' y Hi Hu Ha). rewrite (upd_nth_error _ _ _ _ x Hu) in Hx.
    destruct (x =? i); [injection Hx as <-|]; eauto.
  - intros x ox Hx Hxv. rewrite (upd_nth_error _ _ _ _ x Hu) in Hx. destruct (x =? i); [injection Hx as <-|]; eauto.
Qed.
Lemma arg_ok w x ks o : arg w x ks = Some o -> nth_error w x = Some o /\ 0 < o_vars o.
Proof.
  unfold arg. destruct (nth_error w x) as [o'|]; [|discriminate]. cbn. destruct (Nat.ltb_spec 0 (o_vars o')); [|discriminate]. cbn.
  destruct (match ks with [] => true | _ => _ end); [|discriminate]. now intros [= <-].
Qed.
Lemma arg_kind w x k o : arg w x [k] = Some o -> o_kind o = k.
Proof.
  unfold arg. destruct (nth_error w x) as [o'|]; [|discriminate]. cbn. destruct (0 <? o_vars o'); [|discriminate]. cbn.
  rewrite orb_false_r. destruct (kind_eqb (o_kind o') k) eqn:E; [|discriminate]. intros [= <-]. destruct (o_kind o'), k; try discriminate; auto.
Qed.
Lemma arg_alive w x ks o : inv_owned w -> arg w x ks = Some o -> alive w x /\ o_alive o = true.
Proof. intros [_ HC] H. apply arg_ok in H as [H1 H2]. pose proof (HC _ _ H1 H2). split; [exists o|]; auto. Qed.

(** * Everything an object refers to is kept alive by it *)
Inductive kpath (w : world) : nat -> nat -> Prop :=
| kp_one x o y : nth_error w x = Some o -> In y (o_keeps o) -> kpath w x y
| kp_trans x y z : kpath w x y -> kpath w y z -> kpath w x z.
Definition grows (w w' : world) : Prop :=
  forall x o, nth_error w x = Some o -> exists o', nth_error w' x = Some o' /\ incl (o_keeps o) (o_keeps o').
Lemma kpath_mono w w' : grows w w' -> forall x y, kpath w x y -> kpath w' x y.
Proof.
  intros G x y H. induction H as [x o y Hx Hy|x y z _ IH1 _ IH2]; [|eapply kp_trans; eauto].
  destruct (G _ _ Hx) as (o' & Hx' & Hi). eapply kp_one; eauto.
Qed.
Lemma kpath_alive w x y : inv_owned w -> alive w x -> kpath w x y -> alive w y.
Proof.
  intros [HA _] Hx H. induction H as [x o y Ho Hy|x y z _ IH1 _ IH2]; auto.
  destruct Hx as (o' & Ho' & Ha). rewrite Ho in Ho'. injection Ho' as <-. eapply HA; eauto. unfold owns. apply in_or_app. auto.
Qed.
Definition inv_refers (w : world) : Prop :=
  forall x o y, nth_error w x = Some o -> o_alive o = true -> In y (o_refers o) -> kpath w x y.
Lemma sweep_refers w : inv_refers w -> inv_refers (sweep w).
Proof.
  intros H x o y Hx Ha Hy. apply (kpath_mono w).
  - intros z oz Hz. rewrite nth_sweep, Hz. cbn. eexists. split; [reflexivity|]. destruct (refcount w z oz =? 0); cbn; apply incl_refl.
  - rewrite nth_sweep in Hx. destruct (nth_error w x) as [o'|] eqn:Ex; [|discriminate]. cbn in Hx.
    destruct (refcount w x o' =? 0); injection Hx as <-; [discriminate|]. eauto.
Qed.
Lemma grows_new w k l r : grows w (new w k l r).
Proof.
  intros x o Hx. exists o. split; [|apply incl_refl]. unfold new. rewrite nth_error_app1; auto. now apply nth_error_Some_lt in Hx.
Qed.
Lemma new_refers w k l r : inv_refers w -> (forall y, In y r -> In y l \/ exists z, In z l /\ kpath w z y) -> inv_refers (new w k l r).
Proof.
  intros H Hr x o y Hx Ha Hy. apply nth_new in Hx as [Hx|[-> ->]].
  - eapply kpath_mono; [apply grows_new|]. eauto.
  - cbn in Hy. assert (HN : nth_error (new w k l r) (length w) = Some (Obj k true 1 0 l None r)).
    { unfold new. rewrite nth_error_app2 by lia. now rewrite Nat.sub_diag. }
    destruct (Hr y Hy) as [Hl|(z & Hz & Hk)]; [eapply kp_one; eauto|]. eapply kp_trans; [eapply kp_one; eauto|].
    eapply kpath_mono; [apply grows_new|auto].
Qed.
Lemma upd_refers w w' i o o' : inv_refers w -> nth_error w i = Some o -> upd w i o' = Some w' -> o_alive o' = o_alive o ->
  o_refers o' = o_refers o -> incl (o_keeps o) (o_keeps o') -> inv_refers w'.
Proof.
  intros H Hi Hu Ha Hr Hk x ox y Hx Hxa Hy. apply (kpath_mono w).
  - intros z oz Hz. rewrite (upd_nth_error _ _ _ _ z Hu). destruct (Nat.eqb_spec z i) as [->|].
    + rewrite Hi in Hz. injection Hz as <-. eauto.
    + exists oz. split; auto. apply incl_refl.
  - rewrite (upd_nth_error _ _ _ _ x Hu) in Hx. destruct (Nat.eqb_spec x i) as [->|]; [|eauto].
    injection Hx as <-. rewrite Hr in Hy. rewrite Ha in Hxa. eauto.
Qed.
Lemma collect_inv (P : world -> Prop) w : (forall w, P w -> P (sweep w)) -> P w -> P (collect w).
Proof. intros HS HP. unfold collect. generalize (length w) as n. intros n. revert w HP. induction n as [|n IH]; cbn; auto. Qed.

Ltac args := repeat match goal with
  | H : context [obind ?e _] |- _ => destruct e eqn:?; cbn [obind] in H; [|discriminate H]
  end.
Lemma owns_same o o' : o_keeps o' = o_keeps o -> o_bound o' = o_bound o -> owns o' = owns o.
Proof. unfold owns. now intros -> ->. Qed.

(** Ownership does not need that references are kept alive, except for f.basis. *)
Lemma act_owned w w' o : inv_owned w -> match o with BasisOf _ => inv_refers w | _ => True end -> act w o = Some w' -> inv_owned w'.
Proof.
  intros HI HB H. pose proof HI as [HA HC].
  assert (AL : forall x ks o, arg w x ks = Some o -> alive w x) by (intros; eapply arg_alive; eauto).
  assert (UP : forall x ks o o' w', arg w x ks = Some o -> upd w x o' = Some w' -> o_alive o' = o_alive o ->
     (forall y, In y (owns o') -> In y (owns o) \/ alive w y) -> inv_owned w').
  { intros x ks o0 o' w0 Ha Hu He Ho. destruct (arg_alive w x ks o0 HI Ha) as [_ Hal]. apply arg_ok in Ha as [Hx Hv].
    apply (upd_owned w w0 x o0 o'); auto; [intros; congruence|]. intros _ y Hy. destruct (Ho y Hy) as [Hy'|]; eauto. }
  destruct o; cbn [act] in H; args; try (injection H as <-).
  all: try (apply new_owned; [assumption|]; cbn; intros y Hy; repeat (destruct Hy as [<-|Hy]; [eauto|]); destruct Hy).
  - eapply UP; [exact Heqo|exact H|reflexivity|]. unfold owns. cbn. intros y Hy. apply in_app_or in Hy as [Hy|[<-|[]]]; [left; apply in_or_app; auto|right; eauto].
  - destruct (o_bound o) as [e|] eqn:Eb.
    + args. assert (H1 : inv_owned l).
      { eapply UP; [exact Heqo|eassumption|reflexivity|]. unfold owns. cbn. intros y Hy. left. apply in_or_app. rewrite app_nil_r in Hy. auto. }
      apply (upd_owned l w' e o0 (lose o0)); auto.
      * intros Hv. destruct H1 as [_ H1]. cbn in *. eauto.
      * intros Ha y Hy. destruct H1 as [H1 _]. eapply H1; eauto.
    + injection H as <-. eapply UP; [exact Heqo|eassumption|reflexivity|]. unfold owns. cbn. intros y Hy. left. apply in_or_app. rewrite app_nil_r in Hy. auto.
  - destruct (arg_alive _ _ _ _ HI Heqo) as [Haf Hfa]. pose proof (arg_ok _ _ _ _ Heqo) as [Hf _].
    apply nth_error_In in Heqo0. pose proof (kpath_alive w _ _ HI Haf (HB _ _ _ Hf Hfa Heqo0)) as Hb.
    destruct Hb as (bo & Hbo & Hba). rewrite Heqo1 in Hbo. injection Hbo as ->.
    apply (upd_owned w w' n bo _ HI Heqo1 H); auto. intros _ y [<-|Hy]; auto. exact (HA n bo y Heqo1 Hba Hy).
  - eapply UP; [exact Heqo|exact H|reflexivity|]. intros y Hy. left. exact Hy.
  - eapply UP; [exact Heqo|exact H|reflexivity|]. intros y Hy. left. exact Hy.
  - eapply UP; [exact Heqo|exact H|reflexivity|]. intros y Hy. left. exact Hy.
Qed.
Lemma act_refers w w' o : kept o -> inv_owned w -> inv_refers w -> act w o = Some w' -> inv_refers w'.
Proof.
  intros HK HI HR H.
  assert (RF : forall x ks o y, arg w x ks = Some o -> In y (o_refers o) -> kpath w x y).
  { intros x ks o0 y Ha Hy. destruct (arg_alive _ _ _ _ HI Ha) as [_ Hal]. apply arg_ok in Ha as [Hx _]. eauto. }
  destruct o; cbn [kept] in HK; try contradiction; cbn [act] in H; args; try (injection H as <-).
  all: try (apply new_refers; [assumption|]; intros y Hy; first [left; exact Hy | right; eexists; split; [left; reflexivity|eauto]]).
  - apply arg_ok in Heqo as [Hx _]. eapply upd_refers; [exact HR|exact Hx|exact H|reflexivity|reflexivity|apply incl_refl].
  - apply arg_ok in Heqo as [Hx _].
    assert (HW : inv_refers l) by (eapply upd_refers; [exact HR|exact Hx|eassumption|reflexivity|reflexivity|apply incl_refl]).
    destruct (o_bound o) as [e|]; [|now injection H as <-]. args. eapply upd_refers; [exact HW|eassumption|exact H|reflexivity|reflexivity|apply incl_refl].
  - eapply upd_refers; [exact HR|eassumption|exact H|reflexivity|reflexivity|]. cbn. intros y Hy. right. exact Hy.
  - apply arg_ok in Heqo as [Hx _]. eapply upd_refers; [exact HR|exact Hx|exact H|reflexivity|reflexivity|apply incl_refl].
  - apply arg_ok in Heqo as [Hx _]. eapply upd_refers; [exact HR|exact Hx|exact H|reflexivity|reflexivity|apply incl_refl].
Qed.
Lemma run_safe h : forall w w', Forall kept h -> inv_owned w -> inv_refers w -> run w h = Some w' -> inv_owned w' /\ inv_refers w'.
Proof.
  induction h as [|o h IH]; intros w w' Hk HI HR H; cbn [run] in H; [injection H as <-; auto|].
  unfold step in H. args. inversion Hk as [|? ? Ho Hk']; subst.
  injection Heqo0 as <-. eapply IH; [auto| | |eauto].
  - apply collect_inv; [apply sweep_owned|]. eapply act_owned; eauto. now destruct o.
  - apply collect_inv; [apply sweep_refers|]. eapply act_refers; eauto.
Qed.
Lemma nil_owned : inv_owned [].
Proof. split; intros [|x]; discriminate. Qed.
Lemma nil_refers : inv_refers [].
Proof. intros [|x]; discriminate. Qed.

(** * C85: what the program can use has not been freed *)
Theorem C85_held_objects_are_usable_partial h w x : Forall kept h -> run [] h = Some w -> held w x -> usable w x.
Proof.
  intros Hk Hr (o & Hx & Hv). destruct (run_safe h [] w Hk nil_owned nil_refers Hr) as [HI HR].
  assert (Ha : alive w x) by (exists o; split; auto; eapply HI; eauto). split; auto. clear o Hx Hv.
  intros y H. induction H as [x o y Hx Hy|x y z H1 IH1 H2 IH2]; auto.
  destruct Ha as (o' & Ho' & Hal). rewrite Hx in Ho'. injection Ho' as <-.
  eapply kpath_alive; eauto. exists o; auto.
Qed.

(** * Nothing is leaked *)
Definition inv_tidy (w : world) : Prop := forall x o, nth_error w x = Some o ->
  o_lost o = 0 /\
  (forall y, In y (o_keeps o) -> y < x /\ exists oy, nth_error w y = Some oy /\ o_kind oy <> KLocalView) /\
  (forall e, o_bound o = Some e -> o_kind o = KLocalView /\ exists oe, nth_error w e = Some oe /\ o_kind oe = KElement).
Definition same_kinds (w w' : world) : Prop := forall x o, nth_error w x = Some o -> exists o', nth_error w' x = Some o' /\ o_kind o' = o_kind o.
Definition tidy_obj (w : world) (x : nat) (o : obj) : Prop :=
  o_lost o = 0 /\
  (forall y, In y (o_keeps o) -> y < x /\ exists oy, nth_error w y = Some oy /\ o_kind oy <> KLocalView) /\
  (forall e, o_bound o = Some e -> o_kind o = KLocalView /\ exists oe, nth_error w e = Some oe /\ o_kind oe = KElement).
Lemma tidy_mono w w' x o : same_kinds w w' -> tidy_obj w x o -> tidy_obj w' x o.
Proof.
  intros HS (H1 & H2 & H3). split; auto. split.
  - intros y Hy. destruct (H2 y Hy) as (L & oy & Hoy & Hk). split; auto. destruct (HS _ _ Hoy) as (o' & Ho' & E). exists o'. split; congruence.
  - intros e He. destruct (H3 e He) as (L & oy & Hoy & Hk). split; auto. destruct (HS _ _ Hoy) as (o' & Ho' & E). exists o'. split; congruence.
Qed.
Lemma sweep_tidy w : inv_tidy w -> inv_tidy (sweep w).
Proof.
  intros H x o Hx. apply (tidy_mono w).
  - intros z oz Hz. rewrite nth_sweep, Hz. cbn. eexists. split; [reflexivity|]. now destruct (refcount w z oz =? 0).
  - rewrite nth_sweep in Hx. destruct (nth_error w x) as [o'|] eqn:Ex; [|discriminate]. cbn in Hx.
    pose proof (H x o' Ex) as HT. destruct (refcount w x o' =? 0); injection Hx as <-; exact HT.
Qed.
Lemma new_tidy w k l r : inv_tidy w -> (forall y, In y l -> exists oy, nth_error w y = Some oy /\ o_kind oy <> KLocalView) -> inv_tidy (new w k l r).
Proof.
  intros H Hl x o Hx. apply (tidy_mono w).
  - intros z oz Hz. exists oz. split; auto. unfold new. rewrite nth_error_app1; auto. now apply nth_error_Some_lt in Hz.
  - apply nth_new in Hx as [Hx|[-> ->]]; [exact (H x o Hx)|]. split; [reflexivity|]. split; [|discriminate]. cbn. intros y Hy.
    destruct (Hl y Hy) as (oy & Hoy & Hk). split; eauto. now apply nth_error_Some_lt in Hoy.
Qed.
Lemma upd_tidy w w' i o o' : inv_tidy w -> nth_error w i = Some o -> upd w i o' = Some w' -> o_kind o' = o_kind o -> tidy_obj w i o' -> inv_tidy w'.
Proof.
  intros H Hi Hu Hk Ht x ox Hx. apply (tidy_mono w).
  - intros z oz Hz. rewrite (upd_nth_error _ _ _ _ z Hu). destruct (Nat.eqb_spec z i) as [->|]; [|eauto].
    rewrite Hi in Hz. injection Hz as <-. eauto.
  - rewrite (upd_nth_error _ _ _ _ x Hu) in Hx. destruct (Nat.eqb_spec x i) as [->|]; [now injection Hx as <-|exact (H x ox Hx)].
Qed.
Lemma arg_not_view w x ks o : arg w x ks = Some o -> ks <> [] -> ~ In KLocalView ks -> exists oy, nth_error w x = Some oy /\ o_kind oy <> KLocalView.
Proof.
  intros H Hn Hk. pose proof (arg_ok _ _ _ _ H) as [Hx _]. exists o. split; auto. intros E. apply Hk. unfold arg in H. rewrite Hx in H. cbn in H.
  destruct (0 <? o_vars o); [|discriminate]. cbn in H. destruct ks as [|k ks]; [now destruct Hn|].
  destruct (existsb (kind_eqb (o_kind o)) (k :: ks)) eqn:Ee; [|discriminate]. apply existsb_exists in Ee as (k' & Hk' & He).
  rewrite E in He. destruct k'; try discriminate. exact Hk'.
Qed.
Lemma act_tidy w w' o : tidy o -> inv_tidy w -> act w o = Some w' -> inv_tidy w'.
Proof.
  intros HT HI H.
  assert (NV : forall x ks o, arg w x ks = Some o -> ks <> [] -> ~ In KLocalView ks -> exists oy, nth_error w x = Some oy /\ o_kind oy <> KLocalView)
    by (intros; eapply arg_not_view; eauto).
  destruct o; cbn [tidy] in HT; try contradiction; cbn [act] in H; args; try (injection H as <-).
  all: try (apply new_tidy; [assumption|]; cbn; intros y Hy;
    repeat (destruct Hy as [<-|Hy]; [eapply NV; [eassumption|discriminate|cbn; intuition discriminate]|]); destruct Hy).
  - pose proof (arg_kind _ _ _ _ Heqo) as Kv. pose proof (arg_kind _ _ _ _ Heqo0) as Ke.
    apply arg_ok in Heqo as [Hx _]. apply arg_ok in Heqo0 as [He _]. destruct (HI _ _ Hx) as (A & B & C).
    eapply upd_tidy; [exact HI|exact Hx|exact H|reflexivity|]. split; [exact A|]. split; [exact B|]. cbn. intros e' [= <-]. split; eauto.
  - apply arg_ok in Heqo as [Hx _]. eapply upd_tidy; [exact HI|exact Hx|exact H|reflexivity|]. exact (HI _ _ Hx).
  - apply arg_ok in Heqo as [Hx _]. eapply upd_tidy; [exact HI|exact Hx|exact H|reflexivity|]. exact (HI _ _ Hx).
  - apply arg_ok in Heqo as [Hx _]. eapply upd_tidy; [exact HI|exact Hx|exact H|reflexivity|]. exact (HI _ _ Hx).
Qed.

Definition fixed (w : world) : Prop := forall x o, nth_error w x = Some o -> o_alive o = true -> 0 < refcount w x o.
Definition living (w : world) : nat := list_sum (map (fun o => if o_alive o then 1 else 0) w).
Lemma nth_ext_all {A} (l l' : list A) : (forall x, nth_error l x = nth_error l' x) -> l = l'.
Proof. apply nth_error_ext. Qed.
Lemma fixed_sweep w : fixed w -> sweep w = w.
Proof.
  intros H. apply nth_ext_all. intros x. rewrite nth_sweep. destruct (nth_error w x) as [o|] eqn:Ex; auto. cbn.
  destruct (Nat.eqb_spec (refcount w x o) 0) as [E0|]; auto. destruct (o_alive o) eqn:Ea.
  - specialize (H x o Ex Ea). lia.
  - destruct o. cbn in *. now subst.
Qed.
Lemma living_le l l' : length l = length l' ->
  (forall x o o', nth_error l x = Some o -> nth_error l' x = Some o' -> o_alive o' = true -> o_alive o = true) ->
  living l' <= living l /\ ((exists x o o', nth_error l x = Some o /\ nth_error l' x = Some o' /\ o_alive o = true /\ o_alive o' = false) -> living l' < living l).
Proof.
  revert l'. induction l as [|o l IH]; intros [|o' l'] Hl H; try discriminate; [split; [auto|]; intros ([|x] & ? & ? & X & _); discriminate|].
  injection Hl as Hl. destruct (IH l' Hl) as [I1 I2]; [intros x; apply (H (S x))|].
  pose proof (H 0 o o' eq_refl eq_refl) as H0. unfold living in *. cbn [map]. rewrite !list_sum_cons. split.
  - destruct (o_alive o'), (o_alive o); lia || (discriminate H0; auto).
  - intros (x & a & a' & Ha & Ha' & E & E'). destruct x as [|x]; cbn in Ha, Ha'.
    + injection Ha as ->. injection Ha' as ->. rewrite E, E'. lia.
    + assert (I3 := I2 (ex_intro _ x (ex_intro _ a (ex_intro _ a' (conj Ha (conj Ha' (conj E E'))))))).
      destruct (o_alive o'), (o_alive o); lia || (discriminate H0; auto).
Qed.
Lemma fixed_or_less w : fixed w \/ living (sweep w) < living w.
Proof.
  destruct (existsb (fun xo => o_alive (snd xo) && (refcount w (fst xo) (snd xo) =? 0)) (combine (seq 0 (length w)) w)) eqn:Ee.
  - right. apply existsb_exists in Ee as ([x o] & Hin & Hb). cbn in Hb. apply andb_true_iff in Hb as [Ha Hc].
    apply In_nth_error in Hin as [i Hi]. assert (Hx : nth_error w x = Some o).
    { clear -Hi. assert (G : forall s i, nth_error (combine (seq s (length w)) w) i = Some (x, o) -> s <= x /\ nth_error w (x - s) = Some o).
      { clear. induction w as [|a w IH]; intros s [|i] H; cbn in H; try discriminate.
        - injection H as -> ->. rewrite Nat.sub_diag. auto.
        - apply IH in H as [L H]. split; [lia|]. replace (x - s) with (S (x - S s)) by lia. exact H. }
      apply G in Hi as [_ Hi]. now rewrite Nat.sub_0_r in Hi. }
    apply living_le.
    + now rewrite sweep_length.
    + intros z a a' Hz Hz' Hal. rewrite nth_sweep, Hz in Hz'. cbn in Hz'. destruct (refcount w z a =? 0); injection Hz' as <-; auto. discriminate.
    + exists x, o, (die o). rewrite nth_sweep, Hx. cbn. rewrite Hc. auto.
  - left. intros x o Hx Ha. destruct (refcount w x o) as [|n] eqn:Ec; [|lia]. exfalso.
    assert (existsb (fun xo => o_alive (snd xo) && (refcount w (fst xo) (snd xo) =? 0)) (combine (seq 0 (length w)) w) = true) as Hy; [|congruence].
    apply existsb_exists. exists (x, o). split; [|cbn; now rewrite Ha, Ec].
    apply (nth_error_In _ x). clear -Hx. replace x with (0 + x) at 2 by lia. generalize 0 as s. revert x Hx.
    induction w as [|a w IH]; intros [|x] Hx s; cbn in *; try discriminate; [injection Hx as ->; now rewrite Nat.add_0_r|].
    rewrite (IH x Hx (S s)). do 2 f_equal. lia.
Qed.
Lemma collect_n_fixed n : forall w, living w <= n -> fixed (collect_n n w).
Proof.
  induction n as [|n IH]; intros w Hl; cbn.
  - intros x o Hx Ha. exfalso. assert (1 <= living w); [|lia]. unfold living. apply list_sum_ge. apply in_map_iff. exists o. rewrite Ha. split; auto.
    eapply nth_error_In; eauto.
  - destruct (fixed_or_less w) as [Hf|Hlt]; [|apply IH; lia].
    rewrite (fixed_sweep w Hf). clear -Hf. induction n as [|n IH]; cbn; auto. now rewrite (fixed_sweep w Hf).
Qed.
Lemma collect_fixed w : fixed (collect w).
Proof.
  apply collect_n_fixed. unfold living. induction w as [|o w IH]; auto. cbn [map length]. rewrite list_sum_cons. destruct (o_alive o); lia.
Qed.
Lemma run_tidy h : forall w w', Forall tidy h -> inv_owned w -> inv_tidy w -> fixed w -> run w h = Some w' -> inv_owned w' /\ inv_tidy w' /\ fixed w'.
Proof.
  induction h as [|o h IH]; intros w w' Hk HI HR HF H; cbn [run] in H; [injection H as <-; auto|].
  unfold step in H. args. inversion Hk as [|? ? Ho Hk']; subst.
  injection Heqo0 as <-. eapply IH; [auto| | | |eauto].
  - apply collect_inv; [apply sweep_owned|]. eapply act_owned; eauto. now destruct o.
  - apply collect_inv; [apply sweep_tidy|]. eapply act_tidy; eauto.
  - apply collect_fixed.
Qed.

(** An object lives exactly as long as the program can reach it. *)
Theorem C86_objects_live_as_long_as_reachable_partial h w x : Forall tidy h -> run [] h = Some w -> (alive w x <-> reachable w x).
Proof.
  intros Ht Hr. destruct (run_tidy h [] w Ht nil_owned) as (HI & HT & HF); auto; try (intros [|?]; discriminate).
  split.
  - assert (HV : forall z oz e, nth_error w z = Some oz -> o_alive oz = true -> o_bound oz = Some e -> held w z).
    { intros z oz e Hz Ha He. destruct (HT _ _ Hz) as (A & B & C). destruct (C e He) as [Kz _].
      destruct (counted _ _ _ (HF _ _ Hz Ha)) as [Hv|[Hl|(y & oy & Hy & Hya & Hin)]]; [exists oz; auto|lia|].
      destruct (HT _ _ Hy) as (A' & B' & C'). unfold owns in Hin. apply in_app_or in Hin as [Hin|Hin].
      - destruct (B' z Hin) as (_ & o' & Ho' & Hk). congruence.
      - destruct (o_bound oy) as [e'|] eqn:Eb; [|destruct Hin]. destruct Hin as [->|[]]. destruct (C' z eq_refl) as (_ & o' & Ho' & Hk). congruence. }
    intros (o & Hx & Ha). remember (length w - x) as d eqn:Ed. revert x o Hx Ha Ed. induction d as [d IH] using lt_wf_ind. intros x o Hx Ha ->.
    pose proof (nth_error_Some_lt _ _ _ Hx) as Hlx.
    destruct (HT _ _ Hx) as (A & B & C). destruct (counted _ _ _ (HF _ _ Hx Ha)) as [Hv|[Hl|(z & oz & Hz & Hza & Hin)]]; [apply reach_var; exists o; auto|lia|].
    destruct (HT _ _ Hz) as (A' & B' & C'). pose proof Hin as Hin'. unfold owns in Hin. apply in_app_or in Hin as [Hin|Hin].
    + destruct (B' x Hin) as (L & _). pose proof (nth_error_Some_lt _ _ _ Hz) as Hlz.
      eapply reach_owned; [eapply (IH (length w - z)); eauto; lia|eauto|auto].
    + destruct (o_bound oz) as [e|] eqn:Eb; [|destruct Hin]. eapply reach_owned; [apply reach_var; eauto|eauto|auto].
  - intros H. induction H as [x (o & Hx & Hv)|x o y _ IH Hx Hy].
    + exists o. split; auto. eapply HI; eauto.
    + destruct IH as (o' & Ho' & Ha). rewrite Hx in Ho'. injection Ho' as <-. eapply HI; eauto.
Qed.
(** In particular everything is freed once all variables are gone. *)
Theorem C86_everything_is_freed_partial h w : Forall tidy h -> run [] h = Some w -> (forall x, ~ held w x) -> forall x, ~ alive w x.
Proof.
  intros Ht Hr Hn x Ha. apply (C86_objects_live_as_long_as_reachable_partial h w x Ht Hr) in Ha. induction Ha; eauto. eapply Hn; eauto.
Qed.

(** * What is false *)
Ltac dangling y := eexists; split; [vm_compute; reflexivity|]; split; [eexists; split; [reflexivity|cbn; lia]|];
  intros [_ HU]; destruct (HU y) as (o & Ho & Ha); [eapply refers_direct; [reflexivity|cbn; auto]|]; injection Ho as <-; discriminate.
(** The tree, or a finite element, outlives its local view. *)
Theorem C85_tree_refuted : exists w,
  run [] [Grid; LeafView 0; Basis 1; LocalView 2; TreeOf 3; Del 3] = Some w /\ held w 4 /\ ~ usable w 4.
Proof. dangling 3. Qed.
Theorem C85_finite_element_refuted : exists w,
  run [] [Grid; LeafView 0; Basis 1; LocalView 2; TreeOf 3; FiniteElementOf 4; Del 3] = Some w /\ held w 5 /\ ~ usable w 5.
Proof. dangling 3. Qed.
(** The element of a view and the grid view of a basis do not keep the grid alive. *)
Theorem C85_element_refuted : exists w,
  run [] [Grid; LeafView 0; Element 1; Basis 1; LocalView 3; Bind 4 2; ElementOf 4; Del 0; Del 1; Del 2; Del 3; Del 4] = Some w /\ held w 5 /\ ~ usable w 5.
Proof. dangling 0. Qed.
Theorem C85_grid_view_refuted : exists w,
  run [] [Grid; LeafView 0; Basis 1; GridViewOf 2; Del 0; Del 1; Del 2] = Some w /\ held w 3 /\ ~ usable w 3.
Proof. dangling 0. Qed.
(** A basis that got a new grid view does not keep the new grid alive. *)
Theorem C85_new_grid_view_refuted : exists w,
  run [] [Grid; LeafView 0; Basis 1; Grid; LeafView 3; SetGridView 2 4; Del 3; Del 4] = Some w /\ held w 2 /\ ~ usable w 2.
Proof. dangling 3. Qed.
(** GridViewFunction(f) keeps neither the basis nor the array alive. *)
Theorem C85_grid_view_function_refuted : exists w,
  run [] [Grid; LeafView 0; Basis 1; Array; AsFunction 2 3; ToGridViewFunction 4; Del 4; Del 3] = Some w /\ held w 5 /\ ~ usable w 5.
Proof. dangling 3. Qed.
(** unbind() loses the reference to the element, which then lives for ever, and with it
    the grid. *)
Theorem C86_unbind_refuted : exists w,
  run [] [Grid; LeafView 0; Element 1; Basis 1; LocalView 3; Bind 4 2; Unbind 4; Del 0; Del 1; Del 2; Del 3; Del 4] = Some w /\
  (forall x, ~ held w x) /\ alive w 0 /\ alive w 1 /\ alive w 2.
Proof.
  eexists. split; [vm_compute; reflexivity|]. split.
  - intros x (o & Ho & Hv). do 5 (destruct x as [|x]; [injection Ho as <-; cbn in Hv; lia|]). destruct x; discriminate.
  - repeat split; eexists; split; reflexivity.
Qed.
(** Reading f.basis makes the basis and the function keep each other alive. *)
Theorem C86_function_basis_refuted : exists w,
  run [] [Grid; LeafView 0; Basis 1; Array; AsFunction 2 3; BasisOf 4; Del 2; Del 2; Del 4; Del 3; Del 1; Del 0] = Some w /\
  (forall x, ~ held w x) /\ alive w 0 /\ alive w 2 /\ alive w 3 /\ alive w 4.
Proof.
  eexists. split; [vm_compute; reflexivity|]. split.
  - intros x (o & Ho & Hv). do 5 (destruct x as [|x]; [injection Ho as <-; cbn in Hv; lia|]). destruct x; discriminate.
  - repeat split; eexists; split; reflexivity.
Qed.

(** * The hypotheses are met *)
(** All variables but that of the local function of a function over a subspace are deleted. *)
Definition ex85 : list op :=
  [Grid; LeafView 0; Basis 1; Subspace 2; Array; AsFunction 3 4; LocalFunction 5; LocalView 3; Element 1; Bind 7 8;
   Del 0; Del 1; Del 2; Del 3; Del 4; Del 5; Del 8].
Example C85_hypotheses_met : Forall kept ex85 /\ Forall tidy ex85 /\
  exists w, run [] ex85 = Some w /\ held w 6 /\ held w 7 /\ ~ held w 0 /\ alive w 0 /\ refers_to w 6 0.
Proof.
  split; [repeat constructor|]. split; [repeat constructor|]. eexists. split; [vm_compute; reflexivity|].
  split; [eexists; split; [reflexivity|cbn; lia]|]. split; [eexists; split; [reflexivity|cbn; lia]|].
  split; [intros (o & Ho & Hv); injection Ho as <-; cbn in Hv; lia|]. split; [eexists; split; reflexivity|].
  eapply refers_trans; [eapply refers_direct; [reflexivity|cbn; left; reflexivity]|].
  eapply refers_trans; [eapply refers_direct; [reflexivity|cbn; left; reflexivity]|].
  eapply refers_direct; [reflexivity|cbn; left; reflexivity].
Qed.
Example C86_hypotheses_met : exists w, run [] (ex85 ++ [Del 6; Del 7]) = Some w /\ (forall x, ~ held w x) /\ Forall tidy (ex85 ++ [Del 6; Del 7]).
Proof.
  eexists. split; [vm_compute; reflexivity|]. split; [|repeat constructor].
  intros x (o & Ho & Hv). do 9 (destruct x as [|x]; [injection Ho as <-; cbn in Hv; lia|]). destruct x; discriminate.
Qed.

Print Assumptions C85_held_objects_are_usable_partial.
Print Assumptions C85_tree_refuted.
Print Assumptions C85_finite_element_refuted.
Print Assumptions C85_element_refuted.
Print Assumptions C85_grid_view_refuted.
Print Assumptions C85_new_grid_view_refuted.
Print Assumptions C85_grid_view_function_refuted.
Print Assumptions C86_objects_live_as_long_as_reachable_partial.
Print Assumptions C86_everything_is_freed_partial.
Print Assumptions C86_unbind_refuted.
Print Assumptions C86_function_basis_refuted.
