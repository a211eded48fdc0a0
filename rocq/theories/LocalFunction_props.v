(** Local functions of grid functions (C44, C49). *)
From Coq Require Import List Arith Bool Reals Lia Lra.
From Verif Require Import Lib LocalFunction_model LocalFunction_spec.
Import ListNotations.

Section Props.
Context {E X Y V : Type}.
Variable G : grid E X Y.
Hypothesis OK : grid_ok G.
Notation gf := (gf E X Y V).
Notation lobj := (lobj E X Y V).

Fixpoint ok (g : gf) (o : lobj) (so : option E) : Prop :=
  match g, o with
  | GAna f, OAna f' elem geo => f = f' /\ geo = so /\ (so <> None -> elem = so)
  | GNormal f, ONormal f' elem geo => f = f' /\ geo = so /\ (so <> None -> elem = so)
  | GDis v dv, ODis v' dv' elem => v = v' /\ dv = dv' /\ elem = so
  | GComp h gs, OComp h' os =>
      h = h' /\ gs <> [] /\
      (fix go gs os := match gs, os with
                       | [], [] => True
                       | g :: gs', o :: os' => ok g o so /\ go gs' os'
                       | _, _ => False
                       end) gs os
  | GCoarse cs g, OCoarse cs' elem inner geos =>
      cs = cs' /\ elem = so /\ exists si, ok g inner si /\
        forall e, so = Some e -> exists a, nearest G cs e a geos /\ si = Some a
  | GFine fs g, OFine fs' elem inner fwd =>
      fs = fs' /\ elem = so /\ exists si, ok g inner si /\
        forall e, so = Some e -> refined G fs (fits G g) e /\ fwd = fs e /\ (fs e = true -> si = Some e)
  | _, _ => False
  end.

Fixpoint gf_ind' (P : gf -> Prop) (HA : forall f, P (GAna f)) (HN : forall f, P (GNormal f)) (HD : forall v dv, P (GDis v dv))
  (HC : forall h l, Forall P l -> P (GComp h l)) (HO : forall cs g, P g -> P (GCoarse cs g)) (HF : forall fs g, P g -> P (GFine fs g)) (g : gf) : P g :=
  match g with
  | GAna f => HA f | GNormal f => HN f | GDis v dv => HD v dv
  | GComp h l => HC h l ((fix go l := match l return Forall P l with [] => Forall_nil _ | g :: r => Forall_cons _ (gf_ind' P HA HN HD HC HO HF g) (go r) end) l)
  | GCoarse cs g => HO cs g (gf_ind' P HA HN HD HC HO HF g)
  | GFine fs g => HF fs g (gf_ind' P HA HN HD HC HO HF g)
  end.

(** ** The loops *)
Lemma ancestor_ok cs e a l : nearest G cs e a l -> forall fuel acc, gr_level G e <= fuel ->
  ancestor G fuel (fun e => negb (cs e)) e acc = Some (a, acc ++ l).
Proof.
  induction 1 as [e He|e f a l He Hf Hn IH]; intros fuel acc Hl.
  - destruct fuel; cbn; rewrite He; cbn; now rewrite app_nil_r.
  - pose proof (go_father _ OK _ _ Hf) as HL. destruct fuel as [|fuel]; [lia|]. cbn. rewrite He. cbn. rewrite Hf. cbn.
    rewrite IH by lia. now rewrite <- app_assoc.
Qed.
Lemma up_along_eq l x : map_up G l x = up_along G l x.
Proof. revert x. induction l as [|e l IH]; intros x; cbn; auto. Qed.

Lemma closest_child_ok l x : forall best,
  (forall b, best = Some b -> let '(c, y, d) := b in y = gr_down G c x /\ d = gr_dist G c y) ->
  (l <> [] \/ best <> None) ->
  exists c, closest_child G l x best = Some (c, gr_down G c x, gr_dist G c (gr_down G c x)) /\
    (In c l \/ exists y d, best = Some (c, y, d)) /\
    (forall c', In c' l -> (gr_dist G c (gr_down G c x) <= gr_dist G c' (gr_down G c' x))%R) /\
    (forall c' y d, best = Some (c', y, d) -> (gr_dist G c (gr_down G c x) <= d)%R).
Proof.
  induction l as [|c l IH]; intros best Hb Hne; cbn [closest_child].
  - destruct best as [[[c y] d]|]; [|destruct Hne; congruence]. destruct (Hb _ eq_refl) as [-> ->].
    exists c. split; auto. split; [right; eauto|]. split; [intros ? []|]. intros c' y d [= <- <- <-]. lra.
  - set (y := gr_down G c x). set (d := gr_dist G c y).
    destruct best as [[[c0 y0] d0]|].
    + destruct (Hb _ eq_refl) as [-> ->]. destruct (Rlt_dec d (gr_dist G c0 (gr_down G c0 x))) as [Hlt|Hge].
      * destruct (Req_EM_T d 0) as [H0|H0].
        -- exists c. split; auto. split; [left; now left|]. fold y d. split.
           ++ intros c' _. rewrite H0. apply (go_dist _ OK).
           ++ intros c' y' d' [= <- <- <-]. lra.
        -- destruct (IH (Some (c, y, d))) as (b & E1 & E2 & E3 & E4).
           { intros b [= <-]. auto. } { right; discriminate. }
           specialize (E4 c y d eq_refl). exists b. split; auto. split; [|split].
           ++ left. destruct E2 as [E2|(y' & d' & [= <- _ _])]; [now right|now left].
           ++ intros c' [<-|Hc]; auto.
           ++ intros c' y' d' [= <- <- <-]. lra.
      * destruct (IH (Some (c0, gr_down G c0 x, gr_dist G c0 (gr_down G c0 x)))) as (b & E1 & E2 & E3 & E4).
        { intros b [= <-]. auto. } { right; discriminate. }
        specialize (E4 c0 _ _ eq_refl). exists b. split; auto. split; [|split].
        ++ destruct E2 as [E2|(y' & d' & [= <- <- <-])]; [left; now right|right; eauto].
        ++ intros c' [<-|Hc]; [fold y d; lra|auto].
        ++ intros c' y' d' [= <- <- <-]. exact E4.
    + destruct (Req_EM_T d 0) as [H0|H0].
      * exists c. split; auto. split; [left; now left|]. fold y d. split; [|discriminate].
        intros c' _. rewrite H0. apply (go_dist _ OK).
      * destruct (IH (Some (c, y, d))) as (b & E1 & E2 & E3 & E4).
        { intros b [= <-]. auto. } { right; discriminate. }
        specialize (E4 c y d eq_refl). exists b. split; auto. split; [|split; [|discriminate]].
        ++ left. destruct E2 as [E2|(y' & d' & [= <- _ _])]; [now right|now left].
        ++ intros c' [<-|Hc]; auto.
Qed.
Lemma descend_ok fs P e : refined G fs P e -> fs e = false -> forall fuel x, gr_max G <= gr_level G e + fuel ->
  exists d y, descend G fuel fs e x = Some (d, y) /\ located G fs e x d y /\ P d /\ fs d = true.
Proof.
  induction 1 as [e He Hp|e He Hne Hc IH]; intros Hf fuel x Hl; [congruence|].
  destruct (closest_child_ok (gr_children G e) x None) as (c & E1 & E2 & E3 & _); [discriminate|now left|].
  destruct E2 as [E2|(y & d & H)]; [|discriminate].
  destruct (go_child _ OK e c E2) as [L1 L2]. destruct fuel as [|fuel]; [lia|]. cbn [descend]. rewrite E1. cbn [obind].
  assert (HC : closest G e x c) by (split; auto).
  destruct (fs c) eqn:Ec.
  - exists c, (gr_down G c x). split; auto. split; [|split; auto].
    + eapply loc_down; eauto. now apply loc_here.
    + specialize (Hc c E2). inversion Hc; auto. congruence.
  - destruct (IH c E2 Ec fuel (gr_down G c x)) as (d & y & D1 & D2 & D3 & D4); [lia|].
    exists d, y. split; auto. split; auto. eapply loc_down; eauto.
Qed.

(** ** The operations keep the invariant *)
Lemma new_ok g : composed_ok g -> ok g (lnew g) None.
Proof.
  induction g as [f|f|v dv|h l IH|cs g IH|fs g IH] using gf_ind'; cbn.
  1-3: intros _; repeat split; auto; congruence.
  - intros [Hne H]. split; auto. split; auto. clear Hne. induction l as [|g l IHl]; cbn; auto.
    inversion IH as [|? ? H1 H2]; subst. destruct H as [Ha Hb]. split; auto. apply IHl; auto.
  - intros H. split; auto. split; auto. exists None. split; auto. discriminate.
  - intros H. split; auto. split; auto. exists None. split; auto. discriminate.
Qed.
Lemma bind_ok g : forall o so e, ok g o so -> fits G g e -> exists o', lbind G o e = Some o' /\ ok g o' (Some e).
Proof.
  induction g as [f|f|v dv|h l IH|cs g IH|fs g IH] using gf_ind'; intros o so e Ho Hf; destruct o as [f' el ge|f' el ge|v' dv' el|h' os|cs' el inner geos|fs' el inner fwd]; try contradiction.
  - destruct Ho as (-> & _). eexists. split; [reflexivity|]. cbn. auto.
  - destruct Ho as (-> & _). eexists. split; [reflexivity|]. cbn. auto.
  - destruct Ho as (-> & -> & _). eexists. split; [reflexivity|]. cbn. auto.
  - destruct Ho as (-> & Hne & Ho). cbn [lbind].
    assert (HH : exists os', (fix go l := match l with [] => Some [] | a :: r => a' <- lbind G a e ;; r' <- go r ;; Some (a' :: r') end) os = Some os' /\
       (fix go gs os := match gs, os with [], [] => True | g :: gs', o :: os' => ok g o (Some e) /\ go gs' os' | _, _ => False end) l os').
    { clear Hne. revert os Ho Hf. induction l as [|g l IHl]; intros [|o os] Ho Hf; try contradiction; [eexists; split; [reflexivity|exact I]|].
      inversion IH as [|? ? H1 H2]; subst. destruct Ho as [Ho1 Ho2], Hf as [Hf1 Hf2].
      destruct (H1 o so e Ho1 Hf1) as (o' & -> & A). destruct (IHl H2 os Ho2 Hf2) as (os' & B1 & B2). cbn. cbn in B1. rewrite B1. cbn. eexists. split; [reflexivity|]. split; auto. }
    destruct HH as (os' & -> & HH). eexists. split; [reflexivity|]. cbn. auto.
  - destruct Ho as (-> & _ & si & Hi & _). destruct Hf as (a & l & Hn & Hfa).
    cbn [lbind]. rewrite (ancestor_ok _ _ _ _ Hn _ [] (le_n _)). cbn [obind app]. destruct (IH inner si a Hi Hfa) as (i' & -> & Hi').
    cbn [obind]. eexists. split; [reflexivity|]. cbn. split; auto. split; auto. exists (Some a). split; auto. intros e' [= <-]. eauto.
  - destruct Ho as (-> & _ & si & Hi & _). cbn [fits] in Hf. cbn [lbind]. destruct (fs' e) eqn:Ee.
    + assert (Hfe : fits G g e) by (inversion Hf; auto; congruence). destruct (IH inner si e Hi Hfe) as (i' & -> & Hi').
      eexists. split; [reflexivity|]. cbn. split; auto. split; auto. exists (Some e). split; auto. intros e' [= <-]. rewrite Ee. auto.
    + eexists. split; [reflexivity|]. cbn. split; auto. split; auto. exists si. split; auto. intros e' [= <-]. rewrite Ee. split; auto. split; auto. discriminate.
Qed.
Lemma unbind_ok g : forall o so, ok g o so -> ok g (lunbind o) None.
Proof.
  induction g as [f|f|v dv|h l IH|cs g IH|fs g IH] using gf_ind'; intros o so Ho; destruct o as [f' el ge|f' el ge|v' dv' el|h' os|cs' el inner geos|fs' el inner fwd]; try contradiction; cbn in *.
  - destruct Ho as (-> & _). repeat split; auto; congruence.
  - destruct Ho as (-> & _). repeat split; auto; congruence.
  - destruct Ho as (-> & -> & _). auto.
  - destruct Ho as (-> & Hne & Ho). split; auto. split; auto. clear Hne. revert os Ho.
    induction l as [|g l IHl]; intros [|o os] Ho; try contradiction; cbn; auto. inversion IH as [|? ? H1 H2]; subst. destruct Ho as [Ho1 Ho2]. split; [eauto|]. apply IHl; auto.
  - destruct Ho as (-> & _ & si & Hi & _). split; auto. split; auto. exists si. split; auto. discriminate.
  - destruct Ho as (-> & _ & si & Hi & _). split; auto. split; auto. exists si. split; auto. discriminate.
Qed.
Lemma fn_ok g : forall o so, ok g o so -> lfn o = g.
Proof.
  induction g as [f|f|v dv|h l IH|cs g IH|fs g IH] using gf_ind'; intros o so Ho; destruct o as [f' el ge|f' el ge|v' dv' el|h' os|cs' el inner geos|fs' el inner fwd]; try contradiction; cbn in *.
  - now destruct Ho as (-> & _).
  - now destruct Ho as (-> & _).
  - now destruct Ho as (-> & -> & _).
  - destruct Ho as (-> & Hne & Ho). f_equal. clear Hne. revert os Ho.
    induction l as [|g l IHl]; intros [|o os] Ho; try contradiction; cbn; auto. inversion IH as [|? ? H1 H2]; subst. destruct Ho as [Ho1 Ho2]. f_equal; [eauto|]. apply IHl; auto.
  - destruct Ho as (-> & _ & si & Hi & _). f_equal. eauto.
  - destruct Ho as (-> & _ & si & Hi & _). f_equal. eauto.
Qed.
Lemma bound_ok g : forall o so, ok g o so -> lbound o = is_some so.
Proof.
  induction g as [f|f|v dv|h l IH|cs g IH|fs g IH] using gf_ind'; intros o so Ho; destruct o as [f' el ge|f' el ge|v' dv' el|h' os|cs' el inner geos|fs' el inner fwd]; try contradiction; cbn in *.
  - now destruct Ho as (_ & -> & _).
  - now destruct Ho as (_ & -> & _).
  - now destruct Ho as (_ & _ & ->).
  - destruct Ho as (_ & Hne & Ho).
    assert (H : forall os, (fix go gs os := match gs, os with [], [] => True | g :: gs', o :: os' => ok g o so /\ go gs' os' | _, _ => False end) l os ->
              forallb lbound os = match l with [] => true | _ => is_some so end).
    { clear Hne Ho os. induction l as [|g l IHl]; intros [|o os] Ho; try contradiction; cbn; auto. inversion IH as [|? ? H1 H2]; subst. destruct Ho as [Ho1 Ho2].
      rewrite (H1 o so Ho1). rewrite (IHl H2 os Ho2). destruct l, (is_some so); auto. }
    rewrite (H os Ho). destruct l; congruence.
  - now destruct Ho as (_ & -> & _).
  - now destruct Ho as (_ & -> & _).
Qed.
Lemma context_ok g : forall o e, ok g o (Some e) -> lcontext o = Some e.
Proof.
  induction g as [f|f|v dv|h l IH|cs g IH|fs g IH] using gf_ind'; intros o e Ho; destruct o as [f' el ge|f' el ge|v' dv' el|h' os|cs' el inner geos|fs' el inner fwd]; try contradiction; cbn in *.
  - destruct Ho as (_ & -> & H). cbn. apply H. discriminate.
  - destruct Ho as (_ & -> & H). cbn. apply H. discriminate.
  - now destruct Ho as (_ & _ & ->).
  - destruct Ho as (_ & Hne & Ho). destruct l as [|g l]; [congruence|]. destruct os as [|o os]; [contradiction|]. inversion IH as [|? ? H1 H2]; subst. apply H1. apply Ho.
  - now destruct Ho as (_ & -> & _).
  - now destruct Ho as (_ & -> & _).
Qed.
Lemma eval_ok g : forall o e x, ok g o (Some e) ->
  exists v o', leval_at G g o x = Some (v, o') /\ ok g o' (Some e) /\ value G g e x v.
Proof.
  induction g as [f|f|v dv|h l IH|cs g IH|fs g IH] using gf_ind'; intros o e x Ho; destruct o as [f' el ge|f' el ge|v' dv' el|h' os|cs' el inner geos|fs' el inner fwd]; try contradiction.
  - destruct Ho as (-> & -> & H). do 2 eexists. split; [reflexivity|]. split; [cbn; auto|constructor].
  - destruct Ho as (-> & -> & H). do 2 eexists. split; [reflexivity|]. split; [cbn; auto|constructor].
  - destruct Ho as (-> & -> & ->). do 2 eexists. split; [reflexivity|]. split; [cbn; auto|constructor].
  - destruct Ho as (-> & Hne & Ho). cbn [leval_at].
    assert (HH : exists vs os', (fix go gs l := match gs, l with [], [] => Some ([], []) | g :: gs', a :: r => '(v, a') <- leval_at G g a x ;; '(vs, r') <- go gs' r ;; Some (v :: vs, a' :: r') | _, _ => None end) l os = Some (vs, os') /\
       (fix go gs os := match gs, os with [], [] => True | g :: gs', o :: os' => ok g o (Some e) /\ go gs' os' | _, _ => False end) l os' /\
       values G l e x vs).
    { clear Hne. revert os Ho. induction l as [|g l IHl]; intros [|o os] Ho; try contradiction; [do 2 eexists; split; [reflexivity|split; [exact I|constructor]]|].
      inversion IH as [|? ? H1 H2]; subst. destruct Ho as [Ho1 Ho2].
      destruct (H1 o e x Ho1) as (v & o' & A1 & A2 & A3). destruct (IHl H2 os Ho2) as (vs & os' & B1 & B2 & B3).
      cbn. cbn in B1. rewrite A1. cbn. rewrite B1. cbn. do 2 eexists. split; [reflexivity|]. split; auto. now constructor. }
    destruct HH as (vs & os' & -> & H1 & H2). cbn [obind]. do 2 eexists. split; [reflexivity|]. split; [cbn; auto|now constructor].
  - destruct Ho as (-> & -> & si & Hi & Ha). destruct (Ha e eq_refl) as (a & Hn & ->). cbn [leval_at].
    destruct (IH inner a (map_up G geos x) Hi) as (v & i' & -> & A2 & A3). cbn [obind]. do 2 eexists. split; [reflexivity|]. split.
    + cbn. split; auto. split; auto. exists (Some a). split; auto.
    + rewrite up_along_eq in A3. eapply val_coarse; eauto.
  - destruct Ho as (-> & -> & si & Hi & Ha). destruct (Ha e eq_refl) as (Hr & Hw & Hs). cbn [leval_at]. subst fwd. destruct (fs' e) eqn:Ee.
    + rewrite (Hs eq_refl) in Hi. destruct (IH inner e x Hi) as (v & i' & -> & A2 & A3). cbn [obind]. do 2 eexists. split; [reflexivity|]. split.
      * cbn. split; auto. split; auto. exists (Some e). split; auto. intros e' [= <-]. rewrite Ee. auto.
      * eapply val_fine; eauto. now apply loc_here.
    + cbn [obind]. destruct (descend_ok fs' (fits G g) e Hr Ee (gr_max G - gr_level G e) x) as (d & y & -> & D2 & D3 & D4); [lia|].
      cbn [obind]. destruct (bind_ok g inner si d Hi D3) as (i1 & -> & Hi1). cbn [obind].
      destruct (IH i1 d y Hi1) as (v & i' & -> & A2 & A3). cbn [obind]. do 2 eexists. split; [reflexivity|]. split.
      * cbn. split; auto. split; auto. exists (Some d). split; auto. intros e' [= <-]. split; auto. split; auto. congruence.
      * eapply val_fine; eauto.
Qed.
Lemma derivable_mono (g : gf) b : derivable g false = true -> derivable g b = true.
Proof. destruct g, b; cbn; auto. discriminate. Qed.
Lemma fits_dgf (g : gf) : forall (g' : gf) e, dgf g = Some g' -> fits G g e -> fits G g' e.
Proof.
  induction g as [f|f|v dv|h l IH|cs g IH|fs g IH] using gf_ind'; intros g' e Hd Hf; cbn in Hd; try discriminate.
  - injection Hd as <-. exact I.
  - destruct dv; [|discriminate]. injection Hd as <-. exact I.
  - apply obind_Some in Hd as (g1 & H1 & [= <-]). destruct Hf as (a & l & Hn & Hfa). exists a, l. split; auto.
  - apply obind_Some in Hd as (g1 & H1 & [= <-]). cbn in *. induction Hf as [e' He Hp|e' He Hne Hc IHc]; [apply ref_here; eauto|apply ref_down; auto].
Qed.
Lemma deriv_ok g : forall o so g', ok g o so -> dgf g = Some g' -> derivable g (is_some so) = true ->
  exists o', lderivative o = Some o' /\ ok g' o' so.
Proof.
  induction g as [f|f|v dv|h l IH|cs g IH|fs g IH] using gf_ind'; intros o so g' Ho Hd Hb; destruct o as [f' el ge|f' el ge|v' dv' el|h' os|cs' el inner geos|fs' el inner fwd]; try contradiction; cbn in Hd; try discriminate.
  - injection Hd as <-. destruct Ho as (-> & H). eexists. split; [reflexivity|]. cbn. auto.
  - destruct dv as [d|]; [|discriminate]. injection Hd as <-. destruct Ho as (-> & <- & ->). eexists. split; [reflexivity|]. cbn. auto.
  - apply obind_Some in Hd as (g1 & H1 & [= <-]). destruct Ho as (-> & -> & si & Hi & Ha). cbn in Hb. apply andb_true_iff in Hb as [Hb1 Hb2].
    destruct so as [e|]; [|discriminate]. destruct (Ha e eq_refl) as (a & Hn & ->). destruct (IH inner (Some a) g1 Hi H1 Hb2) as (i' & Hi1 & Hi2).
    cbn. rewrite Hi1. cbn. eexists. split; [reflexivity|]. cbn. split; auto. split; auto. eauto.
  - apply obind_Some in Hd as (g1 & H1 & [= <-]). destruct Ho as (-> & -> & si & Hi & Ha). cbn in Hb.
    destruct (IH inner si g1 Hi H1 (derivable_mono _ _ Hb)) as (i' & Hi1 & Hi2).
    cbn. rewrite Hi1. cbn. eexists. split; [reflexivity|]. cbn. split; auto. split; auto. exists si. split; auto.
    intros e He. destruct (Ha e He) as (A & B & C). split; auto. clear - A H1.
    induction A as [e' He Hp|e' He Hne Hc IHc]; [apply ref_here; auto; eapply fits_dgf; eauto|apply ref_down; auto].
Qed.

Definition inv (p : pool) (q : list lobj) := Forall2 (fun gs o => ok (fst gs) o (snd gs)) p q.
Lemma F2_get (p : pool) q i gs : inv p q -> nth_error p i = Some gs -> exists o, nth_error q i = Some o /\ ok (fst gs) o (snd gs).
Proof. intros H. revert i. induction H; intros [|i] Hi; try discriminate; cbn in *; eauto. injection Hi as ->. eauto. Qed.
Lemma F2_upd (p : pool) q i gs o p' : inv p q -> ok (fst gs) o (snd gs) -> upd p i gs = Some p' -> exists q', upd q i o = Some q' /\ inv p' q'.
Proof.
  intros H. revert i p'. induction H as [|a b l l0 Hab HF IH]; intros i p' Ho Hu; [destruct i; discriminate|].
  destruct i as [|i]; cbn in *.
  - injection Hu as <-. eexists. split; [reflexivity|]. now constructor.
  - destruct (upd l i gs) as [l'|] eqn:El; [|discriminate]. injection Hu as <-.
    destruct (IH i l' Ho El) as (l0' & -> & H'). eexists. split; [reflexivity|]. now constructor.
Qed.
Lemma upd_same {A} (l : list A) i x y : nth_error l i = Some x -> exists l', upd l i y = Some l'.
Proof. revert i. induction l as [|a l IH]; intros [|i] H; try discriminate; cbn; eauto. destruct (IH i H) as [l' ->]. eauto. Qed.
Lemma upd_id {A} (l : list A) i x : nth_error l i = Some x -> upd l i x = Some l.
Proof. revert i. induction l as [|a l IH]; intros [|i] H; try discriminate; cbn; [now injection H as ->|]. now rewrite (IH i H). Qed.

Lemma step_ok p o p' q : sstep G p o p' -> inv p q -> exists q', lstep G q o = Some q' /\ inv p' q'.
Proof.
  intros Hs HI. destruct Hs as [p g Hg|p i e g s p' Hi Hf Hu|p i g s p' Hi Hu|p i gs Hi|p i g s g' Hi Hd Hb|p i g e x Hi]; cbn [lstep].
  - eexists. split; [reflexivity|]. apply Forall2_app; auto. constructor; [|constructor]. now apply new_ok.
  - destruct (F2_get _ _ _ _ HI Hi) as (o & -> & Ho). cbn [obind]. destruct (bind_ok _ _ _ e Ho Hf) as (o' & -> & Ho'). cbn [obind].
    exact (F2_upd p q i (g, Some e) o' p' HI Ho' Hu).
  - destruct (F2_get _ _ _ _ HI Hi) as (o & -> & Ho). cbn [obind].
    exact (F2_upd p q i (g, None) (lunbind o) p' HI (unbind_ok _ _ _ Ho) Hu).
  - destruct (F2_get _ _ _ _ HI Hi) as (o & -> & Ho). cbn [obind]. eexists. split; [reflexivity|]. apply Forall2_app; auto.
  - destruct (F2_get _ _ _ _ HI Hi) as (o & -> & Ho). cbn [obind]. destruct (deriv_ok _ _ _ g' Ho Hd Hb) as (o' & -> & Ho'). cbn [obind].
    eexists. split; [reflexivity|]. apply Forall2_app; auto.
  - destruct (F2_get _ _ _ _ HI Hi) as (o & -> & Ho). cbn [obind fst snd] in *. unfold leval. rewrite (fn_ok _ _ _ Ho).
    destruct (eval_ok g o e x Ho) as (v & o' & -> & Ho' & _). cbn [obind].
    exact (F2_upd p q i (g, Some e) o' p HI Ho' (upd_id _ _ _ Hi)).
Qed.
Lemma run_ok p h p' : srun G p h p' -> forall q, inv p q -> exists q', lrun G q h = Some q' /\ inv p' q'.
Proof.
  induction 1 as [p|p o p' h p'' Hs Hr IH]; intros q HI; cbn; [eauto|].
  destruct (step_ok _ _ _ _ Hs HI) as (q' & -> & HI'). cbn. auto.
Qed.

(** ** The theorems *)

(** Every valid history works; bound() and localContext() report the element bound to. *)
Theorem C49_bind_state (h : list (lop E X Y V)) p :
  srun G [] h p -> exists q, lrun G [] h = Some q /\ length q = length p /\
    forall i g s, nth_error p i = Some (g, s) -> exists o, nth_error q i = Some o /\
      lbound o = is_some s /\ (s <> None -> lcontext o = s).
Proof.
  intros H. destruct (run_ok _ _ _ H [] (Forall2_nil _)) as (q & H1 & H2). exists q. split; auto. split.
  { clear - H2. induction H2; cbn; auto. }
  intros i g s Hi. destruct (F2_get _ _ _ _ H2 Hi) as (o & Ho & HO). cbn in HO. exists o. split; auto. split; [eapply bound_ok; eauto|].
  destruct s as [e|]; [intros _; eapply context_ok; eauto|congruence].
Qed.
(** A bound local function evaluates to the value of its function on that element;
    nothing else about the history matters. *)
Theorem C49_value (h : list (lop E X Y V)) p q i g e o x :
  srun G [] h p -> lrun G [] h = Some q -> nth_error p i = Some (g, Some e) -> nth_error q i = Some o ->
  exists v o', leval G o x = Some (v, o') /\ value G g e x v.
Proof.
  intros H Hq Hi Ho. destruct (run_ok _ _ _ H [] (Forall2_nil _)) as (q' & H1 & H2). rewrite Hq in H1. injection H1 as <-.
  destruct (F2_get _ _ _ _ H2 Hi) as (o' & Ho' & HO). rewrite Ho in Ho'. injection Ho' as <-. cbn in HO.
  unfold leval. rewrite (fn_ok _ _ _ HO). destruct (eval_ok g o e x HO) as (v & o' & A & _ & B). eauto.
Qed.
(** A derivative is bound to the same element as its origin and evaluates to the
    derivative. *)
Theorem C49_derivative (h : list (lop E X Y V)) p q i g s g' o x :
  srun G [] h p -> lrun G [] h = Some q -> nth_error p i = Some (g, s) -> nth_error q i = Some o ->
  dgf g = Some g' -> derivable g (is_some s) = true ->
  exists d, lderivative o = Some d /\ lbound d = is_some s /\ (s <> None -> lcontext d = s) /\
    (forall e, s = Some e -> exists v d', leval G d x = Some (v, d') /\ value G g' e x v).
Proof.
  intros H Hq Hi Ho Hd Hb. destruct (run_ok _ _ _ H [] (Forall2_nil _)) as (q' & H1 & H2). rewrite Hq in H1. injection H1 as <-.
  destruct (F2_get _ _ _ _ H2 Hi) as (o' & Ho' & HO). rewrite Ho in Ho'. injection Ho' as <-. cbn in HO.
  destruct (deriv_ok _ _ _ g' HO Hd Hb) as (d & A & B). exists d. split; auto. split; [eapply bound_ok; eauto|]. split.
  - destruct s as [e|]; [intros _; eapply context_ok; eauto|congruence].
  - intros e ->. unfold leval. rewrite (fn_ok _ _ _ B). destruct (eval_ok g' d e x B) as (v & o' & C & _ & D). eauto.
Qed.

(** The cached derivative handed out by CachedDerivativeLocalFunction is the derivative
    bound to the current element. *)
Theorem C49_cached_derivative (g g' : gf) h :
  composed_ok g -> dgf g = Some g' -> derivable g false = true ->
  (forall e, In (CBind e) h -> fits G g e) ->
  exists f d, cd_run G (lnew g, None) (h ++ [CDeriv]) = Some (f, Some d) /\
    let s := fold_left (fun s o => match o with CBind e => Some e | CDeriv => s end) h None in
    lbound f = is_some s /\ lbound d = is_some s /\ (s <> None -> lcontext f = s /\ lcontext d = s) /\
    (forall e x, s = Some e -> exists v d', leval G d x = Some (v, d') /\ value G g' e x v).
Proof.
  intros Hg Hd Hb Hh.
  assert (HI : forall h c s, (forall e, In (CBind e) h -> fits G g e) -> ok g (fst c) s ->
     match snd c with None => True | Some d => ok g' d s end -> (forall e, s = Some e -> fits G g e) ->
     exists c', cd_run G c h = Some c' /\ ok g (fst c') (fold_left (fun s o => match o with CBind e => Some e | CDeriv => s end) h s) /\
       match snd c' with None => forall h', h <> h' ++ [CDeriv] | Some d => ok g' d (fold_left (fun s o => match o with CBind e => Some e | CDeriv => s end) h s) end).
  { clear h Hh. intros h. induction h as [|o h IH]; intros [f d] s Hh Hf Hdd Hs; cbn [fst snd] in *.
    - exists (f, d). cbn. split; auto. split; auto. destruct d; auto. intros [|? ?]; discriminate.
    - assert (Hcons : forall q : option lobj, (match q with None => forall h', h <> h' ++ [CDeriv] | Some d => ok g' d (fold_left (fun s o => match o with CBind e => Some e | CDeriv => s end) (o :: h) s) end) ->
         (q = None -> o <> CDeriv) -> match q with None => forall h', o :: h <> h' ++ [CDeriv] | Some d => ok g' d (fold_left (fun s o => match o with CBind e => Some e | CDeriv => s end) (o :: h) s) end).
      { intros [q|] Hq Ho; auto. intros [|a h'] Hh'; cbn in Hh'; injection Hh' as Ha Hb'; [subst; now apply Ho|]. now apply (Hq h'). }
      destruct o as [e|]; cbn [cd_run].
      + assert (Hfe : fits G g e) by (apply Hh; now left). unfold cd_bind. cbn [fst snd].
        destruct (bind_ok _ _ _ e Hf Hfe) as (f' & -> & Hf'). cbn [obind].
        destruct d as [d|].
        * destruct (bind_ok _ _ _ e Hdd (fits_dgf _ _ _ Hd Hfe)) as (d' & -> & Hd'). cbn [obind].
          destruct (IH (f', Some d') (Some e)) as (c' & A & B & C); auto; [intros; apply Hh; now right|intros ? [= <-]; auto|].
          exists c'. split; auto. split; auto. apply Hcons; auto. discriminate.
        * destruct (IH (f', None) (Some e)) as (c' & A & B & C); auto; [intros; apply Hh; now right|intros ? [= <-]; auto|].
          exists c'. split; auto. split; auto. apply Hcons; auto. discriminate.
      + unfold cd_derivative. cbn [fst snd]. destruct d as [d|].
        * cbn [obind]. destruct (IH (f, Some d) s) as (c' & A & B & C); auto; [intros; apply Hh; now right|].
          exists c'. split; auto. split; auto. destruct (snd c') as [d'|] eqn:Ec; [exact C|].
          exfalso. clear - A Ec. revert f d A. induction h as [|o h IHh]; intros f d A; cbn in A; [injection A as <-; discriminate|].
          destruct o; cbn in A.
          -- apply obind_Some in A as (c1 & A1 & A). unfold cd_bind in A1. cbn in A1. apply obind_Some in A1 as (f1 & _ & A1). apply obind_Some in A1 as (d1 & _ & [= <-]). eauto.
          -- eauto.
        * destruct (deriv_ok g f s g' Hf Hd (derivable_mono _ _ Hb)) as (d & -> & Hd1). cbn [obind].
          assert (HX : exists d', (if lbound f then e <- lcontext f ;; d' <- lbind G d e ;; Some (f, Some d') else Some (f, Some d)) = Some (f, Some d') /\ ok g' d' s).
          { rewrite (bound_ok _ _ _ Hf). destruct s as [e|]; cbn [is_some]; [|eauto]. rewrite (context_ok _ _ _ Hf). cbn [obind].
            destruct (bind_ok _ _ _ e Hd1 (fits_dgf _ _ _ Hd (Hs e eq_refl))) as (d' & -> & Hd'). cbn. eauto. }
          destruct HX as (d' & -> & Hd'). cbn [obind].
          destruct (IH (f, Some d') s) as (c' & A & B & C); auto; [intros; apply Hh; now right|].
          exists c'. split; auto. split; auto. destruct (snd c') as [d2|] eqn:Ec; [exact C|].
          exfalso. clear - A Ec. revert f d' A. induction h as [|o h IHh]; intros f d A; cbn in A; [injection A as <-; discriminate|].
          destruct o; cbn in A.
          -- apply obind_Some in A as (c1 & A1 & A). unfold cd_bind in A1. cbn in A1. apply obind_Some in A1 as (f1 & _ & A1). apply obind_Some in A1 as (d1 & _ & [= <-]). eauto.
          -- eauto. }
  destruct (HI (h ++ [CDeriv]) (lnew g, None) None) as ([f d] & A & B & C); cbn [fst snd] in *; auto using new_ok.
  { intros e He. apply in_app_or in He as [He|[He|[]]]; auto. discriminate. } { discriminate. }
  destruct d as [d|]; [|exfalso; eapply C; eauto]. exists f, d. split; auto. rewrite fold_left_app in B, C. cbn [fold_left] in B, C.
  cbn zeta. set (s := fold_left _ h None) in *. split; [eapply bound_ok; eauto|]. split; [eapply bound_ok; eauto|]. split.
  - destruct s as [e|]; [intros _; split; eapply context_ok; eauto|congruence].
  - intros e x Hs. rewrite Hs in C. unfold leval. rewrite (fn_ok _ _ _ C). destruct (eval_ok g' d e x C) as (v & o' & D & _ & F). eauto.
Qed.

(** Evaluation of a fine function on a coarse element: the element the value is taken
    from lies in the fine entity set and is reached by choosing closest children. *)
Theorem C44_located_in_the_fine_set fs e x d y : located G fs e x d y -> fs d = true.
Proof. induction 1; auto. Qed.
Theorem C44_fine_value (h : list (lop E X Y V)) p q i fs g e o x :
  srun G [] h p -> lrun G [] h = Some q -> nth_error p i = Some (GFine fs g, Some e) -> nth_error q i = Some o ->
  exists v o' d y, leval G o x = Some (v, o') /\ located G fs e x d y /\ fs d = true /\ value G g d y v.
Proof.
  intros H Hq Hi Ho. destruct (C49_value h p q i _ e o x H Hq Hi Ho) as (v & o' & A & B). inversion B; subst.
  do 4 eexists. split; eauto. split; eauto. split; eauto. eapply C44_located_in_the_fine_set; eauto.
Qed.
(** If the point is inside and children cover their father, the descendant contains the
    point, and it is the same point. *)
Theorem C44_same_point fs e x d y :
  (forall c z, gr_up G c (gr_down G c z) = z) ->
  (forall e z, gr_dist G e z = 0%R -> gr_children G e <> [] -> exists c, In c (gr_children G e) /\ gr_dist G c (gr_down G c z) = 0%R) ->
  located G fs e x d y -> gr_dist G e x = 0%R ->
  gr_dist G d y = 0%R /\ exists l, up_along G l y = x.
Proof.
  intros Hinv Hcov. induction 1 as [e x He|e x c d y He [Hc1 Hc2] Hl IH]; intros H0.
  - split; auto. exists []. reflexivity.
  - destruct (Hcov e x H0) as (c' & A & B); [intros H; rewrite H in Hc1; destruct Hc1|].
    assert (HZ : gr_dist G c (gr_down G c x) = 0%R).
    { specialize (Hc2 c' A). pose proof (go_dist _ OK c (gr_down G c x)). lra. }
    destruct (IH HZ) as (C & l & D). split; auto. exists (l ++ [c]).
    assert (HA : forall l z, up_along G (l ++ [c]) z = gr_up G c (up_along G l z)) by (clear; induction l; intros z; cbn; auto).
    rewrite HA, D. apply Hinv.
Qed.
End Props.

(** derivative() of a coarse function's local function is undefined if it is not bound,
    although derivative() of every other local function may be called then. *)
Theorem C49_derivative_of_unbound_coarse_function_refuted {E X Y V} (G : grid E X Y) (f : nat -> Y -> V) cs :
  exists q, lrun G [] [LNew (GCoarse cs (GAna f))] = Some q /\
    (forall p, srun G [] [LNew (GCoarse cs (GAna f))] p -> p = [(GCoarse cs (GAna f), None)]) /\
    lrun G [] [LNew (GCoarse cs (GAna f)); LDerivF 0] = None /\
    exists q', lrun G [] [LNew (GAna f); LDerivF 0] = Some q'.
Proof.
  eexists. split; [reflexivity|]. split; [|split; [reflexivity|eexists; reflexivity]].
  intros p Hp. inversion Hp; subst. inversion H2; subst. inversion H4; subst. reflexivity.
Qed.

(** * The hypotheses are met *)

(** Dyadic intervals: element (l, k) is the k-th interval of level l; level at most 2. *)
Open Scope R_scope.
Definition ex_grid : grid (nat * nat) R R := GR _ _ _
  (fun e => match fst e with O => None | S l => Some (l, snd e / 2)%nat end)
  fst 2
  (fun e => if fst e <? 2 then [(S (fst e), 2 * snd e); (S (fst e), 2 * snd e + 1)] else [])%nat
  (fun e x => (x + INR (snd e mod 2)) / 2)
  (fun e x => 2 * x - INR (snd e mod 2))
  (fun _ x => Rmax 0 (Rmax (- x) (x - 1)))
  (fun e x => (INR (snd e) + x) / 2 ^ fst e).
Close Scope R_scope.
Lemma ex_grid_ok : grid_ok ex_grid.
Proof.
  constructor.
  - intros [[|l] k] f H; [discriminate|]. injection H as <-. reflexivity.
  - intros [l k] c. unfold ex_grid; cbn [gr_children gr_level gr_max fst snd]. destruct (Nat.ltb_spec l 2); [|intros []].
    intros [<-|[<-|[]]]; cbn; lia.
  - intros e x. cbn. apply Rmax_l.
Qed.
Definition ex_level (l : nat) (e : nat * nat) : bool := fst e =? l.
(** A function on level 2, coarsened to level 0; and a composition with a level 1
    function seen from level 2. *)
Definition ex_fine : gf (nat * nat) R R R := GFine (ex_level 2) (GAna (fun _ y => y)).
Definition ex_comp : gf (nat * nat) R R R :=
  GComp (fold_right Rplus 0%R) [GCoarse (ex_level 1) (GDis (fun e _ => INR (snd e)) None); GAna (fun _ y => y)].
Lemma ex_fine_fits : fits ex_grid ex_fine (0, 0).
Proof.
  cbn. repeat (apply ref_down; [reflexivity|cbn; discriminate|]; intros c; cbn; intros Hc;
    repeat (destruct Hc as [<-|Hc]; [first [now apply ref_here|idtac]|]); try contradiction).
Qed.
Lemma ex_comp_fits : fits ex_grid ex_comp (2, 3).
Proof.
  cbn. repeat split. exists (1, 1), [(2, 3)]. split; [|exact I]. eapply near_up; [reflexivity|reflexivity|]. now apply near_here.
Qed.
Example C49_hypotheses_met :
  srun ex_grid [] [LNew ex_fine; LNew ex_comp; LBindF 0 (0, 0); LEvalF 0 (1/3)%R; LBindF 1 (2, 3); LCopyF 1; LUnbindF 1; LDerivF 0]
    [(ex_fine, Some (0, 0)); (ex_comp, None); (ex_comp, Some (2, 3)); (GFine (ex_level 2) (GAna (fun _ y => y)), Some (0, 0))].
Proof.
  eapply sr_cons; [apply ss_new; exact I|].
  eapply sr_cons; [apply ss_new; cbn; repeat split; discriminate|].
  eapply sr_cons; [eapply ss_bind; [reflexivity|apply ex_fine_fits|reflexivity]|].
  eapply sr_cons; [eapply ss_eval; reflexivity|].
  eapply sr_cons; [eapply ss_bind; [reflexivity|apply ex_comp_fits|reflexivity]|].
  eapply sr_cons; [eapply ss_copy; reflexivity|].
  eapply sr_cons; [eapply ss_unbind; reflexivity|].
  eapply sr_cons; [eapply ss_deriv; reflexivity|].
  apply sr_nil.
Qed.
Example C44_covering_met :
  (forall c z, gr_up ex_grid c (gr_down ex_grid c z) = z) /\
  (forall e z, gr_dist ex_grid e z = 0%R -> gr_children ex_grid e <> [] ->
     exists c, In c (gr_children ex_grid e) /\ gr_dist ex_grid c (gr_down ex_grid c z) = 0%R).
Proof.
  split.
  - intros [l k] z. cbn. lra.
  - intros [l k] z. unfold ex_grid. cbn [gr_children gr_down gr_dist fst snd]. destruct (l <? 2); [|congruence]. intros Hz _.
    assert (Hb : (0 <= z <= 1)%R).
    { destruct (Rle_dec 0 z), (Rle_dec z 1); try lra; exfalso; revert Hz; unfold Rmax; repeat destruct (Rle_dec _ _); lra. }
    assert (M : forall y : R, (0 <= y <= 1)%R -> Rmax 0 (Rmax (- y) (y - 1)) = 0%R) by (intros y Hy; unfold Rmax; repeat destruct (Rle_dec _ _); lra).
    assert (E0 : (2 * k) mod 2 = 0) by (rewrite Nat.mul_comm; apply Nat.mod_mul; lia).
    assert (E1 : (2 * k + 1) mod 2 = 1) by (rewrite Nat.add_comm, Nat.mul_comm, Nat.mod_add; [reflexivity|lia]).
    destruct (Rle_dec (2 * z) 1).
    + exists (S l, 2 * k). split; [now left|]. cbn [fst snd]. apply M. rewrite E0. cbn. lra.
    + exists (S l, 2 * k + 1). split; [right; now left|]. cbn [fst snd]. apply M. rewrite E1. cbn. lra.
Qed.
Example C49_cached_met : composed_ok ex_fine /\ dgf ex_fine <> None /\ derivable ex_fine false = true /\
  forall e, In (CBind e) [CDeriv; CBind (0, 0); CDeriv] -> fits ex_grid ex_fine e.
Proof. repeat split; [discriminate|]. intros e [H|[[= <-]|[H|[]]]]; try discriminate. apply ex_fine_fits. Qed.

Print Assumptions C49_bind_state.
Print Assumptions C49_value.
Print Assumptions C49_derivative.
Print Assumptions C49_cached_derivative.
Print Assumptions C49_derivative_of_unbound_coarse_function_refuted.
Print Assumptions C44_located_in_the_fine_set.
Print Assumptions C44_fine_value.
Print Assumptions C44_same_point.
