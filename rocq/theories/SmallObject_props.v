(** C03: type-erased handles own exactly one object and have value semantics. *)
From Coq Require Import List Arith Bool Lia.
From Verif Require Import Lib SmallObject_model SmallObject_spec.
Import ListNotations.

Lemma loc_eqb_spec a b : reflect (a = b) (loc_eqb a b).
Proof.
  destruct a as [x|x], b as [y|y]; cbn; try (constructor; congruence);
    destruct (Nat.eqb_spec x y); constructor; congruence.
Qed.
Lemma loc_eqb_refl a : loc_eqb a a = true.
Proof. destruct (loc_eqb_spec a a); congruence. Qed.

Section Props.
Context {T V : Type} (sizeOf alignOf : T -> nat) (bufferSize bufferAlignment : nat) (moved_from : T -> V -> V).
Notation op := (@op T V).
Notation st := (@st T V).
Notation world := (@world T V).
Notation small t := (useBuffer sizeOf alignOf bufferSize bufferAlignment t).
Notation exec := (exec sizeOf alignOf bufferSize bufferAlignment moved_from).
Notation effect := (effect sizeOf alignOf bufferSize bufferAlignment moved_from).
Notation effects := (effects sizeOf alignOf bufferSize bufferAlignment moved_from).
Notation after_move := (after_move sizeOf alignOf bufferSize bufferAlignment moved_from).
Notation legal := (legal sizeOf alignOf bufferSize bufferAlignment).
Notation legal_history := (legal_history sizeOf alignOf bufferSize bufferAlignment moved_from).
Notation all_runs := (all_runs sizeOf alignOf bufferSize bufferAlignment moved_from).
Notation observes := (observes sizeOf alignOf bufferSize bufferAlignment).

Definition relh (s : st) (h : nat) (c : @content T V) : Prop :=
  match c with
  | None => hs s h = None
  | Some None => hs s h = Some None
  | Some (Some (t, v)) => exists l i, hs s h = Some (Some l) /\ mem s l = Some (Ob i t v) /\
                          if small t then l = LBuf h else exists a, l = LHeap a
  end.
Definition Inv (s : st) (w : world) : Prop := ownership s /\ forall h, relh s h (w h).
(** Invariant while handle h holds no live object. *)
Definition InvX (s : st) (w : world) (h : nat) : Prop :=
  ownership s /\ (forall h', h' <> h -> relh s h' (w h')) /\ (forall l, hs s h = Some (Some l) -> mem s l = None).

Lemma Inv_ext s w w' : Inv s w -> (forall h, w h = w' h) -> Inv s w'.
Proof. intros (O & R) E. split; auto. intros h. rewrite <- E. apply R. Qed.

Lemma none_X s w h : Inv s w -> w h = None -> InvX s w h.
Proof.
  intros (O & R) E. split; auto. split; auto. intros l H. specialize (R h). rewrite E in R. cbn in R. congruence.
Qed.

Lemma kill_ok (s : st) l o : ownership s -> mem s l = Some o ->
  exists s', kill l s = Some s' /\ ownership s' /\ hs s' = hs s /\
  (forall l', mem s' l' = if loc_eqb l' l then None else mem s l').
Proof.
  intros [O1 O2 O3 O4] M. unfold kill. rewrite M. cbn [obind]. eexists. split; [reflexivity|].
  destruct (O4 l o M) as (B & Nd & U & _).
  split; [|split; [reflexivity|reflexivity]]. constructor; cbn.
  - now constructor.
  - intros i [<-|H]; auto.
  - intros i Hi. destruct (O3 i Hi) as [D|(l' & o' & M' & I)]; auto.
    destruct (loc_eqb_spec l' l) as [->|ne].
    + left. left. congruence.
    + right. exists l', o'. destruct (loc_eqb_spec l' l); [contradiction|]. auto.
  - intros l' o' M'. destruct (loc_eqb_spec l' l) as [->|ne]; [discriminate|].
    destruct (O4 l' o' M') as (B' & Nd' & U' & h & Hh & Hu). split; auto. split; [|split].
    + intros [E|D]; [|contradiction]. apply ne. apply (U l' o' M'). congruence.
    + intros l2 o2 M2 E. destruct (loc_eqb_spec l2 l); [discriminate|]. eapply U'; eauto.
    + exists h. auto.
Qed.

Lemma destroy_ok s w h : Inv s w -> w h <> None ->
  exists s', destroyWrapped h s = Some s' /\ InvX s' w h /\ hs s' = hs s /\
  (forall l, mem s l = None -> mem s' l = None).
Proof.
  intros (O & R) H. unfold destroyWrapped. pose proof (R h) as Rh.
  destruct (w h) as [[(t, v)|]|] eqn:W; [| |congruence]; cbn in Rh.
  - destruct Rh as (l & i & Hh & M & L). rewrite Hh. cbn [obind].
    assert (K : exists s', kill l s = Some s' /\ InvX s' w h /\ hs s' = hs s /\ (forall l, mem s l = None -> mem s' l = None)).
    { destruct (kill_ok s l _ O M) as (s' & K & O' & Eh & Em). exists s'. split; auto.
      split; [|split; auto].
      - split; auto. split.
        + intros h' ne. specialize (R h'). destruct (w h') as [[(t', v')|]|] eqn:W'; cbn in R |- *; rewrite Eh; auto.
          destruct R as (l' & i' & Hh' & M' & L'). exists l', i'. split; auto. split; auto. rewrite Em.
          destruct (loc_eqb_spec l' l) as [->|]; auto. exfalso. apply ne.
          destruct (ow_alive s O l _ M) as (_ & _ & _ & k & Hk & U). rewrite (U h Hh). now apply U.
        + intros l' Hl. rewrite Eh, Hh in Hl. injection Hl as <-. now rewrite Em, loc_eqb_refl.
      - intros l' M'. rewrite Em. destruct (loc_eqb l' l); auto. }
    cbn [bufferUsed]. destruct (loc_eqb_spec l (LBuf h)); auto.
    destruct (small t); [congruence|]. destruct L as (a & ->). auto.
  - rewrite Rh. cbn [obind]. exists s. split; auto. split; [|auto]. split; auto. split; auto. congruence.
Qed.

Lemma buffer_free s w h : InvX s w h -> mem s (LBuf h) = None.
Proof.
  intros (O & R & D). destruct (mem s (LBuf h)) as [o|] eqn:M; auto. exfalso.
  destruct (ow_alive s O _ _ M) as (_ & _ & _ & k & Hk & _).
  destruct (Nat.eq_dec k h) as [->|ne]; [rewrite (D _ Hk) in M; discriminate|].
  specialize (R k ne). destruct (w k) as [[(t, v)|]|]; cbn in R; try congruence.
  destruct R as (l & i & Hk' & _ & L). rewrite Hk in Hk'. injection Hk' as <-.
  destruct (small t); [congruence|]. now destruct L.
Qed.

Lemma new_ok s w h l t v : InvX s w h -> mem s l = None -> (if small t then l = LBuf h else exists a, l = LHeap a) ->
  exists s1, new_at l t v s = Some s1 /\ hs s1 = hs s /\
    mem s1 = (fun l' => if loc_eqb l' l then Some (Ob (next s) t v) else mem s l') /\
    Inv (set_h s1 h (Some (Some l))) (set w h (Some (Some (t, v)))).
Proof.
  intros (O & R & D) M L. unfold new_at. rewrite M. eexists. split; [reflexivity|]. split; [reflexivity|]. split; [reflexivity|].
  destruct O as [O1 O2 O3 O4]. split.
  - constructor; cbn.
    + auto.
    + intros i Hi. specialize (O2 i Hi). lia.
    + intros i Hi. destruct (Nat.eq_dec i (next s)) as [->|ne].
      * right. exists l, (Ob (next s) t v). rewrite loc_eqb_refl. auto.
      * destruct (O3 i) as [|(l' & o' & M' & I)]; [lia|auto|]. right. exists l', o'.
        destruct (loc_eqb_spec l' l); [congruence|auto].
    + intros l' o' M'. destruct (loc_eqb_spec l' l) as [->|ne].
      * injection M' as <-. cbn. split; [lia|]. split; [intros C; specialize (O2 _ C); lia|]. split.
        -- intros l2 o2 M2 E. destruct (loc_eqb_spec l2 l); auto. destruct (O4 _ _ M2) as (B & _). lia.
        -- exists h. rewrite Nat.eqb_refl. split; auto. intros h'. destruct (Nat.eqb_spec h' h); auto.
           intros Hh'. specialize (R h' n). destruct (w h') as [[(t', v')|]|]; cbn in R; try congruence.
           destruct R as (l2 & i2 & Hk & Mk & _). congruence.
      * destruct (O4 l' o' M') as (B & Nd & U & k & Hk & Uk). split; [lia|]. split; auto. split.
        -- intros l2 o2 M2 E. destruct (loc_eqb_spec l2 l) as [->|]; [|eapply U; eauto].
           injection M2 as <-. cbn in E. lia.
        -- exists k. assert (k <> h) by (intros ->; rewrite (D _ Hk) in M'; discriminate).
           destruct (Nat.eqb_spec k h); [contradiction|]. split; auto.
           intros h'. destruct (Nat.eqb_spec h' h); [intros [= C]; congruence|]. apply Uk.
  - intros h'. unfold set. destruct (Nat.eqb_spec h' h) as [->|ne].
    + cbn. exists l, (next s). rewrite Nat.eqb_refl, loc_eqb_refl. auto.
    + specialize (R h' ne). destruct (w h') as [[(t', v')|]|] eqn:W; cbn in R |- *;
        (destruct (Nat.eqb_spec h' h); [contradiction|]); auto.
      destruct R as (l' & i & Hh & M' & L'). exists l', i. split; auto. split; auto.
      destruct (loc_eqb_spec l' l); [congruence|auto].
Qed.

Lemma write_ok s w h t v v' l i : Inv s w -> w h = Some (Some (t, v)) -> hs s h = Some (Some l) ->
  mem s l = Some (Ob i t v) -> Inv (set_m s l (Some (Ob i t v'))) (set w h (Some (Some (t, v')))).
Proof.
  intros ([O1 O2 O3 O4] & R) W Hh M. destruct (O4 l _ M) as (_ & _ & _ & k & Hk & Uk).
  split.
  - constructor; cbn; auto.
    + intros j Hj. destruct (O3 j Hj) as [|(l' & o' & M' & I)]; auto. right.
      destruct (loc_eqb_spec l' l) as [->|].
      * exists l, (Ob i t v'). rewrite loc_eqb_refl. split; auto. cbn. rewrite M in M'. injection M' as <-. exact I.
      * exists l', o'. destruct (loc_eqb_spec l' l); [contradiction|auto].
    + intros l' o' M'.
      assert (X : exists o0, mem s l' = Some o0 /\ o_id o0 = o_id o').
      { destruct (loc_eqb_spec l' l) as [->|]; [injection M' as <-; eauto|eauto]. }
      destruct X as (o0 & M0 & E0). destruct (O4 l' o0 M0) as (B & Nd & U & hk). rewrite <- E0. split; auto. split; auto.
      split; auto. intros l2 o2 M2 E. destruct (loc_eqb_spec l2 l) as [->|].
      * injection M2 as <-. apply (U l (Ob i t v) M). exact E.
      * eapply U; eauto.
  - intros h'. unfold set. specialize (R h'). destruct (Nat.eqb_spec h' h) as [->|ne].
    + rewrite W in R. cbn in R. destruct R as (l2 & i2 & Hh2 & M2 & L2). cbn. exists l, i. rewrite loc_eqb_refl.
      split; auto. split; auto. rewrite Hh in Hh2. injection Hh2 as <-. exact L2.
    + destruct (w h') as [[(t', v2)|]|] eqn:W'; cbn in R |- *; auto.
      destruct R as (l' & i' & Hh' & M' & L'). exists l', i'. split; auto. split; auto.
      destruct (loc_eqb_spec l' l) as [->|]; auto. exfalso. apply ne. rewrite (Uk h Hh). now apply Uk.
Qed.

Lemma moveTo_ok s w h o : InvX s w h -> o <> h -> w o <> None ->
  exists s', moveTo moved_from h o s = Some s' /\ Inv s' (set (set w h (w o)) o (after_move (w o))).
Proof.
  intros X ne We. pose proof X as (O & R & D). pose proof (R o ne) as Ro. unfold moveTo.
  destruct (w o) as [[(t, v)|]|] eqn:W; [| |congruence]; cbn in Ro.
  - destruct Ro as (l & i & Ho & M & L). rewrite Ho. cbn [obind bufferUsed]. cbn [SmallObject_spec.after_move].
    destruct (small t) eqn:Sm.
    + subst l. rewrite loc_eqb_refl. cbn [obind]. rewrite M. cbn [obind o_type o_val o_id].
      pose proof (buffer_free s w h X) as F.
      destruct (new_ok s w h (LBuf h) t v X F) as (s1 & N1 & Eh & Em & I1); [now rewrite Sm|].
      rewrite N1. cbn [obind]. eexists. split; [reflexivity|].
      change (set_h (set_m s1 (LBuf o) (Some (Ob i t (moved_from t v)))) h (Some (Some (LBuf h))))
        with (set_m (set_h s1 h (Some (Some (LBuf h)))) (LBuf o) (Some (Ob i t (moved_from t v)))).
      apply (write_ok _ _ o t v (moved_from t v) (LBuf o) i I1).
      * unfold set. destruct (Nat.eqb_spec o h); [contradiction|auto].
      * cbn. destruct (Nat.eqb_spec o h); [contradiction|]. now rewrite Eh.
      * cbn. rewrite Em. destruct (loc_eqb_spec (LBuf o) (LBuf h)); [congruence|auto].
    + destruct L as (a & ->). cbn [loc_eqb]. eexists. split; [reflexivity|].
      destruct O as [O1 O2 O3 O4]. split.
      * constructor; cbn; auto. intros l' o' M'. destruct (O4 l' o' M') as (B & Nd & U & k & Hk & Uk).
        split; auto. split; auto. split; auto.
        destruct (loc_eqb_spec l' (LHeap a)) as [->|nl].
        -- exists h. rewrite Nat.eqb_refl. destruct (Nat.eqb_spec h o); [congruence|]. split; auto.
           intros h'. destruct (Nat.eqb_spec h' o); [discriminate|]. destruct (Nat.eqb_spec h' h); auto.
           intros Hh'. exfalso. apply n0. rewrite (Uk h' Hh'). symmetry. now apply Uk.
        -- exists k. assert (k <> h) by (intros ->; rewrite (D _ Hk) in M'; discriminate).
           assert (k <> o) by (intros ->; congruence).
           destruct (Nat.eqb_spec k o); [contradiction|]. destruct (Nat.eqb_spec k h); [contradiction|]. split; auto.
           intros h'. destruct (Nat.eqb_spec h' o); [discriminate|]. destruct (Nat.eqb_spec h' h); [intros [= C]; congruence|apply Uk].
      * intros h'. unfold set. destruct (Nat.eqb_spec h' o) as [->|no].
        { cbn. now rewrite Nat.eqb_refl. }
        destruct (Nat.eqb_spec h' h) as [->|nh].
        { cbn. exists (LHeap a), i. rewrite Nat.eqb_refl. destruct (Nat.eqb_spec h o); [congruence|].
          rewrite Sm. split; auto. split; auto. eauto. }
        specialize (R h' nh). destruct (w h') as [[(t', v')|]|]; cbn in R |- *;
          (destruct (Nat.eqb_spec h' o); [contradiction|]); (destruct (Nat.eqb_spec h' h); [contradiction|]); auto.
  - rewrite Ro. cbn [obind bufferUsed]. eexists. split; [reflexivity|].
    destruct O as [O1 O2 O3 O4]. split.
    * constructor; cbn; auto. intros l' o' M'. destruct (O4 l' o' M') as (B & Nd & U & k & Hk & Uk).
      split; auto. split; auto. split; auto. exists k.
      assert (k <> h) by (intros ->; rewrite (D _ Hk) in M'; discriminate).
      assert (k <> o) by (intros ->; congruence).
      destruct (Nat.eqb_spec k o); [contradiction|]. destruct (Nat.eqb_spec k h); [contradiction|]. split; auto.
      intros h'. destruct (Nat.eqb_spec h' o); [discriminate|]. destruct (Nat.eqb_spec h' h); [discriminate|apply Uk].
    * intros h'. unfold set. destruct (Nat.eqb_spec h' o) as [->|no].
      { cbn. now rewrite Nat.eqb_refl. }
      destruct (Nat.eqb_spec h' h) as [->|nh].
      { cbn. rewrite Nat.eqb_refl. destruct (Nat.eqb_spec h o); [congruence|auto]. }
      specialize (R h' nh). destruct (w h') as [[(t', v')|]|]; cbn in R |- *;
        (destruct (Nat.eqb_spec h' o); [contradiction|]); (destruct (Nat.eqb_spec h' h); [contradiction|]); auto.
Qed.

Lemma copyTo_ok s w h o a x : InvX s w h -> o <> h -> w o = Some (Some x) -> mem s (LHeap a) = None ->
  copyTo true a h o s = Some (s, true) /\
  exists s', copyTo false a h o s = Some (s', false) /\ Inv s' (set w h (Some (Some x))).
Proof.
  intros X ne W Fa. pose proof X as (O & R & D). pose proof (R o ne) as Ro. rewrite W in Ro. destruct x as (t, v).
  cbn in Ro. destruct Ro as (l & i & Ho & M & L). unfold copyTo. rewrite Ho. cbn [obind]. rewrite M. cbn [obind].
  split; auto. cbn [bufferUsed o_type o_val].
  assert (Q : mem s (if loc_eqb l (LBuf o) then LBuf h else LHeap a) = None /\
     if small t then (if loc_eqb l (LBuf o) then LBuf h else LHeap a) = LBuf h
     else exists a', (if loc_eqb l (LBuf o) then LBuf h else LHeap a) = LHeap a').
  { destruct (small t).
    - subst l. rewrite loc_eqb_refl. split; auto. eapply buffer_free; eauto.
    - destruct L as (b & ->). cbn [loc_eqb]. split; eauto. }
  destruct Q as (Q1 & Q2). destruct (new_ok s w h _ t v X Q1 Q2) as (s1 & -> & _ & _ & I1). cbn [obind].
  eexists. split; [reflexivity|]. exact I1.
Qed.

(** Destroyed or emptied handle. *)
Lemma drop_ok s w h p : InvX s w h -> (p = None \/ p = Some None) ->
  Inv (set_h s h p) (set w h (match p with None => None | Some _ => Some None end)).
Proof.
  intros (O & R & D) P. destruct O as [O1 O2 O3 O4]. split.
  - constructor; cbn; auto. intros l' o' M'. destruct (O4 l' o' M') as (B & Nd & U & k & Hk & Uk).
    split; auto. split; auto. split; auto. exists k.
    assert (k <> h) by (intros ->; rewrite (D _ Hk) in M'; discriminate).
    destruct (Nat.eqb_spec k h); [contradiction|]. split; auto.
    intros h'. destruct (Nat.eqb_spec h' h); [destruct P as [-> | ->]; discriminate|apply Uk].
  - intros h'. unfold set. destruct (Nat.eqb_spec h' h) as [->|nh].
    + destruct P as [-> | ->]; cbn; now rewrite Nat.eqb_refl.
    + specialize (R h' nh). destruct (w h') as [[(t', v')|]|]; cbn in R |- *;
        (destruct (Nat.eqb_spec h' h); [contradiction|]); auto.
Qed.

Lemma step_ok s w o a : Inv s w -> legal o w -> mem s (LHeap a) = None ->
  exists s' e, exec a o s = Some (s', e) /\ Inv s' (effect o w).
Proof.
  intros I L Fa. destruct o as [h|h t v|h o|thr h o|h|thr h o|h o|h v]; cbn [SmallObject_model.exec SmallObject_spec.effect] in *.
  - cbn in L. pose proof (none_X s w h I L) as X. pose proof (proj2 I h) as Rh. rewrite L in Rh. cbn in Rh.
    unfold fresh_handle. rewrite Rh. cbn [obind]. eexists _, _. split; [reflexivity|].
    exact (drop_ok s w h (Some None) X (or_intror eq_refl)).
  - cbn in L. pose proof (none_X s w h I L) as X. pose proof (proj2 I h) as Rh. rewrite L in Rh. cbn in Rh.
    unfold fresh_handle. rewrite Rh. cbn [obind].
    destruct (new_ok s w h (if small t then LBuf h else LHeap a) t v X) as (s1 & -> & _ & _ & I1).
    { destruct (small t); auto. eapply buffer_free; eauto. }
    { destruct (small t); eauto. }
    cbn [obind]. eexists _, _. split; [reflexivity|]. exact I1.
  - destruct L as (L & Lo). pose proof (none_X s w h I L) as X. pose proof (proj2 I h) as Rh. rewrite L in Rh. cbn in Rh.
    assert (ne : o <> h) by (intros ->; apply Lo; auto).
    unfold fresh_handle. rewrite Rh. cbn [obind]. destruct (moveTo_ok s w h o X ne Lo) as (s' & -> & I').
    cbn [obind]. eexists _, _. split; [reflexivity|]. destruct (Nat.eqb_spec h o); [congruence|exact I'].
  - destruct L as (L & x & Lo). pose proof (none_X s w h I L) as X. pose proof (proj2 I h) as Rh. rewrite L in Rh. cbn in Rh.
    assert (ne : o <> h) by (intros ->; congruence).
    unfold fresh_handle. rewrite Rh. cbn [obind]. destruct (copyTo_ok s w h o a x X ne Lo Fa) as (C1 & s' & C2 & I').
    destruct thr.
    + eexists _, _. split; [exact C1|exact I].
    + eexists _, _. split; [exact C2|]. rewrite Lo. exact I'.
  - cbn in L. destruct (destroy_ok s w h I L) as (s' & -> & X & _). cbn [obind]. eexists _, _. split; [reflexivity|].
    exact (drop_ok s' w h None X (or_introl eq_refl)).
  - destruct L as (L & Lo). destruct (Nat.eqb_spec o h) as [->|ne].
    + pose proof (proj2 I h) as Rh.
      assert (E : exists p, hs s h = Some p).
      { unfold exists_ in L. destruct (w h) as [[(t, v)|]|] eqn:W; cbn in Rh; [|eauto|congruence].
        destruct Rh as (l & i & Hh & _). eauto. }
      destruct E as (p & ->). cbn [obind]. eexists _, _. split; [reflexivity|].
      eapply Inv_ext; [exact I|]. intros h'. unfold set. destruct (Nat.eqb_spec h' h) as [->|]; auto.
    + destruct Lo as [->|((x & Lo) & ->)]; [congruence|].
      destruct (destroy_ok s w h I L) as (s1 & -> & X & _ & Em). cbn [obind].
      destruct (copyTo_ok s1 w h o a x X ne Lo (Em _ Fa)) as (_ & s' & C2 & I').
      eexists _, _. split; [exact C2|]. rewrite Lo. exact I'.
  - destruct L as (L & Lo & Ls). destruct (destroy_ok s w h I L) as (s1 & -> & X & Eh & Em). cbn [obind].
    destruct (Nat.eqb_spec h o) as [<-|ne].
    + unfold moveTo. rewrite Eh. pose proof (proj2 I h) as Rh.
      unfold exists_ in L. destruct (w h) as [[(t, v)|]|] eqn:W; cbn in Rh; [| |congruence].
      * destruct Rh as (l & i & Hh & M & Ll). rewrite (Ls eq_refl t v eq_refl) in Ll. destruct Ll as (b & ->).
        rewrite Hh. cbn [obind bufferUsed loc_eqb]. eexists _, _. split; [reflexivity|].
        pose proof (drop_ok s1 w h (Some None) X (or_intror eq_refl)) as I1.
        destruct I1 as (O & R). split.
        -- destruct O as [O1 O2 O3 O4]. constructor; cbn in *; auto. intros l' o' M'.
           destruct (O4 l' o' M') as (B & Nd & U & k & Hk & Uk). split; auto. split; auto. split; auto.
           exists k. destruct (Nat.eqb_spec k h); [discriminate|]. split; auto.
           intros h' Hh'. apply Uk. destruct (Nat.eqb_spec h' h); auto.
        -- intros h'. specialize (R h'). destruct (set w h (Some None) h') as [[(t', v')|]|]; cbn in R |- *;
             destruct (Nat.eqb_spec h' h); auto.
      * rewrite Rh. cbn [obind bufferUsed]. eexists _, _. split; [reflexivity|].
        pose proof (drop_ok s1 w h (Some None) X (or_intror eq_refl)) as I1.
        destruct I1 as (O & R). split.
        -- destruct O as [O1 O2 O3 O4]. constructor; cbn in *; auto. intros l' o' M'.
           destruct (O4 l' o' M') as (B & Nd & U & k & Hk & Uk). split; auto. split; auto. split; auto.
           exists k. destruct (Nat.eqb_spec k h); [discriminate|]. split; auto.
           intros h' Hh'. apply Uk. destruct (Nat.eqb_spec h' h); auto.
        -- intros h'. specialize (R h'). destruct (set w h (Some None) h') as [[(t', v')|]|]; cbn in R |- *;
             destruct (Nat.eqb_spec h' h); auto.
    + destruct (moveTo_ok s1 w h o X) as (s' & -> & I'); auto. cbn [obind]. eexists _, _. split; [reflexivity|exact I'].
  - destruct L as ((t, v0) & L). pose proof (proj2 I h) as Rh. rewrite L in Rh. cbn in Rh.
    destruct Rh as (l & i & Hh & M & Ll). rewrite Hh. cbn [obind]. rewrite M. cbn [obind o_id o_type].
    eexists _, _. split; [reflexivity|]. rewrite L. now apply (write_ok s w h t v0 v l i).
Qed.

Lemma Inv_observes s w : Inv s w -> observes s w.
Proof.
  intros (O & R) h. specialize (R h). unfold obs_bool, obs_get, obs_buffer.
  destruct (w h) as [[(t, v)|]|]; cbn in R.
  - destruct R as (l & i & Hh & M & L). rewrite Hh. cbn [obind]. rewrite M. cbn [obind o_type o_val bufferUsed].
    split; auto. split; [intros x [= <-]; reflexivity|]. intros t' v' [= <- <-]. f_equal.
    destruct (small t); [subst l; apply loc_eqb_refl|]. destruct L as (a & ->). reflexivity.
  - rewrite R. split; [reflexivity|]. split; [discriminate|discriminate].
  - rewrite R. split; [reflexivity|]. split; [discriminate|discriminate].
Qed.
Lemma Inv_init : Inv init (fun _ => None).
Proof.
  split; [|intros h; reflexivity]. constructor; cbn; try tauto; try lia.
  - constructor.
  - discriminate.
Qed.
Lemma runs_ok ops : forall s w, Inv s w -> legal_history ops w ->
  all_runs ops s (fun s' => Inv s' (effects ops w)).
Proof.
  induction ops as [|o r IH]; intros s w I L; cbn [SmallObject_spec.all_runs]; auto.
  destruct L as (L & Lr). intros a Fa. destruct (step_ok s w o a I L Fa) as (s' & e & E & I').
  exists s', e. split; auto. now apply IH.
Qed.
Lemma all_runs_mono ops : forall s (P Q : st -> Prop), (forall s, P s -> Q s) -> all_runs ops s P -> all_runs ops s Q.
Proof.
  induction ops as [|o r IH]; intros s P Q H; cbn [SmallObject_spec.all_runs]; auto.
  intros A a Fa. destruct (A a Fa) as (s' & e & E & B). exists s', e. split; auto. eapply IH; eauto.
Qed.

(** Every execution of every legal history is defined; handles behave like values,
    and every object is owned once and destroyed at most once. *)
Theorem C03_histories ops : legal_history ops (fun _ => None) ->
  all_runs ops init (fun s => observes s (effects ops (fun _ => None)) /\ ownership s).
Proof.
  intros L. eapply all_runs_mono; [|apply runs_ok; [apply Inv_init|exact L]].
  intros s I. split; [now apply Inv_observes|apply I].
Qed.

(** An object is placed in the buffer exactly if it fits: its size is at most that of the
    buffer, and the alignment of the buffer is a multiple of its own. *)
Theorem C03_buffer_fits ops : (forall t, 0 < alignOf t) -> legal_history ops (fun _ => None) ->
  all_runs ops init (fun s => forall h t v, effects ops (fun _ => None) h = Some (Some (t, v)) ->
    (obs_buffer s h = Some true <-> sizeOf t <= bufferSize /\ exists k, bufferAlignment = k * alignOf t) /\
    (obs_buffer s h = Some true -> exists o, mem s (LBuf h) = Some o /\ o_type o = t /\ o_val o = v) /\
    (obs_buffer s h <> Some true -> exists a o, hs s h = Some (Some (LHeap a)) /\ mem s (LHeap a) = Some o /\ o_type o = t /\ o_val o = v)).
Proof.
  intros Al L. eapply all_runs_mono; [|apply runs_ok; [apply Inv_init|exact L]].
  intros s (O & R) h t v E. specialize (R h). rewrite E in R. cbn in R. destruct R as (l & i & Hh & M & Q). unfold obs_buffer. rewrite Hh. cbn [obind].
  assert (F : small t = true <-> sizeOf t <= bufferSize /\ exists k, bufferAlignment = k * alignOf t).
  { unfold useBuffer. rewrite andb_true_iff, Nat.leb_le, Nat.eqb_eq, Nat.mod_divides by (specialize (Al t); lia).
    split; intros (H1 & k & H2); (split; [exact H1|exists k; lia]). }
  rewrite <- F. destruct (small t) eqn:Sm.
  - subst l. cbn [bufferUsed]. rewrite loc_eqb_refl. repeat split; auto. + intros _. eexists. repeat split; [exact M|reflexivity|reflexivity]. + congruence.
  - destruct Q as (a & ->). cbn. repeat split; try discriminate. intros _. exists a. eexists. repeat split; [exact M|reflexivity|reflexivity].
Qed.

(** No leaks: when no handle is left, every object was destroyed, exactly once. *)
Theorem C03_no_leak ops : legal_history ops (fun _ => None) ->
  (forall h, effects ops (fun _ => None) h = None) ->
  all_runs ops init (fun s => (forall l, mem s l = None) /\ NoDup (dead s) /\ forall i, i < next s <-> In i (dead s)).
Proof.
  intros L Z. eapply all_runs_mono; [|apply runs_ok; [apply Inv_init|exact L]].
  intros s (O & R).
  assert (M : forall l, mem s l = None).
  { intros l. destruct (mem s l) as [o|] eqn:M; auto. exfalso.
    destruct (ow_alive s O l o M) as (_ & _ & _ & k & Hk & _). specialize (R k). rewrite Z in R. cbn in R. congruence. }
  split; auto. split; [apply O|]. intros i. split.
  - intros Hi. destruct (ow_all s O i Hi) as [|(l & o & Ml & _)]; auto. rewrite M in Ml. discriminate.
  - apply (ow_dead s O).
Qed.

(** A copy is equal to its source, and changing one does not change the other. *)
Theorem C03_copies_are_independent (w : world) h o v : legal (CopyCtor false h o) w ->
  let w1 := effect (CopyCtor false h o) w in
  w1 h = w o /\ w1 o = w o /\
  effect (Write h v) w1 o = w o /\ effect (Write o v) w1 h = w o.
Proof.
  intros (L & x & Lo). cbn. unfold set. assert (ne : o <> h) by (intros ->; congruence).
  rewrite Nat.eqb_refl, Lo. destruct (Nat.eqb_spec o h); [contradiction|]. destruct x as (t, v0). cbn.
  destruct (Nat.eqb_spec o h), (Nat.eqb_spec h o); try congruence. rewrite Nat.eqb_refl.
  destruct (Nat.eqb_spec h o); [congruence|]. auto.
Qed.

(** std::swap on two handles: T tmp = move(a); a = move(b); b = move(tmp); destroy tmp. *)
Definition swap_ops (tmp a b : nat) : list op :=
  [MoveCtor tmp a; MoveAssign a b; MoveAssign b tmp; Destroy tmp].
Theorem C03_swap (w : world) tmp a b : exists_ w a -> exists_ w b -> a <> b -> w tmp = None ->
  legal_history (swap_ops tmp a b) w /\
  let w' := effects (swap_ops tmp a b) w in
  w' a = w b /\ w' b = w a /\ forall h, h <> a -> h <> b -> w' h = w h.
Proof.
  intros Ha Hb ne Ht.
  assert (na : tmp <> a) by (intros ->; apply Ha; auto). assert (nb : tmp <> b) by (intros ->; apply Hb; auto).
  assert (Am : forall c, c <> None -> after_move c <> None).
  { intros [[(t, v)|]|]; cbn; try congruence. destruct (small t); congruence. }
  split.
  - cbn. unfold set, exists_ in *.
    repeat match goal with
    | |- context [?x =? ?y] => destruct (Nat.eqb_spec x y); try congruence
    end; repeat split; auto; try congruence; try (intros ->; congruence).
  - cbn. unfold set.
    repeat match goal with
    | |- context [?x =? ?y] => destruct (Nat.eqb_spec x y); try congruence
    end; repeat split; auto; intros h H1 H2;
    repeat match goal with
    | |- context [?x =? ?y] => destruct (Nat.eqb_spec x y); try congruence
    end.
Qed.

(** * The cases left out of [legal] *)
(** Copying an empty handle calls clone() on a null pointer. *)
Theorem C03_copy_of_empty_refuted ops h o : legal_history ops (fun _ => None) ->
  effects ops (fun _ => None) o = Some None -> o <> h ->
  all_runs ops init (fun s => forall a thr, exec a (CopyCtor thr h o) s = None /\ exec a (CopyAssign thr h o) s = None).
Proof.
  intros L E ne. eapply all_runs_mono; [|apply runs_ok; [apply Inv_init|exact L]].
  intros s (O & R) a thr. pose proof (R o) as Ro. rewrite E in Ro. cbn in Ro. split; cbn.
  - destruct (fresh_handle h s); cbn; auto. unfold copyTo. now rewrite Ro.
  - destruct (Nat.eqb_spec o h); [contradiction|].
    unfold destroyWrapped. destruct (hs s h) as [[l|]|]; cbn [obind]; auto.
    + assert (K : forall s1, kill l s = Some s1 -> copyTo thr a h o s1 = None).
      { intros s1 K. unfold kill in K. apply obind_Some in K as (x & _ & K). injection K as <-. unfold copyTo. cbn. now rewrite Ro. }
      cbn [bufferUsed]. destruct (loc_eqb l (LBuf h)).
      * destruct (kill l s) eqn:Kl; cbn; auto.
      * destruct l; auto. destruct (kill (LHeap a0) s) eqn:Kl; cbn; auto.
    + unfold copyTo. now rewrite Ro.
Qed.
(** Moving a handle with a small object to itself uses the destroyed object. *)
Theorem C03_self_move_refuted ops h t v : legal_history ops (fun _ => None) ->
  effects ops (fun _ => None) h = Some (Some (t, v)) -> small t = true ->
  all_runs ops init (fun s => forall a, exec a (MoveAssign h h) s = None).
Proof.
  intros L0 W Sm. eapply all_runs_mono; [|apply runs_ok; [apply Inv_init|exact L0]].
  intros s I a. set (w := effects ops (fun _ => None)) in *. cbn. destruct (destroy_ok s w h I) as (s1 & -> & X & Eh & _); [congruence|]. cbn [obind].
  unfold moveTo. rewrite Eh. pose proof (proj2 I h) as Rh. rewrite W in Rh. cbn in Rh.
  destruct Rh as (l & i & Hh & M & L). rewrite Sm in L. subst l. rewrite Hh. cbn [obind bufferUsed].
  rewrite loc_eqb_refl, (buffer_free s1 w h X). reflexivity.
Qed.
(** If the copy constructor of the wrapped object throws in a copy assignment, the
    handle keeps a pointer to the destroyed object: destroying it is undefined. *)
Theorem C03_throwing_copy_assignment_refuted ops h o : legal_history ops (fun _ => None) ->
  holds (effects ops (fun _ => None)) h -> holds (effects ops (fun _ => None)) o -> o <> h ->
  all_runs ops init (fun s => forall a, mem s (LHeap a) = None ->
    exists s', exec a (CopyAssign true h o) s = Some (s', true) /\ exec a (Destroy h) s' = None /\
               obs_bool s' h = Some true /\ obs_get s' h = None).
Proof.
  intros L0 ((t, v) & W) (x & Wo) ne. eapply all_runs_mono; [|apply runs_ok; [apply Inv_init|exact L0]].
  intros s I a Fa. set (w := effects ops (fun _ => None)) in *. cbn. destruct (Nat.eqb_spec o h); [contradiction|].
  destruct (destroy_ok s w h I) as (s1 & -> & X & Eh & Em); [congruence|]. cbn [obind].
  destruct (copyTo_ok s1 w h o a x X ne Wo (Em _ Fa)) as (C1 & _). exists s1. split; auto.
  pose proof (proj2 I h) as Rh. rewrite W in Rh. cbn in Rh. destruct Rh as (l & i & Hh & M & L).
  destruct X as (_ & _ & D). rewrite <- Eh in Hh. pose proof (D l Hh) as Dl.
  split; [|split].
  - unfold destroyWrapped. rewrite Hh. cbn [obind bufferUsed]. unfold kill.
    destruct (loc_eqb l (LBuf h)); [now rewrite Dl|]. destruct l; [reflexivity|now rewrite Dl].
  - unfold obs_bool. now rewrite Hh.
  - unfold obs_get. rewrite Hh. cbn [obind]. now rewrite Dl.
Qed.
End Props.

(** * Examples: classes are named by their size; a buffer of 56 bytes. *)
Definition ex_ops : list (@op nat nat) :=
  [Construct 0 8 10; Construct 1 100 20; CopyCtor false 2 0; CopyCtor true 3 1; Write 2 11; MoveCtor 3 1; MoveAssign 0 3;
   CopyAssign false 2 2; MoveAssign 2 1; Destroy 0; Destroy 1; Destroy 2; Destroy 3].
Example C03_ex_legal : legal_history (fun t => t) (fun _ => 8) 56 16 (fun _ _ => 0) ex_ops (fun _ => None) /\
  forall h, effects (fun t => t) (fun _ => 8) 56 16 (fun _ _ => 0) ex_ops (fun _ => None) h = None.
Proof.
  split.
  - cbn. unfold exists_, holds. cbn. repeat split; try discriminate; eauto.
  - intros h. cbn. unfold set. do 4 (destruct h as [|h]; [reflexivity|]). reflexivity.
Qed.
(** After seven operations: 0 holds the big object, 2 the changed copy, 1 and 3 are empty. *)
Example C03_ex_world : let w := effects (fun t => t) (fun _ => 8) 56 16 (fun _ _ => 0) (firstn 7 ex_ops) (fun _ => None) in
  w 0 = Some (Some (100, 20)) /\ w 1 = Some None /\ w 2 = Some (Some (8, 11)) /\ w 3 = Some None.
Proof. repeat split. Qed.
(** The refuted cases do occur. *)
Example C03_ex_refuted : 
  let run := fun o s => match SmallObject_model.exec (fun t : nat => t) (fun _ => 8) 56 16 (fun _ _ : nat => 0) (next s) o s with Some (s', _) => s' | None => s end in
  let s := run (Construct 1 8 2) (run (Construct 0 8 1) init) in
  SmallObject_model.exec (fun t => t) (fun _ => 8) 56 16 (fun _ _ => 0) 9 (MoveAssign 0 0) s = None /\
  (exists s', SmallObject_model.exec (fun t => t) (fun _ => 8) 56 16 (fun _ _ => 0) 9 (CopyAssign true 0 1) s = Some (s', true) /\
              SmallObject_model.exec (fun t => t) (fun _ => 8) 56 16 (fun _ _ => 0) 9 (Destroy 0) s' = None) /\
  SmallObject_model.exec (fun t => t) (fun _ => 8) 56 16 (fun _ _ => 0) 9 (CopyCtor false 2 3) (run (Default 3) s) = None.
Proof.
  split; [reflexivity|]. split; [|reflexivity]. eexists. split; reflexivity.
Qed.

Print Assumptions C03_histories.
Print Assumptions C03_buffer_fits.
Print Assumptions C03_no_leak.
Print Assumptions C03_copies_are_independent.
Print Assumptions C03_swap.
Print Assumptions C03_copy_of_empty_refuted.
Print Assumptions C03_self_move_refuted.
Print Assumptions C03_throwing_copy_assignment_refuted.
