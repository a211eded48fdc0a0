(** Proofs about threads (C75). *)
From Coq Require Import List Arith Bool Reals Lia.
From Verif Require Import Lib Basis_model Basis_spec Basis_proofs Basis_ok Basis_view Basis_props
  Container_model Container_spec Container_proofs FlatVector_model FlatVector_props
  Interpolate_model Interpolate_props DiscreteFunction_model DiscreteFunction_spec DiscreteFunction_proofs DiscreteFunction_props
  Threads_model Threads_spec.
Import ListNotations.
#[local] Arguments Nat.ltb : simpl never.

Section WP.
Context {E : Type}.
Notation mem := (mem E).
Notation val := (val E).
Notation prog := (prog E).

Lemma setm_same (m : mem) c v : setm m c v c = v.
Proof. unfold setm. destruct (cell_dec c c); congruence. Qed.
Lemma setm_other (m : mem) c v c' : c' <> c -> setm m c v c' = m c'.
Proof. intros H. unfold setm. destruct (cell_dec c' c); congruence. Qed.

(** Run alone from [m], the program does not fail, reads cells in [Rs] and writes cells
    in [Ws] only, and ends with [Q]. *)
Fixpoint wp {A} (Rs Ws : cell -> Prop) (p : prog A) (m : mem) (Q : A -> mem -> Prop) : Prop :=
  match p with
  | Ret a => Q a m
  | Fail => False
  | Rd c k => Rs c /\ wp Rs Ws (k (m c)) m Q
  | Wr c v k => Ws c /\ wp Rs Ws k (setm m c v) Q
  end.

Lemma wp_mono {A} (Rs Ws : cell -> Prop) (p : prog A) : forall m (Q Q' : A -> mem -> Prop),
  wp Rs Ws p m Q -> (forall a m', Q a m' -> Q' a m') -> wp Rs Ws p m Q'.
Proof. induction p as [a| |c k IH|c v k IH]; cbn; intros m Q Q' H HQ; intuition eauto. Qed.
Lemma wp_bind {A B} (Rs Ws : cell -> Prop) (p : prog A) (f : A -> prog B) : forall m (Q : B -> mem -> Prop),
  wp Rs Ws p m (fun a m' => wp Rs Ws (f a) m' Q) -> wp Rs Ws (pbind p f) m Q.
Proof. induction p as [a| |c k IH|c v k IH]; cbn; intros m Q H; intuition eauto. Qed.
Lemma wp_seq {A B} (Rs Ws : cell -> Prop) (p : prog A) (f : A -> prog B) m Q0 (Q : B -> mem -> Prop) :
  wp Rs Ws p m Q0 -> (forall a m', Q0 a m' -> wp Rs Ws (f a) m' Q) -> wp Rs Ws (pbind p f) m Q.
Proof. intros H K. apply wp_bind. eapply wp_mono; eauto. Qed.
Lemma wp_lift {A B} (Rs Ws : cell -> Prop) (o : option A) a (f : A -> prog B) m Q :
  o = Some a -> wp Rs Ws (f a) m Q -> wp Rs Ws (plift o f) m Q.
Proof. intros ->. auto. Qed.
Lemma wp_run {A} (Rs Ws : cell -> Prop) (p : prog A) : forall m Q, wp Rs Ws p m Q -> exists a m', run p m = Some (a, m') /\ Q a m'.
Proof. induction p as [a| |c k IH|c v k IH]; cbn; intros m Q H; [eauto|contradiction|apply IH, H|apply IH, H]. Qed.

(** A loop of accesses against a loop on values. *)
Lemma wp_forl {S T} (Rs Ws : cell -> Prop) (J : S -> T -> mem -> Prop) k : forall s (body : nat -> S -> option S) (pbody : nat -> T -> prog T) st st' pt m,
  J st pt m -> forl k s body st = Some st' ->
  (forall i st st' pt m, s <= i < s + k -> J st pt m -> body i st = Some st' -> wp Rs Ws (pbody i pt) m (fun pt' m' => J st' pt' m')) ->
  wp Rs Ws (pforl k s pbody pt) m (fun pt' m' => J st' pt' m').
Proof.
  induction k as [|k IH]; intros s body pbody st st' pt m HJ Hl Hb; cbn in *; [injection Hl as <-; auto|].
  apply obind_Some in Hl as (st1 & H1 & Hl). eapply wp_seq; [eapply Hb; eauto; lia|]. cbn. intros pt1 m1 HJ1.
  eapply IH; eauto. intros i st2 st3 pt2 m2 Hi. apply Hb. lia.
Qed.
Lemma wp_each {S T} (Rs Ws : cell -> Prop) (I : S -> mem -> Prop) (pbody : T -> S -> prog S) l : forall st m,
  I st m -> (forall x st m, In x l -> I st m -> wp Rs Ws (pbody x st) m I) -> wp Rs Ws (peach pbody l st) m I.
Proof.
  induction l as [|x l IH]; intros st m HI Hb; cbn; auto. eapply wp_seq; [apply Hb; [now left|auto]|]. cbn. intros. apply IH; auto.
  intros. apply Hb; auto. now right.
Qed.

(** * Threads *)
Section Interleaving.
Context {A : Type}.
Definition agree (Rs : cell -> Prop) (m m' : mem) : Prop := forall c, Rs c -> m c = m' c.
(** All threads are as they would be alone, with memories of their own. *)
Definition tinv (fps : list ((cell -> Prop) * (cell -> Prop) * (A -> mem -> Prop))) (s : conf E A) : Prop :=
  length (cf_threads s) = length fps /\
  forall t Rs Ws Q p, nth_error fps t = Some (Rs, Ws, Q) -> nth_error (cf_threads s) t = Some p ->
    exists g, agree Rs (cf_mem s) g /\ wp Rs Ws p g Q.
Definition disjoint_fps (fps : list ((cell -> Prop) * (cell -> Prop) * (A -> mem -> Prop))) : Prop :=
  forall t Rs Ws Q, nth_error fps t = Some (Rs, Ws, Q) -> (forall c, Ws c -> Rs c) /\
  forall t' Rs' Ws' Q', t' <> t -> nth_error fps t' = Some (Rs', Ws', Q') -> forall c, Ws c -> Rs' c -> False.

Lemma tinv_step fps t s s' : disjoint_fps fps -> tinv fps s -> cstep t s = Some s' -> tinv fps s'.
Proof.
  intros HD [HL HI] HS. unfold cstep in HS. apply obind_Some in HS as (p & Hp & HS).
  destruct (nth_error_lt_Some fps t) as [[[Rs Ws] Q] Hf]; [rewrite <- HL; eapply nth_error_Some_lt; eauto|].
  destruct (HI _ _ _ _ _ Hf Hp) as (g & Hg & Hw).
  destruct (HD _ _ _ _ Hf) as [Hsub Hdis].
  destruct p as [a| |c k|c v k]; try discriminate; apply obind_Some in HS as (l & Hl & HS); injection HS as <-; cbn in Hw; destruct Hw as [Hc Hw].
  - split; cbn [cf_threads cf_mem]; [rewrite (upd_length _ _ _ _ Hl); auto|]. intros t' Rs' Ws' Q' p' Hf' Hp'.
    rewrite (upd_nth_error _ _ _ _ t' Hl) in Hp'. destruct (Nat.eqb_spec t' t) as [->|Hne].
    + injection Hp' as <-. rewrite Hf in Hf'. injection Hf' as <- <- <-. exists g. split; auto. rewrite (Hg c Hc). auto.
    + eapply HI; eauto.
  - split; cbn [cf_threads cf_mem]; [rewrite (upd_length _ _ _ _ Hl); auto|]. intros t' Rs' Ws' Q' p' Hf' Hp'.
    rewrite (upd_nth_error _ _ _ _ t' Hl) in Hp'. destruct (Nat.eqb_spec t' t) as [->|Hne].
    + injection Hp' as <-. rewrite Hf in Hf'. injection Hf' as <- <- <-. exists (setm g c v). split; auto.
      intros c' Hc'. unfold setm. destruct (cell_dec c' c); auto.
    + destruct (HI _ _ _ _ _ Hf' Hp') as (g' & Hg' & Hw'). exists g'. split; auto. intros c' Hc'.
      rewrite setm_other; [auto|]. intros ->. eapply Hdis; eauto.
Qed.
Lemma tinv_run fps sched : forall s s', disjoint_fps fps -> tinv fps s -> crun sched s = Some s' -> tinv fps s'.
Proof.
  induction sched as [|t r IH]; intros s s' HD HI HS; cbn in HS; [injection HS as <-; auto|].
  apply obind_Some in HS as (s1 & H1 & HS). eapply IH; [auto| |eauto]. eapply tinv_step; eauto.
Qed.
Lemma tinv_no_race fps s : disjoint_fps fps -> tinv fps s -> ~ race s.
Proof.
  intros HD [HL HI] (t1 & t2 & p1 & p2 & w & c & Hne & H1 & H2 & N1 & N2).
  destruct (nth_error_lt_Some fps t1) as [[[Rs1 Ws1] Q1] F1]; [rewrite <- HL; eapply nth_error_Some_lt; eauto|].
  destruct (nth_error_lt_Some fps t2) as [[[Rs2 Ws2] Q2] F2]; [rewrite <- HL; eapply nth_error_Some_lt; eauto|].
  destruct (HI _ _ _ _ _ F1 H1) as (g1 & _ & W1). destruct (HI _ _ _ _ _ F2 H2) as (g2 & _ & W2).
  destruct (HD _ _ _ _ F1) as [_ D1]. destruct (HD _ _ _ _ F2) as [S2 _].
  destruct p1; try discriminate. injection N1 as ->. destruct W1 as [W1 _].
  apply (D1 _ _ _ _ (not_eq_sym Hne) F2 c W1).
  destruct p2; try discriminate; injection N2 as _ ->; destruct W2 as [W2 _]; auto.
Qed.
Lemma tinv_progress fps s t p : tinv fps s -> nth_error (cf_threads s) t = Some p ->
  (exists a, p = Ret a) \/ exists s', cstep t s = Some s'.
Proof.
  intros [HL HI] Hp.
  destruct (nth_error_lt_Some fps t) as [[[Rs Ws] Q] F]; [rewrite <- HL; eapply nth_error_Some_lt; eauto|].
  destruct (HI _ _ _ _ _ F Hp) as (g & _ & W). unfold cstep. rewrite Hp. cbn [obind].
  destruct p as [a| |c k|c v k]; [left; eauto|contradiction|right|right].
  - destruct (upd_Some (cf_threads s) t (k (cf_mem s c))) as [l ->]; [eapply nth_error_Some_lt; eauto|]. cbn. eauto.
  - destruct (upd_Some (cf_threads s) t k) as [l ->]; [eapply nth_error_Some_lt; eauto|]. cbn. eauto.
Qed.

(** Every thread can be run to its end. *)
Lemma finish_one fps t : disjoint_fps fps -> forall p s, tinv fps s -> nth_error (cf_threads s) t = Some p ->
  exists sched s' a, crun sched s = Some s' /\ nth_error (cf_threads s') t = Some (Ret a) /\
    forall t', t' <> t -> nth_error (cf_threads s') t' = nth_error (cf_threads s) t'.
Proof.
  intros HD. induction p as [a| |c k IH|c v k IH]; intros s HI Hp.
  - exists [], s, a. split; [reflexivity|auto].
  - destruct (tinv_progress _ _ _ _ HI Hp) as [[a Ha]|[s' Hs]]; [discriminate|]. unfold cstep in Hs. rewrite Hp in Hs. discriminate.
  - destruct (tinv_progress _ _ _ _ HI Hp) as [[a Ha]|[s' Hs]]; [discriminate|]. pose proof (tinv_step _ _ _ _ HD HI Hs) as HI'.
    unfold cstep in Hs. rewrite Hp in Hs. cbn [obind] in Hs. pose proof Hs as Hs0. apply obind_Some in Hs as (l & Hl & Hs). injection Hs as <-.
    destruct (IH (cf_mem s c) _ HI') as (sched & s2 & a & R & Hr & Hf).
    { cbn. rewrite (upd_nth_error _ _ _ _ t Hl), Nat.eqb_refl. reflexivity. }
    exists (t :: sched), s2, a. split; [|split; auto].
    + cbn. unfold cstep. rewrite Hp. cbn [obind]. rewrite Hl. cbn [obind]. exact R.
    + intros t' Ht'. rewrite Hf by auto. cbn. rewrite (upd_nth_error _ _ _ _ t' Hl). destruct (Nat.eqb_spec t' t); congruence.
  - destruct (tinv_progress _ _ _ _ HI Hp) as [[a Ha]|[s' Hs]]; [discriminate|]. pose proof (tinv_step _ _ _ _ HD HI Hs) as HI'.
    unfold cstep in Hs. rewrite Hp in Hs. cbn [obind] in Hs. apply obind_Some in Hs as (l & Hl & Hs). injection Hs as <-.
    destruct (IH _ HI') as (sched & s2 & a & R & Hr & Hf).
    { cbn. rewrite (upd_nth_error _ _ _ _ t Hl), Nat.eqb_refl. reflexivity. }
    exists (t :: sched), s2, a. split; [|split; auto].
    + cbn. unfold cstep. rewrite Hp. cbn [obind]. rewrite Hl. cbn [obind]. exact R.
    + intros t' Ht'. rewrite Hf by auto. cbn. rewrite (upd_nth_error _ _ _ _ t' Hl). destruct (Nat.eqb_spec t' t); congruence.
Qed.
Lemma crun_app s1 : forall s2 (s : conf E A), crun (s1 ++ s2) s = (s' <- crun s1 s ;; crun s2 s').
Proof. induction s1 as [|t r IH]; intros; cbn; auto. destruct (cstep t s); cbn; auto. Qed.
Lemma finish_all fps : disjoint_fps fps -> forall n s, tinv fps s -> n <= length (cf_threads s) ->
  exists sched s', crun sched s = Some s' /\ length (cf_threads s') = length (cf_threads s) /\
    forall t, t < n -> exists a, nth_error (cf_threads s') t = Some (Ret a).
Proof.
  intros HD. induction n as [|n IH]; intros s HI Hn.
  - exists [], s. repeat split; auto. intros; lia.
  - destruct (IH s HI) as (sched & s1 & R1 & L1 & H1); [lia|]. pose proof (tinv_run _ _ _ _ HD HI R1) as HI1.
    destruct (nth_error_lt_Some (cf_threads s1) n) as [p Hp]; [lia|].
    destruct (finish_one fps n HD p s1 HI1 Hp) as (sched2 & s2 & a & R2 & H2 & F2).
    pose proof (tinv_run _ _ _ _ HD HI1 R2) as HI2.
    exists (sched ++ sched2), s2. rewrite crun_app, R1. cbn. split; auto. split.
    + destruct HI2 as [-> _]. destruct HI as [-> _]. reflexivity.
    + intros t Ht. destruct (Nat.eq_dec t n) as [->|Hne]; [eauto|]. rewrite F2 by auto. apply H1. lia.
Qed.
End Interleaving.
End WP.

Section Ops.
Context {E X : Type}.
Variable su : setup E X.
Notation coefs := (mi -> option (list R)).
Notation mem := (mem E).

(** The cells of local function [i]. *)
Definition ocell (i : nat) (c : cell) : Prop :=
  match c with CView k | CDofs k | CGeo k | CBuf k _ => k = i | CCoef _ => False end.
Definition holds (m : mem) (i : nat) (f : lfun E) : Prop :=
  m (CView i) = VView (lf_deriv f) (lf_view f) /\ m (CDofs i) = VDofs (lf_dofs f) /\ m (CGeo i) = VGeo (lf_geo f).
Definition frame (i : nat) (m m' : mem) : Prop := forall c, ~ ocell i c -> m' c = m c.
Definition coefs_of (m : mem) (c : coefs) : Prop := forall k, m (CCoef k) = VCoef (c k).

Lemma frame_refl i m : frame i m m. Proof. intros c _. reflexivity. Qed.
Lemma frame_set i m m' c v : frame i m m' -> ocell i c -> frame i m (setm m' c v).
Proof. intros H Hc c' Hc'. rewrite setm_other; auto. intros ->. auto. Qed.
Lemma frame_trans i m m' m'' : frame i m m' -> frame i m' m'' -> frame i m m''.
Proof. intros H H' c Hc. rewrite H', H; auto. Qed.
Lemma frame_holds i k m m' f : frame i m m' -> k <> i -> holds m k f -> holds m' k f.
Proof. intros H Hne (A & B & C). split; [|split]; rewrite H; cbn; auto. Qed.
Lemma frame_coefs i m m' c : frame i m m' -> coefs_of m c -> coefs_of m' c.
Proof. intros H Hc k. rewrite H; cbn; auto. Qed.
Lemma holds_buf i m f p v : holds m i f -> holds (setm m (CBuf i p) v) i f.
Proof. intros (A & B & C). split; [|split]; rewrite setm_other; auto; discriminate. Qed.

Variables (Rs Ws : cell -> Prop).
Notation WP := (wp Rs Ws).

Lemma new_wp i d m : (forall c, ocell i c -> Ws c) ->
  WP (new_prog su i d) m (fun _ m' => holds m' i (lf_new su d) /\ frame i m m').
Proof.
  intros HW. unfold new_prog. cbn [wp]. split; [apply HW; reflexivity|]. split; [apply HW; reflexivity|]. split; [apply HW; reflexivity|].
  apply (wp_each Rs Ws (fun _ m' => holds m' i (lf_new su d) /\ frame i m m')).
  - split.
    + split; [|split]; cbn [lf_deriv lf_view lf_dofs lf_geo lf_new]; repeat (first [rewrite setm_same|rewrite setm_other by discriminate]); reflexivity.
    + repeat apply frame_set; try reflexivity. apply frame_refl.
  - intros p _ m' _ [H1 H2]. cbn. split; [apply HW; reflexivity|]. split; [now apply holds_buf|]. apply frame_set; auto. reflexivity.
Qed.

Lemma bind_wp i e m f f' c : (forall c, ocell i c -> Ws c) -> (forall c, ocell i c -> Rs c) ->
  holds m i f -> coefs_of m c -> lf_bind su c f e = Some f' ->
  (forall k x, lv_index (lf_view f') k = Some x -> Rs (CCoef x)) ->
  WP (bind_prog su i e) m (fun _ m' => holds m' i f' /\ frame i m m').
Proof.
  intros HW HR (Hv & Hd & Hg) Hc Hb Hx. unfold lf_bind in Hb. apply obind_Some in Hb as (v & Ev & Hb).
  apply obind_Some in Hb as (tree & Et & Hb). apply obind_Some in Hb as (d & Ed & Hb). injection Hb as <-. cbn [lf_view] in Hx.
  unfold bind_prog, rd_view, rd_dofs. cbn [wp]. split; [apply HR; reflexivity|]. rewrite Hv.
  eapply wp_lift; [exact Ev|]. cbn [wp]. split; [apply HW; reflexivity|]. eapply wp_lift; [exact Et|]. cbn [wp]. split; [apply HR; reflexivity|].
  rewrite setm_other by discriminate. rewrite Hd. cbn [wp]. split; [apply HW; reflexivity|].
  eapply wp_seq with (Q0 := fun _ m' => m' (CView i) = VView (lf_deriv f) v /\ m' (CDofs i) = VDofs d /\ frame i m m').
  - eapply (wp_forl Rs Ws (fun d (_ : unit) m' => m' (CView i) = VView (lf_deriv f) v /\ m' (CDofs i) = VDofs d /\ frame i m m')); [|exact Ed|].
    + split; [|split].
      * rewrite setm_other by discriminate. now rewrite setm_same.
      * now rewrite setm_same.
      * repeat apply frame_set; try reflexivity. apply frame_refl.
    + intros k st st' pt m' Hk (A1 & A2 & A3) HB. apply obind_Some in HB as (l & El & HB). apply obind_Some in HB as (mm & Em & HB).
      apply obind_Some in HB as (x & Exx & HB).
      eapply wp_lift; [exact El|]. eapply wp_lift; [exact Em|]. unfold rd_coef. cbn [wp]. split; [eapply Hx; eauto|].
      assert (Hcm : m' (CCoef mm) = VCoef (c mm)) by (rewrite A3; cbn; auto). rewrite Hcm, Exx. cbn [wp]. split; [apply HR; reflexivity|]. rewrite A2.
      eapply wp_lift; [exact HB|]. cbn [wp]. split; [apply HW; reflexivity|]. split; [|split].
      * rewrite setm_other by discriminate. exact A1.
      * now rewrite setm_same.
      * apply frame_set; auto. reflexivity.
  - intros _ m' (A1 & A2 & A3). destruct (lf_deriv f) eqn:Edf; cbn [wp]; (split; [apply HW; reflexivity|]); split.
    1, 3: split; [|split]; cbn [lf_deriv lf_view lf_dofs lf_geo]; repeat (first [rewrite setm_same|rewrite setm_other by discriminate]); auto.
    all: apply frame_set; auto; reflexivity.
Qed.

Lemma unbind_wp i m f : (forall c, ocell i c -> Ws c) -> (forall c, ocell i c -> Rs c) -> holds m i f ->
  WP (unbind_prog i) m (fun _ m' => holds m' i (lf_unbind f) /\ frame i m m').
Proof.
  intros HW HR (Hv & Hd & Hg). unfold unbind_prog, rd_view. cbn [wp]. split; [apply HW; reflexivity|]. split; [apply HR; reflexivity|].
  rewrite setm_other by discriminate. rewrite Hv. cbn [wp]. split; [apply HW; reflexivity|]. split.
  - split; [|split]; cbn [lf_deriv lf_view lf_dofs lf_geo lf_unbind]; repeat (first [rewrite setm_same|rewrite setm_other by discriminate]); auto.
  - repeat apply frame_set; try reflexivity. apply frame_refl.
Qed.

Lemma copy_wp j i m f f' : (forall c, ocell j c -> Ws c) -> (forall c, ocell i c -> Rs c) -> j <> i -> holds m i f ->
  lf_copy su f = Some f' ->
  WP (copy_prog su j i) m (fun _ m' => holds m' j f' /\ frame j m m').
Proof.
  intros HW HR Hne HH Hc. pose proof HH as (Hv & Hd & Hg). unfold lf_copy in Hc. apply obind_Some in Hc as (v & Ev & Hc). injection Hc as <-.
  unfold copy_prog, rd_view, rd_dofs, rd_geo. cbn [wp]. split; [apply HR; reflexivity|]. rewrite Hv.
  eapply wp_lift; [exact Ev|]. cbn [wp]. split; [apply HW; reflexivity|].
  eapply wp_seq with (Q0 := fun _ m' => m' (CView j) = VView (lf_deriv f) v /\ m' (CDofs j) = VDofs (if lv_bound v then lf_dofs f else []) /\ frame j m m').
  - destruct (lv_bound v) eqn:Eb; cbn [wp].
    + split; [apply HR; reflexivity|]. rewrite setm_other by discriminate. rewrite Hd. cbn [wp]. split; [apply HW; reflexivity|]. split; [|split].
      * rewrite setm_other by discriminate. now rewrite setm_same.
      * now rewrite setm_same.
      * repeat apply frame_set; try reflexivity. apply frame_refl.
    + split; [apply HW; reflexivity|]. split; [|split].
      * rewrite setm_other by discriminate. now rewrite setm_same.
      * now rewrite setm_same.
      * repeat apply frame_set; try reflexivity. apply frame_refl.
  - intros _ m' (A1 & A2 & A3). cbn [wp]. split; [apply HR; reflexivity|].
    assert (Hg' : m' (CGeo i) = VGeo (lf_geo f)) by (rewrite A3; cbn; auto). rewrite Hg'. cbn [wp]. split; [apply HW; reflexivity|].
    apply (wp_each Rs Ws (fun _ m' => holds m' j (LF1 (lf_deriv f) v (if lv_bound v then lf_dofs f else []) (lf_geo f)) /\ frame j m m')).
    + split.
      * split; [|split]; cbn [lf_deriv lf_view lf_dofs lf_geo]; repeat (first [rewrite setm_same|rewrite setm_other by discriminate]); auto.
      * apply frame_set; auto. reflexivity.
    + intros p _ m'' _ [H1 H2]. cbn [wp]. split; [apply HR; reflexivity|]. cbn [wp]. split; [apply HW; reflexivity|].
      split; [now apply holds_buf|]. apply frame_set; auto. reflexivity.
Qed.

Lemma derivative_wp j i m f f' c : (forall c, ocell j c -> Ws c) -> (forall c, ocell j c -> Rs c) -> (forall c, ocell i c -> Rs c) ->
  holds m i f -> coefs_of m c -> lf_derivative su c f = Some f' ->
  (forall e k x, lf_context f = Some e -> lv_index (lf_view f') k = Some x -> Rs (CCoef x)) ->
  WP (derivative_prog su j i) m (fun _ m' => holds m' j f' /\ frame j m m').
Proof.
  intros HW HRj HRi (Hv & Hd & Hg) Hc Hf Hx. unfold derivative_prog, rd_view. cbn [wp]. split; [apply HRi; reflexivity|]. rewrite Hv.
  unfold lf_derivative in Hf. destruct (lf_deriv f); [discriminate|].
  eapply wp_seq; [apply new_wp; auto|]. cbn. intros _ m' [H1 H2]. unfold lf_context in *. destruct (lv_elem (lf_view f)) as [e|].
  - eapply wp_mono; [eapply bind_wp; eauto|].
    + eapply frame_coefs; eauto.
    + cbn. intros _ m'' [A1 A2]. split; auto. eapply frame_trans; eauto.
  - injection Hf as <-. cbn. auto.
Qed.

Lemma combine_wp i p n nb size sv m f vals : (forall c, ocell i c -> Rs c) -> holds m i f -> m (CBuf i p) = VBuf sv ->
  combine_leaf su f n nb size sv = Some vals ->
  WP (combine_prog su i p n nb size) m (fun v m' => v = vals /\ m' = m).
Proof.
  intros HR (Hv & Hd & Hg) Hb Hc. unfold combine_leaf in Hc. unfold combine_prog.
  eapply (wp_forl Rs Ws (fun st pt m' => pt = st /\ m' = m)); [auto|exact Hc|].
  intros k st st' pt m' Hk [-> ->] HB. apply obind_Some in HB as (l & El & HB). apply obind_Some in HB as (cc & Ec & HB).
  eapply wp_lift; [exact El|]. unfold rd_dofs. cbn [wp]. split; [apply HR; reflexivity|]. rewrite Hd. eapply wp_lift; [exact Ec|].
  eapply (wp_forl Rs Ws (fun st pt m' => pt = st /\ m' = m)); [auto|exact HB|].
  intros j st1 st2 pt m' Hj [-> ->] HB1. apply obind_Some in HB1 as (a & Ea & HB1). apply obind_Some in HB1 as (w & Ew & HB1).
  apply obind_Some in HB1 as (x & Exx & HB1). apply obind_Some in HB1 as (w' & Ew' & HB1).
  eapply wp_lift; [exact Ea|]. eapply wp_lift; [exact Ew|]. unfold rd_buf. cbn [wp]. split; [apply HR; reflexivity|]. rewrite Hb.
  eapply wp_lift; [exact Exx|]. eapply wp_lift; [exact Ew'|]. eapply wp_lift; [exact HB1|]. cbn. auto.
Qed.

Lemma each_wp i m0 f (body : list nat * node E -> cont R -> option (cont R)) (pbody : list nat * node E -> cont R -> prog E (cont R)) l : forall y0 y m,
  holds m i f -> frame i m0 m -> each_leaf body l y0 = Some y ->
  (forall pn y y' m, holds m i f -> frame i m0 m -> body pn y = Some y' ->
     WP (pbody pn y) m (fun z m' => z = y' /\ holds m' i f /\ frame i m0 m')) ->
  WP (peach pbody l y0) m (fun z m' => z = y /\ holds m' i f /\ frame i m0 m').
Proof.
  induction l as [|pn l IH]; intros y0 y m Hh Hf He Hb; cbn in *; [injection He as <-; auto|].
  apply obind_Some in He as (y1 & H1 & He). eapply wp_seq; [eapply Hb; eauto|]. cbn. intros z m' (-> & A & B). eapply IH; eauto.
Qed.

Lemma eval_wp i x m f y : (forall c, ocell i c -> Ws c) -> (forall c, ocell i c -> Rs c) -> holds m i f -> lf_eval su f x = Some y ->
  WP (eval_prog su i x) m (fun z m' => z = y /\ holds m' i f /\ frame i m m').
Proof.
  intros HW HR HH He. pose proof HH as (Hv & Hd & Hg). unfold lf_eval in He. apply obind_Some in He as (tree & Et & He).
  unfold eval_prog, rd_view, rd_geo. cbn [wp]. split; [apply HR; reflexivity|]. rewrite Hv. eapply wp_lift; [exact Et|].
  destruct (lf_deriv f).
  - apply obind_Some in He as (g & Eg & He). cbn [wp]. split; [apply HR; reflexivity|]. rewrite Hg. eapply wp_lift; [exact Eg|].
    eapply each_wp; eauto; [apply frame_refl|]. clear y He. intros [p n] y y' m1 H1 F1 HB. unfold deriv_leaf in HB. unfold deriv_leaf_prog.
    destruct (node_size n =? 0); [injection HB as <-; cbn; auto|]. destruct n as [mx gs fe [e|]|]; try discriminate.
    apply obind_Some in HB as (refs & Er & HB). cbn [wp]. split; [apply HW; reflexivity|].
    eapply wp_seq; [eapply combine_wp; [auto|apply holds_buf; exact H1|apply setm_same|exact Er]|]. cbn. intros v m2 [-> ->].
    eapply wp_lift; [exact HB|]. cbn. split; auto. split; [now apply holds_buf|]. apply frame_set; auto. reflexivity.
  - eapply each_wp; eauto; [apply frame_refl|]. clear y He. intros [p n] y y' m1 H1 F1 HB. unfold eval_leaf in HB. unfold eval_leaf_prog.
    destruct (node_size n =? 0); [injection HB as <-; cbn; auto|]. destruct n as [mx gs fe [e|]|]; try discriminate.
    apply obind_Some in HB as (refs & Er & HB). cbn [wp]. split; [apply HW; reflexivity|].
    eapply wp_seq; [eapply combine_wp; [auto|apply holds_buf; exact H1|apply setm_same|exact Er]|]. cbn. intros v m2 [-> ->].
    eapply wp_lift; [exact HB|]. cbn. split; auto. split; [now apply holds_buf|]. apply frame_set; auto. reflexivity.
Qed.
End Ops.

Section Thread.
Context {E X : Type}.
Variables (b : bexpr E) (path : list nat) (els : E -> Prop) (su : setup E X).
Hypothesis OKS : setup_ok b path els su.
Notation coefs := (mi -> option (list R)).
Notation mem := (mem E).

(** The memory of a thread that runs alone is as the specification says; local functions
    are bound to elements in [eb] only. *)
Definition minv (eb : E -> Prop) (s : @tstate E) (g : mem) : Prop :=
  coefs_of g (snd s) /\ coefs_ok b els su (snd s) /\
  forall i sf, fst s i = Some sf -> (exists f, holds g i f /\ obj_inv b path els su sf f) /\
    (forall e c, sf_state sf = Some (e, c) -> eb e).

Lemma minv_var (eb : E -> Prop) l c i sf f g g' : minv eb (l, c) g -> holds g' i f -> frame i g g' -> obj_inv b path els su sf f ->
  (forall e c, sf_state sf = Some (e, c) -> eb e) -> minv eb (set_var l i sf, c) g'.
Proof.
  intros (H1 & H2 & H3) Hh Hf Ho He. split; [eapply frame_coefs; eauto|]. split; [exact H2|]. cbn [fst] in *. intros k sk Hk. unfold set_var in Hk.
  destruct (Nat.eqb_spec k i) as [->|Hne].
  - injection Hk as <-. split; eauto.
  - destruct (H3 k sk Hk) as [(fk & A & B) C]. split; auto. exists fk. split; auto. eapply frame_holds; eauto.
Qed.

(** Cells a thread with program [h] reads and writes; [eb]: elements bound to by it or
    before. *)
Definition wcells (h : list (top E X)) (c : cell) : Prop :=
  match c with
  | CView i | CDofs i | CGeo i | CBuf i _ => exists o, In o h /\ changes o i
  | CCoef m => exists x, In (TCoef m x) h
  end.
Definition indices_of (eb : E -> Prop) (m : mi) : Prop :=
  exists e v k, eb e /\ lv_bind (build b) (lv_new (build b)) e = Some v /\ lv_index v k = Some m.
Definition rcells (eb : E -> Prop) (h : list (top E X)) (c : cell) : Prop :=
  match c with
  | CView i | CDofs i | CGeo i | CBuf i _ => exists o, In o h /\ uses o i
  | CCoef m => (exists x, In (TCoef m x) h) \/ indices_of eb m
  end.

Lemma op_wp (eb : E -> Prop) h o s s' ex g : In o h -> top_ok els su o -> (forall i e, In (TBind i e) h -> eb e) ->
  minv eb s g -> ts_step s o = Some (s', ex) ->
  wp (rcells eb h) (wcells h) (op_prog su o) g (fun ys g' => Forall2 (as_expected b path su) ex ys /\ minv eb s' g').
Proof.
  intros Hin Hok Heb HI HS. destruct s as [l c]. pose proof HI as (HC & HCok & HV). cbn [fst snd] in *.
  assert (HWc : forall i, changes o i -> forall c, ocell i c -> wcells h c) by (intros i Hi [k|k|k|k p|m] Hc; cbn in *; subst; eauto; contradiction).
  assert (HRc : forall i, uses o i -> forall c, ocell i c -> rcells eb h c) by (intros i Hi [k|k|k|k p|m] Hc; cbn in *; subst; eauto; contradiction).
  assert (HCU : forall i, changes o i -> uses o i) by (intros i Hi; now left).
  assert (Hidx : forall v e k x, vinv b els v -> lv_elem v = Some e -> eb e -> lv_index v k = Some x -> rcells eb h (CCoef x)).
  { intros v e k x Hv He Hee Hx. right. destruct (vinv_fresh b path els su OKS v e Hv He) as (v1 & B1 & B2 & _).
    exists e, v1, k. split; auto. split; auto. unfold lv_index in *. now rewrite B2. }
  destruct o as [i d|i e|i|i x|j i|j i|m x]; cbn [ts_step op_prog] in *.
  - injection HS as <- <-. eapply wp_seq; [apply new_wp; apply HWc; reflexivity|]. cbn. intros _ g' [A B]. split; [constructor|].
    eapply minv_var; eauto; [apply new_inv; auto|]. discriminate.
  - apply obind_Some in HS as (sf & Hi & HS). injection HS as <- <-. destruct (HV i sf Hi) as [(f & Hh & Ho) He].
    pose proof Ho as (Hd & Hvi & _). destruct (bind_inv b path els su OKS c f e Hvi Hok HCok) as (f' & Hf' & Ho').
    eapply wp_seq; [eapply bind_wp; eauto|].
    + apply HWc; reflexivity.
    + apply HRc, HCU; reflexivity.
    + intros k x Hx. destruct Ho' as (_ & V' & (L1 & _)). eapply (Hidx _ e); eauto.
    + cbn. intros _ g' [A B]. split; [constructor|]. rewrite Hd in Ho'. eapply minv_var; eauto. intros e' c' [= <- <-]. eauto.
  - apply obind_Some in HS as (sf & Hi & HS). injection HS as <- <-. destruct (HV i sf Hi) as [(f & Hh & Ho) He].
    eapply wp_seq; [eapply unbind_wp; eauto|].
    + apply HWc; reflexivity.
    + apply HRc, HCU; reflexivity.
    + cbn. intros _ g' [A B]. split; [constructor|]. eapply minv_var; eauto; [|discriminate].
      destruct Ho as (Hd & Hvi & _). split; [exact Hd|]. split; [now apply vinv_unbind|reflexivity].
  - apply obind_Some in HS as (sf & Hi & HS). apply obind_Some in HS as ([e cc] & Hst & HS). injection HS as <- <-.
    destruct (HV i sf Hi) as [(f & Hh & Ho) He]. pose proof Ho as (Hd & Hvi & Hs). rewrite Hst in Hs. destruct Hs as (L1 & L2 & L3 & L4).
    assert (Hy : exists y, lf_eval su f x = Some y /\ as_expected b path su (EX (sf_deriv sf) e cc x) y).
    { unfold as_expected. cbn [ex_deriv ex_elem ex_coefs ex_point]. destruct (sf_deriv sf).
      - eapply deriv_ok; eauto.
      - eapply value_ok; eauto. }
    destruct Hy as (y & Hy & Hex). eapply wp_seq; [eapply eval_wp; eauto|].
    + apply HWc; reflexivity.
    + apply HRc, HCU; reflexivity.
    + cbn. intros z g' (-> & A & B). split; [constructor; auto|]. split; [eapply frame_coefs; eauto|]. split; [exact HCok|]. cbn [fst].
      intros k sk Hk. destruct (Nat.eq_dec k i) as [->|Hne].
      * rewrite Hi in Hk. injection Hk as <-. split; eauto.
      * destruct (HV k sk Hk) as [(fk & A' & B') C']. split; auto. exists fk. split; auto. eapply frame_holds; eauto.
  - apply obind_Some in HS as (sf & Hi & HS). destruct (Nat.eqb_spec j i) as [->|Hne]; [discriminate|]. injection HS as <- <-.
    destruct (HV i sf Hi) as [(f & Hh & Ho) He]. destruct (copy_inv b path els su OKS sf f Ho) as (f' & Hf' & Ho').
    eapply wp_seq; [eapply copy_wp; eauto|].
    + apply HWc; reflexivity.
    + apply HRc. right. reflexivity.
    + cbn. intros _ g' [A B]. split; [constructor|]. eapply minv_var; eauto.
  - apply obind_Some in HS as (sf & Hi & HS). destruct (Nat.eqb_spec j i) as [->|Hne]; [rewrite orb_true_r in HS; discriminate|].
    rewrite orb_false_r in HS. destruct (sf_deriv sf) eqn:Esd; [discriminate|]. injection HS as <- <-.
    destruct (HV i sf Hi) as [(f & Hh & Ho) He]. pose proof Ho as (Hd & Hvi & Hs).
    assert (Hf' : exists f', lf_derivative su c f = Some f' /\ obj_inv b path els su (SF true (option_map (fun ec => (fst ec, c)) (sf_state sf))) f' /\
      lf_context f' = lf_context f).
    { unfold lf_derivative. rewrite Hd, Esd. destruct (sf_state sf) as [[e cc]|]; cbn [option_map fst].
      - destruct Hs as (L1 & _). rewrite L1. destruct Hvi as [_ Hi']. destruct (Hi' e L1) as (Hels & _).
        destruct (new_inv b path els su OKS true) as (_ & HVn & _).
        destruct (bind_inv b path els su OKS c (lf_new su true) e HVn Hels HCok) as (f' & F1 & F2). exists f'. split; auto.
        pose proof F2 as (_ & _ & (K & _)). split; auto.
      - rewrite Hs. eexists. split; [reflexivity|]. split; [apply new_inv; auto|]. rewrite <- Hs. unfold lf_context in *. rewrite Hs. reflexivity. }
    destruct Hf' as (f' & Hf' & Ho' & Hctx). eapply wp_seq; [eapply derivative_wp; eauto|].
    + apply HWc; reflexivity.
    + apply HRc, HCU; reflexivity.
    + apply HRc. right. reflexivity.
    + intros e k x Hce Hx. pose proof Ho' as (_ & V' & _). eapply (Hidx _ e k x V'); eauto.
      * unfold lf_context in *. congruence.
      * destruct (sf_state sf) as [[e' c']|]; [|congruence]. destruct Hs as (L1 & _). rewrite L1 in Hce. injection Hce as <-. eauto.
    + cbn. intros _ g' [A B]. split; [constructor|]. eapply minv_var; eauto. cbn. destruct (sf_state sf) as [[e' c']|]; cbn; [|discriminate].
      intros e c1 [= <- <-]. eauto.
  - injection HS as <- <-. cbn [wp]. split; [cbn; eauto|]. split; [constructor|]. split; [|split].
    + intros k. cbn [snd]. unfold setm, set_coef. destruct (cell_dec (CCoef k) (CCoef m)) as [e|n]; destruct (list_eq_dec Nat.eq_dec k m); try congruence.
    + intros k Hk. unfold set_coef. cbn. destruct (list_eq_dec Nat.eq_dec k m) as [->|]; [|apply HCok; auto]. exists x. split; auto.
    + cbn [fst]. intros i sf Hi. destruct (HV i sf Hi) as [(f & (A & B & C) & Ho) He]. split; auto. exists f. split; auto.
      split; [|split]; rewrite setm_other; auto; discriminate.
Qed.

Lemma thread_wp (eb : E -> Prop) h0 h : forall s s' ex g, (forall o, In o h -> In o h0) -> Forall (top_ok els su) h -> (forall i e, In (TBind i e) h0 -> eb e) ->
  minv eb s g -> ts_run s h = Some (s', ex) ->
  wp (rcells eb h0) (wcells h0) (thread_prog su h) g (fun ys g' => Forall2 (as_expected b path su) ex ys /\ minv eb s' g').
Proof.
  induction h as [|o h IH]; intros s s' ex g Hin Hok Heb HI HS; cbn [ts_run thread_prog] in *.
  - injection HS as <- <-. cbn. split; [constructor|auto].
  - inversion Hok; subst. apply obind_Some in HS as ([s1 e1] & H0 & HS). apply obind_Some in HS as ([s2 e2] & H3 & HS). injection HS as <- <-.
    eapply wp_seq; [eapply op_wp; eauto; apply Hin; now left|]. cbn. intros ys g1 [A1 B1].
    eapply wp_seq; [eapply IH; eauto; intros; apply Hin; now right|]. cbn. intros zs g2 [A2 B2]. split; auto. now apply Forall2_app.
Qed.
End Thread.
