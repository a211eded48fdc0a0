(** Threads using local functions of one discrete function at the same time (C75). *)
From Coq Require Import List Arith Bool Reals Lia Lra.
From Verif Require Import Lib Basis_model Basis_spec Basis_proofs Basis_ok Basis_view Basis_props
  Container_model Container_spec Container_proofs FlatVector_model FlatVector_props
  Interpolate_model Interpolate_props DiscreteFunction_model DiscreteFunction_spec DiscreteFunction_proofs DiscreteFunction_props
  Threads_model Threads_spec Threads_proofs.
Import ListNotations.
#[local] Arguments Nat.ltb : simpl never.

Section Theorems.
Context {E X : Type}.
Variables (b : bexpr E) (path : list nat) (els : E -> Prop) (su : setup E X) (c0 : mi -> option (list R)).
(** Operations before the threads start, and the programs of the threads. *)
Variables (pre : list (top E X)) (ps : list (list (top E X))).
Variables (s0 : @tstate E) (ex0 : list (@expected E X)) (ys0 : list (cont R)) (m0 : mem E).
Hypothesis OKS : setup_ok b path els su.
Hypothesis Hc0 : coefs_ok b els su c0.
Hypothesis Hpre : Forall (top_ok els su) pre.
Hypothesis Hps : forall p, In p ps -> Forall (top_ok els su) p.
Hypothesis Spre : ts_run (fun _ => None, c0) pre = Some (s0, ex0).

Let eb0 (e : E) : Prop := exists i, In (TBind i e) pre.
Lemma pre_wp : wp (rcells b eb0 pre) (wcells pre) (thread_prog su pre) (start c0)
  (fun ys g => Forall2 (as_expected b path su) ex0 ys /\ minv b path els su eb0 s0 g).
Proof.
  eapply thread_wp; eauto.
  - unfold eb0. eauto.
  - split; [intros k; reflexivity|]. split; [exact Hc0|]. cbn. discriminate.
Qed.

(** The operations before the threads start are defined, and evaluations among them
    return the values they should (C26). *)
Theorem C75_alone : exists ys m, run (thread_prog su pre) (start c0) = Some (ys, m) /\ Forall2 (as_expected b path su) ex0 ys.
Proof. destruct (wp_run _ _ _ _ _ pre_wp) as (ys & m & H & H1 & _). eauto. Qed.

Hypothesis Rpre : run (thread_prog su pre) (start c0) = Some (ys0, m0).
(** Each thread is fine alone. *)
Hypothesis Salone : forall p, In p ps -> exists st ex, ts_run s0 p = Some (st, ex).
Hypothesis Hapart : forall t1 t2 p q, t1 <> t2 -> nth_error ps t1 = Some p -> nth_error ps t2 = Some q -> apart b pre p q.

Let eb (p : list (top E X)) (e : E) : Prop := exists i, In (TBind i e) (pre ++ p).
Let Qt (p : list (top E X)) (ys : list (cont R)) (g : mem E) : Prop :=
  forall st ex, ts_run s0 p = Some (st, ex) -> Forall2 (as_expected b path su) ex ys /\ coefs_of g (snd st).
Let fps := map (fun p => (rcells b (eb p) p, wcells p, Qt p)) ps.

Lemma pre_minv p : minv b path els su (eb p) s0 m0.
Proof.
  destruct (wp_run _ _ _ _ _ pre_wp) as (ys & m & H & _ & (A & B & C)). rewrite Rpre in H. injection H as <- <-.
  split; [exact A|]. split; [exact B|]. intros i sf Hi. destruct (C i sf Hi) as [D D']. split; auto. intros e c He.
  destruct (D' e c He) as (k & Hk). exists k. apply in_or_app. now left.
Qed.
Lemma fps_nth t Rs Ws Q : nth_error fps t = Some (Rs, Ws, Q) -> exists p, nth_error ps t = Some p /\ Rs = rcells b (eb p) p /\ Ws = wcells p /\ Q = Qt p.
Proof.
  unfold fps. rewrite nth_error_map_eq. destruct (nth_error ps t) as [p|]; cbn; [|discriminate]. intros H. inversion H; subst. eauto.
Qed.
Lemma fps_disjoint : disjoint_fps fps.
Proof.
  intros t Rs Ws Q Ht. destruct (fps_nth _ _ _ _ Ht) as (p & Hp & -> & -> & ->). split.
  - intros [k|k|k|k q|m]; cbn; try (intros (o & H1 & H2); exists o; split; auto; now left). intros H. now left.
  - intros t' Rs' Ws' Q' Hne Ht' c. destruct (fps_nth _ _ _ _ Ht') as (q & Hq & -> & -> & ->).
    destruct (Hapart t t' p q (not_eq_sym Hne) Hp Hq) as [H1 H2].
    destruct c as [k|k|k|k r|m]; cbn; try (intros (o & A & B) (o' & A' & B'); eapply H1; eauto).
    intros [x Hx] HR. destruct (H2 m x Hx) as [H3 H4]. destruct HR as [[x' Hx']|(e & v & k & (i & Hi) & HV)]; [eapply H3; eauto|].
    apply H4. exists i, e, v, k. auto.
Qed.
Lemma init_tinv : tinv fps (CF (map (thread_prog su) ps) m0).
Proof.
  split; cbn [cf_threads cf_mem]; [unfold fps; now rewrite !map_length|]. intros t Rs Ws Q q Ht Hq. destruct (fps_nth _ _ _ _ Ht) as (p & Hp & -> & -> & ->).
  rewrite nth_error_map_eq, Hp in Hq. injection Hq as <-. exists m0. split; [intros c _; reflexivity|].
  pose proof (nth_error_In _ _ Hp) as Hin. destruct (Salone p Hin) as (st & ex & Hs).
  eapply wp_mono; [eapply thread_wp with (eb := eb p); eauto|].
  - intros i e Hi. exists i. apply in_or_app. now right.
  - apply pre_minv.
  - cbn. intros ys g (A & B & _) st' ex' Hs'. rewrite Hs in Hs'. injection Hs' as <- <-. auto.
Qed.

Variables (sched : list nat) (s : conf E (list (cont R))).
Hypothesis Hrun : crun sched (CF (map (thread_prog su) ps) m0) = Some s.

(** Whatever the schedule: there are no data races. *)
Theorem C75_no_data_race : ~ race s.
Proof. eapply tinv_no_race; [apply fps_disjoint|]. eapply tinv_run; [apply fps_disjoint|apply init_tinv|exact Hrun]. Qed.

(** A thread that has finished returned the same values as alone, namely those of the
    discrete function; one that has not finished can go on. *)
Theorem C75_threads_do_not_interfere t p st ex q :
  nth_error ps t = Some p -> ts_run s0 p = Some (st, ex) -> nth_error (cf_threads s) t = Some q ->
  (forall ys, q = Ret ys -> Forall2 (as_expected b path su) ex ys) /\
  ((exists ys, q = Ret ys) \/ exists s', cstep t s = Some s').
Proof.
  intros Hp Hs Hq. pose proof (tinv_run _ _ _ _ fps_disjoint init_tinv Hrun) as HT. split.
  - intros ys ->. destruct HT as [_ HT]. destruct (HT t _ _ _ _ ltac:(unfold fps; rewrite nth_error_map_eq, Hp; reflexivity) Hq) as (g & _ & HQ).
    cbn in HQ. apply (HQ st ex Hs).
  - eapply tinv_progress; eauto.
Qed.

(** All threads can be run to their ends. *)
Theorem C75_threads_can_finish : exists sched' s', crun (sched ++ sched') (CF (map (thread_prog su) ps) m0) = Some s' /\
  forall t q, nth_error (cf_threads s') t = Some q -> exists ys, q = Ret ys.
Proof.
  pose proof (tinv_run _ _ _ _ fps_disjoint init_tinv Hrun) as HT.
  destruct (finish_all fps fps_disjoint (length (cf_threads s)) s HT) as (sched' & s' & R & L & H); [lia|].
  exists sched', s'. split; [rewrite crun_app, Hrun; exact R|]. intros t q Hq.
  destruct (H t) as [ys Hys]; [rewrite <- L; eapply nth_error_Some_lt; eauto|]. exists ys. congruence.
Qed.

Lemma untouched c : (forall p, In p ps -> ~ wcells p c) -> cf_mem s c = m0 c.
Proof.
  intros Hc.
  assert (G : forall sched s1, tinv fps s1 -> crun sched s1 = Some s -> cf_mem s c = cf_mem s1 c); [|apply (G sched _ init_tinv Hrun)].
  clear Hrun sched. induction sched as [|t r IH]; intros s1 HT HR; cbn in HR; [injection HR as <-; reflexivity|].
  apply obind_Some in HR as (s2 & H2 & HR). rewrite (IH s2 (tinv_step _ _ _ _ fps_disjoint HT H2) HR). clear IH HR.
  unfold cstep in H2. apply obind_Some in H2 as (q & Hq & H2). destruct HT as [HL HT].
  destruct (nth_error_lt_Some fps t) as [[[Rs Ws] Q] Hf]; [rewrite <- HL; eapply nth_error_Some_lt; eauto|].
  destruct (HT _ _ _ _ _ Hf Hq) as (g & _ & W). destruct (fps_nth _ _ _ _ Hf) as (p & Hp & -> & -> & ->).
  destruct q; try discriminate; apply obind_Some in H2 as (l & _ & H2); injection H2 as <-; cbn [cf_mem]; auto.
  destruct W as [W _]. rewrite setm_other; auto. intros ->. apply (Hc p); auto. now apply nth_error_In in Hp.
Qed.

(** When all threads have finished, the coefficient vector holds what each thread wrote,
    and the old values otherwise. *)
Theorem C75_coefficients_afterwards m :
  (forall t q, nth_error (cf_threads s) t = Some q -> exists ys, q = Ret ys) ->
  (forall t p st ex x, nth_error ps t = Some p -> ts_run s0 p = Some (st, ex) -> In (TCoef m x) p -> cf_mem s (CCoef m) = VCoef (snd st m)) /\
  ((forall p x, In p ps -> ~ In (TCoef m x) p) -> cf_mem s (CCoef m) = VCoef (snd s0 m)).
Proof.
  intros Hfin. pose proof (tinv_run _ _ _ _ fps_disjoint init_tinv Hrun) as [HL HT]. split.
  - intros t p st ex x Hp Hs Hx. destruct (nth_error_lt_Some (cf_threads s) t) as [q Hq].
    { rewrite HL. unfold fps. rewrite map_length. eapply nth_error_Some_lt; eauto. }
    destruct (Hfin t q Hq) as [ys ->].
    destruct (HT t _ _ _ _ ltac:(unfold fps; rewrite nth_error_map_eq, Hp; reflexivity) Hq) as (g & Hg & HQ). cbn in HQ.
    rewrite Hg by (left; eauto). destruct (HQ st ex Hs) as [_ HC]. apply HC.
  - intros Hno. rewrite untouched.
    + destruct (pre_minv []) as (A & _). apply A.
    + intros p Hin [x Hx]. eapply Hno; eauto.
Qed.
End Theorems.

(** * The hypotheses are met: two threads copy a prototype, each works on its element *)

Section Example75.
Variables sh0 sh1 : R -> R. (* shape functions of a linear element *)
Definition ex75_b : bexpr nat := BLeaf ex_p1.
Definition ex75_su : setup nat R := SU (subspace_of_root (build ex75_b) []) 1 (fun _ => 1) 1 1
  (fun _ _ x => [[sh0 x]; [sh1 x]]) (fun _ _ _ => [[- (1)]; [1]]%R) (fun _ _ _ _ => 1%R)
  (CVal 0%R) (fun _ => FScalar) (CBlk [CVal 0%R]) (fun _ => FVec (Some 1) FScalar).
Definition ex75_c (m : mi) : option (list R) := Some [INR (hd 0 m)].

Lemma ex75_leaf e v p n : leaf_of ex75_b [] e v p n -> p = [] /\ node_size n = 2.
Proof.
  intros (H1 & H2 & H3). injection H1 as <-. cbn [app] in H2. destruct p as [|i p]; cbn in H2; [injection H2 as <-; auto|]. destruct i; discriminate.
Qed.
Lemma ex75_ok : setup_ok ex75_b [] ex_els ex75_su /\ coefs_ok ex75_b ex_els ex75_su ex75_c.
Proof.
  split; [constructor|].
  - apply ex_p1_ok.
  - cbn. eauto.
  - reflexivity.
  - intros e v p n x He L. destruct (ex75_leaf e v p n L) as [-> ->]. cbn. repeat constructor.
  - intros e v p n x He L. destruct (ex75_leaf e v p n L) as [-> ->]. cbn. repeat constructor.
  - intros e v p n He L. destruct (ex75_leaf e v p n L) as [-> _]. split; [|now left]. eexists. repeat split; reflexivity.
  - intros e v p n He L. destruct (ex75_leaf e v p n L) as [-> _]. split; [|now left]. eexists. split; [reflexivity|]. repeat split; repeat constructor.
  - intros m _. eexists. split; reflexivity.
Qed.

Definition ex75_pre : list (top nat R) := [TNew 0 false].
Definition ex75_thread (t e : nat) (m : mi) : list (top nat R) :=
  [TCopy t 0; TBind t e; TEval t 1%R; TDerivative (t + 2) t; TEval (t + 2) 0%R; TCoef m [5%R]; TBind t e; TEval t 0%R].
Definition ex75_ps := [ex75_thread 1 0 [0]; ex75_thread 2 1 [2]].
Lemma ex75_visits (h : list (top nat R)) m e : (forall i e', In (TBind i e') h -> e' = e) -> visits ex75_b h m -> m = [e] \/ m = [e + 1].
Proof.
  intros Hh (i & e' & v & k & Hi & Hv & Hk). rewrite (Hh i e' Hi) in Hv. injection Hv as <-. unfold lv_index in Hk. cbn in Hk.
  destruct k as [|[|k]]; cbn in Hk; [injection Hk as <-; auto|injection Hk as <-; auto|destruct k; discriminate].
Qed.
Example C75_hypotheses_met :
  setup_ok ex75_b [] ex_els ex75_su /\ coefs_ok ex75_b ex_els ex75_su ex75_c /\
  Forall (top_ok ex_els ex75_su) ex75_pre /\ (forall p, In p ex75_ps -> Forall (top_ok ex_els ex75_su) p) /\
  exists s0, ts_run (fun _ => None, ex75_c) ex75_pre = Some (s0, []) /\
    (forall p, In p ex75_ps -> exists st ex, ts_run s0 p = Some (st, ex) /\ length ex = 3) /\
    forall t1 t2 p q, t1 <> t2 -> nth_error ex75_ps t1 = Some p -> nth_error ex75_ps t2 = Some q -> apart ex75_b ex75_pre p q.
Proof.
  split; [apply ex75_ok|]. split; [apply ex75_ok|]. split; [repeat constructor|]. split.
  { intros p [<-|[<-|[]]]; repeat constructor; cbn; unfold ex_els; lia. }
  eexists. split; [reflexivity|]. split.
  { intros p [<-|[<-|[]]]; do 2 eexists; split; reflexivity. }
  assert (A : forall t e m t' e' m', t <> t' -> t <> t' + 2 -> t + 2 <> t' -> 0 < t -> m <> m' -> m <> [e'] -> m <> [e' + 1] ->
    apart ex75_b ex75_pre (ex75_thread t e m) (ex75_thread t' e' m')).
  { intros t e m t' e' m' H1 H2 H3 H4 H5 H6 H7. split.
    - intros i o o' Ho Hc Ho' Hu. unfold ex75_thread in *. cbn in Ho, Ho'.
      repeat (destruct Ho as [<-|Ho]; [cbn in Hc; repeat (destruct Ho' as [<-|Ho']; [cbn in Hu; destruct Hu as [Hu|Hu]; cbn in Hu; lia|]); destruct Ho'|]).
      destruct Ho.
    - intros m1 x Hx. unfold ex75_thread in *. cbn in Hx. repeat (destruct Hx as [Hx|Hx]; [try discriminate|]); [|destruct Hx]. injection Hx as <- <-.
      split.
      + intros x' Hx'. cbn in Hx'. repeat (destruct Hx' as [Hx'|Hx']; [try discriminate; congruence|]). destruct Hx'.
      + intros HV. apply (ex75_visits _ _ e') in HV; [tauto|]. intros i e1 Hin. cbn in Hin.
        repeat (destruct Hin as [Hin|Hin]; [try discriminate; congruence|]). destruct Hin. }
  intros [|[|t1]] [|[|t2]] p q Hne H1 H2; try lia; try (destruct t1; discriminate); try (destruct t2; discriminate);
    injection H1 as <-; injection H2 as <-; apply A; try lia; discriminate.
Qed.

(** * What is not allowed *)

(** operator() of a bound local function is const, but two threads must not call it at
    the same time: the evaluation buffer is shared.  Both threads only evaluate the same
    function, each alone gets the right value, and with this schedule the first one gets
    the value at the other's point. *)
Definition ex75_shared : list (top nat R) := [TNew 0 false; TBind 0 1].
Lemma ex75_shared_value x0 x1 ys0 m0 : run (thread_prog ex75_su ex75_shared) (start ex75_c) = Some (ys0, m0) ->
  exists s, crun [0; 0; 1; 1; 0; 0; 0; 0] (CF [thread_prog ex75_su [TEval 0 x0]; thread_prog ex75_su [TEval 0 x1]] m0) = Some s /\
    nth_error (cf_threads s) 0 = Some (Ret [CVal (0 + 1 * sh0 x1 + (1 + 1) * sh1 x1)%R]).
Proof.
  intros H. injection H as _ <-. eexists. split; reflexivity.
Qed.
Lemma ex75_shared_race x0 x1 ys0 m0 : run (thread_prog ex75_su ex75_shared) (start ex75_c) = Some (ys0, m0) ->
  exists s, crun [0; 0; 0; 1] (CF [thread_prog ex75_su [TEval 0 x0]; thread_prog ex75_su [TEval 0 x1]] m0) = Some s /\ race s.
Proof.
  intros H. injection H as _ <-. eexists. split; [reflexivity|]. exists 1, 0. do 4 eexists. split; [discriminate|].
  split; [reflexivity|]. split; [reflexivity|]. split; reflexivity.
Qed.
(** Copying a local function that another thread evaluates is a race, too. *)
Lemma ex75_copy_race x ys0 m0 : run (thread_prog ex75_su ex75_shared) (start ex75_c) = Some (ys0, m0) ->
  exists s, crun [0; 0; 0; 0; 0; 0; 1] (CF [thread_prog ex75_su [TCopy 1 0]; thread_prog ex75_su [TEval 0 x]] m0) = Some s /\ race s.
Proof.
  intros H. injection H as _ <-. eexists. split; [reflexivity|]. exists 1, 0. do 4 eexists. split; [discriminate|].
  split; [reflexivity|]. split; [reflexivity|]. split; reflexivity.
Qed.
End Example75.

Definition ex75_p1 := ex75_su (fun x => 1 - x)%R (fun x => x).
Theorem C75_concurrent_evaluation_refuted :
  setup_ok ex75_b [] ex_els ex75_p1 /\ coefs_ok ex75_b ex_els ex75_p1 ex75_c /\
  exists s0 ex0 ys0 m0 ex sched s ys,
    ts_run (fun _ => None, ex75_c) ex75_shared = Some (s0, ex0) /\
    run (thread_prog ex75_p1 ex75_shared) (start ex75_c) = Some (ys0, m0) /\
    ts_run s0 [TEval 0 0%R] = Some (s0, ex) /\
    crun sched (CF [thread_prog ex75_p1 [TEval 0 0%R]; thread_prog ex75_p1 [TEval 0 1%R]] m0) = Some s /\
    nth_error (cf_threads s) 0 = Some (Ret ys) /\ ~ Forall2 (as_expected ex75_b [] ex75_p1) ex ys.
Proof.
  split; [apply ex75_ok|]. split; [apply ex75_ok|].
  destruct (run (thread_prog ex75_p1 ex75_shared) (start ex75_c)) as [[ys0 m0]|] eqn:ER; [|discriminate].
  destruct (ex75_shared_value (fun x => 1 - x)%R (fun x => x) 0 1 ys0 m0 ER) as (s & H1 & H2).
  do 8 eexists. split; [reflexivity|]. split; [reflexivity|]. split; [reflexivity|]. split; [exact H1|]. split; [exact H2|].
  intros HF. inversion HF as [|? ? ? ? HA _]; subst. cbn in HA. destruct HA as [_ HA].
  destruct (lv_bind (build ex75_b) (lv_new (build ex75_b)) 1) as [v|] eqn:Ev; [|discriminate].
  destruct (descendant (lv_tree v) []) as [n|] eqn:En; [|discriminate].
  assert (L : leaf_of ex75_b [] 1 v [] n). { split; [exact Ev|]. split; [exact En|]. injection Ev as <-. injection En as <-. reflexivity. }
  destruct (HA v [] n L) as (y & Hy & _ & HV). injection Hy as <-. injection Ev as <-. injection En as <-.
  destruct HV as [_ HV]; [discriminate|]. specialize (HV 0 0 ltac:(cbn; lia) ltac:(cbn; lia)). 
  assert (HV' : Some (0 + 1 * (1 - 1) + (1 + 1) * 1)%R = Some (1 * (1 - 0) + ((1 + 1) * 0 + 0))%R) by exact HV.
  injection HV'. lra.
Qed.
Theorem C75_evaluation_races_refuted :
  exists ys0 m0, run (thread_prog ex75_p1 ex75_shared) (start ex75_c) = Some (ys0, m0) /\
   (exists sched s, crun sched (CF [thread_prog ex75_p1 [TEval 0 0%R]; thread_prog ex75_p1 [TEval 0 1%R]] m0) = Some s /\ race s) /\
   (exists sched s, crun sched (CF [thread_prog ex75_p1 [TCopy 1 0]; thread_prog ex75_p1 [TEval 0 1%R]] m0) = Some s /\ race s).
Proof.
  destruct (run (thread_prog ex75_p1 ex75_shared) (start ex75_c)) as [[ys0 m0]|] eqn:ER; [|discriminate].
  exists ys0, m0. split; [reflexivity|]. split; eexists; [eapply ex75_shared_race|eapply ex75_copy_race]; eauto.
Qed.

Print Assumptions C75_alone.
Print Assumptions C75_no_data_race.
Print Assumptions C75_threads_do_not_interfere.
Print Assumptions C75_threads_can_finish.
Print Assumptions C75_coefficients_afterwards.
Print Assumptions C75_concurrent_evaluation_refuted.
Print Assumptions C75_evaluation_races_refuted.
