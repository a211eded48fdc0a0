(** Local functions and the lifetime of grid functions (C60). *)
From Coq Require Import List Arith Bool Reals Lia Lra.
From Verif Require Import Lib LocalFunction_model LocalFunction_spec Lifetime_model Lifetime_spec Lifetime_proofs.
From Verif Require LocalFunction_props.
Import ListNotations.

Section Props.
Arguments alive : simpl never.
Context {E X Y V : Type}.
Variable G : grid E X Y.
Notation op := (op E X Y V).
Notation desc := (desc E X Y V).

(** A program that follows the rules of the specification never uses a destroyed object, and
    each of its local functions computes the values of the grid function it was created from,
    whatever was created, copied, assigned and destroyed in between. *)
Theorem C60_safe (h : list op) sw : grid_ok G -> srun G s_empty h sw ->
  exists w, run G empty h = Some w /\ length (w_lfs w) = length (s_lfs sw) /\
    forall j d s src, nth_error (s_lfs sw) j = Some (d, s, src) ->
      exists r, nth_error (w_lfs w) j = Some r /\ rbound r = is_some s /\ (s <> None -> rcontext r = s) /\
        forall e x, s = Some e -> usable sw d src ->
          exists v r', reval G (w_mem w) (w_exts w) r x = Some (v, r') /\ value G (fn d) e x v.
Proof.
  intros OK H. destruct (run_ok G OK _ _ _ H _ (empty_ok G)) as (w & E1 & HI). exists w. split; auto. pose proof HI as (HX & HG & HP & HL). split; [now apply (F2_length _ _ _ HL)|].
  intros j d s src Hj. destruct (F2_nth _ _ _ _ _ HL Hj) as (r & Hr & o & O1 & O2 & O3). exists r. split; auto.
  split. { rewrite (proj1 (sim_bound_both _) r o O3). eapply LocalFunction_props.bound_ok; eauto. }
  split. { rewrite (proj1 (sim_context_both _) r o O3). destruct s as [e|]; [|congruence]. intros _. eapply LocalFunction_props.context_ok; eauto. }
  intros e x -> HU. destruct (LocalFunction_props.eval_ok G OK _ _ _ x O1) as (v & o' & B1 & B2 & B3).
  assert (SH : rshape r = gshape (fn d)). { rewrite (proj1 (sim_shape_both _) r o O3). now rewrite (LocalFunction_props.fn_ok G _ _ _ O1). }
  destruct (sim_eval G _ (w_mem w) (w_exts w) (live_Q G w sw d src HI HU) (fn d) r o x v o' O3) as (r' & F1 & _); auto. { rewrite O2, HX. apply HU. }
  exists v, r'. unfold reval. rewrite SH. auto.
Qed.

(** Destroying grid functions, one after the other. *)
Lemma srun_app (h h' : list op) w w' w'' : srun G w h w' -> srun G w' h' w'' -> srun G w (h ++ h') w''.
Proof. induction 1; cbn; auto. intros. econstructor; eauto. Qed.
Lemma run_app (h h' : list op) w : run G w (h ++ h') = (w' <- run G w h ;; run G w' h').
Proof. revert w. induction h as [|o h IH]; intros w; cbn; auto. destruct (step G w o); cbn; auto. Qed.

(** A local function of an analytic, a face normal or a discrete function, or of a discrete
    function transferred to another grid view, does not need the grid function: it can be
    used when all grid functions have been destroyed. *)
Theorem C60_independent (h : list op) sw j d e src : grid_ok G -> srun G s_empty h sw ->
  nth_error (s_lfs sw) j = Some (d, Some e, src) -> refers d = false -> alive (s_exts sw) (ddeps d) = true ->
  forall is, NoDup is -> Forall (fun i => s_at sw i <> None) is ->
  exists w r, run G empty (h ++ map BDestroy is) = Some w /\ nth_error (w_lfs w) j = Some r /\
    forall x, exists v r', reval G (w_mem w) (w_exts w) r x = Some (v, r') /\ value G (fn d) e x v.
Proof.
  intros OK H Hj Hd HA is ND HF.
  assert (K : forall is sw, NoDup is -> Forall (fun i => s_at sw i <> None) is -> (exists src, nth_error (s_lfs sw) j = Some (d, Some e, src)) ->
    exists sw', srun G sw (map BDestroy is) sw' /\ s_exts sw' = s_exts sw /\ exists src, nth_error (s_lfs sw') j = Some (d, Some e, src)).
  { clear - Hd. induction is as [|i is IH]; intros sw ND HF [src Hj]; cbn. { exists sw. split; [constructor|]. eauto. }
    inversion ND as [|? ? N1 N2]; subst. inversion HF as [|? ? F1 F2]; subst. destruct (s_at sw i) as [d0|] eqn:Ei; [|congruence].
    assert (Hn : nth_error (s_gfs sw) i = Some (Some d0)) by (unfold s_at in Ei; destruct (nth_error (s_gfs sw) i); congruence).
    destruct (LocalFunction_props.upd_same _ _ _ None Hn) as [gs Hgs].
    destruct (IH (SWorld (s_exts sw) gs (map (orphan i) (s_lfs sw)))) as (sw' & R1 & R2 & R3); auto.
    - apply Forall_forall. intros k Hk. rewrite Forall_forall in F2. specialize (F2 k Hk). unfold s_at in *. cbn. rewrite (upd_nth_error _ _ _ _ k Hgs).
      destruct (Nat.eqb_spec k i) as [->|]; [contradiction|auto].
    - cbn. rewrite nth_error_map, Hj. cbn. eauto.
    - exists sw'. split; [econstructor; [eapply s_destroy; eauto|auto]|]. auto. }
  destruct (K is sw ND HF) as (sw' & R1 & R2 & src' & R3); [eauto|].
  destruct (C60_safe _ _ OK (srun_app _ _ _ _ _ H R1)) as (w & W1 & _ & W2). destruct (W2 _ _ _ _ R3) as (r & Hr & _ & _ & Hv).
  exists w, r. split; auto. split; auto. intros x. apply Hv; auto. split; [now rewrite R2|congruence].
Qed.

(** ** What the rules forbid does go wrong *)
Lemma get_killed (m : memory E V) l a : In a l -> get (kill m l) a = None.
Proof.
  revert m. induction l as [|b l IH]; intros m Ha; [destruct Ha|]. unfold kill in *. cbn. destruct (in_dec Nat.eq_dec a l) as [Hl|Hl]; [now apply IH|]. destruct Ha as [->|Ha]; [|contradiction].
  change (get (kill (put m a None) l) a = None). rewrite get_kill by auto. rewrite get_put, Nat.eqb_refl. now destruct (a <? length m).
Qed.
(** Without type erasure. *)
Fixpoint bare (d : desc) : desc := match d with DErased d => bare d | _ => d end.
Lemma bare_fn d : fn (bare d) = fn d. Proof. induction d; cbn; auto. Qed.
Lemma bare_refers d : refers (bare d) = refers d. Proof. induction d; cbn; auto. Qed.

(** A local function of a composed function cannot be evaluated once the grid function has
    been destroyed. *)
Theorem C60_composed_refuted (h : list op) sw j d s i outer inner : grid_ok G -> srun G s_empty h sw ->
  nth_error (s_lfs sw) j = Some (d, s, Some i) -> bare d = DComp outer inner -> s_at sw i <> None ->
  exists w, run G empty (h ++ [BDestroy i]) = Some w /\ forall x, step G w (LEval j x) = None.
Proof.
  intros OK H Hj Hd Hi. destruct (run_ok G OK _ _ _ H _ (empty_ok G)) as (w & E1 & HI). destruct (s_at sw i) as [d0|] eqn:Ed; [|congruence].
  destruct (at_ok G w sw i d0 HI Ed) as (n & Hn & Hn' & _). rewrite run_app, E1. cbn [obind run step]. rewrite Hn. cbn [obind].
  destruct (LocalFunction_props.upd_same _ _ _ None Hn') as [gs Hgs]. rewrite Hgs. cbn [obind]. eexists. split; [reflexivity|]. intros x. cbn [step w_lfs].
  destruct HI as (_ & _ & _ & HL). destruct (F2_nth _ _ _ _ _ HL Hj) as (r & -> & o & O1 & O2 & O3). cbn [obind w_mem w_exts].
  rewrite <- bare_fn, Hd in O1. destruct o as [| | |h' os| |]; try contradiction. inversion O3 as [| | |a h0 l os0 [Q1 Q2] Hl| |]; subst.
  destruct (Q2 i eq_refl) as (n0 & N1 & N2 & N3). rewrite Hn' in N1. injection N1 as <-. unfold reval. cbn [rshape reval_at].
  unfold deref_outer. rewrite (get_killed _ _ _ N2). cbn [obind].
  destruct ((fix go shs l := match shs, l with [], [] => Some ([], []) | s :: shs', i :: r => '(v, i') <- reval_at G (kill (w_mem w) (addrs n)) (w_exts w) s i x ;; '(vs, r') <- go shs' r ;; Some (v :: vs, i' :: r') | _, _ => None end) (map rshape l) l) as [[? ?]|]; reflexivity.
Qed.
(** A local function of a function that is not discrete, transferred to another grid view,
    cannot be bound once the grid function has been destroyed. *)
Theorem C60_transferred_refuted (h : list op) sw i d es d0 e : grid_ok G -> srun G s_empty h sw -> s_at sw i = Some d ->
  bare d = DCoarse es d0 \/ bare d = DFine es d0 -> shared d0 = false -> alive (s_exts sw) (ddeps d) = true ->
  exists w, run G empty (h ++ [LNew i; BDestroy i]) = Some w /\ step G w (LBind (length (s_lfs sw)) e) = None.
Proof.
  intros OK H Hi Hd Hs HA. destruct (run_ok G OK _ _ _ H _ (empty_ok G)) as (w & E1 & HI). destruct (at_ok G w sw i d HI Hi) as (n & Hn & Hn' & Rn & _).
  destruct HI as (HX & _ & _ & HL). rewrite run_app, E1. cbn [obind run step]. rewrite Hn. cbn [obind].
  assert (K : forall n d, rep (w_mem w) n d -> bare d = DCoarse es d0 \/ bare d = DFine es d0 -> alive (w_exts w) (ddeps d) = true ->
    exists r, rnew (w_exts w) n = Some r /\ forall m, (forall a, In a (addrs n) -> get m a = None) -> rbind G m (w_exts w) r e = None).
  { clear - Hs. induction 1 as [a es0 f|a es0 f|es0 deps v dv|a h l ds|a es0 n d G1 Hr IH|a es0 n d G1 Hr IH|n d Hr IH]; cbn [bare]; intros [Hd|Hd] HA; try discriminate.
    - injection Hd as -> ->. destruct (eset_ok _ _ _ Hr) as (s & S1 & S2). rewrite Hs in S2. destruct S2 as (b & -> & B1 & B2).
      destruct (proj1 (new_both _ (w_exts w)) _ _ Hr (fun _ _ => True)) as (r & R1 & _); auto. cbn [rnew]. rewrite S1. cbn [obind]. rewrite R1. cbn [obind]. eexists. split; [reflexivity|].
      intros m Hm. cbn [rbind deref_set]. rewrite Hm by (now right). reflexivity.
    - injection Hd as -> ->. destruct (eset_ok _ _ _ Hr) as (s & S1 & S2). rewrite Hs in S2. destruct S2 as (b & -> & B1 & B2).
      destruct (proj1 (new_both _ (w_exts w)) _ _ Hr (fun _ _ => True)) as (r & R1 & _); auto. cbn [rnew]. rewrite S1. cbn [obind]. rewrite R1. cbn [obind]. eexists. split; [reflexivity|].
      intros m Hm. cbn [rbind deref_set]. rewrite Hm by (now right). reflexivity.
    - apply IH; auto.
    - apply IH; auto. }
  rewrite <- HX in HA. destruct (K n d Rn Hd HA) as (r & -> & HB). cbn [obind]. unfold gf_at. cbn. rewrite Hn'. cbn. destruct (LocalFunction_props.upd_same _ _ _ None Hn') as [gs ->]. cbn.
  eexists. split; [reflexivity|]. cbn. rewrite <- (F2_length _ _ _ HL), nth_error_app2, Nat.sub_diag by auto. cbn. rewrite HB; auto. intros a Ha. now apply get_killed.
Qed.
(** In particular localFunction(derivative(f)), where the derivative is a temporary, cannot be
    bound. *)
Theorem C60_derivative_refuted (h : list op) sw i es d d' e : grid_ok G -> srun G s_empty h sw ->
  s_at sw i = Some (DCoarse es d) \/ s_at sw i = Some (DFine es d) -> dderiv d = Some d' -> shared d = false -> alive (s_exts sw) (ddeps d) = true ->
  let k := length (s_gfs sw) in
  exists w, run G empty (h ++ [BDeriv i; LNew k; BDestroy k]) = Some w /\ step G w (LBind (length (s_lfs sw)) e) = None.
Proof.
  intros OK H Hi Hd Hs HA k. destruct (dderiv_keeps d d' Hd) as (A1 & A2 & A3 & A4 & A5).
  assert (K : exists d1, srun G s_empty (h ++ [BDeriv i]) (s_add sw d1) /\ (d1 = DCoarse es d' \/ d1 = DFine es d')).
  { destruct Hi as [Hi|Hi]; [exists (DCoarse es d')|exists (DFine es d')]; (split; [|auto]); (eapply srun_app; [exact H|]); (eapply sr_cons; [|apply sr_nil]); (eapply s_deriv; [exact Hi|]); cbn; now rewrite Hd. }
  destruct K as (d1 & K1 & K2). change [BDeriv i; LNew k; BDestroy k] with ([@BDeriv E X Y V i] ++ [LNew k; BDestroy k]). rewrite app_assoc.
  destruct (C60_transferred_refuted (h ++ [BDeriv i]) (s_add sw d1) k d1 es d' e OK K1) as (w & W1 & W2).
  - unfold s_at, s_add, k. cbn. rewrite nth_error_app2, Nat.sub_diag by auto. reflexivity.
  - destruct K2 as [-> | ->]; auto.
  - congruence.
  - destruct K2 as [-> | ->]; cbn; now rewrite A1.
  - exists w. auto.
Qed.
(** A discrete function whose vector has been destroyed is not usable: neither can a local
    function be created nor an existing one be evaluated.  This happens at once if
    makeDiscreteGlobalBasisFunction is given a temporary vector. *)
Theorem C60_vector_refuted (h : list op) sw i k es deps v dv : grid_ok G -> srun G s_empty h sw ->
  s_at sw i = Some (DDis es deps v dv) -> In k deps -> k < length (s_exts sw) ->
  exists w, run G empty (h ++ [XDestroy k]) = Some w /\ step G w (LNew i) = None /\
    forall j s src, nth_error (s_lfs sw) j = Some (DDis es deps v dv, s, src) -> forall x, step G w (LEval j x) = None.
Proof.
  intros OK H Hi Hk Lk. destruct (run_ok G OK _ _ _ H _ (empty_ok G)) as (w & E1 & HI). destruct (at_ok G w sw i _ HI Hi) as (n & Hn & Hn' & Rn & _).
  destruct HI as (HX & _ & _ & HL). rewrite run_app, E1. cbn [obind run step]. rewrite HX.
  destruct (upd (s_exts sw) k false) as [ex|] eqn:Ex; [|apply upd_None in Ex; lia]. cbn [obind]. eexists. split; [reflexivity|].
  assert (AL : alive ex deps = false).
  { apply not_true_is_false. intros HA. unfold alive in HA. rewrite forallb_forall in HA. specialize (HA k Hk). assert (Q := upd_nth_error _ _ _ _ k Ex). rewrite Nat.eqb_refl in Q. now rewrite (nth_error_nth _ _ false Q) in HA. }
  split.
  - unfold gf_at in *. cbn. rewrite Hn'. cbn. inversion Rn; subst. cbn. now rewrite AL.
  - intros j s src Hj x. destruct (F2_nth _ _ _ _ _ HL Hj) as (r & Hr & o & O1 & O2 & O3). cbn. rewrite Hr. cbn. cbn in O1, O2. destruct o; try contradiction. inversion O3; subst. cbn in *.
    unfold reval. cbn. rewrite AL. destruct elem; reflexivity.
Qed.
(** Assigning another function to a composed function changes only a part of the local
    functions made before: they evaluate the new outer function of the old inner functions. *)
Theorem C60_assign_refuted (h h' : list V -> V) (f f' : nat -> Y -> V) (es es' : E -> bool) (e : E) x :
  exists w r r', run G empty [BAna es f; BComp h [0]; BAna es' f'; BComp h' [2]; LNew 1; LBind 0 e; BAssign 1 3] = Some w /\
    nth_error (w_lfs w) 0 = Some r /\ reval G (w_mem w) (w_exts w) r x = Some (h' [f 0 (gr_geo G e x)], r').
Proof. do 3 eexists. split; [reflexivity|]. split; reflexivity. Qed.
End Props.

(** ** Examples *)
Notation EX := LocalFunction_props.ex_grid.
Notation level := LocalFunction_props.ex_level.
Definition id_fn : nat -> R -> R := fun k y => match k with 0 => y | 1 => 1%R | _ => 0%R end.
(** The identity on level 0, transferred to level 2, composed with something, and a discrete
    function with a basis and a vector; the variables are copied, reassigned and destroyed
    while local functions exist. *)
Example C60_hypotheses_met : exists sw,
  srun EX s_empty
    [XNew; XNew; BAna (level 0) id_fn; BCoarse (level 2) 0; BComp (fun l => fold_right Rplus 0%R l) [1; 1]; BErase 2;
     BDis (level 2) [0; 1] (fun e x => x) None; LNew 3; LNew 1; LNew 4; BDestroy 0; LBind 0 (2, 3); LEval 0 (1/3)%R; BDeriv 1; LNew 5; LBind 3 (2, 1);
     LBind 1 (2, 2); LCopy 1; LDeriv 1; LBind 2 (2, 0); BDestroy 4; BCopy 3; BAssign 6 3; BDestroy 3; LEval 2 0%R; XDestroy 0] sw /\
  nth_error (s_lfs sw) 0 = Some (DErased (DComp (fun l => fold_right Rplus 0%R l) [DCoarse (level 2) (DAna (level 0) id_fn); DCoarse (level 2) (DAna (level 0) id_fn)]), Some (2, 3), None) /\
  nth_error (s_lfs sw) 1 = Some (DCoarse (level 2) (DAna (level 0) id_fn), Some (2, 2), Some 1) /\
  nth_error (s_lfs sw) 2 = Some (DDis (level 2) [0; 1] (fun e x => x) None, Some (2, 0), None) /\
  usable sw (DCoarse (level 2) (DAna (level 0) id_fn)) (Some 1).
Proof.
  assert (FC : forall k, k < 4 -> fits EX (@GCoarse (nat * nat) R R R (level 0) (GAna id_fn)) (2, k)).
  { intros k Hk. cbn. exists (0, 0), [(2, k); (1, k / 2)]. split; [|exact I]. eapply near_up; [reflexivity|reflexivity|]. eapply near_up; [reflexivity| |].
    - cbn. reflexivity.
    - assert (Z : k / 2 / 2 = 0) by (do 4 (destruct k as [|k]; [reflexivity|]); lia). cbn [fst snd Nat.pred] in *. cbn in Z. rewrite Z. now apply near_here. }
  assert (F2 : fits EX (fn (DErased (DComp (fun l => fold_right Rplus 0%R l) [DCoarse (level 2) (DAna (level 0) id_fn); DCoarse (level 2) (DAna (level 0) id_fn)]))) (2, 3)).
  { split; [|split; [|exact I]]; apply FC; lia. }
  assert (F3 : fits EX (fn (DCoarse (level 2) (DAna (level 0) (fun k => id_fn (S k))))) (2, 1)).
  { destruct (FC 1 ltac:(lia)) as (a & l & A & B). exists a, l. auto. }
  eexists. split.
  - econstructor; [apply s_xnew|]. econstructor; [apply s_xnew|]. econstructor; [apply s_ana|]. econstructor; [eapply s_coarse; reflexivity|].
    econstructor; [eapply s_comp; [discriminate|repeat constructor]|]. econstructor; [eapply s_erase; reflexivity|]. econstructor; [apply s_dis|].
    econstructor; [eapply s_new; reflexivity|]. econstructor; [eapply s_new; reflexivity|]. econstructor; [eapply s_new; reflexivity|]. econstructor; [eapply s_destroy; reflexivity|].
    econstructor; [eapply s_bind; [reflexivity|split; [reflexivity|discriminate]|exact F2|reflexivity]|]. econstructor; [eapply s_eval; [reflexivity|split; [reflexivity|discriminate]]|].
    econstructor; [eapply s_deriv; reflexivity|]. econstructor; [eapply s_new; reflexivity|]. econstructor; [eapply s_bind; [reflexivity|split; [reflexivity|discriminate]|exact F3|reflexivity]|].
    econstructor; [eapply s_bind; [reflexivity|split; [reflexivity|discriminate]|apply (FC 2); lia|reflexivity]|]. econstructor; [eapply s_lcopy; reflexivity|].
    econstructor; [eapply s_lderiv; reflexivity|]. econstructor; [eapply s_bind; [reflexivity|split; [reflexivity|discriminate]|exact I|reflexivity]|]. econstructor; [eapply s_destroy; reflexivity|].
    econstructor; [eapply s_copy; reflexivity|]. econstructor; [eapply s_assign; [lia|reflexivity|reflexivity|reflexivity|reflexivity]|]. econstructor; [eapply s_destroy; reflexivity|].
    econstructor; [eapply s_eval; [reflexivity|split; [reflexivity|discriminate]]|]. econstructor; [eapply s_xdestroy; reflexivity|]. constructor.
  - split; [reflexivity|]. split; [reflexivity|]. split; [reflexivity|]. split; [reflexivity|discriminate].
Qed.
(** The hypotheses of the refutations: a composed and a transferred function with local
    functions, a discrete function with a vector. *)
Example C60_refuted_met : exists sw,
  srun EX s_empty [XNew; XNew; BAna (level 0) id_fn; BCoarse (level 2) 0; BComp (fun l => fold_right Rplus 0%R l) [0]; BDis (level 2) [0; 1] (fun e x => x) None; LNew 2; LBind 0 (0, 0); LNew 3; LBind 1 (2, 1)] sw /\
  nth_error (s_lfs sw) 0 = Some (DComp (fun l => fold_right Rplus 0%R l) [DAna (level 0) id_fn], Some (0, 0), Some 2) /\ s_at sw 2 <> None /\
  s_at sw 1 = Some (DCoarse (level 2) (DAna (level 0) id_fn)) /\ @dderiv (nat * nat) R R R (DAna (level 0) id_fn) <> None /\ @shared (nat * nat) R R R (DAna (level 0) id_fn) = false /\
  s_at sw 3 = Some (DDis (level 2) [0; 1] (fun e x => x) None) /\ 1 < length (s_exts sw) /\
  nth_error (s_lfs sw) 1 = Some (DDis (level 2) [0; 1] (fun e x => x) None, Some (2, 1), Some 3).
Proof.
  eexists. split.
  - econstructor; [apply s_xnew|]. econstructor; [apply s_xnew|]. econstructor; [apply s_ana|]. econstructor; [eapply s_coarse; reflexivity|].
    econstructor; [eapply s_comp; [discriminate|repeat constructor]|]. econstructor; [apply s_dis|]. econstructor; [eapply s_new; reflexivity|].
    econstructor; [eapply s_bind; [reflexivity|split; [reflexivity|discriminate]|cbn; auto|reflexivity]|]. econstructor; [eapply s_new; reflexivity|].
    econstructor; [eapply s_bind; [reflexivity|split; [reflexivity|discriminate]|exact I|reflexivity]|]. constructor.
  - repeat split; try discriminate; cbn; auto.
Qed.
(** The outer functions y + 1 and 10 y and the inner functions 2 and 3: the local function
    computes 20, the old function is 3, the new one 30. *)
Example C60_assign_mixes : exists w r r',
  let h l := (fold_right Rplus 0 l + 1)%R in let h' l := (10 * fold_right Rplus 0 l)%R in
  run EX empty [BAna (level 0) (fun _ _ => 2%R); BComp h [0]; BAna (level 0) (fun _ _ => 3%R); BComp h' [2]; LNew 1; LBind 0 (0, 0); BAssign 1 3] = Some w /\
  nth_error (w_lfs w) 0 = Some r /\ reval EX (w_mem w) (w_exts w) r 0%R = Some (20%R, r') /\ h [2%R] = 3%R /\ h' [3%R] = 30%R.
Proof.
  destruct (C60_assign_refuted EX (fun l => (fold_right Rplus 0 l + 1)%R) (fun l => (10 * fold_right Rplus 0 l)%R) (fun _ _ => 2%R) (fun _ _ => 3%R) (level 0) (level 0) (0, 0) 0%R) as (w & r & r' & A & B & C).
  exists w, r, r'. cbn zeta. split; [exact A|]. split; [exact B|]. rewrite C. cbn. split; [f_equal; f_equal; lra|]. split; lra.
Qed.
Print Assumptions C60_safe.
Print Assumptions C60_independent.
Print Assumptions C60_composed_refuted.
Print Assumptions C60_transferred_refuted.
Print Assumptions C60_derivative_refuted.
Print Assumptions C60_vector_refuted.
Print Assumptions C60_assign_refuted.
