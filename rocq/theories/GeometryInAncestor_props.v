(** GeometryInAncestor (C42). *)
From Coq Require Import List Arith Bool Lia Reals Field.
From Verif Require Import Lib LocalFunction_model LocalFunction_spec LocalFunction_props GeometryInAncestor_model.
Import ListNotations.
Open Scope nat_scope.

Section Spec.
Context {E X Y : Type}.
Variable G : grid E X Y.
Variable ext : nat -> option E.

(** What a GeometryInAncestor should be: not bound, or bound to the caller's element
    [a], with coarse element [c], the elements [l] between them, and whether it was
    bound itself or is a copy. *)
Record state := ST { st_fine : nat; st_coarse : E; st_path : list E; st_direct : bool }.
Inductive gstep : list (option state) -> giop E -> list (option state) -> Prop :=
| gs_new p : gstep p GNew (p ++ [None])
| gs_bind p i a f e c l p' : ext a = Some e -> nearest G (fun e => negb (f e)) e c l ->
    upd p i (Some (ST a c l true)) = Some p' -> gstep p (GBind i a f) p'
| gs_copy p j s : nth_error p j = Some s ->
    gstep p (GCopy j) (p ++ [option_map (fun s => ST (st_fine s) (st_coarse s) (st_path s) false) s])
| gs_copy_ext p j s a : nth_error p j = Some (Some s) -> ext a = ext (st_fine s) ->
    gstep p (GCopyExt j a) (p ++ [Some (ST a (st_coarse s) (st_path s) false)]).
Inductive grun : list (option state) -> list (giop E) -> list (option state) -> Prop :=
| gr_nil p : grun p [] p
| gr_cons p o p' h p'' : gstep p o p' -> grun p' h p'' -> grun p (o :: h) p''.

(** [l] leads from [e] up to [c]. *)
Inductive chain : E -> E -> list E -> Prop :=
| ch_nil e : chain e e []
| ch_up e f c l : gr_father G e = Some f -> chain f c l -> chain e c (e :: l).

(** * Proofs *)
Hypothesis OK : grid_ok G.
Definition good (i : nat) (s : option state) (o : gia E) : Prop :=
  gi_sfine o = None /\
  match s with
  | None => gi_fine o = PNull /\ gi_coarse o = PNull /\ gi_geos o = []
  | Some (ST a c l d) =>
      gi_fine o = PExt a /\ gi_geos o = l /\ (exists e, ext a = Some e /\ chain e c l) /\
      (l = [] -> gi_coarse o = PExt a) /\
      (d = true -> l <> [] -> gi_coarse o = PCoarse i /\ gi_scoarse o = Some c)
  end.
Definition inv (p : list (option state)) (m : mem E) : Prop :=
  m_ext m = ext /\ length p = length (m_objs m) /\
  forall i s o, nth_error p i = Some s -> nth_error (m_objs m) i = Some o -> good i s o.

Lemma nearest_chain cs e c l : nearest G cs e c l -> chain e c l.
Proof. induction 1; econstructor; eauto. Qed.
Lemma inv_app p m s o : inv p m -> good (length p) s o -> inv (p ++ [s]) (MEM (m_ext m) (m_objs m ++ [o])).
Proof.
  intros (H1 & H2 & H3) Hg. split; auto. split; [cbn [m_objs]; rewrite !app_length; cbn [length]; lia|]. cbn. intros i s' o'.
  rewrite !nth_error_app_eq, <- H2. destruct (Nat.ltb_spec i (length p)); [apply H3|].
  destruct (i - length p) as [|q] eqn:Eq; [|destruct q; discriminate]. cbn. intros [= <-] [= <-]. assert (i = length p) as -> by lia. exact Hg.
Qed.
Lemma inv_upd p m i s o p' : inv p m -> good i s o -> upd p i s = Some p' ->
  exists l, upd (m_objs m) i o = Some l /\ inv p' (MEM (m_ext m) l).
Proof.
  intros (H1 & H2 & H3) Hg Hu. destruct (upd (m_objs m) i o) as [l|] eqn:El.
  2:{ apply upd_None in El. apply upd_lt in Hu. lia. }
  exists l. split; auto. split; auto. split; [cbn; now rewrite (upd_length _ _ _ _ Hu), (upd_length _ _ _ _ El)|].
  cbn. intros k s' o'. rewrite (upd_nth_error _ _ _ _ k Hu), (upd_nth_error _ _ _ _ k El).
  destruct (Nat.eqb_spec k i) as [->|]; [intros [= <-] [= <-]; auto|apply H3].
Qed.
Lemma step_inv p o p' m : gstep p o p' -> inv p m -> exists m', gi_step G m o = Some m' /\ inv p' m'.
Proof.
  intros Hs HI. destruct Hs as [p|p i a f e c l p' Ha Hn Hu|p j s Hj|p j s a Hj Ha]; cbn [gi_step].
  - eexists. split; [reflexivity|]. apply inv_app; auto. unfold good; cbn; auto.
  - pose proof HI as (H1 & H2 & H3). unfold gia_bind.
    destruct (nth_error_lt_Some (m_objs m) i) as [o Ho]; [apply upd_lt in Hu; lia|]. rewrite Ho, H1, Ha. cbn [obind].
    assert (HA : ancestor G (gr_level G e) f e [] = Some (c, [] ++ l)).
    { rewrite <- (ancestor_ok G OK _ _ _ _ Hn (gr_level G e) [] (le_n _)). generalize (@nil E) as acc. generalize (gr_level G e) as fu.
      intros fu. clear. revert e. induction fu as [|fu IH]; intros e acc; cbn; rewrite Bool.negb_involutive; auto. destruct (f e); auto. destruct (gr_father G e); cbn; auto. }
    rewrite HA. cbn [obind app]. destruct (nth_error p i) as [s|] eqn:Es.
    2:{ apply nth_error_None in Es. apply upd_lt in Hu. lia. }
    destruct (H3 i s o Es Ho) as [Hsf _].
    set (o' := match l with [] => _ | _ => _ end).
    destruct (inv_upd p m i (Some (ST a c l true)) o' p' HI) as (l' & El & HI'); auto.
    { unfold o'. split; [destruct l; exact Hsf|]. split; [destruct l; auto|]. split; [destruct l; auto|].
      split; [exists e; split; auto; eapply nearest_chain; eauto|]. split; [intros ->; auto|]. intros _ Hl. destruct l; [congruence|]. auto. }
    rewrite El. cbn [obind]. rewrite H1 in HI'. eauto.
  - pose proof HI as (H1 & H2 & H3). destruct (nth_error_lt_Some (m_objs m) j) as [o Ho]; [apply nth_error_Some_lt in Hj; lia|].
    rewrite Ho. cbn [obind]. eexists. split; [reflexivity|]. apply inv_app; auto. rewrite <- H2. pose proof (H3 j s o Hj Ho) as [Hsf Hg].
    split; [exact Hsf|]. unfold gia_copy. destruct s as [[a c l d]|]; cbn [option_map st_fine st_coarse st_path gi_fine gi_coarse gi_geos gi_scoarse].
    + destruct Hg as (G1 & G2 & G3 & G4 & G5). rewrite G1. cbn [ptr_eqb negb]. split; auto. split; auto. split; auto. split; [|discriminate].
      intros Hl. rewrite (G4 Hl). reflexivity.
    + destruct Hg as (G1 & G2 & G3). rewrite G1, G2. cbn. auto.
  - pose proof HI as (H1 & H2 & H3). destruct (nth_error_lt_Some (m_objs m) j) as [o Ho]; [apply nth_error_Some_lt in Hj; lia|].
    rewrite Ho. cbn [obind]. eexists. split; [reflexivity|]. apply inv_app; auto. rewrite <- H2. pose proof (H3 j (Some s) o Hj Ho) as [Hsf Hg].
    split; [exact Hsf|]. unfold gia_copy_ext. destruct s as [a0 c l d]; cbn [st_fine st_coarse st_path gi_fine gi_coarse gi_geos gi_scoarse] in *.
    destruct Hg as (G1 & G2 & G3 & G4 & G5). split; auto. split; auto. split; [now rewrite Ha|]. split; [|discriminate].
    intros Hl. rewrite (G4 Hl). reflexivity.
Qed.
Lemma run_inv p h p' : grun p h p' -> forall m, inv p m -> exists m', gi_run G m h = Some m' /\ inv p' m'.
Proof.
  induction 1 as [p|p o p' h p'' Hs Hr IH]; intros m HI; cbn; [eauto|].
  destruct (step_inv _ _ _ _ Hs HI) as (m' & -> & HI'). cbn. auto.
Qed.

(** After any history the objects, bound ones and copies, have their fine element, and
    global() composes the geometryInFather maps along the chain of fathers from it;
    coarseElement() is right if the object was bound itself or nothing lies between. *)
Theorem C42_geometry_in_ancestor_partial h p :
  grun [] h p -> exists m, gi_run G (MEM ext []) h = Some m /\ length (m_objs m) = length p /\
    forall i a c l d, nth_error p i = Some (Some (ST a c l d)) ->
      exists e, ext a = Some e /\ chain e c l /\ gia_fine_element m i = Some e /\
        (forall x, gia_global G m i x = Some (up_along G l x)) /\
        (d = true \/ l = [] -> gia_coarse_element m i = Some c).
Proof.
  intros Hr. destruct (run_inv [] h p Hr (MEM ext [])) as (m & H1 & H2 & H3 & H4).
  { split; auto. split; auto. intros [|i] s o; discriminate. }
  exists m. split; auto. split; auto. intros i a c l d Hi.
  destruct (nth_error_lt_Some (m_objs m) i) as [o Ho]; [apply nth_error_Some_lt in Hi; lia|].
  destruct (H4 i _ o Hi Ho) as (Hsf & G1 & G2 & (e & He & Hc) & G4 & G5). exists e.
  unfold gia_fine_element, gia_global, gia_coarse_element. rewrite Ho. cbn [obind]. rewrite G1, G2. cbn [deref]. rewrite H2.
  split; auto. split; auto. split; auto. split; [intros x; now rewrite up_along_eq|].
  intros Hd. destruct l as [|e0 l].
  - rewrite (G4 eq_refl). cbn. rewrite H2. inversion Hc; subst. exact He.
  - destruct Hd as [->|]; [|discriminate]. destruct (G5 eq_refl) as [A B]; [discriminate|]. rewrite A. cbn. rewrite Ho. exact B.
Qed.
(** local() inverts global(). *)
Theorem C42_local_inverts_global m i x y :
  (forall e x, gr_down G e (gr_up G e x) = x) -> gia_global G m i x = Some y -> gia_local G m i y = Some x.
Proof.
  intros Hinv. unfold gia_global, gia_local. destruct (nth_error (m_objs m) i) as [o|]; [|discriminate]. cbn. intros [= <-]. f_equal.
  unfold map_up, map_down. generalize (gi_geos o). intros l. revert x. induction l as [|e l IH]; intros x; cbn; auto.
  rewrite fold_left_app, IH. cbn. apply Hinv.
Qed.
Theorem C42_global_inverts_local m i x y :
  (forall e x, gr_up G e (gr_down G e x) = x) -> gia_local G m i x = Some y -> gia_global G m i y = Some x.
Proof.
  intros Hinv. unfold gia_global, gia_local. destruct (nth_error (m_objs m) i) as [o|]; [|discriminate]. cbn. intros [= <-]. f_equal.
  unfold map_up, map_down. generalize (gi_geos o). intros l. induction l as [|e l IH]; cbn; auto.
  rewrite fold_left_app. cbn. rewrite Hinv. exact IH.
Qed.
(** Copies of an object whose coarse element is not its fine element have a wrong
    coarse element: a default constructed one. *)
Theorem C42_copied_coarse_element_refuted h p i a c l :
  grun [] h p -> nth_error p i = Some (Some (ST a c l true)) -> l <> [] ->
  exists m, gi_run G (MEM ext []) (h ++ [GCopy i]) = Some m /\
    gia_coarse_element m i = Some c /\ gia_coarse_element m (length p) = None.
Proof.
  intros Hr Hi Hl. destruct (run_inv [] h p Hr (MEM ext [])) as (m & H1 & H2 & H3 & H4).
  { split; auto. split; auto. intros [|k] s o; discriminate. }
  destruct (nth_error_lt_Some (m_objs m) i) as [o Ho]; [apply nth_error_Some_lt in Hi; lia|].
  destruct (H4 i _ o Hi Ho) as (Hsf & G1 & G2 & _ & _ & G5). destruct (G5 eq_refl Hl) as [A B].
  assert (HA : forall h1 h2 m, gi_run G m (h1 ++ h2) = (m' <- gi_run G m h1 ;; gi_run G m' h2)).
  { clear. induction h1 as [|o h1 IH]; intros h2 m; [reflexivity|]. cbn. destruct (gi_step G m o); cbn; auto. }
  rewrite HA, H1. cbn [obind gi_run gi_step]. rewrite Ho. cbn [obind]. eexists. split; [reflexivity|].
  unfold gia_coarse_element. cbn [m_objs]. rewrite H3.
  assert (Hlt := nth_error_Some_lt _ _ _ Ho).
  rewrite !nth_error_app_eq. destruct (Nat.ltb_spec i (length (m_objs m))); [|lia]. rewrite Nat.ltb_irrefl, Nat.sub_diag. cbn [nth_error obind].
  rewrite Ho. cbn [obind]. rewrite A. unfold gia_copy. cbn [gi_coarse]. rewrite A. cbn [ptr_eqb]. rewrite Nat.eqb_refl. cbn [negb deref m_objs].
  rewrite !nth_error_app_eq. destruct (Nat.ltb_spec i (length (m_objs m))); [|lia]. rewrite Nat.ltb_irrefl, Nat.sub_diag. cbn [nth_error obind].
  rewrite Ho. cbn. split; auto.
Qed.
End Spec.

(** * The hypotheses are met *)
Example C42_hypotheses_met :
  grun ex_grid (fun a => Some (2, a)) [] [GNew; GBind 0 3 (fun e => negb (ex_level 0 e)); GCopy 0; GBind 1 2 (fun e => negb (ex_level 1 e))]
    [Some (ST 3 (0, 0) [(2, 3); (1, 1)] true); Some (ST 2 (1, 1) [(2, 2)] true)].
Proof.
  eapply gr_cons; [apply gs_new|].
  eapply gr_cons; [eapply gs_bind; [reflexivity|do 2 (eapply near_up; [reflexivity|reflexivity|]); now apply near_here|reflexivity]|].
  eapply gr_cons; [eapply gs_copy; reflexivity|].
  eapply gr_cons; [eapply gs_bind; [reflexivity|eapply near_up; [reflexivity|reflexivity|]; now apply near_here|reflexivity]|].
  apply gr_nil.
Qed.
Example C42_inverse_met : forall e x, gr_down ex_grid e (gr_up ex_grid e x) = x.
Proof. intros [l k] x. cbn. field. Qed.

Print Assumptions C42_geometry_in_ancestor_partial.
Print Assumptions C42_local_inverts_global.
Print Assumptions C42_global_inverts_local.
Print Assumptions C42_copied_coarse_element_refuted.
