(** C98: marking the boundary DOFs in a container. *)
From Coq Require Import List Arith Lia Bool Reals.
From Verif Require Import Lib Basis_model Basis_spec Basis_ok Basis_view Basis_proofs Basis_props
  Container_model Container_spec Container_proofs Container_props Interpolate_model Interpolate_props InterpLinear_props
  DiscreteFunction_model DiscreteFunction_spec Projection_spec
  SubEntityDOFs_model SubEntityDOFs_spec SubEntityDOFs_props BoundaryTrace_spec BoundaryTrace_props
  FlatVector_model PyArrays_model PyArrays_spec PyArrays_props BoundaryMarks_model BoundaryMarks_spec.
Import ListNotations.

Lemma filled_blocks {V} (x : V) l l' : Forall2 (filled x) l l' -> filled x (CBlk l) (CBlk l').
Proof.
  intros F. split.
  - cbn. f_equal. induction F as [|a b l l' [H _] F IH]; cbn; congruence.
  - intros [|i p] y H; [discriminate|]. cbn in H. destruct (nth_error l' i) as [b|] eqn:Eb; [|discriminate].
    destruct (Forall2_nth_r _ _ _ _ _ F Eb) as (a & _ & _ & Q). eapply Q; eauto.
Qed.

(** backend = x sets all scalars, and changes no size. *)
Theorem C98_assign_value {V} (assignable : cty -> bool) (direct : V -> cont V -> cont V) x t :
  assignment_ok assignable direct ->
  forall c, has_ty t c -> exists c', recursive_assign assignable (direct x) t c = Some c' /\ filled x c c' /\ has_ty t c'.
Proof.
  intros [A1 A2] c Ht.
  assert (G : exists c', recursive_assign assignable (direct x) t c = Some c' /\ filled x c c').
  { revert c Ht. induction t as [|t IH|n t IH|ts IH] using cty_ind'; intros c Ht; cbn [recursive_assign].
    - rewrite A1. eauto.
    - destruct (assignable (TDyn t)) eqn:Ea; [eauto|]. destruct c as [y|l]; [contradiction|]. cbn in Ht.
      match goal with |- context [option_map CBlk (?g l)] => assert (G : exists l', g l = Some l' /\ Forall2 (filled x) l l') end.
      { clear Ea. induction Ht as [|y l H1 H2 IHl]; [eauto|]. destruct (IH y H1) as (y' & -> & F1). destruct IHl as (l' & E2 & F2).
        exists (y' :: l'). split; [|constructor; auto]. cbn [obind]. now rewrite E2. }
      destruct G as (l' & -> & F). exists (CBlk l'). split; auto. now apply filled_blocks.
    - destruct (assignable (TArr n t)) eqn:Ea; [eauto|]. destruct c as [y|l]; [contradiction|]. destruct Ht as [_ Ht].
      match goal with |- context [option_map CBlk (?g l)] => assert (G : exists l', g l = Some l' /\ Forall2 (filled x) l l') end.
      { clear Ea. induction Ht as [|y l H1 H2 IHl]; [eauto|]. destruct (IH y H1) as (y' & -> & F1). destruct IHl as (l' & E2 & F2).
        exists (y' :: l'). split; [|constructor; auto]. cbn [obind]. now rewrite E2. }
      destruct G as (l' & -> & F). exists (CBlk l'). split; auto. now apply filled_blocks.
    - destruct (assignable (TTup ts)) eqn:Ea; [eauto|]. apply has_ty_tup in Ht as (l & -> & Ht).
      match goal with |- context [option_map CBlk (?g ts l)] => assert (G : exists l', g ts l = Some l' /\ Forall2 (filled x) l l') end.
      { clear Ea. revert IH. induction Ht as [|t y ts l H1 H2 IHl]; intros IH; [eauto|]. inversion IH as [|? ? I1 I2]; subst.
        destruct (I1 y H1) as (y' & -> & F1). destruct (IHl I2) as (l' & E2 & F2).
        exists (y' :: l'). split; [|constructor; auto]. cbn [obind]. now rewrite E2. }
      destruct G as (l' & -> & F). exists (CBlk l'). split; auto. now apply filled_blocks. }
  destruct G as (c' & E & F). exists c'. split; auto. split; auto. apply (has_ty_shape t c c'); auto. symmetry. apply F.
Qed.

Lemma mark_writes t ms : forall c : cont bool, mark_all t ms c = writes t (fun _ => true) (map (fun m => (m, true)) ms) c.
Proof. induction ms as [|m ms IH]; intros c; cbn; auto. unfold write1. cbn [fst snd]. destruct (backend_write t c m true); cbn; auto. Qed.

Section Mark.
Context {E : Type}.
Variables (b : bexpr E) (els : E -> Prop) (co : coeffs E) (prefix : list nat) (g : bgrid E) (t : cty)
  (assignable : cty -> bool) (direct : bool -> cont bool -> cont bool).
Hypotheses (Hwf : wf els b) (BO : boundary_ok b co els g prefix) (HA : assignment_ok assignable direct)
  (HS : solid_entries t (sp_tree (meaning b))).

Lemma boundary_indices : exists ms, for_each_boundary_dof1 co (build b) prefix g = Some ms /\
  forall m, In m ms <-> boundary_dof b co prefix g m.
Proof.
  destruct (C34_boundary_indices b els co g prefix Hwf (bo_elements _ _ _ _ _ BO) (bo_hasbnd _ _ _ _ _ BO) (bo_keys _ _ _ _ _ BO) (bo_prefix _ _ _ _ _ BO))
    as (ms & M & MI). exists ms. split; auto. intros m. rewrite MI. split.
  - intros (e & [i s] & v & k & H1 & H2 & H3 & H4). cbn in *. subst i. exists e, s, v, k. auto.
  - intros (e & s & v & k & H1 & H2 & H3). exists e, (true, s), v, k. auto.
Qed.

Lemma index_global e v k m : els e -> lv_bind (build b) (lv_new (build b)) e = Some v -> lv_index v k = Some m -> global_index els b m.
Proof.
  intros He Hv Hm. exists e, k. split; auto. exists v. split; auto. split; auto.
  destruct (C06_every_local_dof_has_an_index b els e Hwf He) as (v' & Hv' & Q). rewrite Hv in Hv'. injection Hv' as <-. apply Q. eauto.
Qed.
Lemma boundary_dof_global m : boundary_dof b co prefix g m -> global_index els b m.
Proof. intros (e & s & v & k & He & _ & Hv & _ & Hm). apply (index_global e v k m); auto. now apply (bo_elements _ _ _ _ _ BO). Qed.

(** For every container the backend can resize, and whatever it held: afterwards the entries of
    the boundary DOFs are true, those of all other DOFs are false.  Otherwise the exception
    is that of resize. *)
Theorem C98_marks c : has_ty t c ->
  match mark_boundary assignable direct co t (build b) prefix g c with
  | Done d => has_ty t d /\ forall m, global_index els b m ->
      (boundary_dof b co prefix g m -> read t d m = Some (CVal true)) /\
      (~ boundary_dof b co prefix g m -> read t d m = Some (CVal false))
  | Throw => ~ compatible false t c (sp_tree (meaning b))
  | Undef => False
  end.
Proof.
  intros Ht. unfold mark_boundary. pose proof (C21_resize_returns_iff_compatible b els false t c Hwf Ht) as HR.
  destruct (backend_resize false (pb_size (build b)) t c) as [c0| |] eqn:R; auto. cbn [rbind].
  destruct (resize_spec false (pb_size (build b)) (sp_tree (meaning b)) (ok_size _ _ _ (build_ok b els Hwf)) t c [] _ eq_refl Ht) as (_ & B & _).
  destruct (B c0 R) as [Ht0 _]. clear B.
  assert (AD : forall m, global_index els b m -> addressable t c0 m).
  { intros m Hm. split.
    - destruct (C21_basis_indices_name_entries b els false t c c0 m Hwf Ht R Hm) as (x & Hx & _). eauto.
    - destruct (C21_basis_indices_address_scalars_partial b els false t c c0 m Hwf Ht HS R Hm) as (k & v & H1 & H2). eauto. }
  unfold backend_assign. destruct (C98_assign_value assignable direct false t HA c0 Ht0) as (c1 & -> & [S1 F1] & Ht1). cbn [obind].
  destruct boundary_indices as (ms & -> & MI). cbn [obind]. rewrite mark_writes.
  destruct (writes_ok t (fun _ => true) (map (fun m => (m, true)) ms) c1 Ht1) as (d & -> & S2 & W).
  { intros w Hw. apply in_map_iff in Hw as (m & <- & Hm). cbn. apply (addressable_shape t c0 c1); auto. apply AD, boundary_dof_global, MI, Hm. }
  split; [apply (has_ty_shape t c1 d); auto|]. intros m Hm.
  destruct (AD m Hm) as (Hp & a & v & Ha & Hv). destruct (addressable_shape t c0 c1 m Ht0 S1 (AD m Hm)) as (Hp1 & a1 & v1 & Ha1 & Hv1).
  assert (a1 = a) as -> by (pose proof (backend_shape t c0 c1 m a Ht0 S1 Hp Ha); congruence).
  assert (v1 = false) as -> by (eapply F1; eauto).
  unfold read. rewrite (backend_shape t c1 d m a Ht1 S2 Hp1 Ha1).
  destruct (W a false Hv1) as [(m' & x & P1 & _ & P3 & P4)|[P1 P2]].
  - apply in_map_iff in P1 as (m1 & [= <- <-] & Hm1). apply MI in Hm1. split; [intros _; exact P4|]. intros N. exfalso. apply N.
    assert (Gm1 : global_index els b m1) by now apply boundary_dof_global.
    assert (m1 = m) as <-; [|exact Hm1].
    apply (C21_distinct_indices_distinct_entries b els false t c c0 m1 m a); auto.
    eapply (backend_shape t c1 c0); eauto. apply (path_shape c0 c1); auto. apply (AD m1 Gm1).
  - split; [|intros _; exact P1]. intros D. exfalso. apply (P2 m true); auto. apply in_map_iff. exists m. split; auto. now apply MI.
Qed.

(** Whether resize succeeds does not depend on the rest. *)
Theorem C98_marks_iff_resizable c : has_ty t c -> compatible false t c (sp_tree (meaning b)) ->
  exists d, mark_boundary assignable direct co t (build b) prefix g c = Done d.
Proof.
  intros Ht HC. pose proof (C98_marks c Ht) as M. destruct (mark_boundary assignable direct co t (build b) prefix g c) as [d| |]; eauto; contradiction.
Qed.
End Mark.

(** Python: the flags in the array are those of the boundary DOFs, for all bases with flat
    indices; no number is outside of the array. *)
Theorem C98_python_flags {E} (b : bexpr E) els co g :
  wf els b -> boundary_ok b co els g [] -> flat b -> pb_size (build b) [] = Some (pb_dim (build b)) ->
  exists a, py_mark_boundary co (build b) g = Some a /\ length a = pb_dim (build b) /\ forall k, nth_error a k = Some true <-> boundary_dof b co [] g [k].
Proof.
  intros Hwf BO Hf Hn. unfold py_mark_boundary. destruct (boundary_indices b els co [] g Hwf BO) as (ms & -> & MI). cbn [obind].
  assert (G : forall l a, length a = pb_dim (build b) -> (forall m, In m l -> boundary_dof b co [] g m) ->
    exists a', py_set_all l a = Some a' /\ length a' = pb_dim (build b) /\ forall k, nth_error a' k = Some true <-> In [k] l \/ nth_error a k = Some true).
  { induction l as [|m l IH]; intros a Ha Hl.
    - exists a. split; [reflexivity|]. split; [exact Ha|]. intros k. split; [auto|]. intros [[]|H]; exact H.
    - assert (Hm : boundary_dof b co [] g m) by (apply Hl; now left).
      destruct (flat_index b els Hwf _ m Hf Hn (boundary_dof_global b els co [] g Hwf BO m Hm)) as (k & -> & Hk).
      cbn [py_set_all py_set]. destruct (upd a k true) as [a1|] eqn:U; [|apply upd_None in U; lia]. cbn [obind].
      destruct (IH a1) as (a' & E1 & L & Q).
      { rewrite (upd_length _ _ _ _ U). exact Ha. }
      { intros m Hm'. apply Hl. now right. }
      exists a'. split; [exact E1|]. split; [exact L|]. intros k'. rewrite Q, (upd_nth_error _ _ _ _ k' U). cbn [In].
      destruct (Nat.eqb_spec k' k) as [->|N].
      + split; auto.
      + split; [intros [H|H]; auto|]. intros [[H|H]|H]; auto. congruence. }
  destruct (G ms (repeat false (pb_dim (build b)))) as (a & E1 & L & Q).
  { apply repeat_length. }
  { intros m. apply MI. }
  exists a. split; [exact E1|]. split; [exact L|]. intros k. rewrite Q, MI. split; [|auto]. intros [H|H]; [exact H|].
  apply nth_error_In, repeat_spec in H. discriminate H.
Qed.

(** Boundary values with the marker container as mask.  Interpolating a first function everywhere
    and a second one with the container as mask gives a function with the boundary values of
    the interpolant of the second one; the coefficients of the DOFs that do not belong
    to the boundary are those of the first one. *)
Theorem C98_dirichlet_values {E P : Type} (b : bexpr E) (path : list nat) (els : E -> Prop) (su : setup E P) (co : coeffs E) (bg : bgrid E)
    (t tm : cty) assignable direct (cm dm : cont bool) (interp1 interp2 : E -> list nat -> list R) c d1 d2 d :
  setup_ok b path els su -> boundary_ok b co els bg path ->
  assignment_ok assignable direct -> solid_entries tm (sp_tree (meaning b)) -> has_ty tm cm ->
  mark_boundary assignable direct co tm (build b) path bg cm = Done dm ->
  let es := bg_elements bg in let s := subspace_of_root (build b) path in
  call_ok b els path t interp1 c es -> call_ok b els path t interp2 c es ->
  interpolate t (fun _ => true) interp1 0%R s es c = Done d1 -> interpolate t (mask_of tm dm) interp2 0%R s es d1 = Done d ->
  interpolate t (fun _ => true) interp2 0%R s es c = Done d2 ->
  (forall f f2 p (at_facet : E -> nat -> P -> (nat -> R) -> Prop), (forall e s x w, boundary_facet bg e s -> at_facet e s x w -> no_trace path su co e s p x w) ->
     function_of b path su els (contents t d) f -> function_of b path su els (contents t d2) f2 ->
     same_on_boundary b path su bg at_facet p f f2) /\
  (forall m e p j, In e es -> dof_at b path e p j m -> ~ boundary_dof b co path bg m -> contents t d m = contents t d1 m).
Proof.
  intros OKS BO HA HSm Htm HM es s A1 A2 R1 R R2. pose proof (so_wf _ _ _ _ OKS) as Hwf.
  pose proof (C98_marks b els co path bg tm assignable direct Hwf BO HA HSm cm Htm) as M. rewrite HM in M. destruct M as [_ M].
  destruct (boundary_indices b els co path bg Hwf BO) as (ms & Hms & MI).
  assert (RR : rbind (interpolate t all interp1 0%R s es c) (fun c' => interpolate t (mask_of tm dm) interp2 0%R s es c') = Done d) by (unfold all; rewrite R1; exact R).
  pose proof (C91_boundary_values b els t 0%R path (mask_of tm dm) interp1 interp2 es c A1 A2) as (_ & _ & Q). specialize (Q d d1 d2).
  split.
  - intros f f2 p at_facet NT F F2. apply (C93_boundary_dofs_decide_traces b path path els su co bg ms OKS BO Hms (contents t d) (contents t d2) f f2 p p); auto.
    intros m Hm. apply MI in Hm. unfold contents. rewrite (Q m RR R1 R2).
    + unfold mask_of. destruct (M m) as [M1 _]; [now apply (boundary_dof_global b els co path bg)|]. now rewrite (M1 Hm).
    + destruct Hm as (e & x & v & k & Fe & _ & Hv & (p0 & n & i & j & c0 & D & L & LI & _) & Hm). exists e, p0, i. split; auto. exists v, n, k. auto.
  - intros m e p j He Hd Nm. unfold contents. rewrite (Q m RR R1 R2); [|eauto]. unfold mask_of.
    destruct Hd as (v & n & k & Hv & _ & _ & _ & Hm). destruct (M m) as [_ M2]; [|now rewrite (M2 Nm)].
    apply (index_global b els Hwf e v k m); auto. now apply (bo_elements _ _ _ _ _ BO).
Qed.
Print Assumptions C98_assign_value.
Print Assumptions C98_marks.
Print Assumptions C98_marks_iff_resizable.
Print Assumptions C98_dirichlet_values.
Print Assumptions C98_python_flags.
