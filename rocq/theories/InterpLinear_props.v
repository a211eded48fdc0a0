(** C91: interpolate() is a local and linear operation, and calls with masks fit together. *)
From Coq Require Import List Arith Bool Lia Reals Lra.
From Verif Require Import Lib Basis_model Basis_spec Basis_proofs Basis_ok Basis_view Basis_props
  Container_model Container_spec Container_proofs Container_desc Container_props Interpolate_model Interpolate_props
  Interrupt_props InterpLinear_proofs.
Import ListNotations.

(** * Locality *)

Lemma has_ty_cmap {V W} (h : V -> W) t : forall c, has_ty t c -> has_ty t (cmap h c).
Proof.
  induction t as [|u IH|n u IH|ts IH] using cty_ind'; intros [x|l] H; cbn in *; auto.
  - rewrite Forall_forall in *. intros y Hy. apply in_map_iff in Hy as (z & <- & Hz). auto.
  - rewrite map_length. destruct H as [H1 H2]. split; auto. rewrite Forall_forall in *. intros y Hy. apply in_map_iff in Hy as (z & <- & Hz). auto.
  - revert l H. induction IH as [|u ts Hu _ IHts]; intros [|x l] H; cbn in *; auto. destruct H as [H1 H2]. split; [auto|exact (IHts l H2)].
Qed.

Lemma read_cmap {V W} (h : V -> W) t c m : read t (cmap h c) m = option_map (cmap h) (read t c m).
Proof.
  unfold read, backend_at, resolve_final. rewrite resolve_cmap. destruct (resolve _ t c m 0); [|reflexivity]. apply at_path_cmap.
Qed.

(** [m] is the index of basis function [j] of the leaf at [p], on element [e]. *)
Definition dof_at {E} (b : bexpr E) (path : list nat) (e : E) (p : list nat) (j : nat) (m : mi) : Prop :=
  exists v n k, lv_bind (build b) (lv_new (build b)) e = Some v /\ descendant (lv_tree v) (path ++ p) = Some n /\ is_leaf n = true /\
    local_index n j = Some k /\ lv_index v k = Some m.

Section Local.
Context {E : Type}.
Variables (b : bexpr E) (els : E -> Prop) (path : list nat) (t : cty) (mask : mi -> bool) (es : list E).
Notation s := (subspace_of_root (build b) path).

Lemma value_at {V} (interp : E -> list nat -> list V) e m x :
  local_value b path interp e m x <-> exists p j, dof_at b path e p j m /\ nth_error (interp e p) j = Some x.
Proof.
  split.
  - intros (v & p & n & j & k & H1 & H2 & H3 & H4 & H5 & H6). exists p, j. split; auto. exists v, n, k. auto.
  - intros (p & j & (v & n & k & H1 & H2 & H3 & H4 & H5) & H6). exists v, p, n, j, k. auto 10.
Qed.
Lemma dof_value {V} (interp : E -> list nat -> list V) e p j m : interp_ok b path els interp -> els e -> dof_at b path e p j m ->
  exists x, nth_error (interp e p) j = Some x.
Proof.
  intros HI He (v & n & k & H1 & H2 & H3 & H4 & H5). apply nth_error_lt_Some. pose proof (HI e v p n He H1 H2 H3) as HL.
  apply local_index_Some in H4 as [H4 _]. lia.
Qed.

(** The places of the local coefficients. *)
Definition count (e : E) (p : list nat) : nat :=
  match lv_bind (build b) (lv_new (build b)) e with
  | Some v => match descendant (lv_tree v) (path ++ p) with Some n => if is_leaf n then node_size n else 0 | None => 0 end
  | None => 0
  end.
Definition places {V : Type} (e : E) (p : list nat) : list ((E * list nat * nat) + V) := map (fun j => inl (e, p, j)) (seq 0 (count e p)).
Lemma places_at {V} e p i x : nth_error (@places V e p) i = Some x -> x = inl (e, p, i) /\ i < count e p.
Proof.
  unfold places. rewrite nth_error_map_eq, nth_error_seq. destruct (Nat.ltb_spec i (count e p)); [|discriminate]. cbn. intros [= <-]. auto.
Qed.
Lemma places_ok {V} : interp_ok b path els (@places V).
Proof.
  intros e v p n He Hv Hd Hl. unfold places. rewrite map_length, seq_length. unfold count. rewrite Hv, Hd, Hl. lia.
Qed.
Lemma count_ok {V} (interp : E -> list nat -> list V) e p : interp_ok b path els interp -> els e -> count e p <= length (interp e p).
Proof.
  intros HI He. unfold count. destruct (lv_bind _ _ e) as [v|] eqn:Hv; [|lia].
  destruct (descendant (lv_tree v) (path ++ p)) as [n|] eqn:Hd; [|lia]. destruct (is_leaf n) eqn:Hl; [|lia]. eapply HI; eauto.
Qed.
Lemma free_call {V W} (interp : E -> list nat -> list V) (c : cont V) (h : V -> W) interp' zero c' :
  call_ok b els path t interp c es -> interpolate t mask interp zero s es c = Done c' -> interp_ok b path els interp' ->
  call_ok b els path t interp' (cmap h c) es /\ exists r, interpolate t mask interp' (h zero) s es (cmap h c) = Done r.
Proof.
  intros HC HD HI.
  assert (HC' : call_ok b els path t interp' (cmap h c) es).
  { destruct HC. constructor; auto. now apply has_ty_cmap. }
  split; auto. pose proof (C25_throws_iff_resize_throws b els path t mask interp' (h zero) (cmap h c) es HC') as HT.
  destruct (interpolate t mask interp' (h zero) s es (cmap h c)) as [r| |]; [eauto| |contradiction].
  exfalso. unfold backend_resize in HT. rewrite resize_cmap in HT.
  pose proof (C25_throws_iff_resize_throws b els path t mask interp zero c es HC) as HT'. rewrite HD in HT'. destruct HT' as [c0 HR].
  unfold backend_resize in HR. rewrite HR in HT. discriminate.
Qed.

(** The coefficient of a marked DOF is one of the local coefficients of one of the elements
    that have the DOF; which one depends neither on the interpolated function nor on the
    contents of the vector (nor on the type of the entries). *)
Theorem C91_one_element_decides {V} (interp : E -> list nat -> list V) zero c c' m e0 p0 j0 :
  call_ok b els path t interp c es -> interpolate t mask interp zero s es c = Done c' ->
  mask m = true -> In e0 es -> dof_at b path e0 p0 j0 m ->
  exists e p j, In e es /\ dof_at b path e p j m /\
    forall (W : Type) (interp' : E -> list nat -> list W) zero' d d', shape d = shape c ->
      call_ok b els path t interp' d es -> interpolate t mask interp' zero' s es d = Done d' ->
      exists y, nth_error (interp' e p) j = Some y /\ read t d' m = Some (CVal y).
Proof.
  intros HC HD Hm He0 H0. pose proof (call_elements _ _ _ _ _ _ _ HC) as Hes.
  destruct (free_call interp c (fun _ => inr tt) (@places unit) zero c' HC HD places_ok) as (HC0 & r0 & HD0).
  destruct (dof_value (@places unit) e0 p0 j0 m places_ok (Hes e0 He0) H0) as [x0 Hx0].
  destruct (C25_marked_dofs_are_interpolated b els path t mask places (inr tt) _ es r0 m e0 x0 HC0 HD0 Hm He0) as (e & x & He & Hv & HR).
  { apply value_at. eauto. }
  apply value_at in Hv as (p & j & Hd & Hx). apply places_at in Hx as [-> Hj]. exists e, p, j. split; auto. split; auto.
  intros W interp' zero' d d' HS HC' HD'. destruct (dof_value interp' e p j m (call_interp _ _ _ _ _ _ _ HC') (Hes e He) Hd) as [y Hy].
  exists y. split; auto.
  destruct (free_call interp' d (@inr (E * list nat * nat) W) (@places W) zero' d' HC' HD' places_ok) as (HC1 & r1 & HD1).
  pose (ev := fun x : (E * list nat * nat) + W => match x with inl (e, p, j) => nth j (interp' e p) zero' | inr w => w end).
  pose (fg := fun x : (E * list nat * nat) + W => match x with inl q => inl q | inr _ => @inr (E * list nat * nat) unit tt end).
  assert (D1 : d' = cmap ev r1).
  { pose proof (interpolate_cmap b path t mask ev (@places W) interp' es) as N. specialize (N ltac:(
      intros e1 p1 i x H1 Hp; apply places_at in Hp as [-> Hi]; cbn;
      pose proof (count_ok interp' e1 p1 (call_interp _ _ _ _ _ _ _ HC') (Hes e1 H1)) as Hc; apply nth_error_nth'; lia)).
    specialize (N (inr zero') (cmap inr d) r1 HD1). rewrite cmap_cmap, cmap_id in N by reflexivity. cbn [ev] in N. congruence. }
  assert (D2 : r0 = cmap fg r1).
  { pose proof (interpolate_cmap b path t mask fg (@places W) (@places unit) es) as N. specialize (N ltac:(
      intros e1 p1 i x H1 Hp; pose proof Hp as Hp'; apply places_at in Hp' as [-> Hi]; unfold places;
      rewrite nth_error_map_eq, nth_error_seq, (proj2 (Nat.ltb_lt _ _) Hi); reflexivity)).
    specialize (N (inr zero') (cmap inr d) r1 HD1). rewrite cmap_cmap in N. cbn [fg] in N.
    assert (Q : cmap (fun x : W => @inr (E * list nat * nat) unit tt) d = cmap (fun _ => inr tt) c).
    { transitivity (cmap (fun _ : unit => @inr (E * list nat * nat) unit tt) (cmap (fun _ => tt) d)); [now rewrite cmap_cmap|].
      rewrite (cmap_unit d c HS), cmap_cmap. reflexivity. }
    change (fun x : W => fg (inr x)) with (fun x : W => @inr (E * list nat * nat) unit tt) in N. rewrite Q in N. congruence. }
  rewrite D2, read_cmap in HR. rewrite D1, read_cmap.
  destruct (read t r1 m) as [[[q|w]|l]|]; cbn [option_map cmap fg] in HR |- *; try discriminate. injection HR as ->.
  cbn [ev]. do 2 f_equal. apply nth_error_nth. exact Hy.
Qed.

(** Hence functions whose local coefficients agree on the elements that have the DOF get the
    same coefficient, whatever happens elsewhere. *)
Theorem C91_depends_on_the_elements_of_the_dof {V} (interp interp' : E -> list nat -> list V) zero c c' d d' m :
  call_ok b els path t interp c es -> interpolate t mask interp zero s es c = Done c' ->
  call_ok b els path t interp' d es -> interpolate t mask interp' zero s es d = Done d' -> shape d = shape c ->
  mask m = true -> (exists e p j, In e es /\ dof_at b path e p j m) ->
  (forall e p j, In e es -> dof_at b path e p j m -> nth_error (interp' e p) j = nth_error (interp e p) j) ->
  read t d' m = read t c' m.
Proof.
  intros HC HD HC' HD' HS Hm (e0 & p0 & j0 & He0 & H0) HE.
  destruct (C91_one_element_decides interp zero c c' m e0 p0 j0 HC HD Hm He0 H0) as (e & p & j & He & Hd & HU).
  destruct (HU V interp zero c c' eq_refl HC HD) as (y & Y1 & Y2). destruct (HU V interp' zero d d' HS HC' HD') as (y' & Y1' & Y2').
  rewrite Y2, Y2'. do 2 f_equal. rewrite (HE e p j He Hd) in Y1'. congruence.
Qed.

(** * Linearity *)
Local Open Scope R_scope.
(** Local coefficients of a linear combination of two functions. *)
Definition combined_functions (r1 r2 : R) (i1 i2 i3 : E -> list nat -> list R) : Prop :=
  forall e p j x1 x2, In e es -> nth_error (i1 e p) j = Some x1 -> nth_error (i2 e p) j = Some x2 ->
    nth_error (i3 e p) j = Some (r1 * x1 + r2 * x2).
(** A vector whose entries are the linear combination of the entries of two vectors. *)
Definition combined_vectors (r1 r2 : R) (c1 c2 c3 : cont R) : Prop :=
  shape c1 = shape c2 /\ shape c3 = shape c2 /\
  forall a x1 x2, at_path c1 a = Some (CVal x1) -> at_path c2 a = Some (CVal x2) -> at_path c3 a = Some (CVal (r1 * x1 + r2 * x2)).

(** The coefficients of the marked DOFs. *)
Theorem C91_linear_in_the_dofs r1 r2 i1 i2 i3 z1 z2 z3 c1 c2 c3 d1 d2 d3 m e p j :
  call_ok b els path t i1 c1 es -> interpolate t mask i1 z1 s es c1 = Done d1 ->
  call_ok b els path t i2 c2 es -> interpolate t mask i2 z2 s es c2 = Done d2 ->
  call_ok b els path t i3 c3 es -> interpolate t mask i3 z3 s es c3 = Done d3 ->
  shape c2 = shape c1 -> shape c3 = shape c1 -> combined_functions r1 r2 i1 i2 i3 ->
  mask m = true -> In e es -> dof_at b path e p j m ->
  exists x1 x2, read t d1 m = Some (CVal x1) /\ read t d2 m = Some (CVal x2) /\ read t d3 m = Some (CVal (r1 * x1 + r2 * x2)).
Proof.
  intros A1 B1 A2 B2 A3 B3 S2 S3 HL Hm He Hd.
  destruct (C91_one_element_decides i1 z1 c1 d1 m e p j A1 B1 Hm He Hd) as (e' & p' & j' & He' & Hd' & HU).
  destruct (HU R i1 z1 c1 d1 eq_refl A1 B1) as (x1 & X1 & Y1). destruct (HU R i2 z2 c2 d2 S2 A2 B2) as (x2 & X2 & Y2).
  destruct (HU R i3 z3 c3 d3 S3 A3 B3) as (x3 & X3 & Y3). exists x1, x2. split; auto. split; auto.
  rewrite (HL e' p' j' x1 x2 He' X1 X2) in X3. congruence.
Qed.
Lemma zip {V} (c1 : cont V) : forall c2 : cont V, shape c1 = shape c2 -> exists c : cont (V * V), cmap fst c = c1 /\ cmap snd c = c2.
Proof.
  induction c1 as [x|l IH] using cont_ind''; intros [y|l'] H; try discriminate.
  - exists (CVal (x, y)). auto.
  - injection H as H. assert (G : exists q, map (cmap fst) q = l /\ map (cmap snd) q = l').
    { revert l' H. induction IH as [|x l Hx _ IHl]; intros [|y l'] H; try discriminate; [exists []; auto|].
      cbn in H. injection H as H1 H2. destruct (Hx y H1) as (c & C1 & C2). destruct (IHl l' H2) as (q & Q1 & Q2).
      exists (c :: q). cbn. now rewrite C1, C2, Q1, Q2. }
    destruct G as (q & Q1 & Q2). exists (CBlk q). cbn. now rewrite Q1, Q2.
Qed.
(** The whole vectors, including the entries that are not marked. *)
Theorem C91_linear r1 r2 i1 i2 i3 c1 c2 c3 d1 d2 :
  call_ok b els path t i1 c1 es -> interpolate t mask i1 0 s es c1 = Done d1 ->
  call_ok b els path t i2 c2 es -> interpolate t mask i2 0 s es c2 = Done d2 ->
  combined_functions r1 r2 i1 i2 i3 -> combined_vectors r1 r2 c1 c2 c3 ->
  exists d3, interpolate t mask i3 0 s es c3 = Done d3 /\ combined_vectors r1 r2 d1 d2 d3.
Proof.
  intros A1 B1 A2 B2 HL (S1 & S3 & HV). pose proof (call_elements _ _ _ _ _ _ _ A1) as Hes.
  destruct (zip c1 c2 S1) as (c & C1 & C2).
  pose (ip := fun e p => combine (i1 e p) (i2 e p)).
  assert (IP : forall e p i x, nth_error (ip e p) i = Some x -> nth_error (i1 e p) i = Some (fst x) /\ nth_error (i2 e p) i = Some (snd x)).
  { intros e p. unfold ip. generalize (i1 e p) (i2 e p). intros l1. induction l1 as [|u l1 IH]; intros [|w l2] [|i] x H; cbn in *; try discriminate; auto.
    injection H as <-. auto. }
  assert (IO : interp_ok b path els ip).
  { intros e v p n He Hv Hd Hl. unfold ip. rewrite combine_length. apply Nat.min_glb; [eapply (call_interp _ _ _ _ _ _ _ A1)|eapply (call_interp _ _ _ _ _ _ _ A2)]; eauto. }
  assert (AP : call_ok b els path t ip c es).
  { destruct A1. constructor; auto. apply (has_ty_shape t (cmap (fun x => (x, x)) c1)); [rewrite cmap_shape, <- C1; apply cmap_shape|]. now apply has_ty_cmap. }
  assert (RP : exists d, interpolate t mask ip (0, 0) s es c = Done d).
  { pose proof (C25_throws_iff_resize_throws b els path t mask ip (0, 0) c es AP) as HT.
    destruct (interpolate t mask ip (0, 0) s es c) as [r| |]; [eauto| |contradiction]. exfalso.
    pose proof (C25_throws_iff_resize_throws b els path t mask i1 0 c1 es A1) as HT'. rewrite B1 in HT'. destruct HT' as [c0 HR].
    unfold backend_resize in HR, HT. rewrite <- C1 in HR. change 0 with (fst (0, 0)) in HR. rewrite resize_cmap, HT in HR. discriminate. }
  destruct RP as [d D].
  pose proof (interpolate_cmap b path t mask fst ip i1 es (fun e p i x _ H => proj1 (IP e p i x H)) (0, 0) c d D) as N1.
  pose proof (interpolate_cmap b path t mask snd ip i2 es (fun e p i x _ H => proj2 (IP e p i x H)) (0, 0) c d D) as N2.
  pose proof (interpolate_cmap b path t mask (fun x => r1 * fst x + r2 * snd x) ip i3 es
    (fun e p i x He H => HL e p i _ _ He (proj1 (IP e p i x H)) (proj2 (IP e p i x H))) (0, 0) c d D) as N3.
  cbn [fst snd] in N1, N2, N3. rewrite C1 in N1. rewrite C2 in N2. rewrite B1 in N1. rewrite B2 in N2. injection N1 as ->. injection N2 as ->.
  assert (Q : cmap (fun x => r1 * fst x + r2 * snd x) c = c3).
  { apply cont_ext; [rewrite cmap_shape; rewrite S3, <- C2; symmetry; apply cmap_shape|].
    intros a x. rewrite at_path_cmap. destruct (at_path c a) as [[[u w]|l]|] eqn:Ea; cbn; try discriminate. intros [= <-].
    apply HV; [rewrite <- C1|rewrite <- C2]; rewrite at_path_cmap, Ea; reflexivity. }
  rewrite Q in N3. replace (r1 * 0 + r2 * 0) with 0 in N3 by ring. eexists. split; [exact N3|].
  split; [now rewrite !cmap_shape|]. split; [now rewrite !cmap_shape|].
  intros a x1 x2. rewrite !at_path_cmap. destruct (at_path d a) as [[[u w]|l]|]; cbn; try discriminate. intros [= <-] [= <-]. reflexivity.
Qed.
End Local.

(** * Calls with masks *)

(** The DOF with index [m] is touched by a call for the elements [es], the part of the basis
    at [path] and the mask [mask]. *)
Definition touched {E} (b : bexpr E) (path : list nat) (mask : mi -> bool) (es : list E) (m : mi) : Prop :=
  mask m = true /\ exists e p j, In e es /\ dof_at b path e p j m.

Lemma mi_dec (a b : list nat) : {a = b} + {a <> b}.
Proof. apply (list_eq_dec Nat.eq_dec). Qed.
(** The last value written for an index. *)
Fixpoint final {V} (ws : list (mi * V)) (m : mi) : option V :=
  match ws with
  | [] => None
  | w :: r => match final r m with Some y => Some y | None => if mi_dec (fst w) m then Some (snd w) else None end
  end.
Lemma final_In {V} (ws : list (mi * V)) m y : final ws m = Some y -> In (m, y) ws.
Proof.
  induction ws as [|[m' x] ws IH]; cbn; [discriminate|]. destruct (final ws m); [intros [= ->]; auto|].
  destruct (mi_dec m' m); [|discriminate]. intros [= ->]. subst. auto.
Qed.
Lemma In_final {V} (ws : list (mi * V)) m y : In (m, y) ws -> exists z, final ws m = Some z.
Proof.
  induction ws as [|[m' x] ws IH]; cbn; [intros []|]. intros [[= -> ->]|H].
  - destruct (final ws m); eauto. destruct (mi_dec m m); [eauto|contradiction].
  - destruct (IH H) as [z ->]. eauto.
Qed.
Lemma final_app {V} (ws ws' : list (mi * V)) m : final (ws ++ ws') m = match final ws' m with Some y => Some y | None => final ws m end.
Proof.
  induction ws as [|w ws IH]; cbn; [now destruct (final ws' m)|]. rewrite IH. destruct (final ws' m); auto.
Qed.
Definition marked {V} (mask : mi -> bool) (ws : list (mi * V)) : list (mi * V) := filter (fun w => mask (fst w)) ws.
Lemma final_marked {V} mask (ws : list (mi * V)) m : final (marked mask ws) m = if mask m then final ws m else None.
Proof.
  unfold marked. induction ws as [|[m' x] ws IH]; cbn; [now destruct (mask m)|]. destruct (mask m') eqn:E; cbn; rewrite IH.
  - destruct (mask m) eqn:Em; [reflexivity|]. destruct (mi_dec m' m); [congruence|reflexivity].
  - destruct (mask m) eqn:Em; [|reflexivity]. destruct (final ws m); auto. destruct (mi_dec m' m); [congruence|reflexivity].
Qed.
Definition all : mi -> bool := fun _ => true.
Lemma writes_marked {V} t mask (ws : list (mi * V)) : forall c, writes t mask ws c = writes t all (marked mask ws) c.
Proof.
  induction ws as [|[m x] ws IH]; intros c; cbn; [reflexivity|]. unfold write1 at 1. cbn [fst snd].
  destruct (mask m); cbn [obind]; [|apply IH]. cbn.
  destruct (backend_write t c m x); cbn; auto.
Qed.

Section Final.
Context {V : Type}.
Variable t : cty.
Definition apart (c : cont V) (ms : list mi) : Prop :=
  forall m m' a, In m ms -> In m' ms -> backend_at t c m = Some a -> backend_at t c m' = Some a -> m = m'.
Lemma writes_final ms ws : forall c : cont V, has_ty t c -> (forall m, In m ms -> addressable t c m) -> apart c ms ->
  (forall w, In w ws -> In (fst w) ms) ->
  exists c', writes t all ws c = Some c' /\ shape c' = shape c /\
    forall a v, at_path c a = Some (CVal v) ->
      (forall m, In m ms -> backend_at t c m = Some a -> at_path c' a = Some (CVal match final ws m with Some y => y | None => v end)) /\
      ((forall m, In m ms -> backend_at t c m <> Some a) -> at_path c' a = Some (CVal v)).
Proof.
  induction ws as [|[m x] ws IH]; intros c Ht HA HP HI.
  - exists c. cbn. auto.
  - cbn [writes]. unfold write1, all. cbn [fst snd]. change (fun _ : mi => true) with all.
    destruct (HA m (HI _ (or_introl eq_refl))) as (Hx & a0 & v0 & Ha0 & Hv0).
    destruct (writes_ok t all [(m, x)] c Ht) as (c1 & H1 & HS & HV).
    { intros w [<-|[]]. apply HA, HI. now left. }
    cbn in H1. unfold write1, all in H1. cbn in H1. destruct (backend_write t c m x) as [c2|]; [|discriminate]. injection H1 as ->. cbn [obind].
    assert (HB : forall m' a, In m' ms -> backend_at t c1 m' = Some a <-> backend_at t c m' = Some a).
    { intros m' a Hm'. destruct (HA m' Hm') as (Hx' & a' & v' & Ha' & _). pose proof (backend_shape t c c1 m' a' Ht HS Hx' Ha') as Q. split; intros; congruence. }
    destruct (IH c1) as (c' & H2 & HS' & HV').
    { eapply has_ty_shape; [|exact Ht]. auto. }
    { intros m' Hm'. apply (addressable_shape t c c1); auto. }
    { intros m1 m2 a M1 M2 B1 B2. apply HB in B1, B2; auto. eapply HP; eauto. }
    { intros w Hw. apply HI. now right. }
    exists c'. split; auto. split; [congruence|].
    intros a v Hav. destruct (HV a v Hav) as [(m1 & x1 & [[= <- <-]|[]] & _ & Hb & Hc1)|[Hc1 Hno]].
    + destruct (HV' a x Hc1) as [P1 P2]. split.
      * intros m2 M2 B2. assert (m2 = m) as -> by (eapply HP; eauto; apply (HI (m, x)); now left).
        rewrite (P1 m); [|auto|now apply HB]. cbn [final fst snd]. destruct (final ws m); auto. destruct (mi_dec m m); [auto|contradiction].
      * intros Q. exfalso. apply (Q m); auto. apply (HI (m, x)). now left.
    + destruct (HV' a v Hc1) as [P1 P2]. split.
      * intros m2 M2 B2. rewrite (P1 m2); [|auto|now apply HB]. cbn [final fst snd]. destruct (final ws m2); auto.
        destruct (mi_dec m m2) as [->|]; auto. exfalso. apply (Hno m2 x); auto. now left.
      * intros Q. apply P2. intros m2 M2 B2. apply (Q m2 M2). now apply HB.
Qed.
Lemma writes_same ms ws ws' (c : cont V) : has_ty t c -> (forall m, In m ms -> addressable t c m) -> apart c ms ->
  (forall w, In w ws -> In (fst w) ms) -> (forall w, In w ws' -> In (fst w) ms) ->
  (forall m, In m ms -> final ws m = final ws' m) -> writes t all ws c = writes t all ws' c.
Proof.
  pose (hits := fun a m => match backend_at t c m with Some a' => if mi_dec a' a then true else false | None => false end).
  assert (hits_true : forall a m, hits a m = true <-> backend_at t c m = Some a).
  { intros a m. unfold hits. destruct (backend_at t c m) as [a'|]; [|split; discriminate]. destruct (mi_dec a' a); split; congruence. }
  intros Ht HA HP H1 H2 HF. destruct (writes_final ms ws c Ht HA HP H1) as (c1 & W1 & S1 & V1).
  destruct (writes_final ms ws' c Ht HA HP H2) as (c2 & W2 & S2 & V2). rewrite W1, W2. f_equal. apply cont_ext; [congruence|].
  intros a x Hx. assert (Hv : exists v, at_path c a = Some (CVal v)).
  { pose proof (shape_path c1 a) as Q. rewrite S1, shape_path, Hx in Q. destruct (at_path c a) as [[v|l]|]; try discriminate. eauto. }
  destruct Hv as [v Hv]. destruct (V1 a v Hv) as [P1 P2]. destruct (V2 a v Hv) as [Q1 Q2].
  destruct (existsb (hits a) ms) eqn:EX.
  - apply existsb_exists in EX as (m & Hm & Hb). apply hits_true in Hb.
    rewrite (Q1 m Hm Hb). rewrite (P1 m Hm Hb) in Hx. rewrite <- HF; auto.
  - assert (N : forall m, In m ms -> backend_at t c m <> Some a).
    { intros m Hm Hb. assert (existsb (hits a) ms = true); [|congruence].
      apply existsb_exists. exists m. split; auto. now apply hits_true. }
    rewrite (Q2 N). now rewrite (P2 N) in Hx.
Qed.
End Final.

Section Masks.
Context {E V : Type}.
Variables (b : bexpr E) (els : E -> Prop) (t : cty) (zero : V).
Notation call path mask interp es c := (interpolate t mask interp zero (subspace_of_root (build b) path) es c).

(** All calls on one vector, as lists of writes. *)
Lemma call_writes path interp c es c0 : call_ok b els path t interp c es ->
  backend_resize zero (pb_size (build b)) t c = Done c0 ->
  exists ws : list (mi * V),
    (forall mask, call path mask interp es c = match writes t all (marked mask ws) c0 with Some c' => Done c' | None => Undef end) /\
    (forall mask c1, shape c1 = shape c0 -> call path mask interp es c1 = match writes t all (marked mask ws) c1 with Some c' => Done c' | None => Undef end) /\
    forall m x, In (m, x) ws <-> exists e, In e es /\ local_value b path interp e m x.
Proof.
  intros HC HR. destruct HC as [Hwf Hp Hi He Ht Hs].
  destruct (elements_writes_any t interp b els path Hwf Hp Hi es (sv_new (subspace_of_root (build b) path))) as (ws & W1 & W2); [reflexivity|auto|].
  exists ws. split; [|split; [|exact W2]].
  - intros mask. unfold interpolate. cbn [ss_root subspace_of_root]. rewrite HR. rewrite W1, writes_marked. reflexivity.
  - intros mask c1 HS. unfold interpolate. cbn [ss_root subspace_of_root]. rewrite (C76_resize_again b t zero c c0 c1 HR HS). rewrite W1, writes_marked. reflexivity.
Qed.

Lemma call_apart path interp c es c0 : call_ok b els path t interp c es -> backend_resize zero (pb_size (build b)) t c = Done c0 ->
  has_ty t c0 /\ forall ms, (forall m, In m ms -> global_index els b m) -> (forall m, In m ms -> addressable t c0 m) /\ apart t c0 ms.
Proof.
  intros HC HR. pose proof (interpolate_writes b els path t all interp zero c es c0 HC HR) as (Ht & HA & _). split; auto.
  intros ms Hms. split; [auto|]. intros m m' a Hm Hm' B B'.
  apply (C21_distinct_indices_distinct_entries b els zero t c c0 m m' a); auto; [apply (call_basis _ _ _ _ _ _ _ HC)|apply (call_container _ _ _ _ _ _ _ HC)].
Qed.
Lemma call_throws path mask interp c es : call_ok b els path t interp c es ->
  backend_resize zero (pb_size (build b)) t c = Throw -> call path mask interp es c = Throw.
Proof. intros _ HR. unfold interpolate. cbn [ss_root subspace_of_root]. now rewrite HR. Qed.
Lemma call_resize path interp c es : call_ok b els path t interp c es ->
  backend_resize zero (pb_size (build b)) t c = Throw \/ exists c0, backend_resize zero (pb_size (build b)) t c = Done c0.
Proof.
  intros HC. pose proof (C25_throws_iff_resize_throws b els path t all interp zero c es HC) as H.
  destruct (call path all interp es c); [|now left|contradiction]. right. exact H.
Qed.
Lemma final_touched path interp es (ws : list (mi * V)) : interp_ok b path els interp -> (forall e, In e es -> els e) ->
  (forall m x, In (m, x) ws <-> exists e, In e es /\ local_value b path interp e m x) ->
  forall m, final ws m <> None <-> exists e p j, In e es /\ dof_at b path e p j m.
Proof.
  intros HI He HW m. split.
  - intros H. destruct (final ws m) as [y|] eqn:F; [|congruence]. apply final_In, HW in F as (e & He' & Hv).
    apply value_at in Hv as (p & j & Hd & _). eauto.
  - intros (e & p & j & He' & Hd). destruct (dof_value b els path interp e p j m HI (He e He') Hd) as [x Hx].
    destruct (In_final ws m x) as [z ->]; [|discriminate]. apply HW. exists e. split; auto. apply value_at. eauto.
Qed.
Lemma two_calls path1 path2 interp1 interp2 es1 es2 c (H : forall e, In e es1 \/ In e es2 -> els e) :
  call_ok b els path1 t interp1 c es1 -> call_ok b els path2 t interp2 c es2 ->
  (forall k k', rbind (call path1 k interp1 es1 c) (fun c' => call path2 k' interp2 es2 c') = Throw) /\
  (forall k k', rbind (call path2 k' interp2 es2 c) (fun c' => call path1 k interp1 es1 c') = Throw) /\
  (forall k, call path1 k interp1 es1 c = Throw) /\ (forall k, call path2 k interp2 es2 c = Throw) \/
  exists c0 ws1 ws2 ms,
    (forall m, In m ms <-> exists x, In (m, x) (ws1 ++ ws2)) /\
    has_ty t c0 /\ (forall m, In m ms -> addressable t c0 m) /\ apart t c0 ms /\
    (forall m, final ws1 m <> None <-> exists e p j, In e es1 /\ dof_at b path1 e p j m) /\
    (forall m, final ws2 m <> None <-> exists e p j, In e es2 /\ dof_at b path2 e p j m) /\
    (forall k, call path1 k interp1 es1 c = match writes t all (marked k ws1) c0 with Some c' => Done c' | None => Undef end) /\
    (forall k, call path2 k interp2 es2 c = match writes t all (marked k ws2) c0 with Some c' => Done c' | None => Undef end) /\
    (forall k k', rbind (call path1 k interp1 es1 c) (fun c' => call path2 k' interp2 es2 c') =
       match writes t all (marked k ws1 ++ marked k' ws2) c0 with Some c' => Done c' | None => Undef end) /\
    (forall k k', rbind (call path2 k' interp2 es2 c) (fun c' => call path1 k interp1 es1 c') =
       match writes t all (marked k' ws2 ++ marked k ws1) c0 with Some c' => Done c' | None => Undef end).
Proof.
  intros A1 A2. destruct (call_resize path1 interp1 c es1 A1) as [HR|[c0 HR]]; [left|right].
  { split; [|split; [|split]]; intros; rewrite ?(call_throws path1 _ interp1 c es1 A1 HR), ?(call_throws path2 _ interp2 c es2 A2 HR); reflexivity. }
  destruct (call_writes path1 interp1 c es1 c0 A1 HR) as (ws1 & W1 & W1' & I1). destruct (call_writes path2 interp2 c es2 c0 A2 HR) as (ws2 & W2 & W2' & I2).
  destruct (call_apart path1 interp1 c es1 c0 A1 HR) as [Ht HG].
  exists c0, ws1, ws2, (map fst (ws1 ++ ws2)).
  assert (HM : forall m, In m (map fst (ws1 ++ ws2)) <-> exists x, In (m, x) (ws1 ++ ws2)).
  { intros m. rewrite in_map_iff. split; [intros ([m' x] & <- & Hx); eauto|intros [x Hx]; exists (m, x); auto]. }
  destruct (HG (map fst (ws1 ++ ws2))) as [G1 G2].
  { intros m Hm. apply HM in Hm as [x Hx]. apply in_app_or in Hx as [Hx|Hx].
    - apply I1 in Hx as (e & He & Hv). eapply (value_global b els path1 t interp1 c es1); eauto.
    - apply I2 in Hx as (e & He & Hv). eapply (value_global b els path2 t interp2 c es2); eauto. }
  split; [exact HM|]. split; [exact Ht|]. split; [exact G1|]. split; [exact G2|].
  split; [apply (final_touched path1 interp1 es1 ws1 (call_interp _ _ _ _ _ _ _ A1)); auto|].
  split; [apply (final_touched path2 interp2 es2 ws2 (call_interp _ _ _ _ _ _ _ A2)); auto|].
  split; [exact W1|]. split; [exact W2|].
  assert (K : forall (ws : list (mi * V)) k, (forall w, In w ws -> In w (ws1 ++ ws2)) -> exists c', writes t all (marked k ws) c0 = Some c' /\ shape c' = shape c0).
  { intros ws k Hws. destruct (writes_final t (map fst (ws1 ++ ws2)) (marked k ws) c0 Ht G1 G2) as (c' & Q1 & Q2 & _); [|eauto].
    intros w Hw. apply in_map, Hws. unfold marked in Hw. now apply filter_In in Hw. }
  split.
  - intros k k'. rewrite W1, writes_app. destruct (K ws1 k) as (c' & -> & HS); [intros; apply in_or_app; auto|]. cbn. now apply W2'.
  - intros k k'. rewrite W2, writes_app. destruct (K ws2 k') as (c' & -> & HS); [intros; apply in_or_app; auto|]. cbn. now apply W1'.
Qed.

(** Calls that touch different DOFs - for two functions, two parts of the basis, two sets of
    elements - can be exchanged. *)
Theorem C91_calls_for_different_dofs_commute path1 path2 mask1 mask2 interp1 interp2 es1 es2 c :
  call_ok b els path1 t interp1 c es1 -> call_ok b els path2 t interp2 c es2 ->
  (forall m, touched b path1 mask1 es1 m -> ~ touched b path2 mask2 es2 m) ->
  rbind (call path1 mask1 interp1 es1 c) (fun c' => call path2 mask2 interp2 es2 c') =
  rbind (call path2 mask2 interp2 es2 c) (fun c' => call path1 mask1 interp1 es1 c').
Proof.
  intros A1 A2 HD.
  destruct (two_calls path1 path2 interp1 interp2 es1 es2 c) as [(T1 & T2 & _)|(c0 & ws1 & ws2 & ms & HM & Ht & HA & HP & F1 & F2 & W1 & W2 & R1 & R2)]; auto.
  { intros e [He|He]; [eapply (call_elements _ _ _ _ _ _ _ A1)|eapply (call_elements _ _ _ _ _ _ _ A2)]; eauto. }
  { now rewrite T1, T2. }
  rewrite R1, R2. rewrite (writes_same t ms (marked mask1 ws1 ++ marked mask2 ws2) (marked mask2 ws2 ++ marked mask1 ws1) c0); auto.
  - intros [m x] Hw. apply HM. exists x. apply in_app_or in Hw. unfold marked in Hw. rewrite !filter_In in Hw. apply in_or_app. cbn. tauto.
  - intros [m x] Hw. apply HM. exists x. apply in_app_or in Hw. unfold marked in Hw. rewrite !filter_In in Hw. apply in_or_app. cbn. tauto.
  - intros m _. rewrite !final_app, !final_marked. specialize (HD m). unfold touched in HD.
    destruct (mask1 m), (mask2 m); try (now destruct (final ws1 m)); try (now destruct (final ws2 m)); auto.
    destruct (final ws1 m) eqn:E1, (final ws2 m) eqn:E2; auto. exfalso. apply HD; split; auto; [apply F1|apply F2]; congruence.
Qed.

(** Two calls with two masks are one call with their union. *)
Theorem C91_masks_join path mask1 mask2 interp es c :
  call_ok b els path t interp c es ->
  rbind (call path mask1 interp es c) (fun c' => call path mask2 interp es c') =
  call path (fun m => mask1 m || mask2 m) interp es c.
Proof.
  intros A. destruct (call_resize path interp c es A) as [HR|[c0 HR]].
  { now rewrite !(call_throws path _ interp c es A HR). }
  destruct (call_writes path interp c es c0 A HR) as (ws & W & W' & I). destruct (call_apart path interp c es c0 A HR) as [Ht HG].
  destruct (HG (map fst ws)) as [G1 G2].
  { intros m Hm. apply in_map_iff in Hm as ([m' x] & <- & Hx). apply I in Hx as (e & He & Hv). eapply (value_global b els path t interp c es); eauto. }
  assert (IN : forall k w, In w (marked k ws) -> In (fst w) (map fst ws)).
  { intros k w Hw. unfold marked in Hw. apply filter_In in Hw as [Hw _]. now apply in_map. }
  rewrite !W. destruct (writes_final t (map fst ws) (marked mask1 ws) c0 Ht G1 G2 (IN mask1)) as (c1 & Q1 & Q2 & _). rewrite Q1. cbn [rbind].
  rewrite (W' mask2 c1 Q2).
  assert (Q : writes t all (marked mask2 ws) c1 = writes t all (marked mask1 ws ++ marked mask2 ws) c0) by (rewrite writes_app, Q1; reflexivity).
  rewrite Q. rewrite (writes_same t (map fst ws) (marked mask1 ws ++ marked mask2 ws) (marked (fun m => mask1 m || mask2 m) ws) c0); auto.
  - intros w Hw. apply in_app_or in Hw as [Hw|Hw]; eapply IN; eauto.
  - apply IN.
  - intros m _. rewrite final_app, !final_marked. destruct (mask1 m), (mask2 m); cbn; destruct (final ws m); auto.
Qed.
(** In particular a second identical call changes nothing, and a mask and its complement make
    up a call without a mask. *)
Theorem C91_mask_and_complement path mask interp es c :
  call_ok b els path t interp c es ->
  rbind (call path mask interp es c) (fun c' => call path (fun m => negb (mask m)) interp es c') = call path all interp es c.
Proof.
  intros A. rewrite C91_masks_join; auto. destruct (call_resize path interp c es A) as [HR|[c0 HR]].
  { now rewrite !(call_throws path _ interp c es A HR). }
  destruct (call_writes path interp c es c0 A HR) as (ws & W & _). rewrite !W.
  replace (marked (fun m => mask m || negb (mask m)) ws) with (marked all ws); auto.
  unfold marked. apply filter_ext. intros w. now destruct (mask (fst w)).
Qed.

(** Values for the marked DOFs from a second function (boundary values, say): it does not
    matter whether the first function is interpolated everywhere before, or only for the
    other DOFs, before or after.  The coefficients are those of the calls without masks. *)
Theorem C91_boundary_values path mask interp1 interp2 es c :
  call_ok b els path t interp1 c es -> call_ok b els path t interp2 c es ->
  let everywhere_then_marked := rbind (call path all interp1 es c) (fun c' => call path mask interp2 es c') in
  let others_then_marked := rbind (call path (fun m => negb (mask m)) interp1 es c) (fun c' => call path mask interp2 es c') in
  let marked_then_others := rbind (call path mask interp2 es c) (fun c' => call path (fun m => negb (mask m)) interp1 es c') in
  everywhere_then_marked = others_then_marked /\ marked_then_others = others_then_marked /\
  forall d d1 d2 m, everywhere_then_marked = Done d -> call path all interp1 es c = Done d1 -> call path all interp2 es c = Done d2 ->
    (exists e p j, In e es /\ dof_at b path e p j m) -> read t d m = read t (if mask m then d2 else d1) m.
Proof.
  intros A1 A2 r1 r2 r3.
  destruct (two_calls path path interp1 interp2 es es c) as [(T1 & T2 & T3 & T4)|(c0 & ws1 & ws2 & ms & HM & Ht & HA & HP & F1 & F2 & W1 & W2 & R1 & R2)]; auto.
  { intros e [He|He]; eapply (call_elements _ _ _ _ _ _ _ A1); eauto. }
  { unfold r1, r2, r3. rewrite !T1, T2. split; auto. split; auto. intros; discriminate. }
  assert (IN1 : forall k w, In w (marked k ws1) -> In (fst w) ms).
  { intros k [m x] Hw. unfold marked in Hw. apply filter_In in Hw as [Hw _]. apply HM. exists x. apply in_or_app. auto. }
  assert (IN2 : forall k w, In w (marked k ws2) -> In (fst w) ms).
  { intros k [m x] Hw. unfold marked in Hw. apply filter_In in Hw as [Hw _]. apply HM. exists x. apply in_or_app. auto. }
  assert (FF : forall m, final ws1 m <> None <-> final ws2 m <> None) by (intros m; rewrite F1, F2; reflexivity).
  unfold r1, r2, r3. rewrite !R1, R2. split; [|split].
  - rewrite (writes_same t ms (marked all ws1 ++ marked mask ws2) (marked (fun m => negb (mask m)) ws1 ++ marked mask ws2) c0); auto.
    + intros w Hw. apply in_app_or in Hw as [Hw|Hw]; eauto.
    + intros w Hw. apply in_app_or in Hw as [Hw|Hw]; eauto.
    + intros m _. rewrite !final_app, !final_marked. unfold all. specialize (FF m). destruct (mask m); cbn; auto.
      destruct (final ws2 m); auto. destruct (final ws1 m); auto. exfalso. apply (proj1 FF); [discriminate|reflexivity].
  - rewrite (writes_same t ms (marked mask ws2 ++ marked (fun m => negb (mask m)) ws1) (marked (fun m => negb (mask m)) ws1 ++ marked mask ws2) c0); auto.
    + intros w Hw. apply in_app_or in Hw as [Hw|Hw]; eauto.
    + intros w Hw. apply in_app_or in Hw as [Hw|Hw]; eauto.
    + intros m _. rewrite !final_app, !final_marked. destruct (mask m); cbn; auto; [now destruct (final ws2 m)|now destruct (final ws1 m)].
  - intros d d1 d2 m HD HD1 HD2 Hm. rewrite W1 in HD1. rewrite W2 in HD2.
    assert (Q1 : exists x, final ws1 m = Some x) by (apply F1 in Hm; destruct (final ws1 m); [eauto|congruence]).
    assert (Q2 : exists x, final ws2 m = Some x) by (apply F2 in Hm; destruct (final ws2 m); [eauto|congruence]).
    destruct Q1 as [x1 Q1]. destruct Q2 as [x2 Q2].
    assert (Mm : In m ms) by (apply HM; exists x1; apply in_or_app; left; now apply final_In).
    destruct (HA m Mm) as (Hx & a & v & Ha & Hv).
    assert (RD : forall ws d', (forall w, In w ws -> In (fst w) ms) -> match writes t all ws c0 with Some c' => Done c' | None => Undef end = Done d' ->
      read t d' m = Some (CVal match final ws m with Some y => y | None => v end)).
    { intros ws d' HI HW. destruct (writes_final t ms ws c0 Ht HA HP HI) as (c' & E1 & E2 & E3). rewrite E1 in HW. injection HW as <-.
      unfold read. rewrite (backend_shape t c0 c' m a Ht E2 Hx Ha). now apply (E3 a v Hv). }
    assert (IN12 : forall w, In w (marked all ws1 ++ marked mask ws2) -> In (fst w) ms) by (intros w Hw; apply in_app_or in Hw as [Hw|Hw]; eauto).
    rewrite (RD _ d IN12 HD).
    destruct (mask m) eqn:Em.
    + rewrite (RD _ d2 (IN2 all) HD2), final_app, !final_marked. unfold all. now rewrite Em, Q2.
    + rewrite (RD _ d1 (IN1 all) HD1), final_app, !final_marked. unfold all. now rewrite Em, Q1.
Qed.
End Masks.

(** * The hypotheses are met *)
Definition ex_interp_R (e : nat) (p : list nat) : list R := map INR (ex_interp e p).
Definition ex_twice_R (e : nat) (p : list nat) : list R := map (fun x => 2 * x + 3 * x)%R (ex_interp_R e p).
Lemma map_interp_ok {V W} (h : V -> W) {E} (b : bexpr E) path els interp :
  interp_ok b path els interp -> interp_ok b path els (fun e p => map h (interp e p)).
Proof. intros H e v p n He Hv Hd Hl. rewrite map_length. eapply H; eauto. Qed.
Example C91_hypotheses_met :
  call_ok ex_b ex_els [] ex_cty ex_interp_R (cmap INR ex_cont) [1; 0] /\
  (exists d, interpolate ex_cty ex_mask ex_interp_R 0%R (subspace_of_root (build ex_b) []) [1; 0] (cmap INR ex_cont) = Done d) /\
  combined_functions [1; 0] 2 3 ex_interp_R ex_interp_R ex_twice_R /\
  combined_vectors 2 3 (cmap INR ex_cont) (cmap INR ex_cont) (cmap (fun x => 2 * INR x + 3 * INR x)%R ex_cont) /\
  (exists p j, dof_at ex_b [] 0 p j [0; 1; 1]) /\ ex_mask [0; 1; 1] = true.
Proof.
  assert (A : call_ok ex_b ex_els [] ex_cty ex_interp_R (cmap INR ex_cont) [1; 0]).
  { destruct C25_hypotheses_met. constructor; auto; first [now apply map_interp_ok|now apply has_ty_cmap]. }
  split; [exact A|]. split; [|split; [|split; [|split]]].
  - destruct C25_example_run as (c' & HD & _).
    apply (free_call ex_b ex_els [] ex_cty ex_mask [1; 0] ex_interp ex_cont INR ex_interp_R 0 c' C25_hypotheses_met HD). apply (call_interp _ _ _ _ _ _ _ A).
  - intros e p j x1 x2 _ H1 H2. unfold ex_twice_R. rewrite nth_error_map_eq, H1. cbn. congruence.
  - split; [now rewrite !cmap_shape|]. split; [now rewrite !cmap_shape|]. intros a x1 x2. rewrite !at_path_cmap.
    destruct (at_path ex_cont a) as [[x|l]|]; cbn; try discriminate. intros [= <-] [= <-]. reflexivity.
  - exists [0; 1], 1. unfold dof_at. eexists. eexists. eexists. split; [vm_compute; reflexivity|]. split; [vm_compute; reflexivity|].
    split; [reflexivity|]. split; vm_compute; reflexivity.
  - reflexivity.
Qed.

Print Assumptions C91_one_element_decides.
Print Assumptions C91_depends_on_the_elements_of_the_dof.
Print Assumptions C91_linear_in_the_dofs.
Print Assumptions C91_linear.
Print Assumptions C91_calls_for_different_dofs_commute.
Print Assumptions C91_masks_join.
Print Assumptions C91_mask_and_complement.
Print Assumptions C91_boundary_values.
