(** Components of functions and subspace bases (C78): a function over a subspace basis is the
    component of the function over the whole basis, and interpolating component by component
    is the same as interpolating as a whole.  (Models: DiscreteFunction_model,
    Interpolate_model, Basis_model.) *)
From Coq Require Import List Arith Bool Lia Reals.
From Verif Require Import Lib Basis_model Basis_spec Basis_proofs Basis_ok Basis_view Basis_props
  Container_model Container_spec Container_proofs Container_desc Container_props FlatVector_model FlatVector_props
  DiscreteFunction_model DiscreteFunction_spec DiscreteFunction_proofs DiscreteFunction_props Interpolate_model Interpolate_props Interrupt_model Interrupt_props.
Import ListNotations.
#[local] Arguments Nat.ltb : simpl never.

(** * Specification *)
Section Spec.
Context {E X V : Type}.

(** [sub] is the discrete function made of the descendant at [q] of the tree of [su]: the
    shape functions at [p] are those at [q ++ p]. *)
Record component_of (q : list nat) (su sub : setup E X) : Prop := {
  co_cdim : su_cdim sub = su_cdim su;
  co_ldim : su_ldim sub = su_ldim su;
  co_gdim : su_gdim sub = su_gdim su;
  co_vdim : forall p, su_vdim sub p = su_vdim su (q ++ p);
  co_shape : forall e p x, su_shape sub e p x = su_shape su e (q ++ p) x;
  co_jac : forall e p x, su_jac sub e p x = su_jac su e (q ++ p) x;
  co_jinv : forall e x, su_jinv sub e x = su_jinv su e x
}.

(** The paths [qs] name subtrees that together contain all leaves. *)
Definition covers (b : bexpr E) (path : list nat) (els : E -> Prop) (qs : list (list nat)) : Prop :=
  forall e v p n, els e -> leaf_of b path e v p n -> exists q p', In q qs /\ p = q ++ p'.

(** interpolate(subspaceBasis(basis, q), c, f_q, mask) for each [q] of the list in turn.
    The local interpolation of the component f_q of f at the leaf [p] is that of f at
    [q ++ p]. *)
Fixpoint interpolate_each (b : bexpr E) (path : list nat) (t : cty) (mask : mi -> bool)
  (interp : E -> list nat -> list V) (zero : V) (es : list E) (qs : list (list nat)) (c : cont V) : res (cont V) :=
  match qs with
  | [] => Done c
  | q :: r => rbind (interpolate t mask (fun e p => interp e (q ++ p)) zero (subspace_of_root (build b) (path ++ q)) es c)
                    (interpolate_each b path t mask interp zero es r)
  end.
End Spec.

(** * Values *)
Section Values.
Context {E X : Type}.
Variables (b : bexpr E) (path q : list nat) (els : E -> Prop) (su sub : setup E X).
Hypothesis Hco : component_of q su sub.

Lemma leaf_of_component e v p n : leaf_of b (path ++ q) e v p n <-> leaf_of b path e v (q ++ p) n.
Proof. unfold leaf_of. now rewrite app_assoc. Qed.

Lemma nth_ext_some {A} (l l' : list A) : length l = length l' ->
  (forall i, i < length l -> nth_error l i = nth_error l' i) -> l = l'.
Proof.
  intros HL H. apply nth_error_ext. intros i. destruct (Nat.lt_ge_cases i (length l)) as [Hi|Hi]; [now apply H|].
  rewrite (proj2 (nth_error_None l i)), (proj2 (nth_error_None l' i)); auto; lia.
Qed.

Lemma component_value_at e c x y y' v p n :
  is_value b path su e c x y -> is_value b (path ++ q) sub e c x y' ->
  leaf_of b (path ++ q) e v p n -> node_size n <> 0 ->
  exists z z', node_to_range (q ++ p) y = Some z /\ node_to_range p y' = Some z' /\ scalars z = scalars z'.
Proof.
  intros [_ H] [_ H'] L Hz. destruct (H' v p n L) as (z' & A' & _ & B'). destruct (B' Hz) as [L' C'].
  apply leaf_of_component in L. destruct (H v (q ++ p) n L) as (z & A & _ & B). destruct (B Hz) as [L0 C].
  exists z, z'. split; auto. split; auto. destruct Hco as [G1 G2 G3 G4 G5 G6 G7]. rewrite G1, G4 in L'.
  apply nth_ext_some; [congruence|]. intros i Hi. rewrite L0 in Hi.
  assert (Hd : su_vdim su (q ++ p) <> 0) by (intros E0; rewrite E0, Nat.mul_0_r in Hi; lia).
  rewrite (Nat.div_mod i (su_vdim su (q ++ p)) Hd), (Nat.mul_comm (su_vdim su (q ++ p))).
  pose proof (Nat.mod_upper_bound i _ Hd) as Hm.
  assert (Hq : i / su_vdim su (q ++ p) < su_cdim su) by (apply Nat.div_lt_upper_bound; [auto|lia]).
  rewrite (C _ _ Hq Hm). specialize (C' (i / su_vdim su (q ++ p)) (i mod su_vdim su (q ++ p))).
  rewrite G1, G4 in C'. rewrite (C' Hq Hm). f_equal. apply rsum_ext. intros k _.
  unfold shape_of. now rewrite G5.
Qed.
Lemma component_derivative_at e c x y y' v p n :
  is_derivative b path su e c x y -> is_derivative b (path ++ q) sub e c x y' ->
  leaf_of b (path ++ q) e v p n -> node_size n <> 0 ->
  exists z z', node_to_range (q ++ p) y = Some z /\ node_to_range p y' = Some z' /\ scalars z = scalars z'.
Proof.
  intros [_ H] [_ H'] L Hz. destruct (H' v p n L) as (z' & A' & _ & B'). destruct (B' Hz) as [L' C'].
  apply leaf_of_component in L. destruct (H v (q ++ p) n L) as (z & A & _ & B). destruct (B Hz) as [L0 C].
  exists z, z'. split; auto. split; auto. destruct Hco as [G1 G2 G3 G4 G5 G6 G7]. rewrite G1, G3, G4 in L'.
  apply nth_ext_some; [congruence|]. intros i Hi. rewrite L0 in Hi.
  set (gd := su_gdim su) in *. set (vd := su_vdim su (q ++ p)) in *.
  assert (Hg : gd <> 0) by (intros E0; rewrite E0, !Nat.mul_0_r in Hi; lia).
  assert (Hd : vd * gd <> 0) by (intros E0; rewrite E0, Nat.mul_0_r in Hi; lia).
  rewrite (Nat.div_mod i (vd * gd) Hd), (Nat.mul_comm (vd * gd)).
  pose proof (Nat.mod_upper_bound i _ Hd) as Hm.
  assert (Hq : i / (vd * gd) < su_cdim su) by (apply Nat.div_lt_upper_bound; [auto|lia]).
  set (r := i mod (vd * gd)) in *. rewrite (Nat.div_mod r gd Hg), (Nat.mul_comm gd).
  pose proof (Nat.mod_upper_bound r _ Hg) as Hm2.
  assert (Hq2 : r / gd < vd) by (apply Nat.div_lt_upper_bound; [auto|lia]).
  rewrite (C _ _ _ Hq Hq2 Hm2). specialize (C' (i / (vd * gd)) (r / gd) (r mod gd)).
  rewrite G1, G3, G4 in C'. fold gd vd in C'. rewrite (C' Hq Hq2 Hm2). f_equal. apply rsum_ext. intros k _.
  f_equal. rewrite G2. apply rsum_ext. intros l _. unfold jac_of. now rewrite G6, G2, G7.
Qed.

(** A local function of the whole function and one of the subspace function, each with
    whatever history, bound to the same element with the same coefficients: both can be
    evaluated, and at every leaf of the component that has basis functions they have the
    same entries; so have the derivatives. *)
Theorem C78_values c0 h l c w i f c0' h' l' c' w' i' f' e cc x v p n :
  setup_ok b path els su -> coefs_ok b els su c0 -> Forall (op_ok b els su) h ->
  sf_run ([], c0) h = Some (l, c) -> lf_run su (W [] c0) h = Some w ->
  nth_error l i = Some (SF false (Some (e, cc))) -> nth_error (w_pool w) i = Some f ->
  setup_ok b (path ++ q) els sub -> coefs_ok b els sub c0' -> Forall (op_ok b els sub) h' ->
  sf_run ([], c0') h' = Some (l', c') -> lf_run sub (W [] c0') h' = Some w' ->
  nth_error l' i' = Some (SF false (Some (e, cc))) -> nth_error (w_pool w') i' = Some f' ->
  leaf_of b (path ++ q) e v p n -> node_size n <> 0 ->
  exists y y' z z', lf_eval su f x = Some y /\ lf_eval sub f' x = Some y' /\
    node_to_range (q ++ p) y = Some z /\ node_to_range p y' = Some z' /\ scalars z = scalars z'.
Proof.
  intros A1 A2 A3 A4 A5 A6 A7 B1 B2 B3 B4 B5 B6 B7 L Hz.
  destruct (C26_value_is_the_weighted_sum b path els su c0 h A1 A2 A3 l c w i e cc f x A4 A5 A6 A7) as (y & Y1 & Y2).
  destruct (C26_value_is_the_weighted_sum b (path ++ q) els sub c0' h' B1 B2 B3 l' c' w' i' e cc f' x B4 B5 B6 B7) as (y' & Y1' & Y2').
  destruct (component_value_at e cc x y y' v p n Y2 Y2' L Hz) as (z & z' & Z). exists y, y', z, z'. auto.
Qed.
Theorem C78_derivatives c0 h l c w i f c0' h' l' c' w' i' f' e cc x v p n :
  setup_ok b path els su -> coefs_ok b els su c0 -> Forall (op_ok b els su) h ->
  sf_run ([], c0) h = Some (l, c) -> lf_run su (W [] c0) h = Some w ->
  nth_error l i = Some (SF true (Some (e, cc))) -> nth_error (w_pool w) i = Some f ->
  setup_ok b (path ++ q) els sub -> coefs_ok b els sub c0' -> Forall (op_ok b els sub) h' ->
  sf_run ([], c0') h' = Some (l', c') -> lf_run sub (W [] c0') h' = Some w' ->
  nth_error l' i' = Some (SF true (Some (e, cc))) -> nth_error (w_pool w') i' = Some f' ->
  leaf_of b (path ++ q) e v p n -> node_size n <> 0 ->
  exists y y' z z', lf_eval su f x = Some y /\ lf_eval sub f' x = Some y' /\
    node_to_range (q ++ p) y = Some z /\ node_to_range p y' = Some z' /\ scalars z = scalars z'.
Proof.
  intros A1 A2 A3 A4 A5 A6 A7 B1 B2 B3 B4 B5 B6 B7 L Hz.
  destruct (C26_derivative_is_the_weighted_sum b path els su c0 h A1 A2 A3 l c w i e cc f x A4 A5 A6 A7) as (y & Y1 & Y2).
  destruct (C26_derivative_is_the_weighted_sum b (path ++ q) els sub c0' h' B1 B2 B3 l' c' w' i' e cc f' x B4 B5 B6 B7) as (y' & Y1' & Y2').
  destruct (component_derivative_at e cc x y y' v p n Y2 Y2' L Hz) as (z & z' & Z). exists y, y', z, z'. auto.
Qed.
End Values.

(** * Interpolation *)
Section Interpolation.
Context {E V : Type}.
Notation cont := (cont V).
Variables (b : bexpr E) (els : E -> Prop) (path : list nat).
Variables (t : cty) (mask : mi -> bool) (interp : E -> list nat -> list V) (zero : V).

Definition sub_interp (q : list nat) : E -> list nat -> list V := fun e p => interp e (q ++ p).

Lemma component_value q e m x : local_value b (path ++ q) (sub_interp q) e m x -> local_value b path interp e m x.
Proof.
  intros (v & p & n & j & k & H1 & H2 & H3). exists v, (q ++ p), n, j, k. rewrite app_assoc. auto.
Qed.
Lemma covered_value qs e m x : els e -> covers b path els qs -> local_value b path interp e m x ->
  exists q, In q qs /\ local_value b (path ++ q) (sub_interp q) e m x.
Proof.
  intros He HC (v & p & n & j & k & H1 & H2 & H3 & H4).
  destruct (HC e v p n He (conj H1 (conj H2 H3))) as (q & p' & Hq & ->).
  exists q. split; auto. exists v, p', n, j, k. rewrite <- app_assoc. auto.
Qed.
Lemma component_call q c es : call_ok b els path t interp c es ->
  (exists n, descendant (pb_node (build b)) (path ++ q) = Some n) ->
  call_ok b els (path ++ q) t (sub_interp q) c es.
Proof.
  intros [H1 H2 H3 H4 H5 H6] Hq. constructor; auto.
  intros e v p n He Hv Hd Hl. unfold sub_interp. rewrite <- app_assoc in Hd. eapply H3; eauto.
Qed.

Lemma each_effect es c0 : call_ok b els path t interp c0 es -> agree b path mask interp es ->
  backend_resize zero (pb_size (build b)) t c0 = Done c0 ->
  forall qs c1, (forall q, In q qs -> exists n, descendant (pb_node (build b)) (path ++ q) = Some n) ->
  shape c1 = shape c0 ->
  exists c', interpolate_each b path t mask interp zero es qs c1 = Done c' /\ shape c' = shape c0 /\
    forall a v, at_path c1 a = Some (CVal v) ->
      (exists q e m x, In q qs /\ In e es /\ local_value b (path ++ q) (sub_interp q) e m x /\ mask m = true /\
         backend_at t c0 m = Some a /\ at_path c' a = Some (CVal x)) \/
      (at_path c' a = Some (CVal v) /\
       forall q e m x, In q qs -> In e es -> local_value b (path ++ q) (sub_interp q) e m x -> mask m = true -> backend_at t c0 m <> Some a).
Proof.
  intros HC HA HR. induction qs as [|q qs IH]; intros c1 Hp HS.
  - exists c1. split; [reflexivity|]. split; [exact HS|]. intros a v Hv. right. split; [exact Hv|]. intros q e m x [].
  - pose proof (run_good b els path t mask interp zero c0 es c0 HC HR) as HG0.
    assert (Ht1 : has_ty t c1) by (apply (has_ty_shape t c0 c1); auto; apply HG0).
    assert (HC1 : call_ok b els (path ++ q) t (sub_interp q) c1 es).
    { apply component_call; [|apply Hp; now left]. destruct HC. constructor; auto. }
    pose proof (C76_resize_again b t zero c0 c0 c1 HR HS) as HR1.
    destruct (interpolate_effect b els (path ++ q) t mask (sub_interp q) zero c1 es c1 HC1 HR1) as (c2 & I2 & T2 & S2 & B2 & V2).
    destruct (IH c2) as (c' & I' & S' & V'); [intros; apply Hp; now right|congruence|].
    assert (HB : forall e m x a, In e es -> local_value b path interp e m x ->
                   (backend_at t c1 m = Some a <-> backend_at t c0 m = Some a)).
    { intros e m x a He Hv. assert (Gm : global_index els b m) by (eapply (value_global b els path t interp c0 es e m x); eauto).
      destruct (proj2 HG0 m Gm) as (Hx & a' & v' & Ha' & _).
      pose proof (backend_shape t c0 c1 m a' (proj1 HG0) HS Hx Ha') as Hb. split; congruence. }
    exists c'. split; [cbn [interpolate_each]; change (fun e p => interp e (q ++ p)) with (sub_interp q); rewrite I2; exact I'|].
    split; auto. intros a v Hv.
    destruct (V2 a v Hv) as [(e & m & x & P1 & P2 & P3 & P4 & P5)|[P1 P2]].
    + pose proof (component_value q e m x P2) as P2'. apply (HB e m x a P1 P2') in P4. left.
      destruct (V' a x P5) as [(q' & e' & m' & x' & Q0 & Q1 & Q2 & Q3 & Q4 & Q5)|[Q1 _]].
      * exists q', e', m', x'. split; [now right|]. auto 10.
      * exists q, e, m, x. split; [now left|]. auto 10.
    + destruct (V' a v P1) as [(q' & e' & m' & x' & Q0 & Q1 & Q2 & Q3 & Q4 & Q5)|[Q1 Q2]].
      * left. exists q', e', m', x'. split; [now right|]. auto 10.
      * right. split; auto. intros q' e m x [<-|Hq'] He Hl Hm Hb; [|eapply Q2; eauto].
        apply (P2 e m x He Hl Hm). apply (HB e m x a He (component_value q e m x Hl)). exact Hb.
Qed.

(** Interpolating the components one after the other gives the same vector as
    interpolating the function as a whole, whenever the elements agree on shared DOFs. *)
Theorem C78_interpolation_by_components c es qs :
  call_ok b els path t interp c es -> agree b path mask interp es -> covers b path els qs -> qs <> [] ->
  (forall q, In q qs -> exists n, descendant (pb_node (build b)) (path ++ q) = Some n) ->
  interpolate_each b path t mask interp zero es qs c =
  interpolate t mask interp zero (subspace_of_root (build b) path) es c.
Proof.
  intros HC HA HCov Hne Hp. destruct qs as [|q0 qs]; [congruence|].
  destruct (backend_resize zero (pb_size (build b)) t c) as [c0| |] eqn:HR.
  2,3: cbn [interpolate_each]; unfold interpolate; cbn [ss_root subspace_of_root]; now rewrite HR.
  destruct (interpolate_effect b els path t mask interp zero c es c0 HC HR) as (c1 & I1 & T1 & S1 & B1 & V1).
  pose proof (run_good b els path t mask interp zero c es c0 HC HR) as HG0.
  pose proof (C76_resize_again b t zero c c0 c0 HR eq_refl) as HR0.
  assert (HC0 : call_ok b els path t interp c0 es) by (destruct HC; constructor; auto; apply HG0).
  assert (Hfirst : interpolate_each b path t mask interp zero es (q0 :: qs) c =
                   interpolate_each b path t mask interp zero es (q0 :: qs) c0).
  { cbn [interpolate_each]. f_equal. unfold interpolate. cbn [ss_root subspace_of_root]. now rewrite HR, HR0. }
  destruct (each_effect es c0 HC0 HA HR0 (q0 :: qs) c0 Hp eq_refl) as (c' & I' & S' & V').
  rewrite Hfirst, I', I1. f_equal. apply cont_ext; [congruence|]. intros a x Hx.
  assert (Hv : exists v, at_path c0 a = Some (CVal v)).
  { pose proof (shape_path c' a) as Q. rewrite S', shape_path, Hx in Q. destruct (at_path c0 a) as [[v|l]|]; try discriminate. eauto. }
  destruct Hv as [v Hv].
  destruct (V' a v Hv) as [(q & e & m & x1 & P0 & P1 & P2 & P3 & P4 & P5)|[P1 P2]];
  destruct (V1 a v Hv) as [(e2 & m2 & x2 & Q1 & Q2 & Q3 & Q4 & Q5)|[Q1 Q2]].
  - apply component_value in P2. assert (m2 = m) as ->.
    { eapply (C21_distinct_indices_distinct_entries b els zero t c c0 m2 m a);
        eauto using call_basis, call_container, value_global. }
    rewrite Q5. rewrite P5 in Hx. assert (x1 = x2) by (eapply (HA e e2); eauto). congruence.
  - exfalso. apply component_value in P2. eapply Q2; eauto.
  - exfalso. destruct (covered_value (q0 :: qs) e2 m2 x2) as (q & Hq & Hl); auto.
    { apply (call_elements _ _ _ _ _ _ _ HC); auto. }
    eapply (P2 q e2); eauto.
  - congruence.
Qed.
End Interpolation.

(** The children of an inner node cover it. *)
Lemma children_cover {E} (b : bexpr E) path (els : E -> Prop) m g cs :
  wf els b -> descendant (pb_node (build b)) path = Some (NInner m g cs) ->
  covers b path els (map (fun i => [i]) (seq 0 (length cs))).
Proof.
  intros Hwf Hd e v p n He (Hb & Hn & Hl). pose proof (build_ok b els Hwf) as OK.
  rewrite (bind_new_ok els _ _ e OK He) in Hb. injection Hb as <-. cbn [lv_tree] in *.
  assert (Hsk : skel (bind_tree e 0 (fst (init_tree 0 (pb_node (build b))))) = skel (pb_node (build b))).
  { rewrite skel_bind. apply (new_skel (build b)). }
  assert (HE : forall p (n0 n1 : node E), skel n0 = skel n1 ->
     match descendant n0 p, descendant n1 p with Some a, Some a' => skel a = skel a' | None, None => True | _, _ => False end).
  { clear. induction p as [|i p IH]; intros n n' H; cbn; [exact H|].
    assert (G : match child n i, child n' i with Some a, Some a' => skel a = skel a' | None, None => True | _, _ => False end).
    { destruct n as [m g fe e|m g cs], n' as [m' g' fe' e'|m' g' cs']; cbn in H; try discriminate; unfold child; cbn.
      - destruct i; exact I.
      - injection H as _ H. revert cs' H i. induction cs as [|c cs IHc]; intros [|c' cs'] H i; try discriminate.
        + destruct i; exact I.
        + injection H as H1 H2. destruct i; cbn; auto. now apply IHc. }
    destruct (child n i), (child n' i); try contradiction; [apply IH; auto|exact I]. }
  pose proof (HE path _ _ Hsk) as HP. rewrite Hd in HP. rewrite descendant_app' in Hn.
  destruct (descendant (bind_tree e 0 _) path) as [nd|]; [|contradiction].
  destruct nd as [m1 g1 fe1 e1|m1 g1 cs1]; [discriminate|]. cbn in HP. injection HP as _ HP.
  destruct p as [|i p]; [cbn in Hn; injection Hn as <-; discriminate|].
  exists [i], p. split; [|reflexivity]. apply in_map_iff. exists i. split; auto. apply in_seq.
  cbn [descendant] in Hn. unfold child in Hn. cbn [children] in Hn. destruct (nth_error cs1 i) as [c1|] eqn:Ei; [|discriminate].
  apply (f_equal (@length _)) in HP. rewrite !map_length in HP. apply nth_error_Some_lt in Ei. lia.
Qed.

(** * The hypotheses are met *)

(** The velocity of the velocity-pressure function of DiscreteFunction_props. *)
Definition ex78_sub : setup nat R := SU (subspace_of_root (build ex26_b) [0]) 1 (fun _ => 1) 1 1
  (fun _ p x => [[1 - x]; [x]]%R) (fun _ p _ => [[- (1)]; [1]]%R) (fun _ _ _ _ => 2%R)
  (CBlk [CVal 0; CVal 0])%R (fun _ => FScalar)
  (CBlk [CBlk [CVal 0]; CBlk [CVal 0]])%R (fun _ => FVec (Some 1) FScalar).
Example C78_hypotheses_met :
  component_of [0] ex26_su ex78_sub /\ setup_ok ex26_b [] ex_els ex26_su /\ setup_ok ex26_b [0] ex_els ex78_sub /\
  coefs_ok ex26_b ex_els ex78_sub ex26_c.
Proof.
  assert (HL : forall e v p n, leaf_of ex26_b [0] e v p n -> (p = [0] \/ p = [1]) /\ node_size n = 2).
  { intros e v p n L. change [0] with ([] ++ [0]) in L. apply leaf_of_component in L. destruct (ex26_leaf e v _ n L) as [H Hn].
    assert (Hp : p = [0] \/ p = [1]) by (destruct H as [H|[H|H]]; cbn in H; try discriminate; injection H as ->; auto).
    split; [exact Hp|]. rewrite Hn. destruct Hp as [-> | ->]; reflexivity. }
  split; [constructor; intros; reflexivity|]. split; [apply C26_hypotheses_met|]. split.
  - constructor.
    + apply C26_hypotheses_met.
    + cbn. eauto.
    + reflexivity.
    + intros e v p n x He L. destruct (HL e v p n L) as [[-> | ->] ->]; cbn; repeat constructor.
    + intros e v p n x He L. destruct (HL e v p n L) as [[-> | ->] ->]; cbn; repeat constructor.
    + intros e v p n He L. destruct (HL e v p n L) as [[-> | ->] _]; (split; [|right; cbn; eauto]);
        eexists; repeat split; reflexivity.
    + intros e v p n He L. destruct (HL e v p n L) as [[-> | ->] _]; (split; [|right; cbn; eauto]);
        eexists; (split; [reflexivity|]); repeat split; repeat constructor.
  - intros m _. eexists. split; reflexivity.
Qed.

(** The call of Interpolate_props, for a function with a different constant in each child. *)
Definition ex78_interp (e : nat) (p : list nat) : list nat := repeat (3 + 2 * hd 0 p) 20.
Example C78_interpolation_met :
  call_ok ex_b ex_els [] ex_cty ex78_interp ex_cont [1; 0] /\ agree ex_b [] ex_mask ex78_interp [1; 0] /\
  covers ex_b [] ex_els [[0]; [1]; [2]] /\
  (forall q, In q [[0]; [1]; [2]] -> exists n, descendant (pb_node (build ex_b)) ([] ++ q) = Some n) /\
  exists c', interpolate_each ex_b [] ex_cty ex_mask ex78_interp 0 [1; 0] [[0]; [1]; [2]] ex_cont = Done c' /\
    read ex_cty c' [0; 1; 1] = Some (CVal 3) /\ read ex_cty c' [1; 0] = Some (CVal 5) /\ read ex_cty c' [2; 0] = Some (CVal 5).
Proof.
  split; [|split; [|split; [|split]]].
  - destruct C25_hypotheses_met as [H1 H2 H3 H4 H5 H6]. constructor; auto.
  - assert (G : forall e m x, e < 2 -> local_value ex_b [] ex78_interp e m x -> x = 3 + 2 * hd 0 m).
    { intros e m x He (v & p & n & j & k & H1 & H2 & H3 & H4 & H5 & H6). cbn [app] in H2.
      assert (Hx : x = 3 + 2 * hd 0 p) by (apply nth_error_In, repeat_spec in H6; exact H6). subst x. clear H6.
      assert (HH : hd 0 p = hd 0 m); [|now rewrite HH].
      assert (HE : e = 0 \/ e = 1) by lia. destruct HE as [-> | ->]; vm_compute in H1; injection H1 as <-.
      all: repeat (destruct p as [|[|[|[|i]]] p]; cbn in H2; try discriminate;
                   try (injection H2 as <-; try discriminate)).
      all: try (destruct p; cbn in H2; [|discriminate]).
      all: try (destruct i; discriminate).
      all: try (destruct j as [|[|j]]; vm_compute in H4; try discriminate; injection H4 as <-;
                vm_compute in H5; try discriminate; injection H5 as <-; reflexivity). }
    intros e e' m x x' He He' Hm H H'.
    rewrite (G e m x), (G e' m x'); auto; [destruct He' as [<-|[<-|[]]]; lia|destruct He as [<-|[<-|[]]]; lia].
  - exact (children_cover ex_b [] ex_els _ _ _ ex_wf eq_refl).
  - intros q [<-|[<-|[<-|[]]]]; cbn; eauto.
  - eexists. split; [vm_compute; reflexivity|]. repeat split; vm_compute; reflexivity.
Qed.

Print Assumptions C78_values.
Print Assumptions C78_derivatives.
Print Assumptions C78_interpolation_by_components.
