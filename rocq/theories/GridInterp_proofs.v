(** interpolate() of a grid function does what interpolate() of the local coefficients does (C94). *)
From Coq Require Import List Arith Bool Reals Lia Lra.
From Verif Require Import Lib Basis_model Basis_spec Basis_proofs Basis_ok Basis_view Basis_props
  Container_model Container_spec Container_proofs Container_desc Container_props FlatVector_model FlatVector_props
  Interpolate_model Interpolate_props DiscreteFunction_model DiscreteFunction_spec
  Projection_model Transfer_spec Transfer_proofs LocalFunction_model LocalFunction_spec LocalFunction_props GridInterp_model GridInterp_spec.
Import ListNotations.
#[local] Arguments Nat.ltb : simpl never.
#[local] Arguments Nat.eqb : simpl never.

Section Determined.
Context {E X Y V : Type}.
Variable G : grid E X Y.
Hypothesis OK : grid_ok G.
Lemma nearest_fun cs e a l : nearest G cs e a l -> forall a' l', nearest G cs e a' l' -> a = a' /\ l = l'.
Proof.
  induction 1 as [e He|e f a l He Hf Hn IH]; intros a' l' H'; inversion H' as [e1 He1|e1 f1 a1 l1 He1 Hf1 Hn1]; subst; try congruence; auto.
  assert (f1 = f) by congruence. subst. destruct (IH _ _ Hn1) as [-> ->]. auto.
Qed.
(** The value depends on the element bound to only. *)
Lemma eval_same (g : gf E X Y V) : forall o o' e x, ok G g o (Some e) -> ok G g o' (Some e) ->
  option_map fst (leval_at G g o x) = option_map fst (leval_at G g o' x).
Proof.
  induction g as [f|f|v dv|h l IH|cs g IH|fs g IH] using gf_ind'; intros o o' e x Ho Ho';
    destruct o as [f1 el ge|f1 el ge|v1 dv1 el|h1 os|cs1 el inner geos|fs1 el inner fwd]; try contradiction;
    destruct o' as [f2 el2 ge2|f2 el2 ge2|v2 dv2 el2|h2 os2|cs2 el2 inner2 geos2|fs2 el2 inner2 fwd2]; try contradiction.
  - destruct Ho as (-> & -> & _), Ho' as (-> & -> & _). reflexivity.
  - destruct Ho as (-> & -> & _), Ho' as (-> & -> & _). reflexivity.
  - destruct Ho as (-> & -> & ->), Ho' as (-> & -> & ->). reflexivity.
  - destruct Ho as (-> & _ & Ho), Ho' as (-> & _ & Ho'). cbn [leval_at].
    set (GO := fix go gs l := match gs, l with [], [] => Some ([], []) | g :: gs', a :: r => '(v, a') <- leval_at G g a x ;; '(vs, r') <- go gs' r ;; Some (v :: vs, a' :: r') | _, _ => None end).
    assert (HH : forall os os2,
      (fix go gs os := match gs, os with [], [] => True | g :: gs', o :: os' => ok G g o (Some e) /\ go gs' os' | _, _ => False end) l os ->
      (fix go gs os := match gs, os with [], [] => True | g :: gs', o :: os' => ok G g o (Some e) /\ go gs' os' | _, _ => False end) l os2 ->
      option_map fst (GO l os) = option_map fst (GO l os2)).
    { clear - IH. induction l as [|g l IHl]; intros [|o os] [|o2 os2] H1 H2; try contradiction; auto.
      inversion IH as [|? ? I1 I2]; subst. destruct H1 as [H1 H1'], H2 as [H2 H2']. specialize (IHl I2 os os2 H1' H2'). specialize (I1 o o2 e x H1 H2).
      cbn [GO]. fold GO. destruct (leval_at G g o x) as [[? ?]|], (leval_at G g o2 x) as [[? ?]|]; try discriminate; auto. cbn in I1. injection I1 as ->.
      cbn [obind]. destruct (GO l os) as [[? ?]|], (GO l os2) as [[? ?]|]; try discriminate; auto. cbn in IHl. injection IHl as ->. reflexivity. }
    specialize (HH os os2 Ho Ho'). destruct (GO l os) as [[? ?]|], (GO l os2) as [[? ?]|]; try discriminate; auto. cbn in HH. injection HH as ->. reflexivity.
  - destruct Ho as (-> & -> & si & Hi & Ha), Ho' as (-> & -> & si2 & Hi2 & Ha2). destruct (Ha e eq_refl) as (a & Hn & ->), (Ha2 e eq_refl) as (a2 & Hn2 & ->).
    destruct (nearest_fun _ _ _ _ Hn _ _ Hn2) as [<- <-]. cbn [leval_at]. specialize (IH inner inner2 a (map_up G geos x) Hi Hi2).
    destruct (leval_at G g inner _) as [[? ?]|], (leval_at G g inner2 _) as [[? ?]|]; try discriminate; auto; try (cbn in *; injection IH as ->; reflexivity).
  - destruct Ho as (-> & -> & si & Hi & Ha), Ho' as (-> & -> & si2 & Hi2 & Ha2). destruct (Ha e eq_refl) as (Hr & -> & Hs), (Ha2 e eq_refl) as (_ & -> & Hs2).
    cbn [leval_at]. destruct (fs2 e) eqn:Ee.
    + rewrite (Hs eq_refl) in Hi. rewrite (Hs2 eq_refl) in Hi2. specialize (IH inner inner2 e x Hi Hi2).
      destruct (leval_at G g inner x) as [[? ?]|], (leval_at G g inner2 x) as [[? ?]|]; try discriminate; auto; try (cbn in *; injection IH as ->; reflexivity).
    + cbn [obind]. destruct (descend_ok G OK fs2 (fits G g) e Hr Ee (gr_max G - gr_level G e) x) as (d & y & -> & _ & D3 & _); [lia|]. cbn [obind].
      destruct (bind_ok G OK g inner si d Hi D3) as (i1 & -> & Hi1), (bind_ok G OK g inner2 si2 d Hi2 D3) as (i2 & -> & Hi2'). cbn [obind].
      specialize (IH i1 i2 d y Hi1 Hi2'). destruct (leval_at G g i1 y) as [[? ?]|], (leval_at G g i2 y) as [[? ?]|]; try discriminate; auto; try (cbn in *; injection IH as ->; reflexivity).
Qed.
End Determined.

Section Simulation.
Context {E X Y : Type}.
Variable G : grid E X Y.
Hypothesis OK : grid_ok G.
Variable els : E -> Prop.
Variables (t : cty) (mask : mi -> bool) (asks : list nat -> bool) (sa : sampling E X).
Variable g : gf E X Y (cont R).
Hypothesis UF : usable_function G els asks g.
Variables (interp : E -> list nat -> list R) (s : subspace E).
Variable usable : E -> list nat -> Prop.
Hypothesis HI : forall e p f d, els e -> usable e p -> grid_part G g e p f ->
  (if asks p then exists g' d', dgf g = Some g' /\ d = Some d' /\ grid_part G g' e p d' else d = None) ->
  sample sa e p f d = Some (interp e p).
Variable Q : lview E -> Prop.
Hypothesis HQ : forall v e v', Q v -> els e -> sv_bind s v e = Some v' ->
  Q v' /\ forall tree p n, sv_tree s v' = Some tree -> In (p, n) (leaf_nodes tree) -> node_size n <> 0 ->
    usable e p /\ exists mx gg fe, n = NLeaf mx gg fe (Some e).

(** The values of a bound local function, as a function. *)
Definition values_of (o : lobj E X Y (cont R)) (p : list nat) (x : X) : option (cont R) :=
  '(y, _) <- leval G o x ;; node_to_range p y.
Lemma values_part h o e p : ok G h o (Some e) -> grid_part G h e p (values_of o p).
Proof.
  intros Ho x. destruct (eval_ok G OK h o e x Ho) as (v & o' & A & _ & B). exists v. split; auto.
  unfold values_of, leval. rewrite (fn_ok G h o _ Ho), A. reflexivity.
Qed.
Lemma evals_ok h p xs : forall o o0 e, ok G h o (Some e) -> ok G h o0 (Some e) ->
  match mapo (values_of o0 p) xs with
  | Some vs => exists o', evals G o p xs = Some (vs, o') /\ ok G h o' (Some e)
  | None => evals G o p xs = None
  end.
Proof.
  induction xs as [|x xs IH]; intros o o0 e Ho H0; cbn [mapo evals]; [eauto|].
  pose proof (eval_same G OK h o o0 e x Ho H0) as Hs. destruct (eval_ok G OK h o e x Ho) as (v & o1 & A & Ho1 & _).
  destruct (eval_ok G OK h o0 e x H0) as (v0 & o2 & A0 & _ & _). rewrite A, A0 in Hs. cbn in Hs. injection Hs as <-.
  assert (V0 : values_of o0 p x = node_to_range p v) by (unfold values_of, leval; rewrite (fn_ok G h o0 _ H0), A0; reflexivity).
  assert (V1 : leval G o x = Some (v, o1)) by (unfold leval; rewrite (fn_ok G h o _ Ho); exact A). rewrite V0, V1. cbn [obind].
  destruct (node_to_range p v) as [z|]; [|reflexivity]. cbn [obind]. specialize (IH o1 o0 e Ho1 H0). destruct (mapo (values_of o0 p) xs) as [zs|].
  - destruct IH as (o' & -> & Ho'). cbn [obind]. eauto.
  - cbn [obind]. rewrite IH. reflexivity.
Qed.

Definition wstate (so : option E) (w : @cdlf E X Y (cont R)) : Prop :=
  ok G g (fst w) so /\ match snd w with None => True | Some d => exists g', dgf g = Some g' /\ ok G g' d so end.
Lemma wbind so w e : wstate so w -> els e -> exists w', cd_bind G w e = Some w' /\ wstate (Some e) w'.
Proof.
  intros [H1 H2] He. unfold cd_bind. destruct (bind_ok G OK g (fst w) so e H1 (uf_fits _ _ _ _ UF e He)) as (f' & -> & Hf). cbn [obind].
  destruct (snd w) as [d|].
  - destruct H2 as (g' & Hg' & Hd). destruct (bind_ok G OK g' d so e Hd) as (d' & -> & Hd'). { eapply fits_dgf; eauto. apply UF; auto. }
    cbn [obind]. eexists. split; [reflexivity|]. split; auto. cbn. eauto.
  - eexists. split; [reflexivity|]. split; [exact Hf|exact I].
Qed.
Lemma wderiv w e p : wstate (Some e) w -> els e -> asks p = true ->
  exists f d g', cd_derivative G w = Some (f, Some d) /\ dgf g = Some g' /\ ok G g f (Some e) /\ ok G g' d (Some e).
Proof.
  intros [H1 H2] He Ha. unfold cd_derivative. destruct w as [f [d|]]; cbn [fst snd] in *.
  - destruct H2 as (g' & Hg' & Hd). eauto 10.
  - destruct (uf_derivative _ _ _ _ UF p Ha) as [Hd (g' & Hg')].
    destruct (deriv_ok G g f (Some e) g' H1 Hg' Hd) as (d & -> & Hd'). cbn [obind].
    rewrite (bound_ok G g f _ H1). cbn [is_some]. rewrite (context_ok G g f e H1). cbn [obind].
    destruct (bind_ok G OK g' d (Some e) e Hd') as (d' & -> & Hd2). { eapply fits_dgf; eauto. apply UF; auto. }
    cbn [obind]. eauto 10.
Qed.
Lemma gleaf v e p n c c' w : els e -> wstate (Some e) w -> (node_size n <> 0 -> usable e p /\ exists mx gg fe, n = NLeaf mx gg fe (Some e)) ->
  interpolate_leaf t mask interp v (p, n) c = Some c' ->
  exists w', grid_leaf G t mask asks sa v (p, n) (c, w) = Some (c', w') /\ wstate (Some e) w'.
Proof.
  intros He Hw Hn HL. unfold interpolate_leaf in HL. unfold grid_leaf. destruct (Nat.eqb_spec (node_size n) 0) as [Hz|NZ].
  { injection HL as <-. exists w. auto. }
  destruct (Hn NZ) as (HU & mx & gg & fe & ->). destruct (asks p) eqn:Ea.
  - destruct (wderiv w e p Hw He Ea) as (f & d & g' & -> & Hg' & Hf & Hd). cbn [obind snd fst].
    specialize (HI e p (values_of f p) (Some (values_of d p)) He HU (values_part g f e p Hf)). rewrite Ea in HI.
    specialize (HI ltac:(exists g', (values_of d p); split; auto; split; auto; now apply values_part)). unfold sample in HI.
    pose proof (evals_ok g' p (sa_dpoints sa e p) d d e Hd Hd) as E1. destruct (mapo (values_of d p) _) as [ds|]; [|discriminate].
    destruct E1 as (d' & -> & Hd'). cbn [obind fst snd] in *.
    pose proof (evals_ok g p (sa_points sa e p) f f e Hf Hf) as E2. destruct (mapo (values_of f p) _) as [vs|]; [|discriminate].
    destruct E2 as (f' & -> & Hf'). cbn [obind fst snd] in *. rewrite HI. cbn [obind]. rewrite HL. cbn [obind]. eexists. split; [reflexivity|].
    split; cbn; auto. eauto.
  - cbn [obind]. destruct Hw as [Hf Hd].
    specialize (HI e p (values_of (fst w) p) None He HU (values_part g _ e p Hf)). rewrite Ea in HI. specialize (HI eq_refl). unfold sample in HI. cbn [obind] in HI.
    pose proof (evals_ok g p (sa_points sa e p) (fst w) (fst w) e Hf Hf) as E2. destruct (mapo (values_of (fst w) p) _) as [vs|]; [|discriminate].
    destruct E2 as (f' & -> & Hf'). cbn [obind fst snd] in *. rewrite HI. cbn [obind]. rewrite HL. cbn [obind]. eexists. split; [reflexivity|].
    split; cbn; auto.
Qed.
Lemma gleaves v e : els e -> forall l c c' w,
  (forall p n, In (p, n) l -> node_size n <> 0 -> usable e p /\ exists mx gg fe, n = NLeaf mx gg fe (Some e)) -> wstate (Some e) w ->
  interpolate_leaves t mask interp v l c = Some c' ->
  exists w', grid_leaves G t mask asks sa v l (c, w) = Some (c', w') /\ wstate (Some e) w'.
Proof.
  intros He. induction l as [|[p n] l IH]; intros c c' w Hl Hw HL; cbn [interpolate_leaves grid_leaves] in *.
  - injection HL as <-. eauto.
  - apply obind_Some in HL as (c2 & H1 & HL). destruct (gleaf v e p n c c2 w) as (w1 & -> & Hw1); auto. { intros. apply (Hl p n); auto. now left. }
    cbn [obind]. apply IH; auto. intros; apply (Hl p0 n0); auto. now right.
Qed.
Lemma gelements : forall es v c c' w so, Q v -> (forall e, In e es -> els e) -> wstate so w ->
  interpolate_elements t mask interp s v es c = Some c' ->
  grid_elements G t mask asks sa s v es (c, w) = Some c'.
Proof.
  induction es as [|e es IH]; intros v c c' w so Hv Hes Hw HL; cbn [interpolate_elements grid_elements] in *.
  - now injection HL as <-.
  - assert (He : els e) by (apply Hes; now left). apply obind_Some in HL as (v' & Hb & HL). rewrite Hb. cbn [obind fst snd].
    destruct (HQ v e v' Hv He Hb) as [Hv' HU]. destruct (wbind so w e Hw He) as (w1 & -> & Hw1). cbn [obind].
    apply obind_Some in HL as (c2 & H1 & HL). unfold interpolate_local in H1. apply obind_Some in H1 as (tr & Htr & H1). rewrite Htr. cbn [obind].
    rewrite for_each_leaf_eq in *. destruct (gleaves v' e He (leaf_nodes tr) c c2 w1) as (w2 & -> & Hw2); auto.
    { intros p n Hin NZ. now apply (HU tr p n). }
    cbn [obind]. eapply IH; eauto. intros; apply Hes; now right.
Qed.
Lemma grid_transfer es c : Q (sv_new s) -> (forall e, In e es -> els e) ->
  interpolate t mask interp 0%R s es c <> Undef ->
  interpolate_grid G t mask asks sa g s es c = interpolate t mask interp 0%R s es c.
Proof.
  intros HN Hes HU. unfold interpolate_grid, interpolate in *. destruct (backend_resize _ _ t c) as [c0| |]; auto.
  destruct (interpolate_elements _ _ _ _ _ es c0) as [c'|] eqn:Ei; [|congruence].
  match goal with |- match ?x with _ => _ end = _ => assert (K : x = Some c') end.
  { refine (gelements es (sv_new s) c0 c' (lnew g, None) None HN Hes _ Ei). split; [|exact I]. apply new_ok. apply UF. }
  now rewrite K.
Qed.
End Simulation.
