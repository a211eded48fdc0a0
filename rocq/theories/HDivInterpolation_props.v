(** C82: interpolation into Raviart-Thomas and Brezzi-Douglas-Marini bases preserves the
    moments of the normal component on all facets. *)
From Coq Require Import List Arith Lia Bool Reals Lra.
From Verif Require Import Lib Basis_model Basis_spec GeometryType_model GeometryType_spec GeometryType_props Mapper_model Mapper_spec Families_model Families_spec Families_props
  Basis_ok Basis_view Basis_proofs Basis_props Container_model Container_spec FlatVector_model FlatVector_props Interpolate_model Interpolate_props
  DiscreteFunction_model DiscreteFunction_spec DiscreteFunction_proofs Orientation_model Orientation_spec Orientation_props Piola_model Piola_spec Piola_props
  Projection_spec Derivative_spec Derivative_props HDiv_spec HDiv_props Reproduction_spec Reproduction_props DofPreservation_spec DofPreservation_props.
Import ListNotations.
Local Open Scope R_scope.
#[local] Arguments Nat.pow : simpl never.

(** * Vectors *)
Lemma dot_opp_r d (v N : list R) : length N = d -> dot d v (map Ropp N) = - dot d v N.
Proof. apply dot_opp. Qed.
Lemma contra_local_flux d G f xi nu N : geo_ok d G xi -> length (f xi) = d -> image_area_vector d G xi nu N ->
  dot d (contra_local d G f xi) nu = dot d (f xi) N.
Proof.
  intros Hg Lf HA. change (contra_local d G f xi) with (contra_local d G (fun _ => f xi) xi).
  rewrite <- (C48_flux d G xi (contra_local d G (fun _ => f xi) xi) nu N Hg); auto.
  - now rewrite (proj2 (C48_contravariant_round_trip d G xi (f xi) Hg Lf)).
  - unfold contra_local. now rewrite map_length, mtv_len.
Qed.
(** The transformation of a combination is the combination of the transformed functions. *)
Lemma contra_combination d G (B : lbasis) cs xi : Forall (fun v => length v = d) (lb_eval B xi) -> length (lb_eval B xi) = length cs ->
  contra_value d G xi (reference_field d B cs xi) =
  map (fun r => rsum (length cs) (fun a => nth a cs 0 * at_ (nth a (gv_eval (contravariant d G) B xi) []) r)) (seq 0 d).
Proof.
  intros HF HL. apply (vec_ext _ _ d).
  - unfold contra_value. now rewrite map_length, mtv_len.
  - now rewrite map_length, seq_length.
  - intros i Hi. rewrite contra_at by auto. rewrite at_map by auto.
    rewrite (rsum_ext d _ (fun j => rsum (length cs) (fun a => g_JT G xi j i * (nth a cs 0 * at_ (nth a (lb_eval B xi) []) j)))).
    2: { intros j Hj. unfold reference_field. rewrite at_map by auto. now rewrite <- rsum_scal. }
    rewrite rsum_swap. unfold Rdiv. rewrite <- rsum_scal_r. apply rsum_ext. intros a Ha.
    unfold gv_eval. cbn [t_value contravariant]. rewrite (nth_indep (map (contra_value d G xi) (lb_eval B xi)) [] (contra_value d G xi [])) by (rewrite map_length; lia). rewrite map_nth.
    rewrite contra_at by auto. unfold Rdiv. rewrite <- Rmult_assoc, <- rsum_scal, <- !rsum_scal_r.
    apply rsum_ext. intros j Hj. ring.
Qed.
Lemma reference_field_length d B cs x : length (reference_field d B cs x) = d.
Proof. unfold reference_field. now rewrite map_length, seq_length. Qed.
Lemma facet_sign_nz b m : facet_sign b m <> 0.
Proof. unfold facet_sign. destruct (_ && _); lra. Qed.

Section Core.
Context {E X : Type}.
Variables (g : grid E X) (fg : fgrid E) (d : nat) (keys : E -> list localkey) (basis : fe -> lbasis) (linterp : fe -> (pt -> list R) -> list R)
  (nu : E -> nat -> list R) (inside : E -> pt -> Prop) (on_facet : E -> nat -> pt -> Prop) (position : E -> pt -> list R)
  (moment : E -> nat -> nat -> (pt -> R) -> R) (G : E -> geo) (N : E -> nat -> pt -> list R) (l : leaf E) (find : E -> option fe)
  (b : bexpr E) (path : list nat) (su : setup E pt) (v : list nat -> list R -> list R).
Local Notation els := (fun e => In e (fg_elements fg)).
Hypotheses (HG : grid_ok els g) (HGf : fgrid_ok fg) (HK : forall e s c m, els e -> In (s, c, m) (keys e) -> (c = 0 \/ c = 1)%nat /\ exists t, subtype g e s c t)
  (HFE : forall e, lf_fe l e = length (keys e)) (HN : numbered_with_gaps els g keys l)
  (HD : forall e e', els e -> els e' -> g_sub g e 0 0 = g_sub g e' 0 0 -> e = e')
  (HM : moments_ok g fg d keys basis linterp nu inside on_facet position moment)
  (HA : areas_ok g fg d nu inside on_facet position G N)
  (HV : forall e, els e -> exists n, find e = Some (FE (fg_type fg e) n) /\ (n < 2 ^ facets (fg_dim fg) (fg_type fg e))%nat)
  (HB : forall e i e' j n n', els e -> els e' -> e <> e' ->
     (exists t t', subtype g e i 1 t /\ subtype g e' j 1 t') -> g_sub g e i 1 = g_sub g e' j 1 ->
     find e = Some (FE (fg_type fg e) n) -> find e' = Some (FE (fg_type fg e') n') -> bit n i = negb (bit n' j))
  (Hl : forall p l', leaf_at b (path ++ p) = Some l' -> l' = l)
  (Hd : forall p, su_vdim su p = d)
  (Hsh : forall e p x f, els e -> find e = Some f -> su_shape su e p x = gv_eval (contravariant d (G e)) (basis f) x)
  (Hv : forall p z, length (v p z) = d).
Definition pulled (e : E) (p : list nat) (f : pt -> list R) : list R :=
  match find e with Some F => gv_interpolate (contravariant d (G e)) (linterp F) f | None => [] end.
Definition field (e : E) (p : list nat) (xi : pt) : list R := v p (position e xi).

Lemma pulled_size e p f : els e -> length (pulled e p f) = length (keys e).
Proof. intros He. unfold pulled, gv_interpolate. destruct (HV e He) as (n & -> & Hn). now apply (mo_size _ _ _ _ _ _ _ _ _ _ _ HM). Qed.
Lemma indices_size e : els e -> length (lf_indices l e) = length (keys e).
Proof. intros He. destruct HN as (LF & _). now rewrite LF, HFE. Qed.
(** The coefficient of a function of a facet is a moment of the normal component. *)
Lemma pulled_facet e p f n a s m t : els e -> find e = Some (FE (fg_type fg e) n) -> (n < 2 ^ facets (fg_dim fg) (fg_type fg e))%nat ->
  nth_error (keys e) a = Some (s, 1%nat, m) -> subtype g e s 1 t -> (forall xi, on_facet e s xi -> length (f xi) = d) ->
  nth a (pulled e p f) 0 = facet_sign (bit n s) m * moment e s m (fun xi => dot d (f xi) (N e s xi)).
Proof.
  intros He F Hn Ka St Lf. unfold pulled, gv_interpolate. rewrite F. cbn [t_local contravariant].
  rewrite (mo_facet _ _ _ _ _ _ _ _ _ _ _ HM e n _ a s m He Hn Ka). f_equal.
  apply (mo_local _ _ _ _ _ _ _ _ _ _ _ HM e s t); auto. intros xi Hxi. destruct HA as (HA1 & HA2 & _).
  destruct (HA2 e s t xi He St Hxi) as [LN IA]. apply contra_local_flux; auto.
  apply HA1; auto. eapply (mo_facet_inside _ _ _ _ _ _ _ _ _ _ _ HM); eauto.
Qed.
Lemma pulled_ok : local_interpolation_ok els b path su inside pulled.
Proof.
  constructor.
  - intros p l' e f L He. rewrite (Hl p l' L). now rewrite pulled_size, indices_size.
  - intros p l' e f h L He Q. unfold pulled, gv_interpolate. destruct (HV e He) as (n & -> & Hn).
    apply (mo_inside _ _ _ _ _ _ _ _ _ _ _ HM); auto. intros xi Hxi. cbn [t_local contravariant]. unfold contra_local. now rewrite Q.
  - intros p l' e cs L He LC. rewrite (Hl p l' L), indices_size in LC by auto. unfold pulled, gv_interpolate. destruct (HV e He) as (n & F & Hn). rewrite F.
    etransitivity; [|exact (mo_dual _ _ _ _ _ _ _ _ _ _ _ HM e n cs He Hn LC)].
    apply (mo_inside _ _ _ _ _ _ _ _ _ _ _ HM); auto. intros xi Hxi. cbn [t_local contravariant].
    destruct (mo_basis _ _ _ _ _ _ _ _ _ _ _ HM e n xi He Hn) as [LB FB]. pose proof (proj1 HA e xi He Hxi) as Hg.
    transitivity (contra_local d (G e) (fun xi0 => contra_value d (G e) xi0 (reference_field d (basis (FE (fg_type fg e) n)) cs xi)) xi).
    2: { apply (C48_contravariant_round_trip d (G e) xi _ Hg). apply reference_field_length. }
    unfold contra_local. do 2 f_equal. rewrite contra_combination by (auto; congruence). rewrite Hd. apply map_ext_in. intros k Hk.
    apply rsum_ext. intros i Hi. f_equal. unfold shape_of. now rewrite (Hsh e p xi _ He F).
Qed.
Lemma pulled_consistent : consistent els b path (fun e p => pulled e p (field e p)).
Proof.
  intros p l' e e' a a' nb x x' L He He' Ha Ha' Hx Hx'. rewrite (Hl p l' L) in *. clear L l'.
  destruct HN as (LF & _ & _ & ND & NUM).
  assert (K : forall e a, els e -> nth_error (lf_indices l e) a = Some nb -> exists s c i, nth_error (keys e) a = Some (s, c, i)).
  { intros e0 a0 H0 A0. assert (La : (a0 < length (keys e0))%nat) by (rewrite <- indices_size by auto; apply nth_error_Some; congruence).
    destruct (nth_error_lt_Some _ _ La) as [[[s c] i] Q]. eauto. }
  destruct (K e a He Ha) as (s & c & m & Ka). destruct (K e' a' He' Ha') as (s' & c' & m' & Ka').
  destruct (NUM e a s c m e' a' s' c' m' He He' Ka Ka') as (z & z' & Z & Z' & EQ).
  rewrite Ha in Z. injection Z as <-. rewrite Ha' in Z'. injection Z' as <-. destruct (proj1 EQ eq_refl) as [QS <-]. clear EQ.
  destruct (HK e s c m He (nth_error_In _ _ Ka)) as (Hc & t & St). destruct (HK e' s' c' m He' (nth_error_In _ _ Ka')) as (Hc' & t' & St').
  destruct (Mapper_spec.go_type _ _ HG e s c t e' s' c' t' He He' St St' QS) as [_ <-].
  assert (SAME : e = e' -> x = x').
  { intros <-. assert (a = a') as <- by (apply (proj1 (NoDup_nth_error _) (ND e He)); [apply nth_error_Some; congruence|congruence]). congruence. }
  destruct Hc as [-> | ->].
  - apply SAME, HD; auto. assert (Z : forall e s t, subtype g e s 0 t -> s = 0%nat).
    { intros e0 s0 t0 H0. apply nth_error_Some_lt in H0. rewrite subtypes_0 in H0. cbn in H0. lia. }
    rewrite (Z _ _ _ St), (Z _ _ _ St') in QS. exact QS.
  - destruct (HV e He) as (n & F & Hn). destruct (HV e' He') as (n' & F' & Hn').
    assert (NE : e <> e' -> bit n s = negb (bit n' s')) by (intros NE; apply (HB e s e' s' n n'); eauto).
    apply nth_error_nth with (d := 0) in Hx. apply nth_error_nth with (d := 0) in Hx'.
    rewrite (pulled_facet e p (field e p) n a s m t) in Hx by (auto; intros; apply Hv).
    rewrite (pulled_facet e' p (field e' p) n' a' s' m t') in Hx' by (auto; intros; apply Hv).
    destruct (Nat.eq_dec (fg_idx fg e) (fg_idx fg e')) as [Q|NQ]; [apply SAME; now apply (Orientation_spec.go_inj fg HGf)|].
    assert (NQ' : e <> e') by (intros Q; apply NQ; now rewrite Q). specialize (NE NQ').
    set (w := fun xi => dot d (field e p xi) (N e s xi)) in *. set (w' := fun xi => dot d (field e' p xi) (N e' s' xi)) in *.
    assert (M : moment e' s' m (fun xi => - w' xi) = (if Nat.even m then 1 else -1) * moment e s m w).
    { apply (mo_shared _ _ _ _ _ _ _ _ _ _ _ HM e s t e' s' t'); auto. intros xi xi' O O' P. unfold w, w', field.
      destruct HA as (_ & HA2 & HA3). rewrite (HA3 e s t xi e' s' t' xi'), <- P by auto. rewrite dot_opp_r; [ring|]. now apply (HA2 e s t xi). }
    rewrite (mo_opp _ _ _ _ _ _ _ _ _ _ _ HM) in M. rewrite <- Hx, <- Hx', NE.
    replace (moment e' s' m w') with (- ((if Nat.even m then 1 else -1) * moment e s m w)) by lra.
    unfold facet_sign. destruct (bit n' s'), (Nat.even m); cbn [negb andb]; ring.
Qed.

Hypotheses (OKS : setup_ok b path els su) (Hcd : su_cdim su = 1%nat).
Lemma moments_preserved t interp c es c' : (forall e p, els e -> interp e p = pulled e p (field e p)) ->
  call_ok b els path t interp c es ->
  Interpolate_model.interpolate t (fun _ => true) interp 0 (subspace_of_root (build b) path) es c = Done c' ->
  forall e w p n (y : pt -> cont R) i ti m, In e es -> leaf_of b path e w p n -> node_size n <> 0%nat -> subtype g e i 1 ti -> In (i, 1%nat, m) (keys e) ->
  (forall x, inside e x -> is_value b path su e (contents t c') x (y x)) ->
  moment e i m (fun xi => rsum d (fun r => range_entry p (y xi) r * at_ (N e i xi) r)) =
  moment e i m (fun xi => dot d (v p (position e xi)) (N e i xi)).
Proof.
  intros HI CO RUN e w p n y i ti m He Lf NZ St Im V.
  pose proof (call_elements _ _ _ _ _ _ _ CO) as Hes.
  assert (HC : consistent els b path interp).
  { intros p0 l0 e0 e1 a0 a1 g0 x0 x1 L0 H0 H1 A0 A1 X0 X1. rewrite HI in X0, X1 by auto. exact (pulled_consistent p0 l0 e0 e1 a0 a1 g0 x0 x1 L0 H0 H1 A0 A1 X0 X1). }
  pose proof (C82_degrees_of_freedom_are_preserved E pt b path els su t inside pulled field interp c es c' HI OKS Hcd pulled_ok HC CO RUN
    e w p n y He Lf NZ V) as Q. rewrite Hd in Q.
  apply In_nth_error in Im as (a & Ka). destruct (HV e (Hes e He)) as (k & F & Hk).
  apply (f_equal (fun u => nth a u 0)) in Q.
  rewrite (pulled_facet e p _ k a i m ti) in Q by (auto; intros; now rewrite map_length, seq_length).
  rewrite (pulled_facet e p (field e p) k a i m ti) in Q by (auto; intros; apply Hv).
  apply Rmult_eq_reg_l in Q; [|apply facet_sign_nz]. unfold field in Q. rewrite <- Q.
  apply (mo_local _ _ _ _ _ _ _ _ _ _ _ HM e i ti); auto. intros xi _. unfold dot. apply rsum_ext. intros r Hr. now rewrite at_map by auto.
Qed.
End Core.

(** * Raviart-Thomas *)
(** All element types and orders: whatever tree of copies of a Raviart-Thomas basis the field
    is interpolated into, on every visited element the discrete field has the same moments of
    the normal component as the interpolated one. *)
Theorem C82_raviart_thomas : forall (E X : Type) (g : grid E X) (fg : fgrid E) (k : nat) (types : list gt) (keys : E -> list localkey) (mp : mapper X)
    (basis : fe -> lbasis) (linterp : fe -> (pt -> list R) -> list R) (nu : E -> nat -> list R) (inside : E -> pt -> Prop) (on_facet : E -> nat -> pt -> Prop)
    (position : E -> pt -> list R) (moment : E -> nat -> nat -> (pt -> R) -> R) (fixed : option gtype) (old m : femap) (G : E -> geo) (N : E -> nat -> pt -> list R)
    (b : bexpr E) (path : list nat) (su : setup E pt) (t : cty) (v : list nat -> list R -> list R) (interp : E -> list nat -> list R) c es c',
  let els := fun e => In e (fg_elements fg) in let d := g_dim g in let lay := fun t => rt_layout k d t d in
  setup_ok b path els su -> su_cdim su = 1%nat ->
  grid_ok els g -> fgrid_ok fg -> neighbours_ok g fg -> (forall e e', els e -> els e' -> g_sub g e 0 0 = g_sub g e' 0 0 -> e = e') ->
  types_ok els g types -> mapper_ok els g lay mp ->
  (forall t, In t types -> rt_finite_element d k t = true) -> keys_ok els g (rt_functions 1 k d) keys ->
  moments_ok g fg d keys basis linterp nu inside on_facet position moment -> areas_ok g fg d nu inside on_facet position G N ->
  types_match fg fixed -> rt_update fg fixed old = Some m ->
  (* all leaves are this Raviart-Thomas basis, with the transformed finite elements *)
  (forall p l, leaf_at b (path ++ p) = Some l -> l = mapper_leaf g mp lay types keys) -> (forall p, su_vdim su p = d) ->
  (forall e p x f, els e -> fm_find fg m e = Some f -> su_shape su e p x = gv_eval (contravariant d (G e)) (basis f) x) ->
  (forall p z, length (v p z) = d) ->
  (forall e p f, els e -> fm_find fg m e = Some f ->
     interp e p = gv_interpolate (contravariant d (G e)) (linterp f) (fun xi => v p (position e xi))) ->
  call_ok b els path t interp c es ->
  Interpolate_model.interpolate t (fun _ => true) interp 0 (subspace_of_root (build b) path) es c = Done c' ->
  forall e w p n (y : pt -> cont R) i ti q, In e es -> leaf_of b path e w p n -> node_size n <> 0%nat -> subtype g e i 1 ti -> In (i, 1%nat, q) (keys e) ->
  (forall x, inside e x -> is_value b path su e (contents t c') x (y x)) ->
  moment e i q (fun xi => rsum d (fun r => range_entry p (y xi) r * at_ (N e i xi) r)) =
  moment e i q (fun xi => dot d (v p (position e xi)) (N e i xi)).
Proof.
  intros E X g fg k types keys mp basis linterp nu inside on_facet position moment fixed old m G N b path su t v interp c es c' els d lay
    OKS Hcd HG HGf HNb HD HT HM HFE HK HMo HA HTM HU Hl Hd Hsh Hv HI CO RUN.
  pose proof (C57_raviart_thomas els g k types keys mp HG HT HM HFE HK) as (LK & LN & LI).
  destruct (C46_raviart_thomas fg HGf fixed old HTM) as (m' & U' & V). rewrite HU in U'. injection U' as <-.
  apply (moments_preserved g fg d keys basis linterp nu inside on_facet position moment G N (mapper_leaf g mp lay types keys) (fm_find fg m) b path su v)
    with (interp := interp) (c := c) (es := es); auto.
  - intros e s cd q He I. destruct (proj1 (proj2 (HK e He) s cd q) I) as (t0 & T0 & M0). split; [|eauto].
    pose proof (Families_props.subtypes_dim _ _ _ (nth_error_In _ _ T0)) as D0. rewrite (Mapper_spec.go_dim _ _ HG e He) in D0. fold d in D0.
    unfold rt_functions in M0. destruct (Nat.eqb_spec (gt_dim t0) d); [lia|]. destruct (Nat.eqb_spec (S (gt_dim t0)) d); lia.
  - split; [apply (lok_size _ _ LK)|]. split; [apply (lok_max _ _ LK)|]. split; [intros; eapply (lok_range _ _ LK); eassumption|]. split; auto.
  - intros e0 He0. destruct (V e0 He0) as (n & A & B & _). eauto.
  - intros e0 i0 e0' j0 n n' He0 He0' NE (t0 & t0' & Ht0 & Ht0') QS F0 F0'.
    destruct (HNb e0 i0 t0 e0' j0 t0' He0 He0' NE Ht0 Ht0' QS) as [N1 C1].
    destruct (HNb e0' j0 t0' e0 i0 t0 He0' He0 (not_eq_sym NE) Ht0' Ht0 (eq_sym QS)) as [N2 C2].
    eapply (C46_exactly_one_side fg HGf fixed old m e0 e0' i0 j0); eassumption.
  - intros e p He. destruct (V e He) as (n & A & _). unfold pulled. rewrite A. apply HI; auto.
Qed.
Print Assumptions C82_raviart_thomas.

(** * Brezzi-Douglas-Marini *)
Theorem C82_brezzi_douglas_marini : forall (E X : Type) (g : grid E X) (fg : fgrid E) (k : nat) (types : list gt) (keys : E -> list localkey) (mp : mapper X)
    (basis : fe -> lbasis) (linterp : fe -> (pt -> list R) -> list R) (nu : E -> nat -> list R) (inside : E -> pt -> Prop) (on_facet : E -> nat -> pt -> Prop)
    (position : E -> pt -> list R) (moment : E -> nat -> nat -> (pt -> R) -> R) (old m : bdmmap) (G : E -> geo) (N : E -> nat -> pt -> list R)
    (b : bexpr E) (path : list nat) (su : setup E pt) (t : cty) (v : list nat -> list R -> list R) (interp : E -> list nat -> list R) c es c',
  let els := fun e => In e (fg_elements fg) in let lay := fun t => bdm_layout k 2 t 2 in
  setup_ok b path els su -> su_cdim su = 1%nat ->
  k = 1%nat \/ k = 2%nat -> g_dim g = 2%nat -> fg_dim fg = 2%nat -> (forall e, fg_contains fg e = true) ->
  grid_ok els g -> fgrid_ok fg -> neighbours_ok g fg -> (forall e e', els e -> els e' -> g_sub g e 0 0 = g_sub g e' 0 0 -> e = e') ->
  types_ok els g types -> mapper_ok els g lay mp -> keys_ok els g (bdm_functions k) keys ->
  moments_ok g fg 2 keys basis linterp nu inside on_facet position moment -> areas_ok g fg 2 nu inside on_facet position G N ->
  bdm_update fg old = Some m ->
  (forall p l, leaf_at b (path ++ p) = Some l -> l = mapper_leaf g mp lay types keys) -> (forall p, su_vdim su p = 2%nat) ->
  (forall e p x f, els e -> bdm_find fg m e = Some f -> su_shape su e p x = gv_eval (contravariant 2 (G e)) (basis f) x) ->
  (forall p z, length (v p z) = 2%nat) ->
  (forall e p f, els e -> bdm_find fg m e = Some f ->
     interp e p = gv_interpolate (contravariant 2 (G e)) (linterp f) (fun xi => v p (position e xi))) ->
  call_ok b els path t interp c es ->
  Interpolate_model.interpolate t (fun _ => true) interp 0 (subspace_of_root (build b) path) es c = Done c' ->
  forall e w p n (y : pt -> cont R) i ti q, In e es -> leaf_of b path e w p n -> node_size n <> 0%nat -> subtype g e i 1 ti -> In (i, 1%nat, q) (keys e) ->
  (forall x, inside e x -> is_value b path su e (contents t c') x (y x)) ->
  moment e i q (fun xi => rsum 2 (fun r => range_entry p (y xi) r * at_ (N e i xi) r)) =
  moment e i q (fun xi => dot 2 (v p (position e xi)) (N e i xi)).
Proof.
  intros E X g fg k types keys mp basis linterp nu inside on_facet position moment old m G N b path su t v interp c es c' els lay
    OKS Hcd Hk HDg HDf HC HG HGf HNb HD HT HM HK HMo HA HU Hl Hd Hsh Hv HI CO RUN.
  assert (HNum : numbered_with_gaps els g keys (mapper_leaf g mp lay types keys)).
  { destruct Hk as [-> | ->]; [|now apply C57_bdm2_partial]. destruct (C57_bdm1 els g types keys mp HG HDg HT HM HK) as (LK & LN & LI).
    split; [apply (lok_size _ _ LK)|]. split; [apply (lok_max _ _ LK)|]. split; [intros; eapply (lok_range _ _ LK); eassumption|]. split; auto. }
  destruct (C46_brezzi_douglas_marini fg HGf old HDf HC) as (m' & U' & V). rewrite HU in U'. injection U' as <-.
  apply (moments_preserved g fg 2 keys basis linterp nu inside on_facet position moment G N (mapper_leaf g mp lay types keys) (bdm_find fg m) b path su v)
    with (interp := interp) (c := c) (es := es); auto.
  - intros e s cd q He I. destruct (proj1 (proj2 (HK e He) s cd q) I) as (t0 & T0 & M0). split; [|eauto].
    pose proof (Families_props.subtypes_dim _ _ _ (nth_error_In _ _ T0)) as D0. rewrite (Mapper_spec.go_dim _ _ HG e He), HDg in D0.
    unfold bdm_functions in M0. destruct (gt_dim t0) as [|[|[|]]]; lia.
  - intros e0 He0. destruct (V e0 He0) as (n & A & B & _). eauto.
  - intros e0 i0 e0' j0 n n' He0 He0' NE (t0 & t0' & Ht0 & Ht0') QS F0 F0'.
    destruct (HNb e0 i0 t0 e0' j0 t0' He0 He0' NE Ht0 Ht0' QS) as [N1 C1].
    destruct (HNb e0' j0 t0' e0 i0 t0 He0' He0 (not_eq_sym NE) Ht0' Ht0 (eq_sym QS)) as [N2 C2].
    eapply (one_side E fg (bdm_find fg m) HGf V e0 e0' i0 j0); eassumption.
  - intros e p He. destruct (V e He) as (n & A & _). unfold pulled. rewrite A. apply HI; auto.
Qed.
Print Assumptions C82_brezzi_douglas_marini.
