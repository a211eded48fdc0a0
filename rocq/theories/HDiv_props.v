(** C64: functions of Raviart-Thomas and Brezzi-Douglas-Marini bases have continuous normal
    components. *)
From Coq Require Import List Arith Lia Bool Reals Lra.
From Verif Require Import Lib Basis_model Basis_spec GeometryType_model GeometryType_spec GeometryType_props Mapper_model Mapper_spec Families_model Families_spec Families_props
  Basis_ok Basis_view Basis_proofs Basis_props Container_model Container_spec FlatVector_model FlatVector_props DiscreteFunction_model DiscreteFunction_spec DiscreteFunction_proofs Orientation_model Orientation_spec Orientation_props Piola_model Piola_spec Piola_props
  Conforming_spec Conforming_proofs Conforming_props HDiv_spec.
Import ListNotations.
#[local] Arguments Nat.ltb : simpl never.
#[local] Arguments Nat.pow : simpl never.

Section Core.
Context {E X Q : Type}.
Variables (g : grid E X) (fg : fgrid E) (d : nat) (keys : E -> list localkey) (basis : fe -> lbasis)
  (nu : E -> nat -> list R) (at_facet : E -> nat -> pt -> Q -> Prop) (flip : Q -> Q) (psi : gt -> nat -> Q -> R) (lay : gt -> nat)
  (G : E -> geo) (l : leaf E) (find : E -> option fe).
Local Notation els := (fun e => In e (fg_elements fg)).
Hypotheses (HG : grid_ok els g) (HK : keys_ok els g lay keys) (HL : layout_ok lay) (HF : fluxes_ok g fg d keys basis nu at_facet flip psi)
  (HFE : forall e, lf_fe l e = length (keys e))
  (HN : numbered_with_gaps els g keys l)
  (HV : forall e, In e (fg_elements fg) -> exists n, find e = Some (FE (fg_type fg e) n) /\ n < 2 ^ facets (fg_dim fg) (fg_type fg e))
  (HB : forall e i e' j n n', In e (fg_elements fg) -> In e' (fg_elements fg) -> e <> e' ->
     (exists t t', subtype g e i 1 t /\ subtype g e' j 1 t') -> g_sub g e i 1 = g_sub g e' j 1 ->
     find e = Some (FE (fg_type fg e) n) -> find e' = Some (FE (fg_type fg e') n') -> bit n i = negb (bit n' j)).

Definition normal (N : list R) (e : E) (f : fe) (xi : pt) (a : nat) : R :=
  dot d (nth a (gv_eval (contravariant d (G e)) (basis f) xi) []) N.

Lemma normal_flux e n i xi N a : In e (fg_elements fg) -> n < 2 ^ facets (fg_dim fg) (fg_type fg e) -> a < length (keys e) ->
  geo_ok d (G e) xi -> image_area_vector d (G e) xi (nu e i) N ->
  normal N e (FE (fg_type fg e) n) xi a = dot d (nth a (lb_eval (basis (FE (fg_type fg e) n)) xi) []) (nu e i).
Proof.
  intros He Hn Ha Hg HA. destruct (fx_size _ _ _ _ _ _ _ _ _ HF e n xi He Hn) as [L F]. rewrite Forall_forall in F.
  unfold normal, gv_eval. cbn [t_value contravariant].
  set (vs := lb_eval (basis (FE (fg_type fg e) n)) xi) in *. rewrite <- L in Ha.
  rewrite (nth_indep _ [] (contra_value d (G e) xi [])) by (rewrite map_length; exact Ha). rewrite map_nth.
  apply C48_flux; auto. apply F, nth_In, Ha.
Qed.
Lemma dot_opp (v N : list R) : length N = d -> dot d v (map Ropp N) = (- dot d v N)%R.
Proof.
  intros L. unfold dot. transitivity (-1 * rsum d (fun i => (at_ v i * at_ N i)%R))%R; [|ring]. rewrite <- rsum_scal. apply rsum_ext. intros i Hi.
  unfold at_. rewrite (nth_indep (map Ropp N) 0%R (- 0)%R) by (rewrite map_length; lia). rewrite map_nth. ring.
Qed.

(** A basis function of [e] whose flux does not vanish is one of [e'], with the same flux. *)
Lemma flux_partner e n i t xi q e' n' j t' xi' N a nb :
  In e (fg_elements fg) -> In e' (fg_elements fg) -> e <> e' -> subtype g e i 1 t -> subtype g e' j 1 t' ->
  g_sub g e i 1 = g_sub g e' j 1 -> at_facet e i xi q -> at_facet e' j xi' (flip q) ->
  geo_ok d (G e) xi -> geo_ok d (G e') xi' -> length N = d -> image_area_vector d (G e) xi (nu e i) N -> image_area_vector d (G e') xi' (nu e' j) (map Ropp N) ->
  find e = Some (FE (fg_type fg e) n) -> find e' = Some (FE (fg_type fg e') n') ->
  n < 2 ^ facets (fg_dim fg) (fg_type fg e) -> n' < 2 ^ facets (fg_dim fg) (fg_type fg e') ->
  nth_error (lf_indices l e) a = Some nb ->
  normal N e (FE (fg_type fg e) n) xi a = 0%R \/
  exists a', nth_error (lf_indices l e') a' = Some nb /\
    normal N e' (FE (fg_type fg e') n') xi' a' = normal N e (FE (fg_type fg e) n) xi a.
Proof.
  intros He He' NE Ht Ht' QS P P' Hg Hg' LN IA IA' Hf Hf' Bn Bn' Ha.
  destruct HN as (LF & _ & _ & _ & NUM).
  assert (La : a < length (keys e)) by (rewrite <- HFE, <- (LF e He); apply nth_error_Some; congruence).
  destruct (nth_error_lt_Some _ _ La) as ([[s c] m] & Ka).
  rewrite (normal_flux e n i xi N a) by auto.
  rewrite (fx_flux _ _ _ _ _ _ _ _ _ HF e n i t xi q a s c m) by auto.
  destruct (Nat.eqb_spec s i) as [->|]; [|now left]. destruct (Nat.eqb_spec c 1) as [->|]; [|now left]. cbn [andb]. right.
  destruct (proj1 (Mapper_spec.go_type _ _ HG e i 1 t e' j 1 t' He He' Ht Ht' QS)) as [ST1 ST2]. assert (ST : same_type t t') by (split; auto).
  assert (I : In (j, 1, m) (keys e')).
  { apply (HK e' He'). exists t'. split; auto. rewrite <- (HL t t' ST). pose proof (proj1 (proj2 (HK e He) i 1 m) (nth_error_In _ _ Ka)) as (t0 & T0 & M0).
    unfold subtype in T0, Ht. rewrite Ht in T0. injection T0 as <-. exact M0. }
  apply In_nth_error in I as (a' & Ka'). exists a'.
  destruct (NUM e a i 1 m e' a' j 1 m He He' Ka Ka') as (z & z' & Z & Z' & EQ). rewrite Ha in Z. injection Z as <-.
  assert (nb = z') by (apply EQ; auto). subst z'. split; auto.
  assert (La' : a' < length (keys e')) by (unfold localkey in *; apply nth_error_Some; congruence).
  assert (B : bit n i = negb (bit n' j)) by (apply (HB e i e' j n n'); eauto).
  assert (F2 : normal (map Ropp N) e' (FE (fg_type fg e') n') xi' a' = (facet_sign (bit n' j) m * psi t' m (flip q))%R).
  { rewrite (normal_flux e' n' j xi' (map Ropp N) a') by auto.
    rewrite (fx_flux _ _ _ _ _ _ _ _ _ HF e' n' j t' xi' (flip q) a' j 1 m) by auto. now rewrite !Nat.eqb_refl. }
  unfold normal in F2 at 1. rewrite dot_opp in F2 by auto. fold (normal N e' (FE (fg_type fg e') n') xi' a') in F2.
  rewrite (fx_flip _ _ _ _ _ _ _ _ _ HF), (fx_type _ _ _ _ _ _ _ _ _ HF t' t) in F2 by (destruct ST; split; congruence).
  rewrite B. unfold facet_sign in *. destruct (bit n' j), (Nat.even m); cbn [negb andb] in *; lra.
Qed.

Lemma normal_zero_or e i xi e' j xi' N f f' nb : same_facet_point g fg d nu at_facet flip G e i xi e' j xi' N ->
  find e = Some f -> find e' = Some f' ->
  basis_value (length (keys e)) (lf_indices l e) (normal N e f xi) nb = 0%R \/
  basis_value (length (keys e)) (lf_indices l e) (normal N e f xi) nb = basis_value (length (keys e')) (lf_indices l e') (normal N e' f' xi') nb.
Proof.
  intros [(He & He' & NE) (t & t' & Ht & Ht') QS (q & P & P') (Hg & Hg') (LN & IA & IA')] Hf Hf'.
  destruct (HV e He) as (n & F & Bn). rewrite Hf in F. injection F as ->.
  destruct (HV e' He') as (n' & F' & Bn'). rewrite Hf' in F'. injection F' as ->.
  destruct HN as (LF & _ & _ & ND & _).
  destruct (in_dec Nat.eq_dec nb (lf_indices l e)) as [I|I]; [|left; now apply basis_value_none].
  apply In_nth_error in I as (a & Ha). rewrite (basis_value_at _ _ _ nb a (ND e He)); auto; [|now rewrite LF, HFE].
  destruct (flux_partner e n i t xi q e' n' j t' xi' N a nb) as [Z|(a' & Ha' & <-)]; auto. right.
  symmetry. apply (basis_value_at _ _ _ nb a'); auto. now rewrite LF, HFE.
Qed.
Lemma normal_opp N e f xi a : length N = d -> normal (map Ropp N) e f xi a = (- normal N e f xi a)%R.
Proof. intros L. unfold normal. now apply dot_opp. Qed.
Lemma basis_value_opp size idx (f h : nat -> R) nb : (forall a, f a = - h a)%R -> basis_value size idx f nb = (- basis_value size idx h nb)%R.
Proof.
  intros H. unfold basis_value. transitivity (-1 * rsum size (fun a => match nth_error idx a with Some m => if m =? nb then h a else 0 | None => 0 end))%R; [|ring].
  rewrite <- rsum_scal. apply rsum_ext. intros a _. destruct (nth_error idx a); [|ring]. destruct (_ =? _); [|ring]. rewrite H. ring.
Qed.
Lemma opp_opp (N : list R) : map Ropp (map Ropp N) = N.
Proof. rewrite map_map. rewrite <- (map_id N) at 2. apply map_ext. intros. ring. Qed.
Lemma same_facet_point_sym e i xi e' j xi' N : same_facet_point g fg d nu at_facet flip G e i xi e' j xi' N ->
  same_facet_point g fg d nu at_facet flip G e' j xi' e i xi (map Ropp N).
Proof.
  intros [(He & He' & NE) (t & t' & Ht & Ht') QS (q & P & P') (Hg & Hg') (LN & IA & IA')]. constructor; eauto 10.
  - exists (flip q). split; auto. now rewrite (fx_back _ _ _ _ _ _ _ _ _ HF).
  - rewrite opp_opp, map_length. auto.
Qed.
Lemma normal_continuous e i xi e' j xi' N f f' nb : same_facet_point g fg d nu at_facet flip G e i xi e' j xi' N ->
  find e = Some f -> find e' = Some f' ->
  basis_value (length (keys e)) (lf_indices l e) (normal N e f xi) nb = basis_value (length (keys e')) (lf_indices l e') (normal N e' f' xi') nb.
Proof.
  intros S Hf Hf'. assert (LN : length N = d) by apply S.
  destruct (normal_zero_or e i xi e' j xi' N f f' nb S Hf Hf') as [Z|Z]; auto.
  destruct (normal_zero_or e' j xi' e i xi (map Ropp N) f' f nb (same_facet_point_sym _ _ _ _ _ _ _ S) Hf' Hf) as [Z'|Z'];
    rewrite (basis_value_opp _ _ _ (normal N e' f' xi')) in Z' by (intros; now apply normal_opp).
  - lra.
  - rewrite (basis_value_opp (length (keys e)) (lf_indices l e) (normal (map Ropp N) e f xi) (normal N e f xi)) in Z' by (intros; now apply normal_opp). lra.
Qed.
End Core.

(** * Raviart-Thomas *)
(** Any element types and orders that have a finite element (the orders above 0 in two
    dimensions, see below for three): the normal component of every global basis function is
    the same on both sides. *)
Theorem C64_raviart_thomas : forall (E X Q : Type) (g : grid E X) (fg : fgrid E) (k : nat) (types : list gt) (keys : E -> list localkey) (mp : mapper X)
    (basis : fe -> lbasis) (nu : E -> nat -> list R) (at_facet : E -> nat -> pt -> Q -> Prop) (flip : Q -> Q) (psi : gt -> nat -> Q -> R)
    (fixed : option gtype) (old m : femap) (G : E -> geo),
  let els := fun e => In e (fg_elements fg) in let d := g_dim g in let lay := fun t => rt_layout k d t d in
  grid_ok els g -> fgrid_ok fg -> neighbours_ok g fg -> types_ok els g types -> mapper_ok els g lay mp ->
  (forall t, In t types -> rt_finite_element d k t = true) -> keys_ok els g (rt_functions 1 k d) keys ->
  fluxes_ok g fg d keys basis nu at_facet flip psi ->
  types_match fg fixed -> rt_update fg fixed old = Some m ->
  let l := mapper_leaf g mp lay types keys in
  forall e i xi e' j xi' N f f' nb, same_facet_point g fg d nu at_facet flip G e i xi e' j xi' N ->
  fm_find fg m e = Some f -> fm_find fg m e' = Some f' ->
  basis_value (length (keys e)) (lf_indices l e) (fun a => dot d (nth a (gv_eval (contravariant d (G e)) (basis f) xi) []) N) nb =
  basis_value (length (keys e')) (lf_indices l e') (fun a => dot d (nth a (gv_eval (contravariant d (G e')) (basis f') xi') []) N) nb.
Proof.
  intros E X Q g fg k types keys mp basis nu at_facet flip psi fixed old m G els d lay HG HGf HNb HT HM HFE HK HF HTM HU l e i xi e' j xi' N f f' nb S Hf Hf'.
  pose proof (C57_raviart_thomas els g k types keys mp HG HT HM HFE HK) as (LK & LN & LI).
  assert (HK' : keys_ok els g lay keys).
  { apply (counts_agree els g (rt_functions 1 k d)); auto. intros e0 i0 c0 t0 He0 St0. destruct (HT e0 He0) as (T & IT & ST).
    apply (counts_check_ok lay _ (g_type g e0)) with c0; [|eapply nth_error_In; exact St0].
    apply rt_counts; [now apply (Mapper_spec.go_dim _ _ HG)|]. rewrite <- (rt_element_same d k T _ ST). now apply HFE. }
  destruct (C46_raviart_thomas fg HGf fixed old HTM) as (m' & U' & V). rewrite HU in U'. injection U' as <-.
  apply (normal_continuous g fg d keys basis nu at_facet flip psi lay G l (fm_find fg m)) with (i := i) (j := j); auto.
  - apply rt_layout_ok.
  - split; [apply (lok_size _ _ LK)|]. split; [apply (lok_max _ _ LK)|]. split; [intros; eapply (lok_range _ _ LK); eassumption|]. split; auto.
  - intros e0 He0. destruct (V e0 He0) as (n & A & B & _). eauto.
  - intros e0 i0 e0' j0 n n' He0 He0' NE (t0 & t0' & Ht0 & Ht0') QS F0 F0'.
    destruct (HNb e0 i0 t0 e0' j0 t0' He0 He0' NE Ht0 Ht0' QS) as [N1 C1].
    destruct (HNb e0' j0 t0' e0 i0 t0 He0' He0 (not_eq_sym NE) Ht0' Ht0 (eq_sym QS)) as [N2 C2].
    eapply (C46_exactly_one_side fg HGf fixed old m e0 e0' i0 j0); eassumption.
Qed.
Print Assumptions C64_raviart_thomas.

(** Lowest order, in any dimension and for all element types: a constant flux density has no
    direction, so it does not matter how the facet is seen from the two sides. *)
Theorem C64_lowest_order : forall (E X : Type) (g : grid E X) (fg : fgrid E) (types : list gt) (keys : E -> list localkey) (mp : mapper X)
    (basis : fe -> lbasis) (nu : E -> nat -> list R) (on_facet : E -> nat -> pt -> Prop) (c0 : gt -> R)
    (fixed : option gtype) (old m : femap) (G : E -> geo),
  let els := fun e => In e (fg_elements fg) in let d := g_dim g in let lay := fun t => rt_layout 0 d t d in
  grid_ok els g -> fgrid_ok fg -> neighbours_ok g fg -> types_ok els g types -> mapper_ok els g lay mp ->
  (forall t, In t types -> rt_finite_element d 0 t = true) -> keys_ok els g (rt_functions 1 0 d) keys ->
  constant_fluxes_ok g fg d keys basis nu on_facet c0 ->
  types_match fg fixed -> rt_update fg fixed old = Some m ->
  let l := mapper_leaf g mp lay types keys in
  forall e i t xi e' j t' xi' N f f' nb,
  In e (fg_elements fg) -> In e' (fg_elements fg) -> e <> e' -> subtype g e i 1 t -> subtype g e' j 1 t' -> g_sub g e i 1 = g_sub g e' j 1 ->
  on_facet e i xi -> on_facet e' j xi' -> geo_ok d (G e) xi -> geo_ok d (G e') xi' ->
  length N = d -> image_area_vector d (G e) xi (nu e i) N -> image_area_vector d (G e') xi' (nu e' j) (map Ropp N) ->
  fm_find fg m e = Some f -> fm_find fg m e' = Some f' ->
  basis_value (length (keys e)) (lf_indices l e) (fun a => dot d (nth a (gv_eval (contravariant d (G e)) (basis f) xi) []) N) nb =
  basis_value (length (keys e')) (lf_indices l e') (fun a => dot d (nth a (gv_eval (contravariant d (G e')) (basis f') xi') []) N) nb.
Proof.
  intros E X g fg types keys mp basis nu on_facet c0 fixed old m G els d lay HG HGf HNb HT HM HFE HK (C1 & C2 & C3) HTM HU l
    e i t xi e' j t' xi' N f f' nb He He' NE Ht Ht' QS P P' Hg Hg' LN IA IA' Hf Hf'.
  apply (C64_raviart_thomas E X unit g fg 0 types keys mp basis nu (fun e i xi _ => on_facet e i xi) (fun q => q)
    (fun t m _ => if Nat.even m then c0 t else 0%R) fixed old m G) with (i := i) (j := j); auto.
  - constructor; auto.
    + intros e0 n i0 t0 xi0 q a s c m0 He0 Hn Ht0 P0 Ka. fold d. rewrite (C2 e0 n i0 t0 xi0 a s c m0 He0 Hn Ht0 P0 Ka).
      destruct (Nat.eqb_spec s i0) as [->|]; auto. destruct (Nat.eqb_spec c 1) as [->|]; auto. cbn [andb].
      assert (m0 = 0) as ->.
      { apply nth_error_In, (HK e0 He0) in Ka as (t1 & T1 & M1). unfold subtype in T1, Ht0. rewrite Ht0 in T1. injection T1 as <-.
        assert (D0 : gt_dim t0 + 1 = d).
        { pose proof (Mapper_spec.go_dim _ _ HG e0 He0) as D. apply nth_error_In in Ht0. unfold d. rewrite <- D. symmetry.
          clear - Ht0 D HFE HT He0. apply subtypes_dim in Ht0. lia. }
        unfold rt_functions in M1. destruct (Nat.eqb_spec (gt_dim t0) d); [lia|]. destruct (Nat.eqb_spec (S (gt_dim t0)) d); [|lia].
        unfold polynomials in M1. rewrite lattice_0 in M1. cbn in M1. lia. }
      unfold facet_sign. destruct (bit n i0); reflexivity.
    + intros t0 t0' m0 _ ST. now rewrite (C3 t0 t0' ST).
    + intros t0 m0 _. destruct (Nat.even m0); ring.
  - constructor; eauto 10. exists tt. auto.
Qed.
Print Assumptions C64_lowest_order.

(** * Brezzi-Douglas-Marini *)
Lemma one_side (E : Type) (fg : fgrid E) (find : E -> option fe) : fgrid_ok fg ->
  (forall e, In e (fg_elements fg) -> exists n, find e = Some (FE (fg_type fg e) n) /\ n < 2 ^ facets (fg_dim fg) (fg_type fg e) /\
    forall i, bit n i = true <-> exists o, neighbour_at fg e i o /\ fg_idx fg e < fg_idx fg o) ->
  forall e e' i j n n', In e (fg_elements fg) -> In e' (fg_elements fg) -> e <> e' ->
  neighbour_at fg e i e' -> neighbour_at fg e' j e -> conforming_at fg e i -> conforming_at fg e' j ->
  find e = Some (FE (fg_type fg e) n) -> find e' = Some (FE (fg_type fg e') n') -> bit n i = negb (bit n' j).
Proof.
  intros HGf P e e' i j n n' He He' ne H H' C C' F F'.
  destruct (P e He) as (n1 & F1 & _ & B). rewrite F in F1. injection F1 as <-.
  destruct (P e' He') as (n2 & F2 & _ & B'). rewrite F' in F2. injection F2 as <-.
  assert (X : fg_idx fg e <> fg_idx fg e') by (intros X; apply ne; now apply (Orientation_spec.go_inj fg HGf)).
  destruct (Nat.lt_ge_cases (fg_idx fg e) (fg_idx fg e')) as [L|L].
  - rewrite (proj2 (B i)); [|exists e'; auto]. symmetry. apply negb_true_iff.
    destruct (bit n' j) eqn:Z; auto. apply B' in Z as (o & Ho & T). rewrite (C' o e Ho H') in T. lia.
  - rewrite (proj2 (B' j)); [|exists e; split; auto; lia].
    destruct (bit n i) eqn:Z; auto. apply B in Z as (o & Ho & T). rewrite (C o e' Ho H) in T. lia.
Qed.
Theorem C64_brezzi_douglas_marini : forall (E X Q : Type) (g : grid E X) (fg : fgrid E) (k : nat) (types : list gt) (keys : E -> list localkey) (mp : mapper X)
    (basis : fe -> lbasis) (nu : E -> nat -> list R) (at_facet : E -> nat -> pt -> Q -> Prop) (flip : Q -> Q) (psi : gt -> nat -> Q -> R)
    (old m : bdmmap) (G : E -> geo),
  let els := fun e => In e (fg_elements fg) in let lay := fun t => bdm_layout k 2 t 2 in
  k = 1 \/ k = 2 -> g_dim g = 2 -> fg_dim fg = 2 -> (forall e, fg_contains fg e = true) ->
  grid_ok els g -> fgrid_ok fg -> neighbours_ok g fg -> types_ok els g types -> mapper_ok els g lay mp ->
  keys_ok els g (bdm_functions k) keys ->
  fluxes_ok g fg 2 keys basis nu at_facet flip psi ->
  bdm_update fg old = Some m ->
  let l := mapper_leaf g mp lay types keys in
  forall e i xi e' j xi' N f f' nb, same_facet_point g fg 2 nu at_facet flip G e i xi e' j xi' N ->
  bdm_find fg m e = Some f -> bdm_find fg m e' = Some f' ->
  basis_value (length (keys e)) (lf_indices l e) (fun a => dot 2 (nth a (gv_eval (contravariant 2 (G e)) (basis f) xi) []) N) nb =
  basis_value (length (keys e')) (lf_indices l e') (fun a => dot 2 (nth a (gv_eval (contravariant 2 (G e')) (basis f') xi') []) N) nb.
Proof.
  intros E X Q g fg k types keys mp basis nu at_facet flip psi old m G els lay Hk HD HDf HC HG HGf HNb HT HM HK HF HU l e i xi e' j xi' N f f' nb S Hf Hf'.
  assert (HNum : numbered_with_gaps els g keys l).
  { destruct Hk as [-> | ->]; [|now apply C57_bdm2_partial]. destruct (C57_bdm1 els g types keys mp HG HD HT HM HK) as (LK & LN & LI).
    split; [apply (lok_size _ _ LK)|]. split; [apply (lok_max _ _ LK)|]. split; [intros; eapply (lok_range _ _ LK); eassumption|]. split; auto. }
  destruct (C46_brezzi_douglas_marini fg HGf old HDf HC) as (m' & U' & V). rewrite HU in U'. injection U' as <-.
  apply (normal_continuous g fg 2 keys basis nu at_facet flip psi (bdm_functions k) G l (bdm_find fg m)) with (i := i) (j := j); auto.
  - intros t t' ST. unfold bdm_functions. now rewrite (same_simplex _ _ ST), (same_dim _ _ ST).
  - intros e0 He0. destruct (V e0 He0) as (n & A & B & _). eauto.
  - intros e0 i0 e0' j0 n n' He0 He0' NE (t0 & t0' & Ht0 & Ht0') QS F0 F0'.
    destruct (HNb e0 i0 t0 e0' j0 t0' He0 He0' NE Ht0 Ht0' QS) as [N1 C1].
    destruct (HNb e0' j0 t0' e0 i0 t0 He0' He0 (not_eq_sym NE) Ht0' Ht0 (eq_sym QS)) as [N2 C2].
    eapply (one_side E fg (bdm_find fg m) HGf V e0 e0' i0 j0); eassumption.
Qed.
Print Assumptions C64_brezzi_douglas_marini.

(** * Functions *)
(** Linear functionals of the entries of a leaf at a point: if they agree for all global basis
    functions of the leaf, they agree for every discrete function. *)
Section Functions.
Context {E X : Type}.
Variables (b : bexpr E) (path : list nat) (els : E -> Prop) (su : setup E X).
Hypothesis OKS : setup_ok b path els su.
Theorem C64_functions_follow_basis_functions c e x y v n e' x' y' v' n' p l (w w' : nat -> R) :
  els e -> els e' -> is_value b path su e c x y -> is_value b path su e' c x' y' ->
  leaf_of b path e v p n -> leaf_of b path e' v' p n' -> node_size n <> 0 -> node_size n' <> 0 ->
  leaf_at b (path ++ p) = Some l ->
  (forall g, basis_value (node_size n) (lf_indices l e) (fun i => rsum (su_vdim su p) (fun k => (shape_of su e p x i k * w k)%R)) g =
             basis_value (node_size n') (lf_indices l e') (fun i => rsum (su_vdim su p) (fun k => (shape_of su e' p x' i k * w' k)%R)) g) ->
  exists z z', node_to_range p y = Some z /\ node_to_range p y' = Some z' /\ forall j, j < su_cdim su ->
    rsum (su_vdim su p) (fun k => (nth (j * su_vdim su p + k) (scalars z) 0 * w k)%R) =
    rsum (su_vdim su p) (fun k => (nth (j * su_vdim su p + k) (scalars z') 0 * w' k)%R).
Proof.
  intros He He' (_ & V) (_ & V') Lf Lf' NZ NZ' Hl H.
  destruct (V v p n Lf) as (z & Z1 & _ & Z2). destruct (Z2 NZ) as [_ Ez].
  destruct (V' v' p n' Lf') as (z' & Z1' & _ & Z2'). destruct (Z2' NZ') as [_ Ez'].
  exists z, z'. split; auto. split; auto. intros j Hj. set (d := su_vdim su p) in *.
  assert (Q : forall e0 v0 n0 x0 z0 w0 N, els e0 -> leaf_of b path e0 v0 p n0 -> node_size n0 <> 0 -> (forall m, In m (lf_indices l e0) -> m < N) ->
    (forall k, k < d -> nth_error (scalars z0) (j * d + k) = Some (rsum (node_size n0) (fun i => (coef_of c v0 n0 i j * shape_of su e0 p x0 i k)%R))) ->
    rsum d (fun k => (nth (j * d + k) (scalars z0) 0 * w0 k)%R) =
    rsum N (fun g => (match c (sp_glob (meaning b) (path ++ p, g)) with Some q => nth j q 0 | None => 0 end *
      basis_value (node_size n0) (lf_indices l e0) (fun i => rsum d (fun k => (shape_of su e0 p x0 i k * w0 k)%R)) g)%R)).
  { intros e0 v0 n0 x0 z0 w0 N H0 L0 N0 B0 E0. set (C := fun g => match c (sp_glob (meaning b) (path ++ p, g)) with Some q => nth j q 0%R | None => 0%R end).
    rewrite (rsum_ext d _ (fun k => rsum N (fun g => (C g * basis_value (node_size n0) (lf_indices l e0) (fun i => shape_of su e0 p x0 i k) g * w0 k)%R))).
    2: { intros k Hk. rewrite (nth_error_nth _ _ _ (E0 k Hk)). destruct (sum_by_numbers b path els su OKS c e0 v0 p n0 x0 j k H0 L0 N0) as (l1 & A1 & _ & B1).
         rewrite Hl in A1. injection A1 as <-. rewrite (B1 N B0). now rewrite rsum_scal_r. }
    rewrite rsum_swap. apply rsum_ext. intros g _. unfold basis_value.
    transitivity (C g * rsum d (fun k => (rsum (node_size n0) (fun a => match nth_error (lf_indices l e0) a with Some m => if m =? g then shape_of su e0 p x0 a k else 0 | None => 0 end) * w0 k)%R))%R.
    { rewrite <- rsum_scal. apply rsum_ext. intros; ring. }
    f_equal.
    rewrite (rsum_ext d _ (fun k => rsum (node_size n0) (fun a => (match nth_error (lf_indices l e0) a with Some m => if m =? g then shape_of su e0 p x0 a k else 0 | None => 0 end * w0 k)%R)))
      by (intros; now rewrite rsum_scal_r).
    rewrite rsum_swap. apply rsum_ext. intros a _. destruct (nth_error (lf_indices l e0) a) as [m|].
    - destruct (m =? g); [reflexivity|]. transitivity (rsum d (fun k => (0 * w0 k)%R)); [reflexivity|]. rewrite (rsum_ext d _ (fun k => (0 * 0)%R)) by (intros; ring).
      rewrite rsum_scal. ring.
    - rewrite (rsum_ext d _ (fun k => (0 * 0)%R)) by (intros; ring). rewrite rsum_scal. ring. }
  destruct (list_bound (lf_indices l e ++ lf_indices l e')) as [N HN].
  rewrite (Q e v n x z w N He Lf NZ), (Q e' v' n' x' z' w' N He' Lf' NZ'); try (intros m Hm; apply HN, in_or_app; auto); try (intros k Hk; auto).
  apply rsum_ext. intros g _. now rewrite H.
Qed.
End Functions.
Print Assumptions C64_functions_follow_basis_functions.

(** The normal component of the entries of a discrete function that belong to a Raviart-Thomas
    basis is continuous, whatever tree the basis is part of and whatever the coefficients are. *)
Theorem C64_normal_component_continuous : forall (E X Q : Type) (g : grid E X) (fg : fgrid E) (k : nat) (types : list gt) (keys : E -> list localkey) (mp : mapper X)
    (basis : fe -> lbasis) (nu : E -> nat -> list R) (at_facet : E -> nat -> pt -> Q -> Prop) (flip : Q -> Q) (psi : gt -> nat -> Q -> R)
    (fixed : option gtype) (old m : femap) (G : E -> geo) (b : bexpr E) (path : list nat) (su : setup E pt) (p : list nat),
  let els := fun e => In e (fg_elements fg) in let d := g_dim g in let lay := fun t => rt_layout k d t d in
  setup_ok b path els su ->
  grid_ok els g -> fgrid_ok fg -> neighbours_ok g fg -> types_ok els g types -> mapper_ok els g lay mp ->
  (forall t, In t types -> rt_finite_element d k t = true) -> keys_ok els g (rt_functions 1 k d) keys ->
  fluxes_ok g fg d keys basis nu at_facet flip psi ->
  types_match fg fixed -> rt_update fg fixed old = Some m ->
  (* leaf [p] of the basis is this Raviart-Thomas basis *)
  leaf_at b (path ++ p) = Some (mapper_leaf g mp lay types keys) -> su_vdim su p = d ->
  (forall e x f, els e -> fm_find fg m e = Some f -> su_shape su e p x = gv_eval (contravariant d (G e)) (basis f) x) ->
  forall (coefficients : mi -> option (list R)) e i xi e' j xi' N y y' v n v' n', same_facet_point g fg d nu at_facet flip G e i xi e' j xi' N ->
  is_value b path su e coefficients xi y -> is_value b path su e' coefficients xi' y' ->
  leaf_of b path e v p n -> leaf_of b path e' v' p n' -> node_size n <> 0 -> node_size n' <> 0 ->
  exists z z', node_to_range p y = Some z /\ node_to_range p y' = Some z' /\ forall q, q < su_cdim su ->
    rsum d (fun r => (nth (q * d + r) (scalars z) 0 * at_ N r)%R) = rsum d (fun r => (nth (q * d + r) (scalars z') 0 * at_ N r)%R).
Proof.
  intros E X Q g fg k types keys mp basis nu at_facet flip psi fixed old m G b path su p els d lay OKS HG HGf HNb HT HM HFE HK HF HTM HU Hl Hd Hsh
    cf e i xi e' j xi' N y y' v n v' n' S V V' Lf Lf' NZ NZ'.
  set (l := mapper_leaf g mp lay types keys) in *.
  destruct (sf_in _ _ _ _ _ _ _ _ _ _ _ _ _ _ S) as (He & He' & NE).
  destruct (C46_raviart_thomas fg HGf fixed old HTM) as (m' & U' & VV). rewrite HU in U'. injection U' as <-.
  destruct (VV e He) as (w & Hf & Bw & _). destruct (VV e' He') as (w' & Hf' & Bw' & _).
  rewrite <- Hd. apply (C64_functions_follow_basis_functions b path els su OKS cf e xi y v n e' xi' y' v' n' p l); auto.
  intros nb. rewrite Hd.
  assert (SZ : forall e0 v0 n0 (x0 : pt) w0, els e0 -> leaf_of b path e0 v0 p n0 -> node_size n0 <> 0 -> fm_find fg m e0 = Some (FE (fg_type fg e0) w0) ->
    w0 < 2 ^ facets (fg_dim fg) (fg_type fg e0) -> node_size n0 = length (keys e0)).
  { intros e0 v0 n0 x0 w0 H0 L0 N0 F0 B0. destruct (so_shape _ _ _ _ OKS e0 v0 p n0 x0 H0 L0) as [A _]. rewrite (Hsh e0 x0 _ H0 F0) in A. unfold gv_eval in A.
    rewrite map_length in A. rewrite <- A. apply (fx_size _ _ _ _ _ _ _ _ _ HF e0 w0 x0 H0 B0). }
  rewrite (SZ e v n xi w), (SZ e' v' n' xi' w'); auto.
  assert (BV : forall sz idx (f1 f2 : nat -> R), (forall a, f1 a = f2 a) -> basis_value sz idx f1 nb = basis_value sz idx f2 nb).
  { intros sz idx f1 f2 Hf0. apply rsum_ext. intros a _. destruct (nth_error idx a); auto. destruct (_ =? _); auto. }
  pose proof (C64_raviart_thomas E X Q g fg k types keys mp basis nu at_facet flip psi fixed old m G HG HGf HNb HT HM HFE HK HF HTM HU
    e i xi e' j xi' N _ _ nb S Hf Hf') as C. fold d lay l in C.
  etransitivity; [|etransitivity; [exact C|]]; apply BV; intros a; unfold dot, shape_of.
  - rewrite (Hsh e xi _ He Hf). reflexivity.
  - rewrite (Hsh e' xi' _ He' Hf'). reflexivity.
Qed.
Print Assumptions C64_normal_component_continuous.
