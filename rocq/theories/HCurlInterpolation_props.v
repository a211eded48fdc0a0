(** C82: interpolation into Nedelec bases preserves the circulations along all edges. *)
From Coq Require Import List Arith Lia Bool Reals Lra.
From Verif Require Import Lib Basis_model Basis_spec GeometryType_model GeometryType_spec GeometryType_props Mapper_model Mapper_spec Families_model Families_spec Families_props
  Basis_ok Basis_view Basis_proofs Basis_props Container_model Container_spec FlatVector_model FlatVector_props Interpolate_model Interpolate_props
  DiscreteFunction_model DiscreteFunction_spec DiscreteFunction_proofs Orientation_model Orientation_spec Orientation_props Piola_model Piola_spec Piola_props
  Projection_spec Derivative_spec Derivative_props HDiv_spec HDiv_props Reproduction_spec Reproduction_props DofPreservation_spec DofPreservation_props HDivInterpolation_props.
Import ListNotations.
Local Open Scope R_scope.
#[local] Arguments Nat.pow : simpl never.

Lemma co_local_tangential d G f xi t : geo_ok d G xi -> length (f xi) = d -> length t = d ->
  dot d (co_local d G f xi) t = dot d (f xi) (push d G xi t).
Proof.
  intros Hg Lf Lt. change (co_local d G f xi) with (co_local d G (fun _ => f xi) xi).
  rewrite <- (C48_tangential d G xi (co_local d G (fun _ => f xi) xi) t Hg); auto.
  - now rewrite (proj2 (C48_covariant_round_trip d G xi (f xi) Hg Lf)).
  - apply mv_len.
Qed.
Lemma co_combination d G (B : lbasis) cs xi : Forall (fun v => length v = d) (lb_eval B xi) -> length (lb_eval B xi) = length cs ->
  co_value d G xi (reference_field d B cs xi) =
  map (fun r => rsum (length cs) (fun a => nth a cs 0 * at_ (nth a (gv_eval (covariant d G) B xi) []) r)) (seq 0 d).
Proof.
  intros HF HL. apply (vec_ext _ _ d).
  - apply mv_len.
  - now rewrite map_length, seq_length.
  - intros i Hi. unfold co_value. rewrite mv_at by auto. rewrite at_map by auto.
    rewrite (rsum_ext d _ (fun j => rsum (length cs) (fun a => g_JIT G xi i j * (nth a cs 0 * at_ (nth a (lb_eval B xi) []) j)))).
    2: { intros j Hj. unfold reference_field. rewrite at_map by auto. now rewrite <- rsum_scal. }
    rewrite rsum_swap. apply rsum_ext. intros a Ha.
    unfold gv_eval. cbn [t_value covariant]. rewrite (nth_indep (map (co_value d G xi) (lb_eval B xi)) [] (co_value d G xi [])) by (rewrite map_length; lia). rewrite map_nth.
    unfold co_value. rewrite mv_at by auto. rewrite <- rsum_scal. apply rsum_ext. intros j Hj. ring.
Qed.
Lemma push_length d G xi w : length (push d G xi w) = d.
Proof. unfold push. now rewrite map_length, seq_length. Qed.

Section Core.
Context {E X : Type}.
Variables (g : grid E X) (fg : fgrid E) (keys : E -> list localkey) (basis : fe -> lbasis) (linterp : fe -> (pt -> list R) -> list R)
  (tau : E -> nat -> list R) (inside : E -> pt -> Prop) (on_edge : E -> nat -> pt -> Prop) (position : E -> pt -> list R)
  (mean : E -> nat -> (pt -> R) -> R) (fixed : option gtype) (old m : femap) (G : E -> geo) (l : leaf E)
  (b : bexpr E) (path : list nat) (su : setup E pt) (v : list nat -> list R -> list R).
Local Notation els := (fun e => In e (fg_elements fg)).
Local Notation d := (g_dim g).
Hypotheses (HG : grid_ok els g) (HGf : fgrid_ok fg) (HK : keys_ok els g edge_functions keys)
  (HFE : forall e, lf_fe l e = length (keys e)) (HN : numbered els g keys l)
  (HM : circulations_ok g fg keys basis linterp tau inside on_edge position mean)
  (HA : common_edges_ok g fg tau inside on_edge position G)
  (HTM : types_match fg fixed) (HTy : nd_types fg) (HEo : edges_ok fg) (HU : nd_update fg fixed old = Some m)
  (Hl : forall p l', leaf_at b (path ++ p) = Some l' -> l' = l)
  (Hd : forall p, su_vdim su p = d)
  (Hsh : forall e p x f, els e -> fm_find fg m e = Some f -> su_shape su e p x = gv_eval (covariant d (G e)) (basis f) x)
  (Hv : forall p z, length (v p z) = d).
Lemma variant e : els e -> exists n, fm_find fg m e = Some (FE (fg_type fg e) n) /\ (n < 2 ^ edges (fg_dim fg) (fg_type fg e))%nat.
Proof.
  intros He. destruct (C47_nedelec fg HGf fixed old HTM HTy HEo) as (m' & U' & P). rewrite HU in U'. injection U' as <-.
  destruct (P e He) as (n & F & B & _). eauto.
Qed.
Lemma edge_key e s c k : els e -> In (s, c, k) (keys e) -> (c = d - 1 /\ k = 0)%nat /\ exists t, subtype g e s c t.
Proof.
  intros He I. apply (HK e He) in I as (t & Ht & Hk). unfold edge_functions in Hk. assert (gt_dim t = 1 /\ k = 0)%nat as [D ->] by (destruct (gt_dim t) as [|[|]]; lia).
  pose proof (Mapper_spec.go_dim _ _ HG e He) as Dd. pose proof (Families_props.subtypes_dim _ _ _ (nth_error_In _ _ Ht)) as Q. split; [lia|eauto].
Qed.
Definition pulled (e : E) (p : list nat) (f : pt -> list R) : list R :=
  match fm_find fg m e with Some F => gv_interpolate (covariant d (G e)) (linterp F) f | None => [] end.
Definition field (e : E) (p : list nat) (xi : pt) : list R := v p (position e xi).
Definition tangent (e : E) (s : nat) (xi : pt) : list R := push d (G e) xi (tau e s).

Lemma pulled_size e p f : els e -> length (pulled e p f) = length (keys e).
Proof. intros He. unfold pulled, gv_interpolate. destruct (variant e He) as (n & -> & Hn). now apply (ci_size _ _ _ _ _ _ _ _ _ _ HM). Qed.
Lemma indices_size e : els e -> length (lf_indices l e) = length (keys e).
Proof. intros He. destruct HN as (LF & _). now rewrite (lok_size _ _ LF), HFE. Qed.
Lemma pulled_edge e p f n a s k t : els e -> fm_find fg m e = Some (FE (fg_type fg e) n) -> (n < 2 ^ edges (fg_dim fg) (fg_type fg e))%nat ->
  nth_error (keys e) a = Some (s, (d - 1)%nat, k) -> subtype g e s (d - 1) t -> (forall xi, on_edge e s xi -> length (f xi) = d) ->
  nth a (pulled e p f) 0 = (if bit n s then -1 else 1) * mean e s (fun xi => dot d (f xi) (tangent e s xi)).
Proof.
  intros He F Hn Ka St Lf. unfold pulled, gv_interpolate. rewrite F. cbn [t_local covariant].
  rewrite (ci_edge _ _ _ _ _ _ _ _ _ _ HM e n _ a s k He Hn Ka). f_equal.
  apply (ci_local _ _ _ _ _ _ _ _ _ _ HM e s t); auto. intros xi Hxi. apply co_local_tangential; auto.
  - apply (proj1 HA); auto. eapply (ci_edge_inside _ _ _ _ _ _ _ _ _ _ HM); eauto.
  - eapply (ci_tau _ _ _ _ _ _ _ _ _ _ HM); eauto.
Qed.
Lemma pulled_ok : local_interpolation_ok els b path su inside pulled.
Proof.
  constructor.
  - intros p l' e f L He. rewrite (Hl p l' L). now rewrite pulled_size, indices_size.
  - intros p l' e f h L He Q. unfold pulled, gv_interpolate. destruct (variant e He) as (n & -> & Hn).
    apply (ci_inside _ _ _ _ _ _ _ _ _ _ HM); auto. intros xi Hxi. cbn [t_local covariant]. unfold co_local. now rewrite Q.
  - intros p l' e cs L He LC. rewrite (Hl p l' L), indices_size in LC by auto. unfold pulled, gv_interpolate. destruct (variant e He) as (n & F & Hn). rewrite F.
    etransitivity; [|exact (ci_dual _ _ _ _ _ _ _ _ _ _ HM e n cs He Hn LC)].
    apply (ci_inside _ _ _ _ _ _ _ _ _ _ HM); auto. intros xi Hxi. cbn [t_local covariant].
    destruct (ci_basis _ _ _ _ _ _ _ _ _ _ HM e n xi He Hn) as [LB FB]. pose proof (proj1 HA e xi He Hxi) as Hg.
    transitivity (co_local d (G e) (fun xi0 => co_value d (G e) xi0 (reference_field d (basis (FE (fg_type fg e) n)) cs xi)) xi).
    2: { apply (C48_covariant_round_trip d (G e) xi _ Hg). apply reference_field_length. }
    unfold co_local. f_equal. rewrite co_combination by (auto; congruence). rewrite Hd. apply map_ext_in. intros k Hk.
    apply rsum_ext. intros i Hi. f_equal. unfold shape_of. now rewrite (Hsh e p xi _ He F).
Qed.
Lemma pulled_consistent : consistent els b path (fun e p => pulled e p (field e p)).
Proof.
  intros p l' e e' a a' nb x x' L He He' Ha Ha' Hx Hx'. rewrite (Hl p l' L) in *. clear L l'.
  destruct HN as (LF & ND & NUM).
  assert (K : forall e a, els e -> nth_error (lf_indices l e) a = Some nb -> exists s c i, nth_error (keys e) a = Some (s, c, i)).
  { intros e0 a0 H0 A0. assert (La : (a0 < length (keys e0))%nat) by (rewrite <- indices_size by auto; apply nth_error_Some; congruence).
    destruct (nth_error_lt_Some _ _ La) as [[[s c] i] Q]. eauto. }
  destruct (K e a He Ha) as (s & c & k & Ka). destruct (K e' a' He' Ha') as (s' & c' & k' & Ka').
  destruct (NUM e a s c k e' a' s' c' k' He He' Ka Ka') as (z & z' & Z & Z' & EQ).
  rewrite Ha in Z. injection Z as <-. rewrite Ha' in Z'. injection Z' as <-. destruct (proj1 EQ eq_refl) as [QS <-]. clear EQ.
  destruct (edge_key e s c k He (nth_error_In _ _ Ka)) as ([-> ->] & t & St). destruct (edge_key e' s' c' 0%nat He' (nth_error_In _ _ Ka')) as ([-> _] & t' & St').
  destruct (Nat.eq_dec (fg_idx fg e) (fg_idx fg e')) as [Q|NQ].
  { assert (e = e') as <- by now apply (Orientation_spec.go_inj fg HGf).
    assert (a = a') as <- by (apply (proj1 (NoDup_nth_error _) (ND e He)); [apply nth_error_Some; congruence|congruence]). congruence. }
  assert (NQ' : e <> e') by (intros Q; apply NQ; now rewrite Q).
  destruct (variant e He) as (n & F & Hn). destruct (variant e' He') as (n' & F' & Hn').
  apply nth_error_nth with (d := 0) in Hx. apply nth_error_nth with (d := 0) in Hx'.
  rewrite (pulled_edge e p (field e p) n a s 0 t) in Hx by (auto; intros; apply Hv).
  rewrite (pulled_edge e' p (field e' p) n' a' s' 0 t') in Hx' by (auto; intros; apply Hv).
  destruct HA as (_ & HA2 & HA3). destruct (HA3 e s t e' s' t' He He' NQ' St St' QS) as [Ends TT].
  pose proof (HA2 e s t He St) as B1. pose proof (HA2 e' s' t' He' St') as B1'.
  pose proof (C47_shared_edges_agree fg HGf fixed old m e e' s s' n n' HTM HTy HEo HU He He' B1 B1' Ends F F') as Dir.
  destruct (HEo e s He B1) as [V0 V1].
  set (w := fun xi => dot d (field e p xi) (tangent e s xi)) in *. set (w' := fun xi => dot d (field e' p xi) (tangent e' s' xi)) in *.
  assert (Same : edge_dir fg e s false = edge_dir fg e' s' false -> mean e' s' w' = mean e s w).
  { intros DQ. apply (ci_shared _ _ _ _ _ _ _ _ _ _ HM e s t e' s' t'); auto. intros xi xi' O O' P. unfold w, w', field, tangent.
    destruct (TT xi xi' O O' P) as [T1 _]. now rewrite (T1 DQ), P. }
  assert (Opp : edge_dir fg e s false <> edge_dir fg e' s' false -> mean e' s' w' = - mean e s w).
  { intros DQ. assert (M : mean e' s' (fun xi => - w' xi) = mean e s w).
    { apply (ci_shared _ _ _ _ _ _ _ _ _ _ HM e s t e' s' t'); auto. intros xi xi' O O' P. unfold w, w', field, tangent.
      destruct (TT xi xi' O O' P) as [_ T2]. rewrite (T2 DQ), P, dot_opp_r by apply push_length. ring. }
    rewrite (ci_opp _ _ _ _ _ _ _ _ _ _ HM) in M. lra. }
  assert (NS : forall lo hi, (lo, hi) = edge_dir fg e s false -> lo <> hi).
  { intros lo hi Q. unfold edge_dir in Q. cbn in Q. injection Q as -> ->. unfold edge_ends in V1. cbn [fst snd] in V1.
    destruct (Nat.le_gt_cases (fg_ev fg e s 0) (fg_ev fg e s 1)); [rewrite Nat.min_l, Nat.max_r by lia|rewrite Nat.min_r, Nat.max_l by lia]; auto. }
  rewrite <- Hx, <- Hx'. unfold edge_dir in Dir, Same, Opp, NS. cbn zeta in Dir, Same, Opp, NS. cbn [fst snd] in *.
  destruct (bit n s), (bit n' s'); injection Dir as D1 D2.
  - rewrite Same; [ring|]. congruence.
  - rewrite Opp; [ring|]. intros Q. injection Q as Q1 Q2. apply (NS _ _ eq_refl). congruence.
  - rewrite Opp; [ring|]. intros Q. injection Q as Q1 Q2. apply (NS _ _ eq_refl). congruence.
  - rewrite Same; [ring|]. congruence.
Qed.
End Core.

(** Simplices and cubes: whatever tree of copies of a Nedelec basis the field is interpolated
    into, on every visited element the discrete field has the same average tangential component
    along every edge as the interpolated one. *)
Theorem C82_nedelec : forall (E X : Type) (g : grid E X) (fg : fgrid E) (types : list gt) (keys : E -> list localkey) (mp : mapper X)
    (basis : fe -> lbasis) (linterp : fe -> (pt -> list R) -> list R) (tau : E -> nat -> list R) (inside : E -> pt -> Prop) (on_edge : E -> nat -> pt -> Prop)
    (position : E -> pt -> list R) (mean : E -> nat -> (pt -> R) -> R) (fixed : option gtype) (old m : femap) (G : E -> geo)
    (b : bexpr E) (path : list nat) (su : setup E pt) (t : cty) (v : list nat -> list R -> list R) (interp : E -> list nat -> list R) c es c',
  let els := fun e => In e (fg_elements fg) in let d := g_dim g in let lay := fun t => nedelec_layout t d in
  setup_ok b path els su -> su_cdim su = 1%nat ->
  grid_ok els g -> fgrid_ok fg -> types_ok els g types -> mapper_ok els g lay mp -> keys_ok els g edge_functions keys ->
  circulations_ok g fg keys basis linterp tau inside on_edge position mean -> common_edges_ok g fg tau inside on_edge position G ->
  types_match fg fixed -> nd_types fg -> edges_ok fg -> nd_update fg fixed old = Some m ->
  (forall p l, leaf_at b (path ++ p) = Some l -> l = mapper_leaf g mp lay types keys) -> (forall p, su_vdim su p = d) ->
  (forall e p x f, els e -> fm_find fg m e = Some f -> su_shape su e p x = gv_eval (covariant d (G e)) (basis f) x) ->
  (forall p z, length (v p z) = d) ->
  (forall e p f, els e -> fm_find fg m e = Some f ->
     interp e p = gv_interpolate (covariant d (G e)) (linterp f) (fun xi => v p (position e xi))) ->
  call_ok b els path t interp c es ->
  Interpolate_model.interpolate t (fun _ => true) interp 0 (subspace_of_root (build b) path) es c = Done c' ->
  forall e w p n (y : pt -> cont R) s ts, In e es -> leaf_of b path e w p n -> node_size n <> 0%nat -> subtype g e s (d - 1) ts -> gt_dim ts = 1%nat ->
  (forall x, inside e x -> is_value b path su e (contents t c') x (y x)) ->
  mean e s (fun xi => rsum d (fun r => range_entry p (y xi) r * at_ (push d (G e) xi (tau e s)) r)) =
  mean e s (fun xi => dot d (v p (position e xi)) (push d (G e) xi (tau e s))).
Proof.
  intros E X g fg types keys mp basis linterp tau inside on_edge position mean fixed old m G b path su t v interp c es c' els d lay
    OKS Hcd HG HGf HT HM HK HMo HA HTM HTy HEo HU Hl Hd Hsh Hv HI CO RUN e w p n y s ts He Lf NZ St Dt V.
  pose proof (C57_nedelec els g types keys mp HG HT HM HK) as HN.
  pose proof (call_elements _ _ _ _ _ _ _ CO) as Hes.
  assert (HFE : forall e, lf_fe (mapper_leaf g mp lay types keys) e = length (keys e)) by reflexivity.
  set (L := pulled g fg linterp m G). set (F := field position v).
  assert (HI' : forall e p, els e -> interp e p = L e p (F e p)).
  { intros e0 p0 H0. destruct (variant fg fixed old m HGf HTM HTy HEo HU e0 H0) as (q & A & _). unfold L, pulled. rewrite A. now apply HI. }
  pose proof (pulled_ok g fg keys basis linterp tau inside on_edge position mean fixed old m G (mapper_leaf g mp lay types keys) b path su
    HGf HFE HN HMo HA HTM HTy HEo HU Hl Hd Hsh) as OK1.
  pose proof (pulled_consistent g fg keys basis linterp tau inside on_edge position mean fixed old m G (mapper_leaf g mp lay types keys) b path v
    HG HGf HK HFE HN HMo HA HTM HTy HEo HU Hl Hv) as OK2.
  assert (HC : consistent els b path interp).
  { intros p0 l0 e0 e1 a0 a1 g0 x0 x1 L0 H0 H1 A0 A1 X0 X1. rewrite HI' in X0, X1 by auto. exact (OK2 p0 l0 e0 e1 a0 a1 g0 x0 x1 L0 H0 H1 A0 A1 X0 X1). }
  pose proof (C82_degrees_of_freedom_are_preserved E pt b path els su t inside L F interp c es c' HI' OKS Hcd OK1 HC CO RUN e w p n y He Lf NZ V) as Q.
  rewrite Hd in Q. fold d in Q.
  assert (Im : In (s, (d - 1)%nat, 0%nat) (keys e)).
  { apply (HK e (Hes e He)). exists ts. split; auto. unfold edge_functions. rewrite Dt. lia. }
  apply In_nth_error in Im as (a & Ka). destruct (variant fg fixed old m HGf HTM HTy HEo HU e (Hes e He)) as (k & Fk & Hk).
  apply (f_equal (fun u => nth a u 0)) in Q. unfold L in Q.
  assert (Hel : In e (fg_elements fg)) by exact (Hes e He).
  rewrite (pulled_edge g fg keys basis linterp tau inside on_edge position mean m G HMo HA e p (fun x => map (range_entry p (y x)) (seq 0 d)) k a s 0 ts) in Q; auto.
  2: { intros; now rewrite map_length, seq_length. }
  rewrite (pulled_edge g fg keys basis linterp tau inside on_edge position mean m G HMo HA e p (F e p) k a s 0 ts) in Q by (auto; intros; apply Hv).
  apply Rmult_eq_reg_l in Q; [|destruct (bit k s); lra]. unfold F, field, tangent in Q. fold d in Q. rewrite <- Q.
  apply (ci_local _ _ _ _ _ _ _ _ _ _ HMo e s ts); auto. intros xi _. unfold dot. apply rsum_ext. intros r Hr. now rewrite at_map by auto.
Qed.
Print Assumptions C82_nedelec.
