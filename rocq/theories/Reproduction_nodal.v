(** Auxiliary facts for the interpolation into Argyris, Morley and Hermite bases (C81). *)
From Coq Require Import List Arith Lia Bool Reals Lra.
From Verif Require Import Lib Basis_model Basis_spec Interpolate_props GeometryType_model Mapper_model Mapper_spec Mapper_props
  Nodal_spec Nodal_poly Nodal_inverse Reproduction_spec.
Import ListNotations.
Local Open Scope R_scope.

(** In a basis whose leaves are mapper-based bases, DOFs with the same number are the same DOF
    of the same entity. *)
Lemma mapper_consistent {E X V} (els : E -> Prop) (g : grid E X) lay types keys mp (b : bexpr E) path (interp : E -> list nat -> list V) :
  grid_ok els g -> layout_ok lay -> types_ok els g types -> mapper_ok els g lay mp -> keys_ok els g lay keys ->
  (forall p l, leaf_at b (path ++ p) = Some l -> l = mapper_leaf g mp lay types keys) ->
  (forall p e e' a a' s s' c i t t' x x', els e -> els e' ->
     nth_error (keys e) a = Some (s, c, i) -> nth_error (keys e') a' = Some (s', c, i) -> subtype g e s c t -> subtype g e' s' c t' -> g_sub g e s c = g_sub g e' s' c ->
     nth_error (interp e p) a = Some x -> nth_error (interp e' p) a' = Some x' -> x = x') ->
  consistent els b path interp.
Proof.
  intros HG HL HT HM HK HB H p l e e' a a' n x x' Hl He He' Ha Ha' Hx Hx'.
  apply HB in Hl. destruct (C30_mapper_leaf els g lay types keys mp HG HL HT HM HK) as (LO & _ & CI).
  assert (K : forall e a, els e -> nth_error (lf_indices l e) a = Some n -> exists s c i, nth_error (keys e) a = Some (s, c, i)).
  { clear - Hl LO. intros e a He Ha. assert (L : (a < length (keys e))%nat).
    { replace (length (keys e)) with (lf_fe l e) by (now rewrite Hl). rewrite Hl in *. rewrite <- (lok_size _ _ LO e He). now apply nth_error_Some_lt in Ha. }
    destruct (nth_error_lt_Some _ _ L) as [[[s c] i] Q]. eauto. }
  destruct (K e a He Ha) as (s & c & i & Ka). destruct (K e' a' He' Ha') as (s' & c' & i' & Ka').
  destruct (CI e a s c i e' a' s' c' i' He He' Ka Ka') as (n1 & n2 & N1 & N2 & N3). rewrite <- Hl in N1, N2.
  rewrite Ha in N1. injection N1 as <-. rewrite Ha' in N2. injection N2 as <-. destruct (proj1 N3 eq_refl) as [Q <-].
  destruct (proj1 (proj2 (HK e He) s c i) (nth_error_In _ _ Ka)) as (t & Ht & _).
  destruct (proj1 (proj2 (HK e' He') s' c' i) (nth_error_In _ _ Ka')) as (t' & Ht' & _).
  destruct (go_type _ _ HG e s c t e' s' c' t' He He' Ht Ht' Q) as [_ <-].
  eapply (H p e e' a a' s s' c i); eauto.
Qed.

(** Functions that agree on the image of the reference element are equal, and so are their
    gradients. *)
Lemma gradient_unique d u g u' g' : dims d -> gradient d u g -> gradient d u' g' -> (forall z, is_vec d z -> u z = u' z) ->
  forall z, is_vec d z -> g z = g' z.
Proof.
  intros Hd G G' Q z Hz. pose proof (gradient_ext d u u' g' Q G') as G2. destruct (G z Hz) as [V D]. destruct (G2 z Hz) as [V' D'].
  assert (Q2 : forall w, is_vec d w -> dot (g z) w = dot (g' z) w) by (intros w Hw; eapply uniqueness_limite; [apply D|apply D']; auto).
  clear - Hd V V' Q2. revert V V' Q2. generalize (g z) (g' z). intros a b V V' Q2. destruct Hd as [-> | [-> | ->]].
  - apply vec1 in V as (a0 & ->). apply vec1 in V' as (b0 & ->). specialize (Q2 [1] eq_refl). unfold dot, total in Q2. cbn in Q2. f_equal. lra.
  - apply vec2 in V as (a0 & a1 & ->). apply vec2 in V' as (b0 & b1 & ->). pose proof (Q2 [1; 0] eq_refl) as Q0. pose proof (Q2 [0; 1] eq_refl) as Q1.
    unfold dot, total in Q0, Q1. cbn in Q0, Q1. f_equal; [|f_equal]; lra.
  - apply vec3 in V as (a0 & a1 & a2 & ->). apply vec3 in V' as (b0 & b1 & b2 & ->).
    pose proof (Q2 [1; 0; 0] eq_refl) as Q0. pose proof (Q2 [0; 1; 0] eq_refl) as Q1. pose proof (Q2 [0; 0; 1] eq_refl) as Q3.
    unfold dot, total in Q0, Q1, Q3. cbn in Q0, Q1, Q3. f_equal; [|f_equal; [|f_equal]]; lra.
Qed.
Lemma image_onto d P z : dims d -> simplex d P -> is_vec d z -> exists x, is_vec d x /\ image d P x = z.
Proof.
  intros Hd HS Hz. destruct (inverse d P Hd HS) as (M & LM & _ & _ & I). eexists. split; [|apply I; auto]. unfold is_vec. rewrite map_length. exact LM.
Qed.
Lemma same_function d P u g u' g' : dims d -> simplex d P -> gradient d u g -> gradient d u' g' ->
  (forall x, is_vec d x -> u (image d P x) = u' (image d P x)) -> forall z, is_vec d z -> u z = u' z /\ g z = g' z.
Proof.
  intros Hd HS G G' Q. assert (A : forall z, is_vec d z -> u z = u' z).
  { intros z Hz. destruct (image_onto d P z Hd HS Hz) as (x & Hx & <-). auto. }
  intros z Hz. split; auto. now apply (gradient_unique d u g u' g').
Qed.
