(** C27: face orientations; C28: the Lagrange basis of arbitrary order. *)
From Coq Require Import List Arith Lia Bool NArith.
From Coq Require Import FinFun.
From Verif Require Import Lib Basis_model Basis_spec GeometryType_model GeometryType_spec GeometryType_props.
From Verif Require Import Mapper_model Mapper_spec Mapper_props.
From Verif Require Import Lagrange_model Lagrange_spec Lagrange_proofs Lagrange_tables.
Import ListNotations.
#[local] Arguments Nat.ltb : simpl never.
#[local] Arguments Nat.testbit : simpl never.

(** * C27 *)

Lemma forl_ext {A} k s (f f' : nat -> A -> option A) st : (forall i a, f i a = f' i a) -> forl k s f st = forl k s f' st.
Proof.
  intros H. revert s st; induction k as [|k IH]; intros s st; [reflexivity|]. cbn [forl]. rewrite H.
  destruct (f' s st); [apply IH|reflexivity].
Qed.

(** Only the relative order of the vertex ids matters. *)
Theorem C27_relative_order : forall dim re ids ids' codims,
  (forall a b, ids a < ids b <-> ids' a < ids' b) ->
  faceOrientations dim re ids codims = faceOrientations dim re ids' codims.
Proof.
  intros dim re ids ids' codims H.
  assert (HB : forall a b, (ids a <? ids b) = (ids' a <? ids' b)).
  { intros a b. specialize (H a b). destruct (Nat.ltb_spec (ids a) (ids b)), (Nat.ltb_spec (ids' a) (ids' b)); trivial; exfalso; lia. }
  unfold faceOrientations. destruct (_ || _); [reflexivity|].
  assert (FE : forall k s st, forl k s (fun e d => computeEdgeOrientation (faceVertexIds dim re ids e (dim - 1)) e d) st
               = forl k s (fun e d => computeEdgeOrientation (faceVertexIds dim re ids' e (dim - 1)) e d) st).
  { intros. apply forl_ext. intros e d. unfold computeEdgeOrientation, faceVertexIds.
    rewrite !nth_error_map_eq. destruct (nth_error _ 0); [|reflexivity]. destruct (nth_error _ 1); [|reflexivity].
    cbn [option_map obind]. rewrite HB. reflexivity. }
  rewrite FE. destruct (if _ && _ then _ else _) as [d|]; [|reflexivity]. cbn [obind].
  destruct (_ && _); [|reflexivity]. apply forl_ext. intros f d'.
  destruct (nth_error _ f) as [t|]; [|reflexivity]. cbn [obind].
  destruct (if isTriangle t then _ else _) as [d''|]; [|reflexivity]. cbn [obind].
  destruct (isQuadrilateral t); [|reflexivity].
  unfold computeQuadrilateralOrientation, faceVertexIds. rewrite !nth_error_map_eq.
  destruct (re_subEntity re f 1 0 2); [|reflexivity]. destruct (re_subEntity re f 1 1 2); [|reflexivity].
  destruct (re_subEntity re f 1 2 2); [|reflexivity]. destruct (re_subEntity re f 1 3 2); [|reflexivity]. cbn [obind].
  destruct (nth_error _ 0); [|reflexivity]. destruct (nth_error _ 1); [|reflexivity].
  destruct (nth_error _ 2); [|reflexivity]. destruct (nth_error _ 3); [|reflexivity].
  cbn [option_map obind]. rewrite !HB. reflexivity.
Qed.
Print Assumptions C27_relative_order.

(** A facet of a three-dimensional element, or an edge: the orientation is a
    documented one and takes the local numbering of the face to the global one. *)
Theorem C27_facet_orientation : forall re ids codims f,
  refelem_ok 3 re -> In 1 codims -> f < re_size re 1 ->
  let v := faceVertexIds 3 re ids f 1 in
  NoDup v ->
  exists d u, faceOrientations 3 re ids codims = Some d /\ global_orientation v u /\
    let o := faceOrientationIndex 3 d f 1 in
    legal (length v) o /\
    forall p, p < length v -> nth_error u (automorphism (length v) o p) = nth_error v p.
Proof.
  intros re ids codims f Hre Hc Hf v N.
  destruct (orientations_3d re ids codims Hre (or_intror Hc)) as (d & Hd & _ & H1 & _).
  destruct (face_code_canonical re ids f Hre Hf N) as (L & Lg & G). fold v in L, Lg, G.
  exists d, (view (length v) (facet_code re ids f) v). split; [exact Hd|]. split; [exact G|].
  cbv zeta. rewrite (H1 Hc f Hf). split; [exact Lg|]. intros p Hp.
  apply view_automorphism; trivial. right. exact L.
Qed.
Print Assumptions C27_facet_orientation.

Theorem C27_edge_orientation : forall dim re ids codims e,
  dim = 2 \/ dim = 3 -> refelem_ok dim re -> In 1 codims \/ (dim = 3 /\ In 2 codims) -> e < re_size re (dim - 1) ->
  let v := faceVertexIds dim re ids e (dim - 1) in
  NoDup v ->
  exists d u, faceOrientations dim re ids codims = Some d /\ global_orientation v u /\
    let o := faceOrientationIndex dim d e (dim - 1) in
    legal (length v) o /\
    forall p, p < length v -> nth_error u (automorphism (length v) o p) = nth_error v p.
Proof.
  intros dim re ids codims e Hdim Hre Hc He v N.
  destruct (edge_code_canonical dim re ids e Hre He N) as (L & Lg & G). fold v in L, G.
  assert (exists d, faceOrientations dim re ids codims = Some d /\ faceOrientationIndex dim d e (dim - 1) = Nat.b2n (edge_bit dim re ids e)) as (d & Hd & Ho).
  { destruct Hdim as [-> | ->].
    - destruct Hc as [Hc|[Hc _]]; [|discriminate].
      destruct (orientations_2d re ids codims Hre Hc) as (d & Hd & H). exists d. auto.
    - destruct (orientations_3d re ids codims Hre) as (d & Hd & H & _); [tauto|]. exists d. auto. }
  exists d, (view 2 (Nat.b2n (edge_bit dim re ids e)) v). split; [exact Hd|]. split; [exact G|].
  cbv zeta. rewrite Ho, L. split; [exact Lg|]. intros p Hp.
  pose proof (view_automorphism v (Nat.b2n (edge_bit dim re ids e)) p (or_introl L)) as V. rewrite L in V. apply V; trivial.
Qed.
Print Assumptions C27_edge_orientation.

(** Two numberings of one face have the same global orientation. *)
Lemma global_shared v v' u u' : NoDup v -> face_size v -> same_face v v' ->
  global_orientation v u -> global_orientation v' u' -> u = u'.
Proof.
  intros N S F G (F' & P0 & P1 & r & -> & M & Ed & ME).
  apply (global_unique v); trivial. split; [exact (same_face_trans _ _ _ F F')|].
  exists P0, P1, r. split; [reflexivity|]. destruct F as (_ & I & J).
  split; [intros x Hx; apply M, I, Hx|]. split; [apply J, Ed|]. intros x Hx. apply ME, J, Hx.
Qed.

(** Two elements sharing a facet: a local number [p] in one and [p'] in the other
    belong to the same vertex iff the orientations take them to the same number. *)
Theorem C27_shared_facet : forall re ids f re' ids' f' codims,
  refelem_ok 3 re -> refelem_ok 3 re' -> In 1 codims -> f < re_size re 1 -> f' < re_size re' 1 ->
  let v := faceVertexIds 3 re ids f 1 in
  let v' := faceVertexIds 3 re' ids' f' 1 in
  NoDup v -> same_face v v' ->
  exists d d', faceOrientations 3 re ids codims = Some d /\ faceOrientations 3 re' ids' codims = Some d' /\
    forall p p', p < length v -> p' < length v ->
      (nth_error v p = nth_error v' p' <->
       automorphism (length v) (faceOrientationIndex 3 d f 1) p =
       automorphism (length v) (faceOrientationIndex 3 d' f' 1) p').
Proof.
  intros re ids f re' ids' f' codims Hre Hre' Hc Hf Hf' v v' N F.
  assert (N' := same_face_nodup _ _ N F).
  destruct (C27_facet_orientation re ids codims f Hre Hc Hf N) as (d & u & Hd & G & Lg & A). fold v in G, Lg, A.
  destruct (C27_facet_orientation re' ids' codims f' Hre' Hc Hf' N') as (d' & u' & Hd' & G' & Lg' & A'). fold v' in G', Lg', A'.
  destruct (face_code_canonical re ids f Hre Hf N) as (L & _). fold v in L.
  assert (u = u') as <- by (apply (global_shared v v'); trivial; right; exact L).
  exists d, d'. split; [exact Hd|]. split; [exact Hd'|]. intros p p' Hp Hp'.
  rewrite <- (proj1 F) in *. rewrite <- A, <- A' by trivial.
  assert (Nu : NoDup u) by (apply (same_face_nodup v); [exact N|exact (proj1 G)]).
  split; [|intros ->; reflexivity].
  intros Q. apply (proj1 (NoDup_nth_error u) Nu); [|exact Q].
  apply nth_error_Some. rewrite A by exact Hp. apply nth_error_Some. exact Hp.
Qed.
Print Assumptions C27_shared_facet.

(** * C28 *)

Lemma rows_decompose m i : i < m * (m + 1) / 2 -> exists x y, x + y < m /\ i = x + rows m y.
Proof.
  rewrite <- rows_full. enough (H : forall n, n <= m -> i < rows m n -> exists x y, x + y < m /\ i = x + rows m y) by (apply H; lia).
  induction n as [|n IH]; intros Hn Hi; [cbn in Hi; lia|]. rewrite rows_S in Hi.
  destruct (le_lt_dec (rows m n) i) as [L|L]; [|apply IH; lia].
  exists (i - rows m n), n. lia.
Qed.

Lemma layout_line k b D : 0 < k -> lagrange_layout k [b] D = k - 1.
Proof. intros Hk. rewrite layout_simplex by (trivial; reflexivity). apply binomial_1. Qed.
Lemma layout_tri k b D : 0 < k -> lagrange_layout k [false; b] D = (k - 2) * (k - 2 + 1) / 2.
Proof.
  intros Hk. rewrite layout_simplex by (trivial; reflexivity). cbn [gt_dim length]. symmetry. apply half_mul.
  destruct k as [|[|k]]; [lia|reflexivity|]. replace (S (S k) - 1) with (S k) by lia. rewrite binomial_2.
  replace (S (S k) - 2) with k by lia. lia.
Qed.
Lemma layout_quad k b D : 0 < k -> lagrange_layout k [true; b] D = (k - 1) * (k - 1).
Proof. intros Hk. rewrite layout_cube by (trivial; reflexivity). cbn [gt_dim length Nat.pow]. lia. Qed.

Lemma subtypes_dim t c s u : nth_error (subtypes t c) s = Some u -> gt_dim u + c = gt_dim t.
Proof.
  revert c s u. induction t as [|b r IH]; intros c s u H.
  - cbn [subtypes] in H. destruct c; [|destruct s; discriminate]. destruct s as [|[|]]; cbn in H; try discriminate. injection H as <-. reflexivity.
  - destruct c as [|c].
    + cbn [subtypes] in H. destruct s as [|[|]]; cbn in H; try discriminate. injection H as <-. lia.
    + apply nth_error_In in H. cbn [subtypes] in H.
      assert (IH' : forall c u, In u (subtypes r c) -> gt_dim u + c = gt_dim r).
      { intros c' u' I. apply In_nth_error in I as (j & Hj). exact (IH _ _ _ Hj). }
      change (gt_dim (b :: r)) with (S (gt_dim r)).
      destruct b.
      * apply in_app_iff in H as [H|H]; [|apply in_app_iff in H as [H|H]; specialize (IH' _ _ H); lia].
        apply in_map_iff in H as (v & <- & H). specialize (IH' _ _ H). change (gt_dim (true :: v)) with (S (gt_dim v)). lia.
      * apply in_app_iff in H as [H|H]; [specialize (IH' _ _ H); lia|].
        destruct (_ <? _).
        -- apply in_map_iff in H as (v & <- & H). specialize (IH' _ _ H). change (gt_dim (false :: v)) with (S (gt_dim v)). lia.
        -- destruct (Nat.eqb_spec (S c) (length (false :: r))) as [Q|Q]; [|destruct H]. destruct H as [<-|[]].
           cbn [length] in Q. unfold gt_dim. cbn [length]. lia.
Qed.

(** the DOFs of a face are its Lagrange points *)
Lemma layout_points dim re s c t k i ids :
  refelem_ok dim re -> dim = 2 \/ dim = 3 -> 0 < c < dim -> nth_error (subtypes (re_type re) c) s = Some t -> 0 < k ->
  (i < lagrange_layout k t dim <-> exists w, dof_weights (length (faceVertexIds dim re ids s c)) k i w).
Proof.
  intros Hre Hd Hc Ht Hk. pose proof (subtypes_dim _ _ _ _ Ht) as D. rewrite (ro_dim _ _ Hre) in D.
  assert (Hs : s < re_size re c) by (apply nth_error_Some; congruence).
  unfold faceVertexIds. rewrite map_length.
  destruct (Nat.eq_dec c (dim - 1)) as [->|Nc].
  - destruct (ro_edge _ _ Hre s Hs) as (a & b & ->). cbn [length].
    destruct t as [|x [|]]; unfold gt_dim in D; cbn [length] in D; try lia.
    rewrite layout_line by exact Hk. cbn [dof_weights]. split; [intros H; eexists; split; [lia|reflexivity]|intros (w & H & _); lia].
  - assert (Dt : gt_dim t = 2) by lia. clear D.
    assert (dim = 3) by lia. assert (c = 1) by lia. subst dim c.
    destruct (tri_or_quad t Dt) as [[T Q]|[T Q]].
    + destruct (ro_triangle _ _ Hre s t eq_refl Ht T) as (a & b & cc & e0 & e1 & e2 & -> & _). cbn [length].
      destruct t as [|[] [|y [|]]]; try discriminate Dt; try discriminate T. rewrite layout_tri by exact Hk.
      cbn [dof_weights]. split.
      * intros H. destruct (rows_decompose _ _ H) as (x & z & Hx & ->). eexists. exists x, z. split; [lia|]. split; reflexivity.
      * intros (w & x & z & Hx & -> & _). apply rows_in. lia.
    + destruct (ro_quadrilateral _ _ Hre s t eq_refl Ht Q) as (a & b & cc & d & e0 & e1 & e2 & e3 & -> & _). cbn [length].
      destruct t as [|[] [|y [|]]]; try discriminate Dt; try discriminate Q. rewrite layout_quad by exact Hk.
      cbn [dof_weights]. split.
      * intros H. assert (k - 1 <> 0) by nia. eexists. exists (i mod (k - 1)), (i / (k - 1)).
        pose proof (Nat.mod_upper_bound i (k - 1)). pose proof (Nat.div_mod i (k - 1)).
        assert (i / (k - 1) < k - 1) by (apply Nat.div_lt_upper_bound; lia).
        split; [lia|]. split; [lia|]. split; [lia|reflexivity].
      * intros (w & x & z & Hx & Hz & -> & _). nia.
Qed.

Lemma compute_some dim k re ids : 1 <= dim <= 3 -> (2 <= dim -> refelem_ok dim re) ->
  exists o, computeFaceOrientations dim k re ids = Some o.
Proof.
  intros Hd Hre. unfold computeFaceOrientations.
  assert (dim = 1 \/ dim = 2 \/ dim = 3) as [-> |[-> | ->]] by lia; cbn [Nat.eqb orb].
  - eexists. reflexivity.
  - destruct (_ <? _); [eexists; reflexivity|].
    assert (T : isTetrahedron (re_type re) = false) by (unfold isTetrahedron; rewrite (ro_dim _ _ (Hre ltac:(lia))); reflexivity).
    rewrite T, andb_false_r. destruct (orientations_2d re ids [2; 1] (Hre ltac:(lia)) ltac:(cbn; auto)) as (d & -> & _). eauto.
  - destruct (_ <? _); [eexists; reflexivity|].
    destruct (_ && _).
    + destruct (orientations_3d re ids [2] (Hre ltac:(lia)) ltac:(cbn; auto)) as (d & -> & _). eauto.
    + destruct (orientations_3d re ids [2; 1] (Hre ltac:(lia)) ltac:(cbn; auto)) as (d & -> & _). eauto.
Qed.

Lemma permute_other dim k s c i o : 1 <= dim <= 3 -> c <= dim -> ~ 0 < c < dim -> permuteFaceDOF dim k s c i o = Some i.
Proof.
  intros Hd Hc Hn. unfold permuteFaceDOF.
  assert (dim = 1 \/ dim = 2 \/ dim = 3) as [-> |[-> | ->]] by lia; cbn [Nat.eqb].
  - reflexivity.
  - assert (c = 0 \/ c = 2) as [-> | ->] by lia; cbn [Nat.eqb]; rewrite andb_false_r; reflexivity.
  - assert (c = 0 \/ c = 3) as [-> | ->] by lia; cbn [Nat.eqb andb]; destruct (2 <? k); reflexivity.
Qed.

Section Basis.
Context {E X : Type}.
Variable els : E -> Prop.
Variable g : grid E X.
Variable ref : E -> refelem.
Variable vid : E -> nat -> nat.
Variable k : nat.
Hypothesis HD : 1 <= g_dim g <= 3.
Hypothesis HG : grid_ok els g.
Hypothesis HI : ids_ok els g ref vid.
Hypothesis H17 : g_dim g = 3 -> k <= 17.
Let lay (t : gt) := lagrange_layout k t (g_dim g).
Let perm (e : E) (s c i : nat) : option nat :=
  o <- computeFaceOrientations (g_dim g) k (ref e) (vid e) ;; permuteFaceDOF (g_dim g) k s c i o.

Lemma codim_le e s c t : els e -> subtype g e s c t -> c <= g_dim g.
Proof. intros He H. apply subtypes_dim in H. rewrite (go_dim _ _ HG e He) in H. lia. Qed.

Lemma order0_inner e s c t i : els e -> subtype g e s c t -> 0 < c -> i < lay t -> 0 < k.
Proof.
  intros He H Hc Hi. destruct (Nat.eq_dec k 0) as [Z|Z]; [|lia]. exfalso.
  pose proof (subtypes_dim _ _ _ _ H) as D. rewrite (go_dim _ _ HG e He) in D.
  unfold lay, lagrange_layout in Hi. rewrite Z in Hi. cbn [Nat.eqb] in Hi.
  destruct (Nat.eqb_spec (gt_dim t) (g_dim g)); lia.
Qed.

Lemma perm_spec e s c t i : els e -> subtype g e s c t -> i < lay t ->
  exists j, perm e s c i = Some j /\ j < lay t /\
    (0 < c < g_dim g -> exists u w wu, face_size (face_ids g ref vid e s c) /\
       global_orientation (face_ids g ref vid e s c) u /\
       dof_weights (length (face_ids g ref vid e s c)) k i w /\
       dof_weights (length (face_ids g ref vid e s c)) k j wu /\ same_point (face_ids g ref vid e s c) w u wu) /\
    (~ 0 < c < g_dim g -> j = i).
Proof.
  intros He Hs Hi. unfold perm.
  destruct (compute_some (g_dim g) k (ref e) (vid e) HD (io_refelem _ _ _ _ HI e He)) as (o & Ho). rewrite Ho. cbn [obind].
  destruct (le_lt_dec c 0) as [C0|C0].
  { exists i. rewrite permute_other; [|exact HD|lia|lia]. split; [reflexivity|]. split; [exact Hi|]. split; intros; [lia|reflexivity]. }
  destruct (le_lt_dec (g_dim g) c) as [C1|C1].
  { exists i. rewrite permute_other; [|exact HD|exact (codim_le e s c t He Hs)|lia]. split; [reflexivity|]. split; [exact Hi|]. split; intros; [lia|reflexivity]. }
  assert (Hd : g_dim g = 2 \/ g_dim g = 3) by lia.
  pose proof (io_refelem _ _ _ _ HI e He ltac:(lia)) as Hre.
  pose proof (order0_inner e s c t i He Hs C0 Hi) as Hk.
  assert (Hs' := Hs). unfold subtype in Hs'. rewrite <- (io_type _ _ _ _ HI e He) in Hs'.
  assert (Ls : s < re_size (ref e) c) by (apply nth_error_Some; congruence).
  assert (Ls' : s < length (subtypes (g_type g e) c)) by (apply nth_error_Some; unfold subtype in Hs; congruence).
  pose proof (io_distinct _ _ _ _ HI e s c He ltac:(lia) Ls') as N.
  destruct (proj1 (layout_points (g_dim g) (ref e) s c t k i (vid e) Hre Hd ltac:(lia) Hs' Hk) Hi) as (w & Hw).
  destruct (permute_canonical (g_dim g) k (ref e) (vid e) s c i w o Hre ltac:(lia) ltac:(lia) Ls N Hw Ho) as (S & u & j & wu & G & P & Wj & SP).
  exists j. split; [exact P|]. split.
  - apply (layout_points (g_dim g) (ref e) s c t k j (vid e) Hre Hd ltac:(lia) Hs' Hk). exists wu. exact Wj.
  - split; [|lia]. intros _. exists u, w, wu. auto.
Qed.

(** equal permuted numbers in a shared face = same Lagrange point *)
Lemma perm_eq e s c t i e' s' c' t' i' j j' : els e -> els e' -> subtype g e s c t -> subtype g e' s' c' t' ->
  i < lay t -> i' < lay t' -> g_sub g e s c = g_sub g e' s' c' ->
  perm e s c i = Some j -> perm e' s' c' i' = Some j' ->
  (j = j' <-> same_lagrange_point g ref vid k e s c i e' s' c' i').
Proof.
  intros He He' Hs Hs' Hi Hi' Q P P'.
  destruct (go_type _ _ HG _ _ _ _ _ _ _ _ He He' Hs Hs' Q) as [_ <-].
  destruct (perm_spec e s c t i He Hs Hi) as (j0 & P0 & _ & A & B). rewrite P in P0. injection P0 as <-.
  destruct (perm_spec e' s' c t' i' He' Hs' Hi') as (j0 & P0 & _ & A' & B'). rewrite P' in P0. injection P0 as <-.
  unfold same_lagrange_point.
  destruct (le_lt_dec c 0) as [C0|C0]; [|destruct (le_lt_dec (g_dim g) c) as [C1|C1]].
  1,2: rewrite (B ltac:(lia)), (B' ltac:(lia)); split; [intros ->; split; [exact Q|]; split; [lia|reflexivity]|intros (_ & _ & H); apply H; lia].
  destruct (A ltac:(lia)) as (u & w & wu & S & G & W & WJ & SP). destruct (A' ltac:(lia)) as (u' & w' & wu' & S' & G' & W' & WJ' & SP').
  set (v := face_ids g ref vid e s c) in *. set (v' := face_ids g ref vid e' s' c) in *.
  assert (Ls : s < length (subtypes (g_type g e) c)) by (apply nth_error_Some; unfold subtype in Hs; congruence).
  assert (Ls' : s' < length (subtypes (g_type g e') c)) by (apply nth_error_Some; unfold subtype in Hs'; congruence).
  pose proof (io_distinct _ _ _ _ HI e s c He ltac:(lia) Ls) as N. fold v in N.
  pose proof (io_shared _ _ _ _ HI e s c e' s' He He' ltac:(lia) Ls Ls' Q) as F. fold v v' in F.
  assert (u = u') as <- by (apply (global_shared v v'); trivial).
  assert (Nu : NoDup u) by (apply (same_face_nodup v); [exact N|exact (proj1 G)]).
  assert (Lu : length v = length u) by exact (proj1 (proj1 G)).
  assert (Lv : length v = length v') by exact (proj1 F).
  rewrite <- Lv in *. split.
  - intros <-. split; [exact Q|]. split; [|lia]. intros _. exists w, w'. split; [exact W|]. split; [exact W'|].
    rewrite (dof_weights_fun _ _ _ _ _ WJ' WJ) in SP'. apply (same_point_trans _ _ _ _ _ _ SP), same_point_sym, SP'.
  - intros (_ & H & _). destruct (H ltac:(lia)) as (x & x' & Wx & Wx' & SX).
    rewrite (dof_weights_fun _ _ _ _ _ Wx W), (dof_weights_fun _ _ _ _ _ Wx' W') in SX.
    assert (wu = wu').
    { apply (weight_nodup u); trivial.
      - rewrite <- Lu. apply (dof_weights_length _ _ _ _ WJ).
      - rewrite <- Lu. apply (dof_weights_length _ _ _ _ WJ').
      - apply (same_point_trans u wu v w u wu'); [apply same_point_sym, SP|]. apply (same_point_trans _ _ _ _ _ _ SX SP'). }
    subst wu'. exact (dof_weights_inj _ _ _ _ _ WJ WJ').
Qed.

Lemma same_lagrange_refl_inv e s c t i i' : els e -> subtype g e s c t -> i < lay t -> i' < lay t ->
  same_lagrange_point g ref vid k e s c i e s c i' -> i = i'.
Proof.
  intros He Hs Hi Hi' (_ & A & B).
  destruct (le_lt_dec c 0) as [C0|C0]; [apply B; lia|]. destruct (le_lt_dec (g_dim g) c) as [C1|C1]; [apply B; lia|].
  destruct (A ltac:(lia)) as (w & w' & W & W' & SP).
  assert (Ls : s < length (subtypes (g_type g e) c)) by (apply nth_error_Some; unfold subtype in Hs; congruence).
  assert (w = w').
  { apply (weight_nodup (face_ids g ref vid e s c)); trivial.
    - apply (io_distinct _ _ _ _ HI); trivial. lia.
    - exact (dof_weights_length _ _ _ _ W).
    - exact (dof_weights_length _ _ _ _ W'). }
  subst w'. exact (dof_weights_inj _ _ _ _ _ W W').
Qed.

Lemma perm_onto e s c t j : els e -> subtype g e s c t -> j < lay t -> exists i, i < lay t /\ perm e s c i = Some j.
Proof.
  intros He Hs Hj.
  set (f := fun i => match perm e s c i with Some x => x | None => 0 end).
  assert (F : forall i, i < lay t -> perm e s c i = Some (f i) /\ f i < lay t).
  { intros i Hi. unfold f. destruct (perm_spec e s c t i He Hs Hi) as (x & -> & L & _). auto. }
  assert (B : bFun (lay t) f) by (intros i Hi; apply F, Hi).
  assert (S : bSurjective (lay t) f).
  { apply (bInjective_bSurjective B). intros i i' Hi Hi' Q.
    apply (same_lagrange_refl_inv e s c t i i' He Hs Hi Hi').
    apply (perm_eq e s c t i e s c t i' (f i) (f i') He He Hs Hs Hi Hi' eq_refl (proj1 (F i Hi)) (proj1 (F i' Hi'))). exact Q. }
  destruct (S j Hj) as (i & Hi & Q). exists i. split; [exact Hi|]. rewrite <- Q. apply F, Hi.
Qed.

Lemma lay_ok : layout_ok lay.
Proof.
  intros t t' [S L]. unfold lay, lagrange_layout, isSimplex, isCube, gt_dim. rewrite S, L.
  assert (P := same_type_preds t t' (conj S L)). destruct P as [-> ->]. reflexivity.
Qed.
End Basis.

Lemma all_some_nth l xs : all_some l = Some xs -> forall a, nth_error l a = option_map Some (nth_error xs a).
Proof.
  revert xs; induction l as [|o l IH]; intros xs H a; cbn [all_some] in H.
  - injection H as <-. destruct a; reflexivity.
  - apply obind_Some in H as (x & -> & H). apply obind_Some in H as (ys & H' & H). injection H as <-.
    destruct a as [|a]; [reflexivity|]. cbn [nth_error]. apply IH, H'.
Qed.
Lemma all_some_total l : (forall o, In o l -> o <> None) -> exists xs, all_some l = Some xs.
Proof.
  induction l as [|o l IH]; intros H; [exists []; reflexivity|]. cbn [all_some].
  destruct o as [x|]; [|exfalso; apply (H None); [left|]; reflexivity].
  destruct IH as (xs & ->); [intros o I; apply H; right; exact I|]. cbn [obind]. eauto.
Qed.
Lemma all_some_length l xs : all_some l = Some xs -> length xs = length l.
Proof.
  revert xs; induction l as [|o l IH]; intros xs H; cbn [all_some] in H; [injection H as <-; reflexivity|].
  apply obind_Some in H as (x & -> & H). apply obind_Some in H as (ys & H' & H). injection H as <-. cbn [length]. f_equal. apply IH, H'.
Qed.

Lemma supported_types dim t k types : gt_dim t = dim -> 1 <= dim <= 3 ->
  (exists t', In t' types /\ same_type t' t) ->
  negb ((2 <? k) && existsb isPyramid types) && negb ((2 <? k) && existsb isPrism types) = true -> supported k t.
Proof.
  intros Hd HD (t' & I & ST) C. apply andb_true_iff in C as [C _].
  unfold supported. 
  destruct t as [|a [|b [|c [|]]]]; unfold gt_dim in Hd; cbn [length] in Hd; try lia.
  - left. reflexivity.
  - destruct a; [right; left|left]; reflexivity.
  - destruct a, b.
    + right; left; reflexivity.
    + right; right; left; reflexivity.
    + right; right; right. split; [reflexivity|]. destruct (Nat.ltb_spec 2 k) as [L|L]; [|lia]. cbn [andb] in C.
      exfalso. apply negb_true_iff in C.
      assert (existsb isPyramid types = true); [|congruence]. apply existsb_exists. exists t'. split; [exact I|].
      destruct (same_type_preds _ _ ST) as [-> _]. reflexivity.
    + left. reflexivity.
Qed.

(** The continuous Lagrange basis of any order: it satisfies the contract of a
    leaf basis, the indices of an element are pairwise different, and two DOFs
    share a global index iff they sit at the same Lagrange point. *)
Theorem C28_lagrange_indices : forall (E X : Type) (els : E -> Prop) (g : grid E X) (mp : mapper X)
    (vertexIndex : X -> nat) (ref : E -> refelem) (vid : E -> nat -> nat) (k : nat) (types : list gt) (keys : E -> list localkey),
  1 <= g_dim g <= 3 -> grid_ok els g -> ids_ok els g ref vid -> types_ok els g types ->
  lagrange_ctor g k types = true ->
  let lay := fun t => lagrange_layout k t (g_dim g) in
  mapper_ok els g lay mp -> keys_ok els g lay keys ->
  (* order 1 uses the vertex indices of the grid view, which are consecutive *)
  (k = 1 -> mapper_ok els g lay (MAP (mp_size mp) vertexIndex)) ->
  let l := lagrange_leaf g mp vertexIndex ref vid k keys in
  leaf_ok els l /\
  (forall e, els e -> NoDup (lf_indices l e)) /\
  (forall e a s c i e' a' s' c' i',
     els e -> els e' ->
     nth_error (keys e) a = Some (s, c, i) -> nth_error (keys e') a' = Some (s', c', i') ->
     exists n n', nth_error (lf_indices l e) a = Some n /\ nth_error (lf_indices l e') a' = Some n' /\
       (n = n' <-> same_lagrange_point g ref vid k e s c i e' s' c' i')).
Proof.
  intros E X els g mp vi ref vid k types keys HD HG HI HT HC lay HM HK HV l.
  unfold lagrange_ctor in HC. apply andb_true_iff in HC as [HC HC3].
  assert (H17 : g_dim g = 3 -> k <= 17).
  { intros D. rewrite D in HC3. cbn [Nat.eqb andb] in HC3. unfold maxOrder3d in HC3. destruct (Nat.ltb_spec 17 k); [discriminate HC3|lia]. }
  set (mp' := if k =? 1 then MAP (mp_size mp) vi else mp).
  assert (HM' : mapper_ok els g lay mp') by (unfold mp'; destruct (Nat.eqb_spec k 1); auto).
  assert (SZ : mp_size mp' = mp_size mp) by (unfold mp'; destruct (k =? 1); reflexivity).
  set (perm := fun e s c i => o <- computeFaceOrientations (g_dim g) k (ref e) (vid e) ;; permuteFaceDOF (g_dim g) k s c i o).
  assert (KE : forall e s c i, els e -> In (s, c, i) (keys e) -> exists t, entity els g (g_sub g e s c) t /\ i < lay t /\ subtype g e s c t).
  { intros e s c i He I. apply (HK e He) in I as (t & Ht & Hi). exists t. split; [exists e, s, c; auto|auto]. }
  assert (PS : forall e s c i, els e -> In (s, c, i) (keys e) -> exists j, perm e s c i = Some j).
  { intros e s c i He I. destruct (KE _ _ _ _ He I) as (t & _ & Hi & St).
    destruct (perm_spec els g ref vid k HD HG HI H17 e s c t i He St Hi) as (j & P & _). exists j. exact P. }
  (* the indices in terms of perm *)
  assert (IX : forall e, els e -> length (lf_indices l e) = length (keys e) /\
     forall a s c i, nth_error (keys e) a = Some (s, c, i) ->
       exists j, perm e s c i = Some j /\ nth_error (lf_indices l e) a = Some (mp_off mp' (g_sub g e s c) + j)).
  { intros e He. cbn [l lagrange_leaf lf_indices]. unfold lagrange_indices, mp'.
    destruct (Nat.eqb_spec k 1) as [K|K].
    - split; [apply map_length|]. intros a s c i Ka. unfold localkey in *. rewrite nth_error_map_eq, Ka.
      assert (I := nth_error_In _ _ Ka). destruct (KE _ _ _ _ He I) as (t & _ & Hi & St).
      assert (c = g_dim g /\ i = 0) as [-> ->].
      { unfold lay in Hi. rewrite K in Hi. pose proof (subtypes_dim _ _ _ _ St) as D. rewrite (go_dim _ _ HG e He) in D.
        assert (gt_dim t = 0).
        { destruct (Nat.eq_dec (gt_dim t) 0) as [|Z]; [assumption|]. exfalso. unfold lagrange_layout in Hi. cbn [Nat.eqb] in Hi.
          destruct (isSimplex t); [change (1 - 1) with 0 in Hi; destruct (gt_dim t); [lia|cbn in Hi; lia]|].
          destruct (isCube t); [change (1 - 1) with 0 in Hi; rewrite Nat.pow_0_l in Hi by exact Z; lia|].
          change (1 <? 1) with false in Hi. rewrite andb_false_r in Hi. destruct (isPyramid t); lia. }
        split; [lia|]. destruct t; [|discriminate]. cbn in Hi. lia. }
      exists 0. split; [|cbn [option_map mp_off]; f_equal; lia].
      unfold perm. destruct (compute_some (g_dim g) k (ref e) (vid e) HD (io_refelem _ _ _ _ HI e He)) as (o & ->). cbn [obind].
      apply permute_other; [exact HD|lia|lia].
    - destruct (compute_some (g_dim g) k (ref e) (vid e) HD (io_refelem _ _ _ _ HI e He)) as (o & Ho). rewrite Ho. cbn [obind].
      assert (PO : forall s c i, permuteFaceDOF (g_dim g) k s c i o = perm e s c i) by (intros; unfold perm; rewrite Ho; reflexivity).
      match goal with |- context [all_some ?M] => set (L := M) end. destruct (all_some_total L) as (xs & Hxs).
      { intros op I. apply in_map_iff in I as ([[s c] i] & <- & I). rewrite PO. destruct (PS e s c i He I) as (j & ->). discriminate. }
      rewrite Hxs. split; [rewrite (all_some_length _ _ Hxs); apply map_length|].
      intros a s c i Ka. assert (I := nth_error_In _ _ Ka). destruct (PS e s c i He I) as (j & Hj). exists j. split; [exact Hj|].
      pose proof (all_some_nth _ _ Hxs a) as Na. unfold L in Na. unfold localkey in *. rewrite nth_error_map_eq, Ka in Na.
      cbn [option_map] in Na. rewrite PO, Hj in Na. cbn [obind] in Na.
      destruct (nth_error xs a) as [x|]; [|discriminate Na]. injection Na as <-. reflexivity. }
  assert (EQ : forall e s c i e' s' c' i' j j', els e -> els e' -> In (s, c, i) (keys e) -> In (s', c', i') (keys e') ->
     perm e s c i = Some j -> perm e' s' c' i' = Some j' ->
     (mp_off mp' (g_sub g e s c) + j = mp_off mp' (g_sub g e' s' c') + j' <-> same_lagrange_point g ref vid k e s c i e' s' c' i')).
  { intros e s c i e' s' c' i' j j' He He' I I' P P'.
    destruct (KE _ _ _ _ He I) as (t & Et & Hi & St). destruct (KE _ _ _ _ He' I') as (t' & Et' & Hi' & St').
    destruct (perm_spec els g ref vid k HD HG HI H17 e s c t i He St Hi) as (j0 & P0 & Lj & _).
    assert (j0 = j) by (unfold perm in P; congruence). subst j0.
    destruct (perm_spec els g ref vid k HD HG HI H17 e' s' c' t' i' He' St' Hi') as (j0 & P0' & Lj' & _).
    assert (j0 = j') by (unfold perm in P'; congruence). subst j0.
    split.
    - intros H.
      assert (Q : g_sub g e s c = g_sub g e' s' c') by (apply (mo_disjoint _ _ _ _ HM' _ _ j _ _ j' Et Et' Lj Lj' H)).
      apply (perm_eq els g ref vid k HD HG HI H17 e s c t i e' s' c' t' i' j j'); trivial. rewrite Q in H. lia.
    - intros H. assert (Q := proj1 H). rewrite Q. f_equal.
      apply (perm_eq els g ref vid k HD HG HI H17 e s c t i e' s' c' t' i' j j'); trivial. }
  assert (NTH : forall e n, els e -> In n (lf_indices l e) -> exists a s c i j, nth_error (keys e) a = Some (s, c, i) /\
     perm e s c i = Some j /\ n = mp_off mp' (g_sub g e s c) + j /\ nth_error (lf_indices l e) a = Some n).
  { intros e n He I. apply In_nth_error in I as (a & Ha). destruct (IX e He) as [Le Hx].
    assert (La : a < length (keys e)) by (rewrite <- Le; apply nth_error_Some; congruence).
    destruct (nth_error_lt_Some (keys e) a La) as ([[s c] i] & Ka).
    destruct (Hx a s c i Ka) as (j & Pj & Nj). exists a, s, c, i, j. split; [exact Ka|]. split; [exact Pj|]. split; [congruence|exact Ha]. }
  split; [|split].
  - constructor.
    + intros e He. apply (IX e He).
    + intros e He. cbn [l lagrange_leaf lf_fe lf_maxnode]. rewrite (keys_count els g lay keys e HK He).
      pose proof (go_dim _ _ HG e He) as Hd. 
      pose proof (C29_layout_matches_shape_functions k (g_type g e) (supported_types _ _ k types Hd HD (HT e He) HC)) as LM.
      rewrite Hd in LM. unfold lay. rewrite LM. rewrite <- Hd. apply C29_maxnode_bounds.
    + intros e n He I. destruct (NTH e n He I) as (a & s & c & i & j & Ka & Pj & -> & _).
      destruct (KE _ _ _ _ He (nth_error_In _ _ Ka)) as (t & Et & Hi & St).
      destruct (perm_spec els g ref vid k HD HG HI H17 e s c t i He St Hi) as (j0 & P0 & Lj & _).
      assert (j0 = j) by (unfold perm in Pj; congruence). subst j0.
      change (lf_dim l) with (mp_size mp). rewrite <- SZ. exact (mo_range _ _ _ _ HM' _ _ _ Et Lj).
    + intros n Hn. change (lf_dim l) with (mp_size mp) in Hn. rewrite <- SZ in Hn.
      destruct (mo_cover _ _ _ _ HM' n Hn) as (x & t & j & (e & s & c & He & St & ->) & Hj & ->).
      exists e. split; [exact He|]. destruct (perm_onto els g ref vid k HD HG HI H17 e s c t j He St Hj) as (i & Hi & Pi).
      assert (I : In (s, c, i) (keys e)) by (apply (HK e He); exists t; auto).
      apply In_nth_error in I as (a & Ka). destruct (IX e He) as [_ Hx]. destruct (Hx a s c i Ka) as (j' & Pj & Nj).
      assert (j' = j) by (unfold perm in Pj; congruence). subst j'. eapply nth_error_In, Nj.
  - intros e He. apply NoDup_nth_error. intros a b La Q.
    destruct (IX e He) as [Le Hx]. rewrite Le in La. destruct (nth_error_lt_Some (keys e) a La) as ([[s c] i] & Ka).
    destruct (Hx a s c i Ka) as (j & Pj & Nj).
    assert (Lb : b < length (keys e)) by (rewrite <- Le; apply nth_error_Some; congruence).
    destruct (nth_error_lt_Some (keys e) b Lb) as ([[s' c'] i'] & Kb). destruct (Hx b s' c' i' Kb) as (j' & Pj' & Nj').
    assert (I := nth_error_In _ _ Ka). assert (I' := nth_error_In _ _ Kb).
    assert (SL : same_lagrange_point g ref vid k e s c i e s' c' i').
    { apply (EQ e s c i e s' c' i' j j' He He I I' Pj Pj'). congruence. }
    destruct (KE _ _ _ _ He I) as (t & _ & Hi & St). destruct (KE _ _ _ _ He I') as (t' & _ & Hi' & St').
    destruct (go_inj _ _ HG e s c t s' c' t' He St St' (proj1 SL)) as [<- <-].
    assert (t' = t) by (unfold subtype in *; congruence). subst t'.
    assert (i = i') by (eapply (same_lagrange_refl_inv els g ref vid k); eassumption). subst i'.
    destruct (HK e He) as [N _]. apply (proj1 (NoDup_nth_error (keys e)) N); [exact La|congruence].
  - intros e a s c i e' a' s' c' i' He He' Ka Ka'.
    destruct (IX e He) as [_ Hx]. destruct (Hx a s c i Ka) as (j & Pj & Nj).
    destruct (IX e' He') as [_ Hx']. destruct (Hx' a' s' c' i' Ka') as (j' & Pj' & Nj').
    eexists. eexists. split; [exact Nj|]. split; [exact Nj'|].
    apply EQ; trivial; eapply nth_error_In; eassumption.
Qed.
Print Assumptions C28_lagrange_indices.

(** * Reference elements and a grid meeting the contracts *)

(** dune-geometry's reference elements, restricted to what the code reads: the
    vertices of edges and facets and the edges of facets. *)
Definition tet_edges := [[0;1];[0;2];[1;2];[0;3];[1;3];[2;3]].
Definition tet_faces := [([0;1;2],[0;1;2]); ([0;1;3],[0;3;4]); ([0;2;3],[1;3;5]); ([1;2;3],[2;4;5])].
Definition hex_edges := [[0;4];[1;5];[2;6];[3;7];[0;2];[1;3];[0;1];[2;3];[4;6];[5;7];[4;5];[6;7]].
Definition hex_faces := [([0;2;4;6],[0;2;4;8]); ([1;3;5;7],[1;3;5;9]); ([0;1;4;5],[0;1;6;10]);
                         ([2;3;6;7],[2;3;7;11]); ([0;1;2;3],[4;5;6;7]); ([4;5;6;7],[8;9;10;11])].
Definition prism_edges := [[0;3];[1;4];[2;5];[0;1];[0;2];[1;2];[3;4];[3;5];[4;5]].
Definition prism_faces := [([0;1;3;4],[0;1;3;6]); ([0;2;3;5],[0;2;4;7]); ([1;2;4;5],[1;2;5;8]);
                           ([0;1;2],[3;4;5]); ([3;4;5],[6;7;8])].
Definition pyr_edges := [[0;2];[1;3];[0;1];[2;3];[0;4];[1;4];[2;4];[3;4]].
Definition pyr_faces := [([0;1;2;3],[0;1;2;3]); ([0;2;4],[0;4;6]); ([1;3;4],[1;5;7]); ([0;1;4],[2;4;5]); ([2;3;4],[3;6;7])].
Definition table3 (edges : list (list nat)) (faces : list (list nat * list nat)) (i c cc : nat) : list nat :=
  match c, cc with
  | 1, 2 => snd (nth i faces ([], []))
  | 1, 3 => fst (nth i faces ([], []))
  | 2, 3 => nth i edges []
  | _, _ => []
  end.
Definition tetrahedron := RE [false; false; false] (table3 tet_edges tet_faces).
Definition hexahedron := RE [true; true; true] (table3 hex_edges hex_faces).
Definition prism := RE [true; false; false] (table3 prism_edges prism_faces).
Definition pyramid := RE [false; true; true] (table3 pyr_edges pyr_faces).
Ltac refelem3 :=
  constructor;
  [ reflexivity | vm_compute; lia | intros _; vm_compute; lia
  | intros e H; vm_compute in H; do 12 (destruct e as [|e]; [try (exfalso; lia); do 2 eexists; reflexivity|]); exfalso; lia
  | intros f t _ H T; assert (L : f < 6) by (apply Nat.lt_le_trans with (1 := proj1 (nth_error_Some _ _) ltac:(rewrite H; discriminate)); vm_compute; lia);
    do 6 (destruct f as [|f]; [vm_compute in H; try discriminate H; injection H as <-; try discriminate T;
      do 6 eexists; repeat split; vm_compute; lia|]); exfalso; lia
  | intros f t _ H T; assert (L : f < 6) by (apply Nat.lt_le_trans with (1 := proj1 (nth_error_Some _ _) ltac:(rewrite H; discriminate)); vm_compute; lia);
    do 6 (destruct f as [|f]; [vm_compute in H; try discriminate H; injection H as <-; try discriminate T;
      do 8 eexists; repeat split; vm_compute; lia|]); exfalso; lia ].
Example C27_tetrahedron : refelem_ok 3 tetrahedron. Proof. refelem3. Qed.
Example C27_hexahedron : refelem_ok 3 hexahedron. Proof. refelem3. Qed.
Example C27_prism : refelem_ok 3 prism. Proof. refelem3. Qed.
Example C27_pyramid : refelem_ok 3 pyramid. Proof. refelem3. Qed.

(** face 3 of a tetrahedron is face 0 of another one, numbered differently *)
Example C27_shared_case :
  let ids := fun i => nth i [7; 4; 9; 2] 0 in
  let ids' := fun i => nth i [9; 2; 4; 11] 0 in
  same_face (faceVertexIds 3 tetrahedron ids 3 1) (faceVertexIds 3 tetrahedron ids' 0 1) /\
  (exists d, faceOrientations 3 tetrahedron ids [2; 1] = Some d /\ faceOrientationIndex 3 d 3 1 = 1) /\
  (exists d, faceOrientations 3 tetrahedron ids' [2; 1] = Some d /\ faceOrientationIndex 3 d 0 1 = 2).
Proof.
  cbv zeta. split; [|split].
  - split; [reflexivity|]. split; [cbn; tauto|]. intros a b.
    change (face_edge [4; 9; 2] a b <-> face_edge [9; 2; 4] a b). rewrite !face_edge_3. lia.
  - eexists. split; reflexivity.
  - eexists. split; reflexivity.
Qed.

(** The triangle and the quadrilateral of [ex_grid]; vertex [v] has id [20 - v].
    The quadrilateral numbers the shared edge 2 -> 1, the triangle 1 -> 2. *)
Definition ex_subL (e : bool) (i c : nat) : nat :=
  if e && (c =? 2) then nth i [2; 3; 1; 4] 0 else ex_sub e i c.
Definition ex_gridL : grid bool nat := GRID 2 (g_type ex_grid) ex_subL.
Definition ex_ref (e : bool) : refelem :=
  if e then RE [true; true] (fun i c cc => match c, cc with 1, 2 => nth i [[0;2];[1;3];[0;1];[2;3]] [] | _, _ => [] end)
  else RE [false; false] (fun i c cc => match c, cc with 1, 2 => nth i [[0;1];[0;2];[1;2]] [] | _, _ => [] end).
Definition ex_vid (e : bool) (i : nat) : nat := 20 - ex_subL e i 2.
Definition ex_layL (t : gt) : nat := lagrange_layout 3 t 2.
Definition ex_mpL : mapper nat :=
  MAP 22 (fun x => if x <? 5 then x else if x <? 11 then 5 + 2 * (x - 5) else if x =? 11 then 17 else 18).
Definition ex_keysL (e : bool) : list localkey := all_keys ex_layL (g_type ex_gridL e).

Lemma ex_subtypesL e i c t : subtype ex_gridL e i c t -> In (e, i, c, t) ex_table.
Proof. apply ex_subtypes. Qed.
Example C28_grid_ok : grid_ok all_els ex_gridL.
Proof.
  constructor.
  - intros [] _; reflexivity.
  - intros e i c t i' c' t' _ H H' Q.
    apply ex_subtypesL in H; cbn [ex_table In] in H. apply ex_subtypesL in H'; cbn [ex_table In] in H'.
    repeat (destruct H as [H|H]; [injection H as <- <- <- <-;
      repeat (destruct H' as [H'|H']; [try discriminate H'; injection H' as <- <- <-; cbn in Q; try discriminate Q; split; reflexivity|]); destruct H'|]).
    destruct H.
  - intros e i c t e' i' c' t' _ _ H H' Q.
    apply ex_subtypesL in H; cbn [ex_table In] in H. apply ex_subtypesL in H'; cbn [ex_table In] in H'.
    repeat (destruct H as [H|H]; [injection H as <- <- <- <-;
      repeat (destruct H' as [H'|H']; [injection H' as <- <- <- <-; cbn in Q; try discriminate Q; repeat split; reflexivity|]); destruct H'|]).
    destruct H.
Qed.
Example C28_refelem_ok : forall e, refelem_ok 2 (ex_ref e).
Proof.
  intros e. constructor; try (intros; discriminate).
  - destruct e; reflexivity.
  - destruct e; vm_compute; lia.
  - intros i H. destruct e; vm_compute in H; do 4 (destruct i as [|i]; [try (exfalso; lia); do 2 eexists; reflexivity|]); exfalso; lia.
Qed.
Example C28_ids_ok : ids_ok all_els ex_gridL ex_ref ex_vid.
Proof.
  constructor.
  - intros [] _; reflexivity.
  - intros e _ _. apply C28_refelem_ok.
  - intros e s c _ Hc Hs. change (g_dim ex_gridL) with 2 in Hc. assert (c = 1) by lia. subst c.
    destruct e; vm_compute in Hs; do 4 (destruct s as [|s]; [try (exfalso; lia); vm_compute; repeat constructor; cbn; lia|]); exfalso; lia.
  - intros e s c e' s' _ _ Hc Hs Hs' Q. change (g_dim ex_gridL) with 2 in Hc. assert (c = 1) by lia. subst c.
    assert (Sw : forall a b, same_face [a; b] [b; a]).
    { intros a b. split; [reflexivity|]. split; [cbn; tauto|]. intros x y. rewrite !face_edge_2. tauto. }
    destruct e, e'; vm_compute in Hs, Hs';
      do 4 (destruct s as [|s]; [try (exfalso; lia);
        do 4 (destruct s' as [|s']; [try (exfalso; lia); vm_compute in Q; try discriminate Q; first [apply same_face_refl|apply Sw]|]); exfalso; lia|]); exfalso; lia.
Qed.
Example C28_ctor : lagrange_ctor ex_gridL 3 [[true; true]; [false; false]] = true. Proof. reflexivity. Qed.
Example C28_types_ok : types_ok all_els ex_gridL [[true; true]; [false; false]].
Proof. exact C30_types_ok. Qed.
Example C28_keys_ok : keys_ok all_els ex_gridL ex_layL ex_keysL.
Proof. intros e _. split; [apply all_keys_nodup|]. intros i c n. unfold ex_keysL. rewrite all_keys_in. reflexivity. Qed.
Ltac ev :=
  repeat match goal with
  | |- context [ex_layL ?t] => let r := eval vm_compute in (ex_layL t) in change (ex_layL t) with r
  | |- context [mp_off ex_mpL ?x] => let r := eval vm_compute in (mp_off ex_mpL x) in change (mp_off ex_mpL x) with r
  end.
Example C28_mapper_ok : mapper_ok all_els ex_gridL ex_layL ex_mpL.
Proof.
  assert (D : forall x t, entity all_els ex_gridL x t ->
    (x < 5 /\ ex_layL t = 1) \/ (5 <= x < 11 /\ ex_layL t = 2) \/ (x = 11 /\ ex_layL t = 1) \/ (x = 12 /\ ex_layL t = 4)).
  { intros x t (e & i & c & _ & H & ->). apply ex_subtypesL in H; cbn [ex_table In] in H;
    repeat (destruct H as [H|H]; [injection H as <- <- <- <-; vm_compute; lia|]); destruct H. }
  constructor.
  - intros x t i H Hi. destruct (D x t H) as [[L W]|[[L W]|[[L W]|[L W]]]]; rewrite W in Hi; cbn [ex_mpL mp_off mp_size];
      destruct (Nat.ltb_spec x 5), (Nat.ltb_spec x 11), (Nat.eqb_spec x 11); lia.
  - intros x t i y t' j H H' Hi Hj Q. cbn [ex_mpL mp_off] in Q.
    destruct (D x t H) as [[L W]|[[L W]|[[L W]|[L W]]]]; rewrite W in Hi;
    destruct (D y t' H') as [[L' W']|[[L' W']|[[L' W']|[L' W']]]]; rewrite W' in Hj;
      destruct (Nat.ltb_spec x 5), (Nat.ltb_spec x 11), (Nat.eqb_spec x 11); try lia;
      destruct (Nat.ltb_spec y 5), (Nat.ltb_spec y 11), (Nat.eqb_spec y 11); lia.
  - intros n Hn. cbn [ex_mpL mp_size] in Hn.
    assert (S : forall e s c t i, nth_error (subtypes (g_type ex_gridL e) c) s = Some t -> i < ex_layL t ->
      n = mp_off ex_mpL (ex_subL e s c) + i -> exists x t i, entity all_els ex_gridL x t /\ i < ex_layL t /\ n = mp_off ex_mpL x + i).
    { intros e s c t i H Hi ->. exists (ex_subL e s c), t, i. split; [exists e, s, c; repeat split; exact H|auto]. }
    destruct (le_lt_dec n 4).
    { do 5 (destruct n as [|n]; [first [apply (S false 0 2 [] 0); [reflexivity|vm_compute; lia|reflexivity]
        |apply (S false 1 2 [] 0); [reflexivity|vm_compute; lia|reflexivity]|apply (S false 2 2 [] 0); [reflexivity|vm_compute; lia|reflexivity]
        |apply (S true 1 2 [] 0); [reflexivity|vm_compute; lia|reflexivity]|apply (S true 3 2 [] 0); [reflexivity|vm_compute; lia|reflexivity]]|]). lia. }
    destruct (le_lt_dec 18 n). { apply (S true 0 0 [true; true] (n - 18)); [reflexivity|ev; lia|ev; lia]. }
    destruct (Nat.eq_dec n 17). { apply (S false 0 0 [false; false] 0); [reflexivity|ev; lia|ev; lia]. }
    destruct (le_lt_dec 15 n). { apply (S true 3 1 [true] (n - 15)); [reflexivity|ev; lia|ev; lia]. }
    destruct (le_lt_dec 13 n). { apply (S true 2 1 [true] (n - 13)); [reflexivity|ev; lia|ev; lia]. }
    destruct (le_lt_dec 11 n). { apply (S true 1 1 [true] (n - 11)); [reflexivity|ev; lia|ev; lia]. }
    destruct (le_lt_dec 9 n). { apply (S false 2 1 [false] (n - 9)); [reflexivity|ev; lia|ev; lia]. }
    destruct (le_lt_dec 7 n). { apply (S false 1 1 [false] (n - 7)); [reflexivity|ev; lia|ev; lia]. }
    apply (S false 0 1 [false] (n - 5)); [reflexivity|ev; lia|ev; lia].
Qed.
(** the DOFs of the shared edge are numbered in opposite directions locally *)
Example C28_case :
  lagrange_indices ex_gridL ex_mpL (fun x => x) ex_ref ex_vid 3 [(2, 1, 0); (2, 1, 1)] false = Some [10; 9] /\
  lagrange_indices ex_gridL ex_mpL (fun x => x) ex_ref ex_vid 3 [(0, 1, 0); (0, 1, 1)] true = Some [9; 10].
Proof. split; reflexivity. Qed.
