From Coq Require Import List Arith Lia Bool Reals Lra Permutation.
From Verif Require Import Lib Basis_model Basis_spec Basis_ok Basis_view Basis_proofs Basis_props Container_model Container_spec FlatVector_model FlatVector_props
  DiscreteFunction_model DiscreteFunction_spec DiscreteFunction_proofs
  GeometryType_model Mapper_model Mapper_spec Mapper_props Lagrange_model Lagrange_spec Lagrange_tables Lagrange_proofs Lagrange_props
  Conforming_spec Conforming_proofs Conforming_shapes Conforming_refs Conforming_props Families_model Families_spec Families_props GeometryType_props SimplexFunctions_spec.
Import ListNotations.

Lemma perm_ids (f f' : nat -> nat) (F F' : nat -> R) vs vs' : NoDup (map f vs) -> NoDup (map f' vs') ->
  (forall i, In i (map f vs) <-> In i (map f' vs')) ->
  (forall v v', In v vs -> In v' vs' -> f v = f' v' -> F v = F' v') -> Permutation (map F vs) (map F' vs').
Proof.
  intros N N' S H.
  assert (Q : Permutation (map (fun v => (f v, F v)) vs) (map (fun v => (f' v, F' v)) vs')).
  { apply NoDup_Permutation; auto using NoDup_pairs. intros [i r]. split; intros I.
    - apply in_map_iff in I as (v & [= <- <-] & I). assert (J : In (f v) (map f' vs')) by (apply S, in_map, I).
      apply in_map_iff in J as (v' & Q & J). apply in_map_iff. exists v'. split; auto. rewrite Q. f_equal. symmetry. auto.
    - apply in_map_iff in I as (v & [= <- <-] & I). assert (J : In (f' v) (map f vs)) by (apply S, in_map, I).
      apply in_map_iff in J as (v' & Q & J). apply in_map_iff. exists v'. split; auto. rewrite Q. f_equal. auto. }
  apply (Permutation_map snd) in Q. now rewrite !map_map in Q.
Qed.
Lemma memb_In v l : memb v l = true <-> In v l.
Proof. unfold memb. rewrite existsb_exists. split; [intros (x & I & Q); apply Nat.eqb_eq in Q; now subst|intros I; exists v; split; auto; apply Nat.eqb_refl]. Qed.
Lemma others_In v vs all : In v (others vs all) <-> In v all /\ ~ In v vs.
Proof. unfold others. rewrite filter_In, negb_true_iff, <- (memb_In v vs), not_true_iff_false. reflexivity. Qed.
Lemma NoDup_map_filter {A} (f : A -> nat) p l : NoDup (map f l) -> NoDup (map f (filter p l)).
Proof.
  induction l as [|a l IH]; cbn; intros N; auto. inversion N as [|? ? N1 N2]; subst. specialize (IH N2). destruct (p a); auto. cbn. constructor; auto.
  intros I. apply N1. apply in_map_iff in I as (x & Q & I). apply filter_In in I as [I _]. apply in_map_iff. eauto.
Qed.
Lemma map_inj_In {A} (f : A -> nat) l u v : NoDup (map f l) -> In u l -> In v l -> f u = f v -> u = v.
Proof.
  intros N Hu Hv Q. apply In_nth_error in Hu as (i & Hi). apply In_nth_error in Hv as (j & Hj).
  assert (i = j).
  { apply (proj1 (NoDup_nth_error _) N); [rewrite map_length; apply nth_error_Some; congruence|]. rewrite !nth_error_map_eq, Hi, Hj. cbn. congruence. }
  subst. congruence.
Qed.

Section Traces.
Context {E X P : Type}.
Variables (els : E -> Prop) (g : grid E X) (ref : E -> refelem) (vid : E -> nat -> nat) (keys : E -> list localkey) (l : leaf E).
Hypothesis HD : 1 <= g_dim g.
Hypothesis HG : grid_ok els g.
Hypothesis HI : ids_ok els g ref vid.
Hypothesis HF : faces_ok els g ref vid.
Variable n : gt -> nat.
Hypothesis Hn1 : forall e s c t, els e -> 0 < c -> subtype g e s c t -> n t <= 1.
Hypothesis Hnlay : layout_ok n.
Hypothesis HK : keys_ok els g n keys.
Hypothesis HN : numbered els g keys l.
Hypothesis Hfe : forall e, els e -> lf_fe l e = length (keys e).
Variable bary : E -> P -> nat -> R.
Variable shape : E -> P -> list R.
Variable trace : list R -> list R -> R.
Hypothesis Hsym : forall a a' r r', Permutation a a' -> Permutation r r' -> trace a r = trace a' r'.
Hypothesis Htrace : forall e x s c t a s1 c1 i1 t1, els e -> 0 < c -> subtype g e s c t -> on_face g ref bary e x s c ->
  nth_error (keys e) a = Some (s1, c1, i1) -> subtype g e s1 c1 t1 -> part_of g ref e s1 c1 s c ->
  nth a (shape e x) 0%R = trace (map (bary e x) (vertices g ref e s1 c1)) (map (bary e x) (others (vertices g ref e s1 c1) (vertices g ref e s c))).
Hypothesis Hzero : forall e x s c t a s1 c1 i1 t1, els e -> 0 < c -> subtype g e s c t -> on_face g ref bary e x s c ->
  nth_error (keys e) a = Some (s1, c1, i1) -> subtype g e s1 c1 t1 -> ~ part_of g ref e s1 c1 s c -> nth a (shape e x) 0%R = 0%R.
Let verts := @vertices E X g ref.

Lemma sub_le e s c t : els e -> subtype g e s c t -> c <= g_dim g.
Proof. intros He Hs. pose proof (sub_dim els g e s c t HG He Hs). lia. Qed.
Lemma vs_nodup e s c t : els e -> 0 < c -> subtype g e s c t -> NoDup (map (vid e) (verts e s c)).
Proof.
  intros He Hc Hs. pose proof (sub_le e s c t He Hs).
  assert (Ls : s < length (subtypes (g_type g e) c)) by (apply nth_error_Some; unfold subtype in Hs; congruence).
  destruct (Nat.eq_dec c (g_dim g)) as [->|]; [|apply (io_distinct _ _ _ _ HI e s c He); auto; lia].
  unfold verts. rewrite (fo_vertex _ _ _ _ HF e s t He Hs). cbn. repeat constructor. intros [].
Qed.
Lemma vs_same e s c t e' s' t' : els e -> els e' -> 0 < c -> subtype g e s c t -> subtype g e' s' c t' ->
  g_sub g e s c = g_sub g e' s' c -> forall i, In i (map (vid e) (verts e s c)) <-> In i (map (vid e') (verts e' s' c)).
Proof.
  intros He He' Hc Hs Hs' Q. pose proof (sub_le e s c t He Hs).
  assert (Ls : s < length (subtypes (g_type g e) c)) by (apply nth_error_Some; unfold subtype in Hs; congruence).
  assert (Ls' : s' < length (subtypes (g_type g e') c)) by (apply nth_error_Some; unfold subtype in Hs'; congruence).
  destruct (Nat.eq_dec c (g_dim g)) as [->|].
  - unfold verts. rewrite (fo_vertex _ _ _ _ HF e s t He Hs), (fo_vertex _ _ _ _ HF e' s' t' He' Hs'). cbn.
    now rewrite (fo_id _ _ _ _ HF e s t e' s' t' He He' Hs Hs' Q).
  - destruct (io_shared _ _ _ _ HI e s c e' s' He He') as (_ & I & _); auto. lia.
Qed.
Lemma key_type e a s1 c1 i1 : els e -> nth_error (keys e) a = Some (s1, c1, i1) -> exists t1, subtype g e s1 c1 t1 /\ i1 < n t1.
Proof. intros He Ka. apply nth_error_In in Ka. now apply (HK e He) in Ka. Qed.

Lemma traces_partner e x s c t e' x' s' t' a m : els e -> els e' -> 0 < c -> subtype g e s c t -> subtype g e' s' c t' ->
  same_location g ref vid bary c e x s e' x' s' -> nth_error (lf_indices l e) a = Some m -> nth a (shape e x) 0%R <> 0%R ->
  exists a', nth_error (lf_indices l e') a' = Some m /\ nth a' (shape e' x') 0%R = nth a (shape e x) 0%R.
Proof.
  intros He He' Hc Hs Hs' (Q & Ox & Ox' & SL) Ha Hnz. destruct HN as (LK & LN & LI).
  assert (La : a < length (keys e)) by (rewrite <- (Hfe e He), <- (lok_size _ _ LK e He); apply nth_error_Some; congruence).
  destruct (nth_error_lt_Some _ _ La) as ([[s1 c1] i1] & Ka). destruct (key_type e a s1 c1 i1 He Ka) as (t1 & Ht1 & Hi1).
  assert (PO : part_of g ref e s1 c1 s c).
  { destruct (le_dec c c1) as [C|C]; [destruct (incl_or (vertices g ref e s1 c1) (vertices g ref e s c)) as [I|I]|].
    1: split; auto.
    all: exfalso; apply Hnz; eapply (Hzero e x s c t a s1 c1 i1 t1); eauto; intros [? ?]; auto. }
  destruct (fo_closed _ _ _ _ HF e s c t e' s' t' s1 c1 t1 He He' Hc Hs Hs' Q Ht1 PO) as (s1' & t1' & Ht1' & Q1 & PO').
  destruct (go_type _ _ HG _ _ _ _ _ _ _ _ He He' Ht1 Ht1' Q1) as [ST _].
  assert (C1 : 0 < c1) by (destruct PO; lia).
  assert (i1 = 0) by (pose proof (Hn1 e s1 c1 t1 He C1 Ht1); lia). subst i1.
  assert (I2 : In (s1', c1, 0) (keys e')) by (apply (HK e' He'); exists t1'; split; auto; rewrite <- (Hnlay _ _ ST); exact Hi1).
  apply In_nth_error in I2 as (a' & Ka').
  destruct (LI e a s1 c1 0 e' a' s1' c1 0 He He' Ka Ka') as (m0 & m' & Hm & Hm' & QM). rewrite Ha in Hm. injection Hm as <-.
  assert (m = m') by (apply QM; auto). subst m'. exists a'. split; auto.
  rewrite (Htrace e x s c t a s1 c1 0 t1); auto. rewrite (Htrace e' x' s' c t' a' s1' c1 0 t1'); auto.
  pose proof (vs_nodup e s c t He Hc Hs) as N. pose proof (vs_nodup e' s' c t' He' Hc Hs') as N'.
  pose proof (vs_same e s c t e' s' t' He He' Hc Hs Hs' Q) as S. pose proof (vs_same e s1 c1 t1 e' s1' t1' He He' C1 Ht1 Ht1' Q1) as S1.
  destruct PO as [_ PI], PO' as [_ PI']. symmetry. apply Hsym.
  - apply (perm_ids (vid e) (vid e')); [apply (vs_nodup e s1 c1 t1); auto|apply (vs_nodup e' s1' c1 t1'); auto|exact S1|].
    intros v v' J J' QV. apply SL; auto.
  - apply (perm_ids (vid e) (vid e')).
    + now apply NoDup_map_filter.
    + now apply NoDup_map_filter.
    + assert (G : forall e0 s0 e1 s2 (vs0 vs1 : list nat), NoDup (map (vid e0) (verts e0 s0 c)) -> NoDup (map (vid e1) (verts e1 s2 c)) ->
          (forall i, In i (map (vid e0) (verts e0 s0 c)) -> In i (map (vid e1) (verts e1 s2 c))) ->
          (forall i, In i (map (vid e1) vs1) -> In i (map (vid e0) vs0)) -> incl vs0 (verts e0 s0 c) ->
          forall i, In i (map (vid e0) (others vs0 (verts e0 s0 c))) -> In i (map (vid e1) (others vs1 (verts e1 s2 c)))).
      { intros e0 s0 e1 s2 vs0 vs1 N0 N1 A B I0 i I. apply in_map_iff in I as (v & <- & I). apply others_In in I as [I NI].
        assert (J := A _ (in_map (vid e0) _ _ I)). apply in_map_iff in J as (v' & QV & J). apply in_map_iff. exists v'. split; auto.
        apply others_In. split; auto. intros K. assert (K' := B _ (in_map (vid e1) _ _ K)). rewrite QV in K'. apply in_map_iff in K' as (u & QU & U).
        apply NI. rewrite <- (map_inj_In (vid e0) (verts e0 s0 c) u v); auto. }
      intros i. split; apply G; auto; intros j; first [apply S|apply S1].
    + intros v v' J J' QV. apply others_In in J as [J _], J' as [J' _]. apply SL; auto.
Qed.

Lemma traces_single_valued e x s c t e' x' s' t' m : els e -> els e' -> 0 < c -> subtype g e s c t -> subtype g e' s' c t' ->
  same_location g ref vid bary c e x s e' x' s' ->
  basis_value (length (keys e)) (lf_indices l e) (fun a => nth a (shape e x) 0%R) m =
  basis_value (length (keys e')) (lf_indices l e') (fun a => nth a (shape e' x') 0%R) m.
Proof.
  assert (Z0 : forall e x s t e' x' s' t', els e -> els e' -> 0 < c -> subtype g e s c t -> subtype g e' s' c t' ->
    same_location g ref vid bary c e x s e' x' s' ->
    basis_value (length (keys e)) (lf_indices l e) (fun a => nth a (shape e x) 0%R) m = 0%R \/
    basis_value (length (keys e)) (lf_indices l e) (fun a => nth a (shape e x) 0%R) m =
    basis_value (length (keys e')) (lf_indices l e') (fun a => nth a (shape e' x') 0%R) m).
  { clear e x s t e' x' s' t'. intros e x s t e' x' s' t' He He' Hc Hs Hs' SL. destruct HN as (LK & LN & LI).
    destruct (in_dec Nat.eq_dec m (lf_indices l e)) as [I|I]; [|left; now apply basis_value_none].
    assert (LL : forall e, els e -> length (lf_indices l e) = length (keys e)) by (intros; rewrite (lok_size _ _ LK), Hfe; auto).
    apply In_nth_error in I as (a & Ha). rewrite (basis_value_at _ _ _ m a (LN e He)); auto.
    destruct (Req_dec (nth a (shape e x) 0%R) 0) as [Z|Z]; [now left|right].
    destruct (traces_partner e x s c t e' x' s' t' a m He He' Hc Hs Hs' SL Ha Z) as (a' & Ha' & <-).
    symmetry. exact (basis_value_at _ _ (fun a => nth a (shape e' x') 0%R) m a' (LN e' He') (LL e' He') Ha'). }
  intros He He' Hc Hs Hs' SL. destruct (Z0 e x s t e' x' s' t' He He' Hc Hs Hs' SL) as [Z|Z]; auto.
  assert (SL' : same_location g ref vid bary c e' x' s' e x s).
  { destruct SL as (A & B & C & D). repeat split; auto. intros v v' H H' QV. symmetry. auto. }
  destruct (Z0 e' x' s' t' e x s t He' He Hc Hs' Hs SL') as [Z'|Z']; congruence.
Qed.
End Traces.

(** Discrete functions follow the basis functions. *)
Lemma agree_of_basis {E P : Type} (els : E -> Prop) (b : bexpr E) path (su : setup E P) p (l : leaf E) (size : E -> nat) shape e x e' x' :
  setup_ok b path els su -> leaf_at b (path ++ p) = Some l -> scalar_leaf els su p shape ->
  (forall e x, els e -> length (shape e x) = size e) -> els e -> els e' ->
  (forall m, basis_value (size e) (lf_indices l e) (fun a => nth a (shape e x) 0%R) m =
             basis_value (size e') (lf_indices l e') (fun a => nth a (shape e' x') 0%R) m) ->
  agree b path su p e x e' x'.
Proof.
  intros OKS Hl (Hd & Hsh) Hsz He He' B cf y y' v n v' n' V V' Lf Lf' NZ NZ'.
  apply (C63_functions_follow_basis_functions b path els su OKS cf e x y v n e' x' y' v' n' p l); auto.
  intros k0 g0 Hk0. rewrite Hd in Hk0. assert (k0 = 0) by lia. subst k0.
  assert (Q : forall e0 v0 n0 x0, els e0 -> leaf_of b path e0 v0 p n0 -> node_size n0 <> 0 ->
    node_size n0 = size e0 /\ forall i, shape_of su e0 p x0 i 0 = nth i (shape e0 x0) 0%R).
  { intros e0 v0 n0 x0 H0 L0 N0. destruct (so_shape _ _ _ _ OKS e0 v0 p n0 x0 H0 L0) as [A _]. rewrite (Hsh e0 x0 H0), map_length in A.
    split; [rewrite <- A; auto|]. intros i. unfold shape_of. rewrite (Hsh e0 x0 H0).
    destruct (Nat.lt_ge_cases i (length (shape e0 x0))) as [Li|Li].
    - rewrite (nth_indep _ [] [0%R]) by (rewrite map_length; lia). now rewrite (map_nth (fun r => [r]) (shape e0 x0) 0%R i).
    - rewrite (nth_overflow (shape e0 x0)) by lia. rewrite (nth_overflow (map (fun r => [r]) (shape e0 x0))) by (rewrite map_length; lia). reflexivity. }
  destruct (Q e v n x He Lf NZ) as [S1 F1]. destruct (Q e' v' n' x' He' Lf' NZ') as [S2 F2].
  assert (BV : forall sz idx (f1 f2 : nat -> R), (forall i, f1 i = f2 i) -> basis_value sz idx f1 g0 = basis_value sz idx f2 g0).
  { intros sz idx f1 f2 Hf. apply rsum_ext. intros a _. destruct (nth_error idx a); auto. destruct (_ =? _); auto. }
  rewrite (BV _ _ _ _ F1), (BV _ _ _ _ F2), S1, S2. apply B.
Qed.

(** * Simplices *)
Section Simplex.
Context {E X P : Type}.
Variables (els : E -> Prop) (g : grid E X) (ref : E -> refelem) (vid : E -> nat -> nat).
Hypothesis HR : forall e, els e -> In (g_dim g, ref e) simplices.
Hypothesis HI : ids_ok els g ref vid.

Lemma simplex_sides e : els e -> sides_ok g ref (fun e => sides_of (ref e)) e /\ forall S, In S (sides_of (ref e)) -> exists v, S = [v].
Proof.
  intros He. specialize (HR e He). split.
  - apply (reference_sides g ref e (ref e)); auto.
    + cbn [simplices In] in HR |- *. tauto.
    + symmetry. apply (io_type _ _ _ _ HI); auto.
  - cbn [simplices In] in HR. intros S HS.
    destruct HR as [Q|[Q|[Q|[]]]]; injection Q as _ Q; rewrite <- Q in HS; cbn in HS; repeat (destruct HS as [<-|HS]; [eauto|]); destruct HS.
Qed.
Lemma simplex_outside e s c t s1 c1 t1 : els e -> 0 < c -> subtype g e s c t -> subtype g e s1 c1 t1 -> ~ part_of g ref e s1 c1 s c ->
  exists v, In v (vertices g ref e s1 c1) /\ ~ In v (vertices g ref e s c).
Proof.
  intros He Hc Hs Hs1 NP. destruct (simplex_sides e He) as [SO ST].
  destruct (si_separate _ _ _ _ SO s c t s1 c1 t1 Hc Hs Hs1 NP) as (S & IS & M & D). destruct (ST S IS) as (v & ->).
  assert (MI : forall F u, In u (meet F [v]) <-> In u F /\ u = v).
  { intros F u. unfold meet. rewrite filter_In, memb_In. cbn. intuition. }
  exists v. split.
  - destruct D as [->|D].
    + assert (s1 = 0) as ->.
      { unfold subtype in Hs1. rewrite subtypes_0 in Hs1. destruct s1; auto. cbn in Hs1. destruct s1; discriminate. }
      destruct (si_nodup _ _ _ _ SO) as [_ A]. destruct (A [v] IS) as [_ B]. apply B. now left.
    + destruct (meet (vertices g ref e s1 c1) [v]) as [|u r] eqn:Q; [congruence|].
      assert (J : In u (meet (vertices g ref e s1 c1) [v])) by (rewrite Q; now left). apply MI in J as [J ->]. exact J.
  - intros J. assert (K : In v (meet (vertices g ref e s c) [v])) by (apply MI; auto). rewrite M in K. destruct K.
Qed.
Lemma face_sub e s c t : els e -> 0 < c -> subtype g e s c t ->
  NoDup (vertices g ref e 0 0) /\ NoDup (vertices g ref e s c) /\ incl (vertices g ref e s c) (vertices g ref e 0 0).
Proof.
  intros He Hc Hs. destruct (simplex_sides e He) as [SO _]. destruct (si_nodup _ _ _ _ SO) as [A _].
  destruct (si_face _ _ _ _ SO s c t Hc Hs) as (B & C & _). auto.
Qed.
End Simplex.

Lemma product_zero l : In 0%R l -> product l = 0%R.
Proof. induction l as [|a l IH]; intros []; unfold product in *; cbn; [subst; ring|rewrite IH; auto; ring]. Qed.
Lemma sum_perm l l' : Permutation l l' -> sum l = sum l'.
Proof. unfold sum. induction 1; cbn; try lra; congruence. Qed.
(** Vertices outside the face have weight zero. *)
Lemma sum_zeros (mu : nat -> R) (p : nat -> bool) l : (forall v, In v l -> p v = false -> mu v = 0%R) -> sum (map mu l) = sum (map mu (filter p l)).
Proof.
  induction l as [|a l IH]; intros H; cbn; auto. change (mu a + sum (map mu l) = sum (map mu (if p a then a :: filter p l else filter p l)))%R.
  rewrite IH by (intros; apply H; cbn; auto). destruct (p a) eqn:Q; [reflexivity|]. rewrite (H a) by (cbn; auto). ring.
Qed.
Lemma hat_sym a a' r r' : Permutation a a' -> sum r = sum r' -> hat a r = hat a' r'.
Proof.
  intros Pa Sr. pose proof (Permutation_length Pa) as L. destruct a as [|u [|v [|w a]]], a' as [|u' [|v' [|w' a']]]; try discriminate L; auto.
  - apply Permutation_length_1 in Pa. now subst.
  - apply Permutation_length_2 in Pa as [[-> ->]|[-> ->]]; cbn [hat]; rewrite Sr; auto. now rewrite (Rmin_comm (2 * u') (2 * v')).
Qed.
Lemma hat_zero a r : In 0%R a -> hat a r = 0%R.
Proof.
  destruct a as [|u [|v [|w a]]]; intros I; cbn [hat]; auto; destruct I as [->|I].
  - apply Rmax_left. lra.
  - destruct I.
  - apply Rmax_left. eapply Rle_trans; [apply Rmin_l|]. eapply Rle_trans; [apply Rmin_l|]. lra.
  - destruct I as [->|[]]. apply Rmax_left. eapply Rle_trans; [apply Rmin_l|]. eapply Rle_trans; [apply Rmin_r|]. lra.
Qed.
