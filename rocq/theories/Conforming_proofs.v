From Coq Require Import List Arith Lia Bool Reals Lra Permutation.
From Verif Require Import Lib Basis_model Basis_spec GeometryType_model Mapper_model Mapper_spec Lagrange_model Lagrange_spec Lagrange_proofs Lagrange_tables Lagrange_props
  DiscreteFunction_model DiscreteFunction_proofs Conforming_spec.
Import ListNotations.
#[local] Arguments Nat.ltb : simpl never.

(** * Products *)
Lemma product_perm l l' : Permutation l l' -> product l = product l'.
Proof. unfold product. induction 1; cbn; try lra; congruence. Qed.
Lemma NoDup_pairs {A B} (f : A -> nat) (F : A -> B) l : NoDup (map f l) -> NoDup (map (fun v => (f v, F v)) l).
Proof. intros H. apply (NoDup_map_inv fst). rewrite map_map. exact H. Qed.
Lemma product_ids (f f' : nat -> nat) (F F' : nat -> R) vs vs' : NoDup (map f vs) -> NoDup (map f' vs') ->
  (forall i, In i (map f vs) <-> In i (map f' vs')) ->
  (forall v v', In v vs -> In v' vs' -> f v = f' v' -> F v = F' v') -> product (map F vs) = product (map F' vs').
Proof.
  intros N N' S H.
  assert (Q : Permutation (map (fun v => (f v, F v)) vs) (map (fun v => (f' v, F' v)) vs')).
  { apply NoDup_Permutation; auto using NoDup_pairs. intros [i r]. split; intros I.
    - apply in_map_iff in I as (v & [= <- <-] & I). assert (J : In (f v) (map f' vs')) by (apply S, in_map, I).
      apply in_map_iff in J as (v' & Q & J). apply in_map_iff. exists v'. split; auto. rewrite Q. f_equal. symmetry. auto.
    - apply in_map_iff in I as (v & [= <- <-] & I). assert (J : In (f' v) (map f vs)) by (apply S, in_map, I).
      apply in_map_iff in J as (v' & Q & J). apply in_map_iff. exists v'. split; auto. rewrite Q. f_equal. auto. }
  apply (Permutation_map snd), product_perm in Q. now rewrite !map_map in Q.
Qed.
Lemma quad_cases A B C D A' B' C' D' : NoDup [A; B; C; D] -> NoDup [A'; B'; C'; D'] -> same_face [A; B; C; D] [A'; B'; C'; D'] ->
  In (A', B', C', D') [(A, B, C, D); (A, C, B, D); (B, A, D, C); (B, D, A, C); (C, A, D, B); (C, D, A, B); (D, B, C, A); (D, C, B, A)].
Proof.
  intros N N' (_ & _ & FE).
  assert (N4 : A <> B /\ A <> C /\ A <> D /\ B <> C /\ B <> D /\ C <> D).
  { inversion N as [|? ? H1 H2]; subst. inversion H2 as [|? ? H3 H4]; subst. inversion H4 as [|? ? H5 H6]; subst. cbn in H1, H3, H5. intuition congruence. }
  assert (N4' : B' <> C' /\ A' <> D').
  { inversion N' as [|? ? H1 H2]; subst. inversion H2 as [|? ? H3 H4]; subst. cbn in H1, H3. intuition congruence. }
  destruct N4 as (? & ? & ? & ? & ? & ?). destruct N4' as (? & ?).
  assert (E1 : face_edge [A; B; C; D] A' B') by (apply FE, face_edge_4; auto).
  assert (E2 : face_edge [A; B; C; D] A' C') by (apply FE, face_edge_4; auto).
  assert (E3 : face_edge [A; B; C; D] B' D') by (apply FE, face_edge_4; auto 10).
  apply face_edge_4 in E1, E2, E3. clear FE N N'.
  decompose [or] E1; match goal with H : A' = _ /\ _ |- _ => destruct H as [? ?]; subst A' B' end; clear E1;
    decompose [or] E2; try match goal with H : _ = _ /\ C' = _ |- _ => destruct H as [? ?]; try congruence; subst C' end; clear E2;
    decompose [or] E3; try match goal with H : _ = _ /\ D' = _ |- _ => destruct H as [? ?]; try congruence; subst D' end; try congruence; cbn; auto 10.
Qed.
Lemma face_shape_ids k (f f' : nat -> nat) W W' mu mu' vs vs' : NoDup (map f vs) -> same_face (map f vs) (map f' vs') ->
  (forall v v', In v vs -> In v' vs' -> f v = f' v' -> W v = W' v' /\ mu v = mu' v') ->
  face_shape k vs W mu = face_shape k vs' W' mu'.
Proof.
  intros N S H. pose proof (same_face_nodup _ _ N S) as N'. destruct (S) as (L & I & _). rewrite !map_length in L.
  assert (G : product (map (fun v => factor k (W v / k) (mu v)) vs) = product (map (fun v => factor k (W' v / k) (mu' v)) vs')).
  { apply (product_ids f f'); auto. intros v v' J J' Q. destruct (H v v' J J' Q) as [-> ->]. reflexivity. }
  destruct vs as [|a [|b [|c [|d [|z vs]]]]], vs' as [|a' [|b' [|c' [|d' [|z' vs']]]]]; try discriminate L; auto. clear G.
  cbn [map] in *. pose proof (quad_cases _ _ _ _ _ _ _ _ N N' S) as Q. cbn [face_shape map product fold_right fst snd].
  assert (HW : forall v v', In v [a; b; c; d] -> In v' [a'; b'; c'; d'] -> f' v' = f v -> W' v' = W v) by (intros; symmetry; now apply H).
  assert (HM : forall v v', In v [a; b; c; d] -> In v' [a'; b'; c'; d'] -> f' v' = f v -> mu' v' = mu v) by (intros; symmetry; now apply H).
  cbn [In] in Q.
  destruct Q as [Q|[Q|[Q|[Q|[Q|[Q|[Q|[Q|[]]]]]]]]]; injection Q as Q1 Q2 Q3 Q4; symmetry in Q1, Q2, Q3, Q4;
    match type of Q1 with _ = f ?u => rewrite (HW u a'), (HM u a') by (cbn; auto) end;
    match type of Q2 with _ = f ?u => rewrite (HW u b'), (HM u b') by (cbn; auto) end;
    match type of Q3 with _ = f ?u => rewrite (HW u c'), (HM u c') by (cbn; auto) end;
    match type of Q4 with _ = f ?u => rewrite (HW u d'), (HM u d') by (cbn; auto) end;
    rewrite ?(Nat.add_comm (W b) (W a)), ?(Nat.add_comm (W c) (W a)), ?(Nat.add_comm (W d) (W b)), ?(Nat.add_comm (W d) (W c)),
      ?(Rplus_comm (mu b) (mu a)), ?(Rplus_comm (mu c) (mu a)), ?(Rplus_comm (mu d) (mu b)), ?(Rplus_comm (mu d) (mu c)); ring.
Qed.
Lemma weight_map (f : nat -> nat) : forall L w v, (forall u, In u L -> f u = f v -> u = v) -> weight (map f L) w (f v) = weight L w v.
Proof.
  unfold weight. induction L as [|a L IH]; intros [|z w] v H; cbn; auto. rewrite IH; [|intros; apply H; cbn; auto].
  f_equal. destruct (Nat.eqb_spec (f a) (f v)) as [Q|Q], (Nat.eqb_spec a v) as [Q'|Q']; auto.
  - exfalso. apply Q', H; cbn; auto.
  - subst. congruence.
Qed.

Lemma incl_or (a b : list nat) : incl a b \/ ~ incl a b.
Proof.
  induction a as [|x a [I|I]]; [left; intros ? []| |right; intros H; apply I; intros y Hy; apply H; now right].
  destruct (in_dec Nat.eq_dec x b) as [J|J]; [left; intros y [<-|H]; auto|right; intros H; apply J, H; now left].
Qed.
(** * Sums over one element *)
Lemma basis_value_at size idx phi n a : NoDup idx -> length idx = size -> nth_error idx a = Some n -> basis_value size idx phi n = phi a.
Proof.
  intros N L Ha. unfold basis_value. assert (La : a < size) by (rewrite <- L; apply nth_error_Some; congruence).
  assert (Q : forall m, m <= size -> rsum m (fun b => match nth_error idx b with Some q => if q =? n then phi b else 0%R | None => 0%R end) = if a <? m then phi a else 0%R).
  { induction m as [|m IH]; intros Hm; [reflexivity|]. rewrite rsum_S, IH by lia.
    destruct (nth_error idx m) as [q|] eqn:Em; [|apply nth_error_None in Em; lia].
    destruct (Nat.eqb_spec q n) as [->|D].
    - assert (a = m) as -> by (apply (proj1 (NoDup_nth_error idx) N); [lia|congruence]).
      destruct (Nat.ltb_spec m m), (Nat.ltb_spec m (S m)); try lia; lra.
    - assert (a <> m) by congruence. destruct (Nat.ltb_spec a m), (Nat.ltb_spec a (S m)); try lia; lra. }
  rewrite Q by lia. destruct (Nat.ltb_spec a size); auto; lia.
Qed.
Lemma basis_value_none size idx phi n : ~ In n idx -> basis_value size idx phi n = 0%R.
Proof.
  intros H. unfold basis_value. induction size as [|s IH]; [reflexivity|]. rewrite rsum_S, IH.
  destruct (nth_error idx s) as [q|] eqn:Q; [|lra]. destruct (Nat.eqb_spec q n) as [->|]; [|lra]. exfalso. apply H. eapply nth_error_In; eauto.
Qed.

Section Lagrange.
Context {E X P : Type}.
Variables (els : E -> Prop) (g : grid E X) (mp : mapper X) (vertexIndex : X -> nat) (ref : E -> refelem) (vid : E -> nat -> nat).
Variables (k : nat) (types : list gt) (keys : E -> list localkey).
Hypothesis HD : 1 <= g_dim g <= 3.
Hypothesis HG : grid_ok els g.
Hypothesis HI : ids_ok els g ref vid.
Hypothesis HT : types_ok els g types.
Hypothesis HC : lagrange_ctor g k types = true.
Let lay := fun t => lagrange_layout k t (g_dim g).
Hypothesis HM : mapper_ok els g lay mp.
Hypothesis HK : keys_ok els g lay keys.
Hypothesis HV : k = 1 -> mapper_ok els g lay (MAP (mp_size mp) vertexIndex).
Variable bary : E -> P -> nat -> R.
Variable shape : E -> P -> list R.
Hypothesis HS : shapes_ok els g ref k keys bary shape.
Hypothesis HF : faces_ok els g ref vid.
Let l := lagrange_leaf g mp vertexIndex ref vid k keys.
Let verts := @vertices E X g ref.

Lemma H17 : g_dim g = 3 -> k <= 17.
Proof.
  intros D. unfold lagrange_ctor in HC. apply andb_true_iff in HC as [_ C]. rewrite D in C. unfold maxOrder3d in C. cbn [Nat.eqb andb] in C.
  destruct (Nat.ltb_spec 17 k); [discriminate|lia].
Qed.
Let all_parts := C28_lagrange_indices E X els g mp vertexIndex ref vid k types keys HD HG HI HT HC HM HK HV.
Lemma verts_nodup e s c t : els e -> 0 < c -> subtype g e s c t -> NoDup (map (vid e) (verts e s c)).
Proof.
  intros He Hc Hs. pose proof (codim_le els g k HD HG H17 e s c t He Hs).
  assert (Ls : s < length (subtypes (g_type g e) c)) by (apply nth_error_Some; unfold subtype in Hs; congruence).
  destruct (Nat.eq_dec c (g_dim g)) as [->|]; [|apply (io_distinct _ _ _ _ HI e s c He); auto; lia].
  unfold verts. rewrite (fo_vertex _ _ _ _ HF e s t He Hs). cbn. repeat constructor. intros [].
Qed.
Lemma verts_inj e s c t u v : els e -> 0 < c -> subtype g e s c t -> In u (verts e s c) -> In v (verts e s c) -> vid e u = vid e v -> u = v.
Proof.
  intros He Hc Hs Hu Hv Q. pose proof (verts_nodup e s c t He Hc Hs) as N. apply In_nth_error in Hu as (i & Hi). apply In_nth_error in Hv as (j & Hj).
  assert (i = j).
  { apply (proj1 (NoDup_nth_error _) N); [rewrite map_length; apply nth_error_Some; congruence|]. rewrite !nth_error_map_eq, Hi, Hj. cbn. congruence. }
  subst. congruence.
Qed.
Lemma verts_same e s c t e' s' t' : els e -> els e' -> 0 < c -> subtype g e s c t -> subtype g e' s' c t' ->
  g_sub g e s c = g_sub g e' s' c -> same_face (map (vid e) (verts e s c)) (map (vid e') (verts e' s' c)).
Proof.
  intros He He' Hc Hs Hs' Q. pose proof (codim_le els g k HD HG H17 e s c t He Hs).
  assert (Ls : s < length (subtypes (g_type g e) c)) by (apply nth_error_Some; unfold subtype in Hs; congruence).
  assert (Ls' : s' < length (subtypes (g_type g e') c)) by (apply nth_error_Some; unfold subtype in Hs'; congruence).
  destruct (Nat.eq_dec c (g_dim g)) as [->|]; [|apply (io_shared _ _ _ _ HI e s c e' s' He He'); auto; lia].
  unfold verts. rewrite (fo_vertex _ _ _ _ HF e s t He Hs), (fo_vertex _ _ _ _ HF e' s' t' He' Hs'). cbn.
  rewrite (fo_id _ _ _ _ HF e s t e' s' t' He He' Hs Hs' Q). apply same_face_refl.
Qed.
(** The weights of one Lagrange point agree. *)
Lemma weights_agree e s c t e' s' t' s1 c1 t1 i1 s1' t1' i1' W W' v v' :
  els e -> els e' -> 0 < c -> subtype g e s c t -> subtype g e' s' c t' -> g_sub g e s c = g_sub g e' s' c ->
  subtype g e s1 c1 t1 -> subtype g e' s1' c1 t1' -> part_of g ref e s1 c1 s c -> part_of g ref e' s1' c1 s' c ->
  same_lagrange_point g ref vid k e s1 c1 i1 e' s1' c1 i1' ->
  key_weights g ref k e s1 c1 i1 W -> key_weights g ref k e' s1' c1 i1' W' ->
  In v (verts e s c) -> In v' (verts e' s' c) -> vid e v = vid e' v' -> W v = W' v'.
Proof.
  intros He He' Hc Hs Hs' Q Hs1 Hs1' [Pc PI] [_ PI'] (SQ & SP & _) KW KW' Hv Hv' QV.
  destruct KW as [[-> KW]|[C1 (w & Dw & KW)]], KW' as [[C2 KW']|[C2 (w' & Dw' & KW')]]; try lia.
  - rewrite KW, KW'. change (vertices g ref) with verts. unfold verts in PI, PI' |- *.
    pose proof (fo_vertex _ _ _ _ HF e s1 t1 He Hs1) as V. pose proof (fo_vertex _ _ _ _ HF e' s1' t1' He' Hs1') as V'. rewrite V in *. rewrite V' in *.
    pose proof (fo_id _ _ _ _ HF e s1 t1 e' s1' t1' He He' Hs1 Hs1' SQ) as QI.
    destruct (in_dec Nat.eq_dec v [s1]) as [J|J], (in_dec Nat.eq_dec v' [s1']) as [J'|J']; auto; exfalso.
    + destruct J as [<-|[]]. apply J'. left. apply (verts_inj e' s' c t'); auto. apply PI'. now left. congruence.
    + destruct J' as [<-|[]]. apply J. left. apply (verts_inj e s c t); auto. apply PI. now left. congruence.
  - clear C2. destruct (SP C1) as (z & z' & Dz & Dz' & SS). unfold face_ids in *. change (re_subs (ref e) s1 c1 (g_dim g)) with (vertices g ref e s1 c1) in *.
    change (re_subs (ref e') s1' c1 (g_dim g)) with (vertices g ref e' s1' c1) in *. rewrite map_length in Dz, Dz'.
    rewrite <- (dof_weights_fun _ _ _ _ _ Dw Dz) in SS. rewrite <- (dof_weights_fun _ _ _ _ _ Dw' Dz') in SS.
    assert (L : length (vertices g ref e s1 c1) = length (vertices g ref e' s1' c1)).
    { pose proof (verts_same e s1 c1 t1 e' s1' t1' He He' ltac:(lia) Hs1 Hs1' SQ) as [L _]. rewrite !map_length in L. exact L. }
    rewrite KW, KW', L. f_equal.
    transitivity (weight (map (vid e) (vertices g ref e s1 c1)) w (vid e v)).
    { symmetry. apply weight_map. intros u Hu Qu. apply (verts_inj e s c t); auto. }
    rewrite (SS (vid e v)), QV. apply weight_map. intros u Hu Qu. apply (verts_inj e' s' c t'); auto.
Qed.
Lemma weights_exist e s c i : els e -> In (s, c, i) (keys e) -> 0 < c -> exists W, key_weights g ref k e s c i W.
Proof.
  intros He I Hc. apply (HK e He) in I as (t & Ht & Hi). pose proof (codim_le els g k HD HG H17 e s c t He Ht).
  destruct (Nat.eq_dec c (g_dim g)) as [->|D].
  - eexists (fun v => if in_dec Nat.eq_dec v _ then _ else _). left. split; auto.
  - destruct (perm_spec els g ref vid k HD HG HI H17 e s c t i He Ht Hi) as (j & _ & _ & A & _).
    destruct (A ltac:(lia)) as (u & w & wu & _ & _ & Dw & _). unfold face_ids in Dw. rewrite map_length in Dw.
    eexists (fun v => _ * weight _ w v). right. split; [lia|]. exists w. split; eauto.
Qed.
(** A basis function of [e] that does not vanish on the shared face is one of [e']. *)
Lemma partner e x s c t e' x' s' t' a n : els e -> els e' -> 0 < c -> subtype g e s c t -> subtype g e' s' c t' ->
  same_location g ref vid bary c e x s e' x' s' -> nth_error (lf_indices l e) a = Some n -> nth a (shape e x) 0%R <> 0%R ->
  exists a', nth_error (lf_indices l e') a' = Some n /\ nth a' (shape e' x') 0%R = nth a (shape e x) 0%R.
Proof.
  intros He He' Hc Hs Hs' (Q & Ox & Ox' & SL) Ha Hnz. destruct all_parts as (LK & LN & LI). fold l in LK, LN, LI.
  assert (La : a < length (keys e)) by (change (length (keys e)) with (lf_fe l e); rewrite <- (lok_size _ _ LK e He); apply nth_error_Some; congruence).
  destruct (nth_error_lt_Some _ _ La) as ([[s1 c1] i1] & Ka).
  assert (PO : part_of g ref e s1 c1 s c).
  { destruct (le_dec c c1) as [C|C]; [destruct (incl_or (vertices g ref e s1 c1) (vertices g ref e s c)) as [I|I]|].
    1: split; auto.
    all: exfalso; apply Hnz; eapply (sh_zero _ _ _ _ _ _ _ HS e x s c t a s1 c1 i1); eauto; intros [? ?]; auto. }
  pose proof (nth_error_In _ _ Ka) as I1. apply (HK e He) in I1 as I1'. destruct I1' as (t1 & Ht1 & Hi1).
  destruct (fo_closed _ _ _ _ HF e s c t e' s' t' s1 c1 t1 He He' Hc Hs Hs' Q Ht1 PO) as (s1' & t1' & Ht1' & Q1 & PO').
  destruct (go_type _ _ HG _ _ _ _ _ _ _ _ He He' Ht1 Ht1' Q1) as [ST _].
  assert (LT : lay t1 = lay t1') by (apply (lay_ok g k); auto).
  destruct (perm_spec els g ref vid k HD HG HI H17 e s1 c1 t1 i1 He Ht1 Hi1) as (j & Pj & Lj & _).
  assert (Lj' : j < lay t1') by (rewrite <- LT; exact Lj).
  destruct (perm_onto els g ref vid k HD HG HI H17 e' s1' c1 t1' j He' Ht1' Lj') as (i1' & Hi1' & Pj').
  pose proof (proj1 (perm_eq els g ref vid k HD HG HI H17 e s1 c1 t1 i1 e' s1' c1 t1' i1' j j He He' Ht1 Ht1' Hi1 Hi1' Q1 Pj Pj') eq_refl) as SLP.
  assert (I2 : In (s1', c1, i1') (keys e')) by (apply (HK e' He'); exists t1'; auto). apply In_nth_error in I2 as (a' & Ka').
  destruct (LI e a s1 c1 i1 e' a' s1' c1 i1' He He' Ka Ka') as (m & m' & Hm & Hm' & QM). rewrite Ha in Hm. injection Hm as <-.
  apply QM in SLP as QN. subst m'. exists a'. split; auto.
  destruct PO as [C1 PI]. destruct (weights_exist e s1 c1 i1 He I1 ltac:(lia)) as (W & KW).
  destruct (weights_exist e' s1' c1 i1' He' (nth_error_In _ _ Ka') ltac:(lia)) as (W' & KW').
  rewrite (sh_trace _ _ _ _ _ _ _ HS e x s c t a s1 c1 i1 W); auto; [|split; auto].
  rewrite (sh_trace _ _ _ _ _ _ _ HS e' x' s' c t' a' s1' c1 i1' W'); auto.
  symmetry. apply (face_shape_ids k (vid e) (vid e')).
  - apply (verts_nodup e s c t); auto.
  - apply (verts_same e s c t e' s' t'); auto.
  - intros v v' Jv Jv' QV. split; [|auto].
    eapply (weights_agree e s c t e' s' t' s1 c1 t1 i1 s1' t1' i1'); eauto. split; auto.
Qed.
Lemma location_sym c e x s e' x' s' : same_location g ref vid bary c e x s e' x' s' -> same_location g ref vid bary c e' x' s' e x s.
Proof. intros (A & B & C & D). repeat split; auto. intros v v' H H' Q. symmetry. auto. Qed.
Lemma zero_or e x s c t e' x' s' t' n : els e -> els e' -> 0 < c -> subtype g e s c t -> subtype g e' s' c t' ->
  same_location g ref vid bary c e x s e' x' s' ->
  basis_value (length (keys e)) (lf_indices l e) (fun a => nth a (shape e x) 0%R) n = 0%R \/
  basis_value (length (keys e)) (lf_indices l e) (fun a => nth a (shape e x) 0%R) n = basis_value (length (keys e')) (lf_indices l e') (fun a => nth a (shape e' x') 0%R) n.
Proof.
  intros He He' Hc Hs Hs' SL. destruct all_parts as (LK & LN & LI). fold l in LK, LN, LI.
  destruct (in_dec Nat.eq_dec n (lf_indices l e)) as [I|I]; [|left; now apply basis_value_none].
  apply In_nth_error in I as (a & Ha). rewrite (basis_value_at _ _ _ n a (LN e He)); auto; [|apply (lok_size _ _ LK e He)].
  destruct (Req_dec (nth a (shape e x) 0%R) 0) as [Z|Z]; [now left|right].
  destruct (partner e x s c t e' x' s' t' a n He He' Hc Hs Hs' SL Ha Z) as (a' & Ha' & <-).
  symmetry. exact (basis_value_at _ _ (fun a => nth a (shape e' x') 0%R) n a' (LN e' He') (lok_size _ _ LK e' He') Ha').
Qed.
Lemma lagrange_single_valued e x s c t e' x' s' t' n : els e -> els e' -> 0 < c -> subtype g e s c t -> subtype g e' s' c t' ->
  same_location g ref vid bary c e x s e' x' s' ->
  basis_value (length (keys e)) (lf_indices l e) (fun a => nth a (shape e x) 0%R) n = basis_value (length (keys e')) (lf_indices l e') (fun a => nth a (shape e' x') 0%R) n.
Proof.
  intros He He' Hc Hs Hs' SL. destruct (zero_or e x s c t e' x' s' t' n He He' Hc Hs Hs' SL) as [Z|Z]; auto.
  destruct (zero_or e' x' s' c t' e x s t n He' He Hc Hs' Hs (location_sym _ _ _ _ _ _ _ SL)) as [Z'|Z']; congruence.
Qed.
End Lagrange.
