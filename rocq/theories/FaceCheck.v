(** Deciding the contracts of faces for concrete finite grids (used by examples). *)
From Coq Require Import List Arith Lia Bool.
From Verif Require Import Lib GeometryType_model Mapper_model Mapper_spec Lagrange_model Lagrange_spec Lagrange_props Conforming_spec Conforming_shapes Conforming_refs GridCheck.
Import ListNotations.

Definition face_edge_check (F : list nat) (a b : nat) : bool :=
  existsb (fun pq => match nth_error F (fst pq), nth_error F (snd pq) with
    | Some x, Some y => (Nat.eqb x a && Nat.eqb y b) || (Nat.eqb x b && Nat.eqb y a) | _, _ => false end) (edges_of (length F)).
Lemma face_edge_check_ok F a b : face_edge_check F a b = true -> face_edge F a b.
Proof.
  intros H. apply existsb_exists in H as ([p q] & I & H). cbn [fst snd] in H.
  destruct (nth_error F p) as [x|] eqn:P; [|discriminate]. destruct (nth_error F q) as [y|] eqn:Q; [|discriminate].
  apply orb_true_iff in H as [H|H]; apply andb_true_iff in H as [H1 H2]; apply Nat.eqb_eq in H1, H2; subst; [exists p, q|exists q, p]; auto.
Qed.
Lemma face_edge_check_complete F a b : face_edge F a b -> face_edge_check F a b = true.
Proof.
  intros (p & q & H & P & Q). apply existsb_exists. destruct H as [H|H]; [exists (p, q)|exists (q, p)]; (split; [exact H|]); cbn [fst snd]; rewrite P, Q, !Nat.eqb_refl;
    cbn; auto using orb_true_r.
Qed.
Definition same_face_check (v w : list nat) : bool :=
  (length v =? length w) && incl_check v w && incl_check w v &&
  forallb (fun a => forallb (fun b => Bool.eqb (face_edge_check v a b) (face_edge_check w a b)) v) v.
Lemma face_edge_In F a b : face_edge F a b -> In a F /\ In b F.
Proof. intros (p & q & _ & P & Q). split; eapply nth_error_In; eauto. Qed.
Lemma same_face_check_ok v w : same_face_check v w = true -> same_face v w.
Proof.
  intros H. apply andb_true_iff in H as [H H4]. apply andb_true_iff in H as [H H3]. apply andb_true_iff in H as [H1 H2].
  apply Nat.eqb_eq in H1. apply incl_check_ok in H2, H3. rewrite forallb_forall in H4. split; auto. split; [split; auto|].
  assert (K : forall a b, In a v -> In b v -> face_edge_check v a b = face_edge_check w a b).
  { intros a b Ia Ib. specialize (H4 a Ia). rewrite forallb_forall in H4. apply eqb_prop, H4, Ib. }
  intros a b. split; intros F; destruct (face_edge_In _ _ _ F) as [Ia Ib]; apply face_edge_check_ok.
  - rewrite <- K by auto. now apply face_edge_check_complete.
  - rewrite K by auto. now apply face_edge_check_complete.
Qed.
Lemma triangle2_ok : refelem_ok 2 triangle2.
Proof.
  constructor; try (intros; discriminate); [reflexivity|vm_compute; lia|].
  intros i H. vm_compute in H. destruct i as [|[|[|i]]]; [do 2 eexists; reflexivity..|exfalso; lia].
Qed.
Lemma square2_ok : refelem_ok 2 square2.
Proof.
  constructor; try (intros; discriminate); [reflexivity|vm_compute; lia|].
  intros i H. vm_compute in H. destruct i as [|[|[|[|i]]]]; [do 2 eexists; reflexivity..|exfalso; lia].
Qed.
Lemma tetrahedron3_ok : refelem_ok 3 tetrahedron3. Proof. refelem3. Qed.
Lemma hexahedron3_ok : refelem_ok 3 hexahedron3. Proof. refelem3. Qed.

Section Check.
Context {E : Type}.
Variable eqE : E -> E -> bool.
Hypothesis eqE_ok : forall a b, eqE a b = true <-> a = b.
Variable g : grid E nat.
Variable l : list E.
Variable ref : E -> refelem.
Variable vid : E -> nat -> nat.
Local Notation els := (fun e => In e l).
Local Notation V := (vertices g ref).

Definition ids_check : bool :=
  forallb (fun a => let '(e, s, c, _) := a in
    negb ((0 <? c) && (c <? g_dim g)) ||
    (nodup_check (map (vid e) (V e s c)) &&
     forallb (fun b => let '(e', s', c', _) := b in if negb ((c =? c') && (g_sub g e s c =? g_sub g e' s' c)) then true else
       same_face_check (map (vid e) (V e s c)) (map (vid e') (V e' s' c))) (table g l))) (table g l).
Lemma ids_check_ok : (forall e, In e l -> re_type (ref e) = g_type g e /\ refelem_ok (g_dim g) (ref e)) -> ids_check = true -> ids_ok els g ref vid.
Proof.
  intros HR H. unfold ids_check in H. rewrite forallb_forall in H.
  assert (T : forall e s c, In e l -> s < length (subtypes (g_type g e) c) -> exists t, In (e, s, c, t) (table g l)).
  { intros e s c He Hs. destruct (nth_error_lt_Some _ _ Hs) as (t & Ht). exists t. apply table_ok. auto. }
  assert (K : forall e s c, In e l -> 0 < c < g_dim g -> s < length (subtypes (g_type g e) c) -> NoDup (map (vid e) (V e s c)) /\
    forall e' s', In e' l -> s' < length (subtypes (g_type g e') c) -> g_sub g e s c = g_sub g e' s' c -> same_face (map (vid e) (V e s c)) (map (vid e') (V e' s' c))).
  { intros e s c He Hc Hs. destruct (T e s c He Hs) as (t & I). specialize (H _ I). cbn beta iota in H.
    rewrite (proj2 (Nat.ltb_lt _ _) (proj1 Hc)), (proj2 (Nat.ltb_lt _ _) (proj2 Hc)) in H. cbn [andb negb orb] in H. apply andb_true_iff in H as [H1 H2].
    split; [now apply nodup_check_ok|]. intros e' s' He' Hs' Q. destruct (T e' s' c He' Hs') as (t' & I'). rewrite forallb_forall in H2. specialize (H2 _ I'). cbn beta iota in H2.
    rewrite Nat.eqb_refl, Q, Nat.eqb_refl in H2. cbn [andb negb orb] in H2. now apply same_face_check_ok. }
  constructor.
  - intros e He. apply HR, He.
  - intros e He _. apply HR, He.
  - intros e s c He Hc Hs. now apply K.
  - intros e s c e' s' He He' Hc Hs Hs' Q. now apply K.
Qed.

Definition part_check (e : E) (s1 c1 s c : nat) : bool := (c <=? c1) && incl_check (V e s1 c1) (V e s c).
Definition faces_check : bool :=
  forallb (fun a => let '(e, s, c, _) := a in
    negb (0 <? c) ||
    ((negb (c =? g_dim g) || list_eqb (V e s c) [s]) &&
    forallb (fun b => let '(e', s', c', _) := b in
      if negb ((c =? c') && (g_sub g e s c =? g_sub g e' s' c)) then true else
      ((negb (c =? g_dim g) || (vid e s =? vid e' s')) &&
       forallb (fun a1 => let '(e1, s1, c1, _) := a1 in
         if negb (eqE e e1 && part_check e s1 c1 s c) then true else
         existsb (fun a2 => let '(e2, s2, c2, _) := a2 in
           eqE e' e2 && (c1 =? c2) && (g_sub g e s1 c1 =? g_sub g e' s2 c1) && part_check e' s2 c1 s' c) (table g l)) (table g l))) (table g l))) (table g l).
Lemma faces_check_ok : 0 < g_dim g -> faces_check = true -> faces_ok els g ref vid.
Proof.
  intros HD H. unfold faces_check in H. rewrite forallb_forall in H.
  assert (K : forall e s c t, In e l -> 0 < c -> subtype g e s c t -> (c = g_dim g -> V e s c = [s]) /\
    forall e' s' t', In e' l -> subtype g e' s' c t' -> g_sub g e s c = g_sub g e' s' c -> (c = g_dim g -> vid e s = vid e' s') /\
    forall s1 c1 t1, subtype g e s1 c1 t1 -> part_of g ref e s1 c1 s c ->
      exists s1' t1', subtype g e' s1' c1 t1' /\ g_sub g e s1 c1 = g_sub g e' s1' c1 /\ part_of g ref e' s1' c1 s' c).
  { intros e s c t He Hc Hs. specialize (H _ (proj2 (table_ok _ _ _ _ _ _) (conj He Hs))). cbn beta iota in H. rewrite (proj2 (Nat.ltb_lt _ _) Hc) in H. cbn [negb orb] in H.
    apply andb_true_iff in H as [H1 H2]. split.
    - intros ->. rewrite Nat.eqb_refl in H1. now apply list_eqb_eq.
    - intros e' s' t' He' Hs' Q. rewrite forallb_forall in H2. specialize (H2 _ (proj2 (table_ok _ _ _ _ _ _) (conj He' Hs'))). cbn beta iota in H2.
      rewrite Q, !Nat.eqb_refl in H2. cbn [andb negb orb] in H2. apply andb_true_iff in H2 as [H2 H3]. split.
      + intros ->. rewrite Nat.eqb_refl in H2. now apply Nat.eqb_eq.
      + intros s1 c1 t1 Hs1 [P1 P2]. rewrite forallb_forall in H3. specialize (H3 _ (proj2 (table_ok _ _ _ _ _ _) (conj He Hs1))). cbn beta iota in H3.
        rewrite (proj2 (eqE_ok e e) eq_refl) in H3. unfold part_check at 1 in H3. rewrite (proj2 (Nat.leb_le _ _) P1), (proj2 (incl_check_ok _ _) P2) in H3. cbn [andb negb orb] in H3.
        apply existsb_exists in H3 as ([[[e2 s2] c2] t2] & I & H3). apply andb_true_iff in H3 as [H3 H4]. apply andb_true_iff in H3 as [H3 H5]. apply andb_true_iff in H3 as [H3 H6].
        apply eqE_ok in H3. apply Nat.eqb_eq in H5, H6. subst e2 c2. apply table_ok in I as [_ I]. exists s2, t2. split; auto. split; auto.
        unfold part_check in H4. apply andb_true_iff in H4 as [H7 H8]. split; [now apply Nat.leb_le|now apply incl_check_ok]. }
  constructor.
  - intros e s c t e' s' t' s1 c1 t1 He He' Hc Hs Hs' Q Hs1 P. destruct (K e s c t He Hc Hs) as [_ K1]. destruct (K1 e' s' t' He' Hs' Q) as [_ K2]. eapply K2; eauto.
  - intros e s t He Hs. apply (K e s (g_dim g) t He HD Hs). reflexivity.
  - intros e s t e' s' t' He He' Hs Hs' Q. destruct (K e s (g_dim g) t He HD Hs) as [_ K1]. destruct (K1 e' s' t' He' Hs' Q) as [K2 _]. auto.
Qed.
End Check.
