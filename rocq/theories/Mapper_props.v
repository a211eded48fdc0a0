(** C30: indices of mapper-based leaf bases; C31: LagrangeDG. *)
From Coq Require Import List Arith Lia Bool.
From Coq Require Import Permutation.
From Verif Require Import Lib Basis_model Basis_spec GeometryType_model GeometryType_spec GeometryType_props.
From Verif Require Import Mapper_model Mapper_spec.
Import ListNotations.

(** * Layout sums do not depend on the lowest bit of the type *)

Lemma same_type_cons b t t' : t <> [] -> same_type t t' -> same_type (b :: t) (b :: t').
Proof.
  intros N [H L]. unfold same_type. destruct t as [|x t]; [congruence|]. destruct t' as [|x' t']; [discriminate L|].
  cbn [removelast length] in *. split; [f_equal; exact H|lia].
Qed.
Lemma same_type_refl t : same_type t t. Proof. split; reflexivity. Qed.
Lemma same_type_cons' b t t' : same_type t t' -> same_type (b :: t) (b :: t').
Proof.
  intros H. destruct t as [|x t].
  - destruct H as [_ L]. destruct t'; [|discriminate L]. apply same_type_refl.
  - apply same_type_cons; [discriminate|exact H].
Qed.

Lemma subtypes_same t t' c : same_type t t' -> Forall2 same_type (subtypes t c) (subtypes t' c).
Proof.
  revert t' c; induction t as [|b r IH]; intros t' c [H L].
  - destruct t'; [|discriminate L]. cbn [subtypes]. destruct (c =? 0); repeat constructor.
  - destruct t' as [|b' r']; [discriminate L|]. cbn [length] in L.
    destruct r as [|x r].
    + destruct r' as [|x' r']; [|discriminate L]. destruct c as [|[|c]].
      * cbn. repeat constructor.
      * destruct b, b'; cbn; repeat constructor.
      * rewrite !subtypes_big by (cbn; lia). constructor.
    + destruct r' as [|x' r']; [discriminate L|].
      assert (b' = b /\ same_type (x :: r) (x' :: r')) as [-> S].
      { cbn [removelast] in H. injection H as -> H. split; [reflexivity|split; [exact H|cbn [length] in *; lia]]. }
      assert (M : forall c, Forall2 same_type (map (cons b) (subtypes (x :: r) c)) (map (cons b) (subtypes (x' :: r') c))).
      { intros c'. specialize (IH _ c' S). induction IH as [|u v us vs P Q J]; cbn [map]; constructor; auto. apply same_type_cons', P. }
      destruct c as [|c]; [cbn [subtypes]; constructor; [apply same_type_cons', S|constructor]|].
      assert (L' : length (x' :: r') = length (x :: r)) by (cbn [length] in *; lia).
      set (u := x :: r) in *. set (v := x' :: r') in *.
      cbn [subtypes length]. rewrite L'. destruct b.
      * apply Forall2_app; [apply M|apply Forall2_app; apply IH, S].
      * apply Forall2_app; [apply IH, S|]. destruct (_ <? _); [apply M|]. destruct (_ =? _); repeat constructor.
Qed.

Lemma layout_total_same lay t t' : layout_ok lay -> same_type t t' -> layout_total lay t = layout_total lay t'.
Proof.
  intros HL S. rewrite !layout_total_sum. unfold gt_dim. destruct S as [H L]. rewrite L. apply sumto_ext. intros c _.
  unfold subsum. f_equal. pose proof (subtypes_same t t' c (conj H L)) as F.
  induction F as [|a b u v P Q J]; cbn [map]; [reflexivity|]. f_equal; [apply HL, P|exact J].
Qed.

Lemma init_bound lay types t : In t types -> layout_total lay t <= initializeIndices lay types.
Proof.
  unfold initializeIndices.
  assert (M : forall l a, a <= fold_left (fun acc t => acc + layout_total lay t) l a).
  { induction l as [|x l IH]; intros a; cbn [fold_left]; [lia|]. specialize (IH (a + layout_total lay x)). lia. }
  enough (H : forall a, In t types -> layout_total lay t <= fold_left (fun acc t => acc + layout_total lay t) types a) by apply H.
  induction types as [|x l IH]; intros a I; [destruct I|]. destruct I as [->|I]; cbn [fold_left].
  - specialize (M l (a + layout_total lay t)). lia.
  - apply IH, I.
Qed.

Lemma same_type_preds t t' : same_type t t' -> isPyramid t = isPyramid t' /\ isPrism t = isPrism t'.
Proof.
  intros [H L].
  destruct t as [|a [|b [|c [|d t]]]], t' as [|a' [|b' [|c' [|d' t']]]]; cbn in L; try lia;
    try (destruct a; try destruct b; destruct a'; try destruct b'; split; reflexivity).
  - split; reflexivity.
  - cbn in H. injection H as -> ->. split; reflexivity.
Qed.

(** * Counting local keys *)

Definition keys_of_codim (lay : gt -> nat) (l : list gt) (c : nat) : list localkey :=
  flat_map (fun i => match nth_error l i with
                     | Some t => map (fun n => (i, c, n)) (seq 0 (lay t))
                     | None => [] end) (seq 0 (length l)).
Definition all_keys (lay : gt -> nat) (t : gt) : list localkey :=
  flat_map (fun c => keys_of_codim lay (subtypes t c) c) (seq 0 (gt_dim t + 1)).

Lemma keys_of_codim_in lay l c i c' n :
  In (i, c', n) (keys_of_codim lay l c) <-> c' = c /\ exists t, nth_error l i = Some t /\ n < lay t.
Proof.
  unfold keys_of_codim. rewrite in_flat_map. split.
  - intros (j & Ij & I). destruct (nth_error l j) as [t|] eqn:E; [|destruct I].
    apply in_map_iff in I as (m & H & Im). injection H as -> -> ->. apply in_seq in Im. split; [reflexivity|]. exists t. split; [exact E|lia].
  - intros (-> & t & Ht & Hn). exists i. split; [apply in_seq; assert (i < length l) by (apply nth_error_Some; congruence); lia|].
    rewrite Ht. apply in_map_iff. exists n. split; [reflexivity|apply in_seq; lia].
Qed.
Lemma all_keys_in lay t i c n :
  In (i, c, n) (all_keys lay t) <-> exists s, nth_error (subtypes t c) i = Some s /\ n < lay s.
Proof.
  unfold all_keys. rewrite in_flat_map. split.
  - intros (c' & _ & I). apply keys_of_codim_in in I as (-> & H). exact H.
  - intros (s & Hs & Hn). exists c. split.
    + apply in_seq. destruct (le_lt_dec c (gt_dim t)); [lia|]. rewrite subtypes_big in Hs by exact l. destruct i; discriminate.
    + apply keys_of_codim_in. split; [reflexivity|]. exists s. auto.
Qed.

Lemma NoDup_app_intro {A} (l l' : list A) : NoDup l -> NoDup l' -> (forall x, In x l -> In x l' -> False) -> NoDup (l ++ l').
Proof.
  induction l as [|a l IH]; intros H H' D; [exact H'|]. inversion H; subst. cbn. constructor.
  - intros I. apply in_app_iff in I as [I|I]; [tauto|]. apply (D a); [left; reflexivity|exact I].
  - apply IH; trivial. intros x I I'. apply (D x); [right; exact I|exact I'].
Qed.
Lemma NoDup_flat_map {A} (f : nat -> list A) n s :
  (forall i, NoDup (f i)) -> (forall i j x, In x (f i) -> In x (f j) -> i = j) -> NoDup (flat_map f (seq s n)).
Proof.
  intros H D. revert s; induction n as [|n IH]; intros s; [constructor|]. cbn [seq flat_map].
  apply NoDup_app_intro; [apply H|apply IH|]. intros x I I'. apply in_flat_map in I' as (j & Ij & Ix).
  pose proof (D _ _ _ I Ix). apply in_seq in Ij. lia.
Qed.
Lemma all_keys_nodup lay t : NoDup (all_keys lay t).
Proof.
  apply NoDup_flat_map.
  - intros c. unfold keys_of_codim. apply NoDup_flat_map.
    + intros i. destruct (nth_error _ i); [|constructor]. apply FinFun.Injective_map_NoDup; [|apply seq_NoDup].
      intros a b H. injection H. auto.
    + intros i j [[a b] n] I J. destruct (nth_error _ i); [|destruct I]. destruct (nth_error _ j); [|destruct J].
      apply in_map_iff in I as (? & I & _). apply in_map_iff in J as (? & J & _). congruence.
  - intros c c' [[i d] n] I J. apply keys_of_codim_in in I as (I & _). apply keys_of_codim_in in J as (J & _). congruence.
Qed.
Lemma keys_of_codim_len lay l c : length (keys_of_codim lay l c) = list_sum (map lay l).
Proof.
  unfold keys_of_codim.
  enough (H : forall pre l', l = pre ++ l' -> length (flat_map (fun i => match nth_error l i with
                     | Some t => map (fun n => (i, c, n)) (seq 0 (lay t)) | None => [] end) (seq (length pre) (length l'))) = list_sum (map lay l')).
  { apply (H [] l). reflexivity. }
  intros pre l'. revert pre. induction l' as [|t l' IH]; intros pre Hl; [reflexivity|].
  cbn [length seq flat_map map]. rewrite app_length, list_sum_cons. f_equal.
  - rewrite Hl, nth_error_app2, Nat.sub_diag by lia. cbn [nth_error]. rewrite map_length, seq_length. reflexivity.
  - specialize (IH (pre ++ [t])). rewrite app_length, Nat.add_comm in IH. cbn [length Nat.add] in IH. apply IH.
    rewrite <- app_assoc. exact Hl.
Qed.
Lemma all_keys_len lay t : length (all_keys lay t) = layout_total lay t.
Proof.
  unfold all_keys, layout_total. induction (seq 0 (gt_dim t + 1)) as [|c l IH]; [reflexivity|].
  cbn [flat_map]. rewrite app_length, list_sum_app, keys_of_codim_len, IH. reflexivity.
Qed.

Section Props.
Context {E X : Type}.
Variable els : E -> Prop.
Variable g : grid E X.

Lemma keys_count lay keys e : keys_ok els g lay keys -> els e -> length (keys e) = layout_total lay (g_type g e).
Proof.
  intros HK He. destruct (HK e He) as [N I]. rewrite <- all_keys_len.
  apply Permutation_length, NoDup_Permutation; [exact N|apply all_keys_nodup|].
  intros [[i c] n]. rewrite I, all_keys_in. reflexivity.
Qed.

Lemma in_range mp e keys n : In n (subIndexRange g mp e keys) <-> exists s c i, In (s, c, i) keys /\ n = mp_off mp (g_sub g e s c) + i.
Proof.
  unfold subIndexRange. rewrite in_map_iff. split.
  - intros ([[s c] i] & <- & I). exists s, c, i. split; [exact I|reflexivity].
  - intros (s & c & i & I & ->). exists (s, c, i). split; [reflexivity|exact I].
Qed.

Theorem C30_mapper_leaf : forall lay types keys mp,
  grid_ok els g -> layout_ok lay -> types_ok els g types ->
  mapper_ok els g lay mp -> keys_ok els g lay keys ->
  let l := mapper_leaf g mp lay types keys in
  (* size, node size bound, range and no gaps *)
  leaf_ok els l /\
  (* distinct within an element *)
  (forall e, els e -> NoDup (lf_indices l e)) /\
  (* equal iff the same DOF of the same entity *)
  (forall e a s c i e' a' s' c' i',
     els e -> els e' ->
     nth_error (keys e) a = Some (s, c, i) -> nth_error (keys e') a' = Some (s', c', i') ->
     exists n n', nth_error (lf_indices l e) a = Some n /\ nth_error (lf_indices l e') a' = Some n' /\
       (n = n' <-> g_sub g e s c = g_sub g e' s' c' /\ i = i')).
Proof.
  intros lay types keys mp HG HLo HT HM HK l.
  assert (KE : forall e s c i, els e -> In (s, c, i) (keys e) -> exists t, entity els g (g_sub g e s c) t /\ i < lay t /\ subtype g e s c t).
  { intros e s c i He I. apply (HK e He) in I as (t & Ht & Hi). exists t. split; [exists e, s, c; auto|auto]. }
  assert (EQ : forall e s c i e' s' c' i', els e -> els e' -> In (s, c, i) (keys e) -> In (s', c', i') (keys e') ->
    (mp_off mp (g_sub g e s c) + i = mp_off mp (g_sub g e' s' c') + i' <-> g_sub g e s c = g_sub g e' s' c' /\ i = i')).
  { intros e s c i e' s' c' i' He He' I I'. split.
    - intros H. destruct (KE _ _ _ _ He I) as (t & Et & Lt & _). destruct (KE _ _ _ _ He' I') as (t' & Et' & Lt' & _).
      assert (g_sub g e s c = g_sub g e' s' c') as Q by (apply (mo_disjoint _ _ _ _ HM _ _ i _ _ i' Et Et' Lt Lt' H)).
      rewrite Q in H. split; [exact Q|lia].
    - intros [-> ->]. reflexivity. }
  split; [|split].
  - constructor; cbn [l mapper_leaf lf_dim lf_maxnode lf_fe lf_indices].
    + intros e _. apply map_length.
    + intros e He. destruct (HT e He) as (t & It & St). rewrite (keys_count lay keys e HK He).
      rewrite <- (layout_total_same lay t _ HLo St). apply init_bound, It.
    + intros e n He I. apply in_range in I as (s & c & i & I & ->).
      destruct (KE _ _ _ _ He I) as (t & Et & Lt & _). exact (mo_range _ _ _ _ HM _ _ _ Et Lt).
    + intros n Hn. destruct (mo_cover _ _ _ _ HM n Hn) as (x & t & i & (e & s & c & He & St & ->) & Hi & ->).
      exists e. split; [exact He|]. apply in_range. exists s, c, i. split; [|reflexivity].
      apply (HK e He). exists t. auto.
  - intros e He. cbn [l mapper_leaf lf_indices]. unfold subIndexRange.
    destruct (HK e He) as [N _]. specialize (EQ e). 
    assert (Sub : forall k, incl k (keys e) -> NoDup k -> NoDup (map (fun key : localkey => match key with (s, c, i) => subIndex g mp e s c + i end) k)).
    { induction k as [|[[s c] i] k IH]; intros Inc Nk; [constructor|]. inversion Nk; subst. cbn [map]. constructor.
      - intros I. apply in_map_iff in I as ([[s' c'] i'] & H & I). 
        assert (I1 : In (s, c, i) (keys e)) by (apply Inc; left; reflexivity).
        assert (I2 : In (s', c', i') (keys e)) by (apply Inc; right; exact I).
        symmetry in H. apply (EQ s c i e s' c' i' He He I1 I2) in H as [Q ->].
        destruct (KE _ _ _ _ He I1) as (t & _ & _ & T). destruct (KE _ _ _ _ He I2) as (t' & _ & _ & T').
        destruct (go_inj _ _ HG e s c t s' c' t' He T T' Q) as [-> ->]. tauto.
      - apply IH; [intros x Ix; apply Inc; right; exact Ix|assumption]. }
    apply Sub; [apply incl_refl|exact N].
  - intros e a s c i e' a' s' c' i' He He' Ka Ka'.
    exists (mp_off mp (g_sub g e s c) + i), (mp_off mp (g_sub g e' s' c') + i').
    cbn [l mapper_leaf lf_indices]. unfold subIndexRange. unfold localkey in *. rewrite !nth_error_map_eq, Ka, Ka'.
    split; [reflexivity|split; [reflexivity|]].
    apply EQ; trivial; eapply nth_error_In; eassumption.
Qed.

(** * LagrangeDG *)

Lemma lattice_line k b : length (lattice k [b]) = k + 1.
Proof. rewrite lattice_cons. rewrite (sumto_ext _ _ (fun _ => 1)); [rewrite sumto_const; lia|]. intros; reflexivity. Qed.

Lemma square_sum k : 6 * sumto (S k) (fun z => (k - z + 1) * (k - z + 1)) = (k + 1) * (k + 2) * (2 * k + 3).
Proof.
  induction k as [|k IH]; [reflexivity|].
  change (sumto (S (S k)) (fun z => (S k - z + 1) * (S k - z + 1))) with ((S k - 0 + 1) * (S k - 0 + 1) + sumto (S k) (fun z => (k - z + 1) * (k - z + 1))).
  rewrite Nat.mul_add_distr_l, IH. nia.
Qed.

Lemma dg_layout_lattice k t :
  1 <= gt_dim t <= 3 -> dg_layout k t (gt_dim t) = Some (length (lattice k t)).
Proof.
  intros H. unfold dg_layout. rewrite Nat.eqb_refl.
  assert (B3 : (k + 1) * (k + 2) * (k + 3) / 6 = binomial (k + 3) 3).
  { apply sixth_mul. replace (k + 3) with (S (S (k + 1))) by lia. rewrite binomial_3. nia. }
  assert (B2 : (k + 1) * (k + 2) / 2 = binomial (k + 2) 2).
  { apply half_mul. replace (k + 2) with (S (k + 1)) by lia. rewrite binomial_2. nia. }
  destruct t as [|a [|b [|c [|]]]]; unfold gt_dim in H; cbn [length] in H; try lia.
  - cbn [isLine gt_dim length Nat.eqb]. rewrite lattice_line. reflexivity.
  - change (isLine [a; b]) with false. cbn iota. destruct a.
    + change (isTriangle [true; b]) with false. change (isQuadrilateral [true; b]) with true. cbn iota.
      rewrite (lattice_cube [true; b] k) by reflexivity. cbn [gt_dim length Nat.pow]. f_equal. lia.
    + change (isTriangle [false; b]) with true. cbn iota. rewrite B2, (lattice_simplex [false; b] k) by reflexivity. reflexivity.
  - change (isLine [a; b; c]) with false. change (isTriangle [a; b; c]) with false. change (isQuadrilateral [a; b; c]) with false. cbn iota.
    destruct a, b.
    + change (isTetrahedron [true; true; c]) with false. change (isPrism [true; true; c]) with false. change (isHexahedron [true; true; c]) with true. cbn iota.
      rewrite (lattice_cube [true; true; c] k) by reflexivity. cbn [gt_dim length Nat.pow]. f_equal. lia.
    + change (isTetrahedron [true; false; c]) with false. change (isPrism [true; false; c]) with true. cbn iota.
      rewrite prism_lattice. f_equal. apply half_mul. replace (k + 2) with (S (k + 1)) by lia.
      pose proof (binomial_2 (k + 1)). nia.
    + change (isTetrahedron [false; true; c]) with false. change (isPrism [false; true; c]) with false. change (isHexahedron [false; true; c]) with false. change (isPyramid [false; true; c]) with true. cbn iota.
      f_equal. apply sixth_mul. rewrite lattice_cons, <- square_sum. f_equal. apply sumto_ext. intros z _.
      rewrite (lattice_cube [true; c]) by reflexivity. cbn [gt_dim length Nat.pow]. lia.
    + change (isTetrahedron [false; false; c]) with true. cbn iota. rewrite B3, (lattice_simplex [false; false; c] k) by reflexivity. reflexivity.
Qed.

Lemma layout_total_top lay t : (forall s, subentity t s -> s <> t -> lay s = 0) -> lay t <= layout_total lay t.
Proof.
  intros _. rewrite layout_total_sum, Nat.add_1_r. cbn [sumto]. unfold subsum at 1. rewrite subtypes_0. cbn. lia.
Qed.

(** every element owns the block of indices [first, first + size), the blocks of
    different elements are disjoint and together they fill [0, dimension()) *)
Theorem C31_dg_blocks : forall order types mp,
  grid_ok els g -> 1 <= g_dim g <= 3 -> types_ok els g types ->
  mapper_ok els g (dg_lay g order) mp ->
  (forall e, els e -> exists n, dg_layout order (g_type g e) (g_dim g) = Some n) /\
  let n := fun e => length (lattice order (g_type g e)) in
  let l := dg_leaf g mp order types n in
  leaf_ok els l /\
  (forall e, els e -> exists first, lf_indices l e = seq first (n e) /\ first + n e <= lf_dim l) /\
  (forall e e' i, els e -> els e' -> In i (lf_indices l e) -> In i (lf_indices l e') ->
     g_sub g e 0 0 = g_sub g e' 0 0) /\
  (forall i, i < lf_dim l -> exists e, els e /\ In i (lf_indices l e)).
Proof.
  intros order types mp HG HD HT HM.
  assert (ST : forall e, subtype g e 0 0 (g_type g e)).
  { intros e. unfold subtype. rewrite subtypes_0. reflexivity. }
  assert (EN : forall e, els e -> entity els g (g_sub g e 0 0) (g_type g e)) by (intros e He; exists e, 0, 0; auto).
  assert (LY : forall e, els e -> dg_lay g order (g_type g e) = length (lattice order (g_type g e))).
  { intros e He. unfold dg_lay. pose proof (go_dim _ _ HG e He) as Hd. rewrite <- Hd, dg_layout_lattice by lia. reflexivity. }
  assert (LO : layout_ok (dg_lay g order)).
  { intros t t' [S L]. unfold dg_lay, dg_layout, isTriangle, isQuadrilateral, isTetrahedron, isHexahedron, isLine, isSimplex, isCube, gt_dim. rewrite S, L.
    assert (P := same_type_preds t t' (conj S L)).
    destruct P as [-> ->]. reflexivity. }
  assert (ZR : forall e s c t, els e -> subtype g e s c t -> 0 < dg_lay g order t -> c = 0 /\ s = 0).
  { intros e s c t He St Hp. unfold subtype in St.
    assert (DC : forall t c s u, nth_error (subtypes t c) s = Some u -> gt_dim u + c = gt_dim t).
    { clear. induction t as [|b r IH]; intros c s u H.
      - cbn [subtypes] in H. destruct c; [|destruct s; discriminate]. destruct s as [|[|]]; cbn in H; try discriminate. injection H as <-. reflexivity.
      - destruct c as [|c].
        + cbn [subtypes] in H. destruct s as [|[|]]; cbn in H; try discriminate. injection H as <-. lia.
        + apply nth_error_In in H. cbn [subtypes] in H.
          assert (IH' : forall c u, In u (subtypes r c) -> gt_dim u + c = gt_dim r).
          { intros c' u' I. apply In_nth_error in I as (j & Hj). exact (IH _ _ _ Hj). }
          change (gt_dim (b :: r)) with (S (gt_dim r)).
          destruct b.
          * apply in_app_iff in H as [H|H]; [|apply in_app_iff in H as [H|H]; specialize (IH' _ _ H); lia].
            apply in_map_iff in H as (v & <- & H). specialize (IH' _ _ H). change (gt_dim (true :: v)) with (S (gt_dim v)). lia.
          * apply in_app_iff in H as [H|H]; [specialize (IH' _ _ H); lia|].
            destruct (_ <? _).
            -- apply in_map_iff in H as (v & <- & H). specialize (IH' _ _ H). change (gt_dim (false :: v)) with (S (gt_dim v)). lia.
            -- destruct (Nat.eqb_spec (S c) (length (false :: r))) as [Q|Q]; [|destruct H]. destruct H as [<-|[]].
               cbn [length] in Q. unfold gt_dim. cbn [length]. lia. }
    pose proof (DC _ _ _ _ St) as D. pose proof (go_dim _ _ HG e He) as Hd.
    unfold dg_lay, dg_layout in Hp. destruct (Nat.eqb_spec (gt_dim t) (g_dim g)) as [Q|Q]; [|lia].
    assert (c = 0) by lia. subst c. rewrite subtypes_0 in St. destruct s as [|[|]]; cbn in St; try discriminate. auto. }
  split.
  { intros e He. pose proof (go_dim _ _ HG e He) as Hd. rewrite <- Hd. eexists. apply dg_layout_lattice. lia. }
  intros n l.
  assert (IN : forall e i, In i (lf_indices l e) <-> exists j, j < n e /\ i = mp_off mp (g_sub g e 0 0) + j).
  { intros e i. cbn [l dg_leaf lf_indices]. unfold dg_indices, subIndex. rewrite in_map_iff. split.
    - intros (j & <- & I). apply in_seq in I. exists j. split; [lia|reflexivity].
    - intros (j & L & ->). exists j. split; [reflexivity|]. apply in_seq. lia. }
  assert (CV : forall i, i < lf_dim l -> exists e, els e /\ In i (lf_indices l e)).
  { intros i Hi. destruct (mo_cover _ _ _ _ HM i Hi) as (x & t & j & (e & s & c & He & St & ->) & Hj & ->).
    destruct (ZR e s c t He St) as [-> ->]; [lia|]. exists e. split; [exact He|]. apply IN. exists j. split; [|reflexivity].
    unfold n. rewrite <- (LY e He). unfold subtype in St. rewrite subtypes_0 in St. injection St as <-. exact Hj. }
  assert (RG : forall e i, els e -> In i (lf_indices l e) -> i < lf_dim l).
  { intros e i He I. apply IN in I as (j & Hj & ->). apply (mo_range _ _ _ _ HM _ _ _ (EN e He)). rewrite (LY e He). exact Hj. }
  split; [|split; [|split]].
  - constructor.
    + intros e He. cbn [l dg_leaf lf_indices lf_fe]. unfold dg_indices. rewrite map_length, seq_length. reflexivity.
    + intros e He. cbn [l dg_leaf lf_fe lf_maxnode]. destruct (HT e He) as (t & It & St).
      unfold n. rewrite <- (LY e He). etransitivity; [|apply init_bound, It].
      rewrite (layout_total_same _ t _ LO St). apply layout_total_top.
      intros s [c Hs] Hne. apply In_nth_error in Hs as (i & Hi).
      destruct (Nat.eq_dec (dg_lay g order s) 0) as [|Hn]; [assumption|].
      destruct (ZR e i c s He Hi ltac:(lia)) as [-> ->]. rewrite subtypes_0 in Hi. injection Hi as Hi. congruence.
    + exact RG.
    + exact CV.
  - intros e He. exists (mp_off mp (g_sub g e 0 0)). split.
    + cbn [l dg_leaf lf_indices]. unfold dg_indices, subIndex.
      clear. generalize (mp_off mp (g_sub g e 0 0)) as o. intros o.
      apply nth_error_ext. intros i. rewrite nth_error_map_eq, !nth_error_seq. destruct (i <? n e); reflexivity.
    + assert (Pos : 0 < n e). 
      { unfold n. clear. generalize (g_type g e) as t. intros t. revert order. induction t as [|b r IH]; intros order; [cbn; lia|].
        rewrite lattice_cons. cbn [sumto]. specialize (IH (if b then order else order - 0)). lia. }
      assert (H : mp_off mp (g_sub g e 0 0) + (n e - 1) < lf_dim l).
      { apply (RG e); [exact He|]. apply IN. exists (n e - 1). split; [lia|reflexivity]. }
      lia.
  - intros e e' i He He' I I'. apply IN in I as (j & Hj & ->). apply IN in I' as (j' & Hj' & H).
    apply (mo_disjoint _ _ _ _ HM _ _ j _ _ j' (EN e He) (EN e' He')); [rewrite (LY e He); exact Hj|rewrite (LY e' He'); exact Hj'|exact H].
  - exact CV.
Qed.
End Props.
Print Assumptions C30_mapper_leaf.
Print Assumptions C31_dg_blocks.

(** * A grid meeting the contracts *)

(** A triangle (element false) and a quadrilateral (element true) sharing an edge.
    Vertices 0..4, edges 5..10, elements 11, 12.  The edge 1-2 (number 7) is
    edge 2 of the triangle and edge 0 of the quadrilateral. *)
Definition ex_sub (e : bool) (i c : nat) : nat :=
  match e, c with
  | _, 0 => if e then 12 else 11
  | false, 1 => nth i [5; 6; 7] 0
  | false, _ => nth i [0; 1; 2] 0
  | true, 1 => nth i [7; 8; 9; 10] 0
  | true, _ => nth i [1; 3; 2; 4] 0
  end.
Definition ex_grid : grid bool nat := GRID 2 (fun e : bool => if e then [true; true] else [false; false]) ex_sub.
Definition all_els : bool -> Prop := fun _ => True.

Definition ex_table : list (bool * nat * nat * gt) :=
  [(false, 0, 0, [false; false]); (false, 0, 1, [false]); (false, 1, 1, [false]); (false, 2, 1, [false]);
   (false, 0, 2, []); (false, 1, 2, []); (false, 2, 2, []);
   (true, 0, 0, [true; true]); (true, 0, 1, [true]); (true, 1, 1, [true]); (true, 2, 1, [true]); (true, 3, 1, [true]);
   (true, 0, 2, []); (true, 1, 2, []); (true, 2, 2, []); (true, 3, 2, [])].
Lemma ex_subtypes e i c t : subtype ex_grid e i c t -> In (e, i, c, t) ex_table.
Proof.
  unfold subtype. intros H.
  destruct (le_lt_dec c 2) as [L|L].
  2:{ rewrite subtypes_big in H by (destruct e; cbn; lia). destruct i; discriminate H. }
  assert (Li : i < length (subtypes (g_type ex_grid e) c)) by (apply nth_error_Some; congruence).
  destruct e; destruct c as [|[|[|c]]]; try lia; cbn in Li;
    repeat (destruct i as [|i]; [cbn in H; injection H as <-; cbn; tauto|try lia]).
Qed.
Ltac ex_cases H :=
  apply ex_subtypes in H; cbn [ex_table In] in H;
  repeat (destruct H as [H|H]; [injection H as <- <- <- <-|]); [..|destruct H].

Lemma ex_grid_ok : grid_ok all_els ex_grid.
Proof.
  constructor.
  - intros [] _; reflexivity.
  - intros e i c t i' c' t' _ H H' Q. 
    apply ex_subtypes in H; cbn [ex_table In] in H. apply ex_subtypes in H'; cbn [ex_table In] in H'.
    repeat (destruct H as [H|H]; [injection H as <- <- <- <-;
      repeat (destruct H' as [H'|H']; [try discriminate H'; injection H' as <- <- <-; cbn in Q; try discriminate Q; split; reflexivity|]); destruct H'|]).
    destruct H.
  - intros e i c t e' i' c' t' _ _ H H' Q.
    apply ex_subtypes in H; cbn [ex_table In] in H. apply ex_subtypes in H'; cbn [ex_table In] in H'.
    repeat (destruct H as [H|H]; [injection H as <- <- <- <-;
      repeat (destruct H' as [H'|H']; [injection H' as <- <- <- <-; cbn in Q; try discriminate Q; repeat split; reflexivity|]); destruct H'|]).
    destruct H.
Qed.

(** second order Lagrange layout and local keys *)
Definition ex_lay (t : gt) : nat := lagrange_layout 2 t 2.
Definition ex_mp : mapper nat := MAP 12 (fun x => if x =? 12 then 11 else x).
Definition ex_keys (e : bool) : list localkey := all_keys ex_lay (g_type ex_grid e).
Example C30_grid_ok : grid_ok all_els ex_grid. Proof. exact ex_grid_ok. Qed.
Example C30_keys_ok : keys_ok all_els ex_grid ex_lay ex_keys.
Proof.
  intros e _. split; [apply all_keys_nodup|]. intros i c n. unfold ex_keys. rewrite all_keys_in. reflexivity.
Qed.
Example C30_types_ok : types_ok all_els ex_grid [[true; true]; [false; false]].
Proof. intros [] _; eexists; (split; [|apply same_type_refl]); cbn; auto. Qed.
Example C30_layout_ok : layout_ok ex_lay.
Proof.
  intros t t' [S L]. unfold ex_lay, lagrange_layout, isSimplex, isCube, gt_dim. rewrite S, L.
  assert (P := same_type_preds t t' (conj S L)).
  destruct P as [-> ->]. reflexivity.
Qed.

Lemma ex_entities x t : entity all_els ex_grid x t -> 0 < ex_lay t -> x < 11 \/ x = 12.
Proof.
  intros (e & i & c & _ & H & ->) P. ex_cases H; cbn in P; try lia; cbn; lia.
Qed.
Lemma ex_lay_le t : forall x, entity all_els ex_grid x t -> ex_lay t <= 1.
Proof. intros x (e & i & c & _ & H & ->). ex_cases H; cbn; lia. Qed.

Example C30_mapper_ok : mapper_ok all_els ex_grid ex_lay ex_mp.
Proof.
  constructor.
  - intros x t i H Hi. pose proof (ex_lay_le t x H). destruct (ex_entities x t H); [lia| |]; cbn; destruct (Nat.eqb_spec x 12); lia.
  - intros x t i y t' j H H' Hi Hj Q. pose proof (ex_lay_le t x H). pose proof (ex_lay_le t' y H').
    pose proof (ex_entities x t H ltac:(lia)). pose proof (ex_entities y t' H' ltac:(lia)).
    cbn in Q. destruct (Nat.eqb_spec x 12), (Nat.eqb_spec y 12); lia.
  - intros n Hn. cbn in Hn.
    destruct n as [|[|[|[|[|[|[|[|[|[|[|[|n]]]]]]]]]]]]; [..|lia].
    + exists 0, [], 0. split; [exists false, 0, 2; repeat split|]; split; [cbn; lia|reflexivity].
    + exists 1, [], 0. split; [exists false, 1, 2; repeat split|]; split; [cbn; lia|reflexivity].
    + exists 2, [], 0. split; [exists false, 2, 2; repeat split|]; split; [cbn; lia|reflexivity].
    + exists 3, [], 0. split; [exists true, 1, 2; repeat split|]; split; [cbn; lia|reflexivity].
    + exists 4, [], 0. split; [exists true, 3, 2; repeat split|]; split; [cbn; lia|reflexivity].
    + exists 5, [false], 0. split; [exists false, 0, 1; repeat split|]; split; [cbn; lia|reflexivity].
    + exists 6, [false], 0. split; [exists false, 1, 1; repeat split|]; split; [cbn; lia|reflexivity].
    + exists 7, [false], 0. split; [exists false, 2, 1; repeat split|]; split; [cbn; lia|reflexivity].
    + exists 8, [true], 0. split; [exists true, 1, 1; repeat split|]; split; [cbn; lia|reflexivity].
    + exists 9, [true], 0. split; [exists true, 2, 1; repeat split|]; split; [cbn; lia|reflexivity].
    + exists 10, [true], 0. split; [exists true, 3, 1; repeat split|]; split; [cbn; lia|reflexivity].
    + exists 12, [true; true], 0. split; [exists true, 0, 0; repeat split|]; split; [cbn; lia|reflexivity].
Qed.

(** and the mapper of the discontinuous second order space: 6 + 9 indices *)
Definition ex_dg_mp : mapper nat := MAP 15 (fun x => if x =? 12 then 6 else 0).
Example C31_mapper_ok : mapper_ok all_els ex_grid (dg_lay ex_grid 2) ex_dg_mp.
Proof.
  assert (D : forall x t, entity all_els ex_grid x t -> 0 < dg_lay ex_grid 2 t ->
    (x = 11 /\ dg_lay ex_grid 2 t = 6) \/ (x = 12 /\ dg_lay ex_grid 2 t = 9)).
  { intros x t (e & i & c & _ & H & ->) P. ex_cases H; cbn in P; try lia; cbn; auto. }
  constructor.
  - intros x t i H Hi. destruct (D x t H) as [[-> L]|[-> L]]; [lia| |]; rewrite L in Hi; cbn; lia.
  - intros x t i y t' j H H' Hi Hj Q.
    destruct (D x t H) as [[-> L]|[-> L]]; [lia| |]; destruct (D y t' H') as [[-> L']|[-> L']]; try lia; cbn in Q; lia.
  - intros n Hn. cbn in Hn. destruct (le_lt_dec 6 n).
    + exists 12, [true; true], (n - 6). split; [exists true, 0, 0; repeat split|]. split; [cbn; lia|cbn; lia].
    + exists 11, [false; false], n. split; [exists false, 0, 0; repeat split|]. split; [exact l|reflexivity].
Qed.
Example C31_case : dg_indices ex_grid ex_dg_mp (fun e => if e then 9 else 6) true = [6;7;8;9;10;11;12;13;14].
Proof. reflexivity. Qed.
