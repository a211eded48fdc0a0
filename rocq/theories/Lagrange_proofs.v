(** Proofs about face orientations and face DOF permutations. *)
From Coq Require Import List Arith Lia Bool NArith.
From Verif Require Import Lib Basis_model DiscreteFunction_proofs GeometryType_model GeometryType_props.
From Verif Require Import Mapper_model Lagrange_model Lagrange_spec.
Import ListNotations.
#[local] Arguments Nat.ltb : simpl never.
#[local] Arguments Nat.testbit : simpl never.

(** * The bit field *)

Definition edge_bit (dim : nat) (re : refelem) (ids : nat -> nat) (e : nat) : bool :=
  match re_subs re e (dim - 1) dim with [a; b] => ids b <? ids a | _ => false end.

Lemma edges_loop dim re ids :
  refelem_ok dim re ->
  exists d, forl (re_size re (dim - 1)) 0
     (fun e d => computeEdgeOrientation (faceVertexIds dim re ids e (dim - 1)) e d) (bs_of 0) = Some d /\
   forall i, d i = (i <? re_size re (dim - 1)) && edge_bit dim re ids i.
Proof.
  intros Hre.
  destruct (forl_inv (fun s (d : bits) => forall i, d i = (i <? s) && edge_bit dim re ids i) (re_size re (dim - 1)) 0
     (fun e d => computeEdgeOrientation (faceVertexIds dim re ids e (dim - 1)) e d) (bs_of 0)) as (d & -> & H).
  - intros i. unfold bs_of. rewrite Nat.bits_0, andb_false_r. reflexivity.
  - intros e d He Hd. destruct (ro_edge _ _ Hre e ltac:(lia)) as (a & b & Hab).
    unfold computeEdgeOrientation, faceVertexIds. rewrite Hab. cbn [map nth_error obind].
    eexists. split; [reflexivity|]. intros i. unfold bs_set. rewrite Hd.
    destruct (Nat.eqb_spec i e) as [->|N].
    + unfold edge_bit. rewrite Hab. destruct (Nat.ltb_spec e (e + 1)); [reflexivity|lia].
    + destruct (Nat.ltb_spec i e), (Nat.ltb_spec i (e + 1)); try lia; reflexivity.
  - exists d. split; [reflexivity|]. exact H.
Qed.

Definition tri_code (a b c : nat) : nat :=
  N.to_nat (getBitBlock 4 triangleTable (Nat.b2n (b <? a) + 2 * Nat.b2n (c <? a) + 4 * Nat.b2n (c <? b))).
Definition quad_code (v0 v1 v2 v3 : nat) : nat :=
  let eo := Nat.b2n (v2 <? v0) + 2 * Nat.b2n (v3 <? v1) + 4 * Nat.b2n (v1 <? v0) + 8 * Nat.b2n (v3 <? v2) in
  let i_min :=
    if eo =? 5 then (if v1 <? v2 then 1 else 2)
    else if eo =? 10 then (if v0 <? v3 then 0 else 3)
    else N.to_nat (getBitBlock 2 quadrilateralTable eo) in
  if i_min =? 0 then 8 + 4 * Nat.b2n (v2 <? v1)
  else if i_min =? 1 then 11 + 4 * Nat.b2n (v0 <? v3)
  else if i_min =? 2 then 9 + 4 * Nat.b2n (v3 <? v0)
  else if i_min =? 3 then 10 + 4 * Nat.b2n (v1 <? v2)
  else 0.
Definition facet_code (re : refelem) (ids : nat -> nat) (f : nat) : nat :=
  match re_subs re f 1 3 with
  | [a; b; c] => tri_code (ids a) (ids b) (ids c)
  | [a; b; c; d] => quad_code (ids a) (ids b) (ids c) (ids d)
  | _ => 0
  end.

Lemma tri_code_lt a b c : tri_code a b c < 8.
Proof. unfold tri_code. destruct (b <? a), (c <? a), (c <? b); vm_compute; lia. Qed.
Lemma quad_code_lt a b c d : quad_code a b c d < 16.
Proof.
  unfold quad_code.
  destruct (c <? a), (d <? b), (b <? a), (d <? c), (b <? c), (a <? d), (c <? b), (d <? a); vm_compute; lia.
Qed.
Lemma facet_code_lt re ids f : facet_code re ids f < 16.
Proof.
  unfold facet_code. destruct (re_subs re f 1 3) as [|a [|b [|c [|d [|]]]]]; try lia.
  - pose proof (tri_code_lt (ids a) (ids b) (ids c)). lia.
  - apply quad_code_lt.
Qed.

Lemma testbit_high n j : n < 16 -> 4 <= j -> Nat.testbit n j = false.
Proof.
  intros H J. destruct (Nat.eq_dec n 0) as [->|N0]; [apply Nat.bits_0|].
  apply Nat.bits_above_log2. apply (Nat.lt_le_trans _ 4); [|exact J]. apply Nat.log2_lt_pow2; [lia|exact H].
Qed.

Lemma facet_dim2 re f t : gt_dim (re_type re) = 3 -> nth_error (subtypes (re_type re) 1) f = Some t ->
  gt_dim t = 2.
Proof.
  intros H. destruct re as [T subs]. cbn [re_type] in *. destruct T as [|a [|b [|c [|]]]]; try discriminate H.
  intros Hn. apply nth_error_In in Hn. destruct a, b, c; vm_compute in Hn; intuition (subst; reflexivity).
Qed.
Lemma tri_or_quad t : gt_dim t = 2 -> (isTriangle t = true /\ isQuadrilateral t = false) \/ (isTriangle t = false /\ isQuadrilateral t = true).
Proof. destruct t as [|[] [|b [|]]]; try discriminate; intros _; [right|left]; split; reflexivity. Qed.

Section Facets.
Variable re : refelem.
Variable ids : nat -> nat.
Hypothesis Hre : refelem_ok 3 re.

Definition fbits (s : nat) (d : bits) : Prop :=
  forall i, d i = if i <? 12 then (i <? re_size re 2) && edge_bit 3 re ids i
                  else ((i - 12) / 4 <? s) && Nat.testbit (facet_code re ids ((i - 12) / 4)) ((i - 12) mod 4).

Lemma edge_bit_val e a b : re_subs re e 2 3 = [a; b] -> edge_bit 3 re ids e = (ids b <? ids a).
Proof. intros H. unfold edge_bit. cbn [Nat.sub]. rewrite H. reflexivity. Qed.

Lemma or_block s d o : s < 6 -> o < 16 -> o = facet_code re ids s -> fbits s d ->
  fbits (s + 1) (bs_or d (bs_shl (bs_of o) (facetBitOffset s))).
Proof.
  intros Hs Ho Ef Hd i. unfold bs_or, bs_shl, bs_of, facetBitOffset, maxEdges, bitsPerFacet, nbits. rewrite Hd.
  destruct (Nat.ltb_spec i 12) as [L|L].
  - destruct (Nat.leb_spec (12 + 4 * s) i) as [L'|L']; [lia|]. rewrite andb_false_r, orb_false_r. reflexivity.
  - set (f := (i - 12) / 4). set (j := (i - 12) mod 4).
    assert (Di : i - 12 = 4 * f + j) by (apply Nat.div_mod; lia).
    assert (Hj : j < 4) by (apply Nat.mod_upper_bound; lia).
    destruct (Nat.ltb_spec f s) as [F|F].
    + destruct (Nat.ltb_spec f (s + 1)); [|lia]. destruct (Nat.leb_spec (12 + 4 * s) i); [lia|].
      rewrite andb_false_r, orb_false_r. reflexivity.
    + destruct (Nat.ltb_spec f (s + 1)) as [F'|F'].
      * assert (f = s) by lia. subst s. destruct (Nat.leb_spec (12 + 4 * f) i); [|lia].
        destruct (Nat.ltb_spec i 36); [|lia]. destruct (Nat.ltb_spec (i - (12 + 4 * f)) 36); [|lia].
        cbn [andb orb]. replace (i - (12 + 4 * f)) with j by lia. rewrite Ef. reflexivity.
      * cbn [andb orb]. destruct (Nat.leb_spec (12 + 4 * s) i); [|lia].
        rewrite (testbit_high o (i - (12 + 4 * s))) by lia. rewrite !andb_false_r. reflexivity.
Qed.

Lemma fbits_edge s d e a b : fbits s d -> e < re_size re 2 -> re_subs re e 2 3 = [a; b] -> d e = (ids b <? ids a).
Proof.
  intros Hd He Hab. rewrite Hd. pose proof (ro_edges _ _ Hre). cbn [Nat.sub] in *.
  destruct (Nat.ltb_spec e 12); [|lia]. destruct (Nat.ltb_spec e (re_size re 2)); [|lia]. apply edge_bit_val, Hab.
Qed.

Lemma facets_loop d0 : fbits 0 d0 ->
  exists d, forl (re_size re 1) 0
           (fun f d =>
              t <- nth_error (subtypes (re_type re) 1) f ;;
              d <- (if isTriangle t then computeTriangleOrientation re f d else Some d) ;;
              if isQuadrilateral t
              then computeQuadrilateralOrientation re (faceVertexIds 3 re ids f 1) f d else Some d) d0 = Some d /\
    fbits (re_size re 1) d.
Proof.
  intros H0.
  destruct (forl_inv fbits (re_size re 1) 0 (fun f d =>
              t <- nth_error (subtypes (re_type re) 1) f ;;
              d <- (if isTriangle t then computeTriangleOrientation re f d else Some d) ;;
              if isQuadrilateral t
              then computeQuadrilateralOrientation re (faceVertexIds 3 re ids f 1) f d else Some d) d0 H0) as (d & -> & H).
  - intros f d Hf Hd. pose proof (ro_facets3 _ _ Hre eq_refl) as Hsz.
    destruct (nth_error_lt_Some (subtypes (re_type re) 1) f) as (t & Ht); [unfold re_size in *; lia|].
    rewrite Ht. cbn [obind].
    destruct (tri_or_quad t (facet_dim2 re f t (ro_dim _ _ Hre) Ht)) as [[T Q]|[T Q]]; rewrite T, Q.
    + destruct (ro_triangle _ _ Hre f t eq_refl Ht T) as (a & b & c & e0 & e1 & e2 & Hv & He & L0 & L1 & L2 & E0 & E1 & E2).
      unfold computeTriangleOrientation, re_subEntity. rewrite He. cbn [nth_error obind].
      eexists. split; [reflexivity|].
      rewrite (fbits_edge f d e0 a b Hd L0 E0), (fbits_edge f d e1 a c Hd L1 E1), (fbits_edge f d e2 b c Hd L2 E2).
      apply or_block; [lia| | |exact Hd].
      * pose proof (tri_code_lt (ids a) (ids b) (ids c)). unfold tri_code in H. lia.
      * unfold facet_code. rewrite Hv. reflexivity.
    + destruct (ro_quadrilateral _ _ Hre f t eq_refl Ht Q) as (a & b & c & dd & e0 & e1 & e2 & e3 & Hv & He & L0 & L1 & L2 & L3 & E0 & E1 & E2 & E3).
      unfold computeQuadrilateralOrientation, re_subEntity, faceVertexIds. rewrite He, Hv. cbn [map nth_error obind].
      eexists. split; [reflexivity|].
      rewrite (fbits_edge f d e0 a c Hd L0 E0), (fbits_edge f d e1 b dd Hd L1 E1), (fbits_edge f d e2 a b Hd L2 E2), (fbits_edge f d e3 c dd Hd L3 E3).
      apply or_block; [lia| | |exact Hd].
      * apply (quad_code_lt (ids a) (ids b) (ids c) (ids dd)).
      * unfold facet_code. rewrite Hv. reflexivity.
  - exists d. split; [reflexivity|exact H].
Qed.

Lemma to_ulong_ext n d d' : (forall i, d i = d' i) -> to_ulong_aux n d = to_ulong_aux n d'.
Proof.
  revert d d'; induction n as [|n IH]; intros d d' H; cbn [to_ulong_aux]; [reflexivity|].
  rewrite H. f_equal. f_equal. apply IH. intros i. apply H.
Qed.
Lemma to_ulong_false n d : (forall i, d i = false) -> to_ulong_aux n d = 0.
Proof.
  revert d; induction n as [|n IH]; intros d H; cbn [to_ulong_aux]; [reflexivity|].
  rewrite H, IH; [reflexivity|]. intros i. apply H.
Qed.

Lemma to_ulong_small n o d : o < 16 -> (forall i, d i = Nat.testbit o i) -> to_ulong_aux (4 + n) d = o.
Proof.
  intros Ho H. cbn [Nat.add to_ulong_aux]. rewrite !H, to_ulong_false.
  2:{ intros i. rewrite H. apply testbit_high; lia. }
  do 16 (destruct o as [|o]; [vm_compute; reflexivity|]). lia.
Qed.

Lemma read_block s d f : fbits s d -> f < s -> s <= 6 -> faceOrientationIndex 3 d f 1 = facet_code re ids f.
Proof.
  intros Hd Hf Hs. unfold faceOrientationIndex. cbn [Nat.sub Nat.eqb]. unfold bs_to_ulong.
  change nbits with (4 + 32). apply to_ulong_small; [apply facet_code_lt|].
  intros i. unfold bs_and, bs_shr, singleFacetMask, bs_of, facetBitOffset, maxEdges, bitsPerFacet, nbits.
  destruct (le_lt_dec 4 i) as [L|L].
  - rewrite (testbit_high 15 i), !andb_false_r by lia. symmetry. apply testbit_high; [apply facet_code_lt|exact L].
  - assert (T15 : Nat.testbit 15 i = true) by (destruct i as [|[|[|[|i]]]]; try lia; reflexivity).
    rewrite T15, andb_true_r. rewrite Hd.
    destruct (Nat.ltb_spec i 36); [|lia]. destruct (Nat.ltb_spec (i + (12 + 4 * f)) 36); [|lia].
    destruct (Nat.ltb_spec (i + (12 + 4 * f)) 12); [lia|].
    replace (i + (12 + 4 * f) - 12) with (i + f * 4) by lia.
    rewrite Nat.div_add, Nat.mod_add, Nat.div_small, Nat.mod_small by lia. cbn [Nat.add].
    destruct (Nat.ltb_spec f s); [|lia]. cbn [andb]. rewrite andb_true_r. reflexivity.
Qed.
End Facets.

(** What the constructor computes. *)
Lemma orientations_3d re ids codims :
  refelem_ok 3 re -> In 2 codims \/ In 1 codims ->
  exists d, faceOrientations 3 re ids codims = Some d /\
    (forall e, e < re_size re 2 -> faceOrientationIndex 3 d e 2 = Nat.b2n (edge_bit 3 re ids e)) /\
    (In 1 codims -> forall f, f < re_size re 1 -> faceOrientationIndex 3 d f 1 = facet_code re ids f) /\
    (~ In 1 codims -> forall f, f < re_size re 1 -> faceOrientationIndex 3 d f 1 = 0).
Proof.
  intros Hre Hc. unfold faceOrientations. cbn [Nat.eqb orb].
  assert (length codims =? 0 = false) as -> by (destruct codims; [destruct Hc as [[]|[]]|reflexivity]).
  assert (existsb (fun c => c <=? 3 - 1) codims = true) as ->.
  { apply existsb_exists. destruct Hc as [I|I]; [exists 2|exists 1]; split; trivial. }
  cbn [Nat.ltb Nat.leb andb]. change (1 <? 3) with true. cbn [andb].
  destruct (edges_loop 3 re ids Hre) as (d & -> & Hd). cbn [obind].
  assert (F0 : fbits re ids 0 d).
  { intros i. rewrite Hd. cbn [Nat.sub]. pose proof (ro_edges _ _ Hre). cbn [Nat.sub] in *.
    destruct (Nat.ltb_spec i 12); [reflexivity|]. destruct (Nat.ltb_spec i (re_size re 2)); [lia|].
    destruct (Nat.ltb_spec ((i - 12) / 4) 0); [lia|reflexivity]. }
  assert (RE : forall s d, fbits re ids s d -> forall e, e < re_size re 2 -> faceOrientationIndex 3 d e 2 = Nat.b2n (edge_bit 3 re ids e)).
  { intros s d' Hf e He. unfold faceOrientationIndex. cbn [Nat.sub Nat.eqb]. rewrite Hf.
    pose proof (ro_edges _ _ Hre). cbn [Nat.sub] in *.
    destruct (Nat.ltb_spec e 12); [|lia]. destruct (Nat.ltb_spec e (re_size re 2)); [reflexivity|lia]. }
  destruct (existsb (fun c => c =? 3 - 2) codims) eqn:X.
  - destruct (facets_loop re ids Hre d F0) as (d' & -> & F').
    exists d'. split; [reflexivity|]. split; [exact (RE _ _ F')|]. split.
    + intros _ f Hf. apply (read_block re ids _ d' f F' Hf). exact (ro_facets3 _ _ Hre eq_refl).
    + intros N. exfalso. apply existsb_exists in X as (c & Ic & E1). apply Nat.eqb_eq in E1. cbn in E1. subst c. tauto.
  - exists d. split; [reflexivity|]. split; [exact (RE _ _ F0)|]. split.
    + intros I. exfalso. assert (existsb (fun c => c =? 3 - 2) codims = true) by (apply existsb_exists; exists 1; auto). congruence.
    + intros _ f Hf. unfold faceOrientationIndex. cbn [Nat.sub Nat.eqb]. unfold bs_to_ulong. apply to_ulong_false.
      intros i. unfold bs_and, bs_shr. rewrite Hd. cbn [Nat.sub].
      pose proof (ro_edges _ _ Hre). cbn [Nat.sub] in *. unfold facetBitOffset, maxEdges.
      destruct (Nat.ltb_spec (i + (12 + bitsPerFacet * f)) (re_size re 2)); [lia|].
      rewrite andb_false_l, andb_false_r. reflexivity.
Qed.

Lemma orientations_2d re ids codims :
  refelem_ok 2 re -> In 1 codims ->
  exists d, faceOrientations 2 re ids codims = Some d /\
    (forall e, e < re_size re 1 -> faceOrientationIndex 2 d e 1 = Nat.b2n (edge_bit 2 re ids e)).
Proof.
  intros Hre Hc. unfold faceOrientations. cbn [Nat.eqb orb].
  assert (length codims =? 0 = false) as -> by (destruct codims; [destruct Hc|reflexivity]).
  assert (existsb (fun c => c <=? 2 - 1) codims = true) as ->.
  { apply existsb_exists. exists 1. auto. }
  change (1 <? 2) with true. cbn [andb].
  destruct (edges_loop 2 re ids Hre) as (d & -> & Hd). cbn [obind].
  exists d. split; [reflexivity|]. intros e He. unfold faceOrientationIndex. cbn [Nat.sub Nat.eqb]. rewrite Hd.
  cbn [Nat.sub]. destruct (Nat.ltb_spec e (re_size re 1)); [reflexivity|lia].
Qed.

(** * Canonical numbering *)

Lemma same_face_refl v : same_face v v. Proof. repeat split; auto. Qed.
Lemma same_face_sym v w : same_face v w -> same_face w v.
Proof. intros (L & I & F). split; [auto|]. split; [intros x; symmetry; apply I|intros a b; symmetry; apply F]. Qed.
Lemma same_face_trans u v w : same_face u v -> same_face v w -> same_face u w.
Proof.
  intros (L & I & F) (L' & I' & F'). split; [congruence|].
  split; [intros x; rewrite I; apply I'|intros a b; rewrite F; apply F'].
Qed.

Lemma face_edge_2 a b x y : face_edge [a; b] x y <-> (x = a /\ y = b) \/ (x = b /\ y = a).
Proof.
  unfold face_edge. cbn [length edges_of In]. split.
  - intros (p & q & H & Hp & Hq).
    destruct H as [[H|[]]|[H|[]]]; injection H as <- <-; cbn in Hp, Hq; injection Hp as <-; injection Hq as <-; auto.
  - intros [[-> ->]|[-> ->]]; [exists 0, 1|exists 1, 0]; cbn; auto.
Qed.
Lemma face_edge_3 a b c x y : face_edge [a; b; c] x y <->
  (x = a /\ y = b) \/ (x = b /\ y = a) \/ (x = a /\ y = c) \/ (x = c /\ y = a) \/ (x = b /\ y = c) \/ (x = c /\ y = b).
Proof.
  unfold face_edge. cbn [length edges_of In]. split.
  - intros (p & q & H & Hp & Hq).
    destruct H as [[H|[H|[H|[]]]]|[H|[H|[H|[]]]]]; injection H as <- <-; cbn in Hp, Hq; injection Hp as <-; injection Hq as <-; tauto.
  - intros [[-> ->]|[[-> ->]|[[-> ->]|[[-> ->]|[[-> ->]|[-> ->]]]]]];
      [exists 0, 1|exists 1, 0|exists 0, 2|exists 2, 0|exists 1, 2|exists 2, 1]; cbn; tauto.
Qed.
Lemma face_edge_4 a b c d x y : face_edge [a; b; c; d] x y <->
  (x = a /\ y = b) \/ (x = b /\ y = a) \/ (x = a /\ y = c) \/ (x = c /\ y = a) \/
  (x = b /\ y = d) \/ (x = d /\ y = b) \/ (x = c /\ y = d) \/ (x = d /\ y = c).
Proof.
  unfold face_edge. cbn [length edges_of In]. split.
  - intros (p & q & H & Hp & Hq).
    destruct H as [[H|[H|[H|[H|[]]]]]|[H|[H|[H|[H|[]]]]]]; injection H as <- <-; cbn in Hp, Hq; injection Hp as <-; injection Hq as <-; tauto.
  - intros [[-> ->]|[[-> ->]|[[-> ->]|[[-> ->]|[[-> ->]|[[-> ->]|[[-> ->]|[-> ->]]]]]]]];
      [exists 0, 1|exists 1, 0|exists 0, 2|exists 2, 0|exists 1, 3|exists 3, 1|exists 2, 3|exists 3, 2]; cbn; tauto.
Qed.

Definition face_size (v : list nat) : Prop := length v = 2 \/ length v = 3 \/ length v = 4.

Lemma same_face_nodup v w : NoDup v -> same_face v w -> NoDup w.
Proof.
  intros N (L & I & _). apply (NoDup_incl_NoDup N); [lia|]. intros x Hx. apply I, Hx.
Qed.

(** the global orientation of a face is unique *)
Lemma global_unique v u u' : NoDup v -> face_size v -> global_orientation v u -> global_orientation v u' -> u = u'.
Proof.
  intros N S (F & P0 & P1 & r & -> & M & E & ME) (F' & P0' & P1' & r' & -> & M' & E' & ME').
  assert (N1 := same_face_nodup _ _ N F). assert (N2 := same_face_nodup _ _ N F').
  assert (Q := same_face_trans _ _ _ (same_face_sym _ _ F) F').
  assert (P0 = P0') as <-.
  { apply Nat.le_antisymm; [apply M, (proj1 (proj2 F'))|apply M', (proj1 (proj2 F))]; left; reflexivity. }
  assert (P1 = P1') as <- by (apply Nat.le_antisymm; [apply ME, E'|apply ME', E]).
  f_equal. f_equal.
  assert (Lu := proj1 F). assert (Lu' := proj1 F'). cbn [length] in Lu, Lu'.
  destruct Q as (_ & QI & QE).
  destruct S as [S|[S|S]]; rewrite S in Lu, Lu'.
  - destruct r; [|discriminate Lu]. destruct r'; [reflexivity|discriminate Lu'].
  - destruct r as [|c [|]]; try discriminate Lu. destruct r' as [|c' [|]]; try discriminate Lu'.
    f_equal. assert (I : In c [P0; P1; c']) by (apply QI; cbn; auto).
    inversion N1 as [|? ? A1 N1']; subst. inversion N1' as [|? ? A2 _]; subst. cbn in I, A1, A2.
    destruct I as [<-|[<-|[<-|[]]]]; [tauto|tauto|reflexivity].
  - destruct r as [|c [|d [|]]]; try discriminate Lu. destruct r' as [|c' [|d' [|]]]; try discriminate Lu'.
    inversion N1 as [|? ? A1 N1']; subst. inversion N1' as [|? ? A2 N1'']; subst. inversion N1'' as [|? ? A3 _]; subst.
    cbn in A1, A2, A3.
    assert (c = c').
    { assert (H : face_edge [P0; P1; c'; d'] P0 c) by (apply QE, face_edge_4; tauto).
      apply face_edge_4 in H.
      inversion N2 as [|? ? B1 N2']; subst. cbn in B1.
      intuition (subst; try tauto). }
    subst c'. f_equal. f_equal.
    assert (I : In d [P0; P1; c; d']) by (apply QI; cbn; auto). cbn in I.
    destruct I as [<-|[<-|[<-|[<-|[]]]]]; tauto.
Qed.

(** the face seen through an orientation: the inverse of the automorphism *)
Definition view (n o : nat) (v : list nat) : list nat :=
  match v with
  | [a; b] => if o =? 0 then [a; b] else [b; a]
  | [a; b; c] =>
      match o with 0 => [a; b; c] | 1 => [c; a; b] | 2 => [b; c; a]
                 | 4 => [a; c; b] | 5 => [c; b; a] | 6 => [b; a; c] | _ => v end
  | [a; b; c; d] =>
      match o with 8 => [a; b; c; d] | 9 => [c; a; d; b] | 10 => [d; c; b; a] | 11 => [b; d; a; c]
                 | 12 => [a; c; b; d] | 13 => [c; d; a; b] | 14 => [d; b; c; a] | 15 => [b; a; d; c] | _ => v end
  | _ => v
  end.

Lemma view_automorphism v o p : face_size v -> legal (length v) o -> p < length v ->
  nth_error (view (length v) o v) (automorphism (length v) o p) = nth_error v p.
Proof.
  intros S L Hp.
  destruct v as [|a [|b [|c [|d [|]]]]]; unfold face_size in S; cbn [length] in *; try lia.
  - destruct L as [-> | ->]; destruct p as [|[|]]; try lia; reflexivity.
  - cbn [legal In] in L. destruct L as [<-|[<-|[<-|[<-|[<-|[<-|[]]]]]]]; destruct p as [|[|[|]]]; try lia; reflexivity.
  - cbn [legal] in L.
    assert (o = 8 \/ o = 9 \/ o = 10 \/ o = 11 \/ o = 12 \/ o = 13 \/ o = 14 \/ o = 15) as C by lia.
    destruct C as [->|[->|[->|[->|[->|[->|[->| ->]]]]]]]; destruct p as [|[|[|[|]]]]; try lia; reflexivity.
Qed.

Lemma edge_canonical a b : a <> b ->
  global_orientation [a; b] (view 2 (Nat.b2n (b <? a)) [a; b]) .
Proof.
  intros N. destruct (Nat.ltb_spec b a) as [L|L]; cbn [Nat.b2n view Nat.eqb].
  - split.
    + split; [reflexivity|]. split; [cbn; tauto|]. intros x y. rewrite !face_edge_2. tauto.
    + exists b, a, []. split; [reflexivity|]. split; [cbn; intros x [<-|[<-|[]]]; lia|].
      split; [apply face_edge_2; auto|]. intros x H. apply face_edge_2 in H. lia.
  - split; [apply same_face_refl|].
    exists a, b, []. split; [reflexivity|]. split; [cbn; intros x [<-|[<-|[]]]; lia|].
    split; [apply face_edge_2; auto|]. intros x H. apply face_edge_2 in H. lia.
Qed.

Lemma canonical_3 v a b c : (forall x, In x v <-> In x [a; b; c]) -> (forall x y, face_edge v x y <-> face_edge [a; b; c] x y) ->
  length v = 3 -> a < b -> b < c -> global_orientation v [a; b; c].
Proof.
  intros I F L H1 H2. split; [split; [exact L|split; [exact I|exact F]]|].
  exists a, b, [c]. split; [reflexivity|]. split; [intros x Hx; apply I in Hx; cbn in Hx; lia|].
  split; [apply F, face_edge_3; tauto|]. intros x H. apply F, face_edge_3 in H. lia.
Qed.
Lemma canonical_4 v a b c d : (forall x, In x v <-> In x [a; b; c; d]) -> (forall x y, face_edge v x y <-> face_edge [a; b; c; d] x y) ->
  length v = 4 -> a < b -> b < c -> a < d -> global_orientation v [a; b; c; d].
Proof.
  intros I F L H1 H2 H3. split; [split; [exact L|split; [exact I|exact F]]|].
  exists a, b, [c; d]. split; [reflexivity|]. split; [intros x Hx; apply I in Hx; cbn in Hx; lia|].
  split; [apply F, face_edge_4; tauto|]. intros x H. apply F, face_edge_4 in H. lia.
Qed.

Lemma tri_canonical a b c : NoDup [a; b; c] ->
  legal 3 (tri_code a b c) /\ global_orientation [a; b; c] (view 3 (tri_code a b c) [a; b; c]).
Proof.
  intros N. inversion N as [|? ? N1 N']; subst. inversion N' as [|? ? N2 _]; subst. cbn in N1, N2.
  assert (a <> b /\ a <> c /\ b <> c) as (D1 & D2 & D3) by (repeat split; intros ->; tauto). clear N N' N1 N2.
  unfold tri_code.
  destruct (Nat.ltb_spec b a), (Nat.ltb_spec c a), (Nat.ltb_spec c b); try lia;
    match goal with |- context [N.to_nat ?t] => let r := eval vm_compute in (N.to_nat t) in change (N.to_nat t) with r end;
    (split; [cbn; tauto|]); cbn [view]; (apply canonical_3; [cbn; tauto|intros x y; rewrite !face_edge_3; tauto|reflexivity|lia|lia]).
Qed.
Lemma quad_canonical a b c d : NoDup [a; b; c; d] ->
  legal 4 (quad_code a b c d) /\ global_orientation [a; b; c; d] (view 4 (quad_code a b c d) [a; b; c; d]).
Proof.
  intros N. inversion N as [|? ? N1 N']; subst. inversion N' as [|? ? N2 N'']; subst. inversion N'' as [|? ? N3 _]; subst. cbn in N1, N2, N3.
  assert (a <> b /\ a <> c /\ b <> c /\ a <> d /\ b <> d /\ c <> d) as (D1 & D2 & D3 & D4 & D5 & D6) by (repeat split; intros ->; tauto).
  clear N N' N'' N1 N2 N3.
  unfold quad_code.
  destruct (Nat.ltb_spec c a), (Nat.ltb_spec d b), (Nat.ltb_spec b a), (Nat.ltb_spec d c); try lia;
  destruct (Nat.ltb_spec b c), (Nat.ltb_spec c b); try lia;
  destruct (Nat.ltb_spec a d), (Nat.ltb_spec d a); try lia;
    match goal with |- legal 4 ?t /\ _ => let r := eval vm_compute in t in change t with r end;
    (split; [cbn; lia|]); cbn [view]; (apply canonical_4; [cbn; tauto|intros x y; rewrite !face_edge_4; tauto|reflexivity|lia|lia|lia]).
Qed.
