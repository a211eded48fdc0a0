(** C57: the DOF layouts of the bases built on external finite elements. *)
From Coq Require Import List Arith Lia Bool.
From Verif Require Import Lib Basis_model Basis_spec GeometryType_model GeometryType_spec GeometryType_props.
From Verif Require Import Mapper_model Mapper_spec Mapper_props Mapper_blocks Keys_check Families_model Families_spec.
Import ListNotations.

Lemma counts_agree {E X} (els : E -> Prop) (g : grid E X) n lay keys :
  (forall e i c t, els e -> subtype g e i c t -> lay t = n t) -> keys_ok els g n keys -> keys_ok els g lay keys.
Proof.
  intros H K e He. destruct (K e He) as [N I]. split; auto. intros i c m. rewrite I. split; intros (t & St & L); exists t; split; auto; [rewrite (H e i c t)|rewrite <- (H e i c t)]; auto.
Qed.
Definition counts_check (lay n : gt -> nat) (t : gt) : bool :=
  forallb (fun c => forallb (fun s => lay s =? n s) (subtypes t c)) (seq 0 (gt_dim t + 1)).
Lemma counts_check_ok lay n t : counts_check lay n t = true -> forall c s, In s (subtypes t c) -> lay s = n s.
Proof.
  intros H c s I. unfold counts_check in H. rewrite forallb_forall in H.
  destruct (le_lt_dec c (gt_dim t)) as [L|L]; [|rewrite subtypes_big in I by exact L; destruct I].
  specialize (H c). rewrite in_seq in H. specialize (H ltac:(lia)). rewrite forallb_forall in H. apply Nat.eqb_eq, H, I.
Qed.
Lemma same_pyramid t t' : same_type t t' -> isPyramid t = isPyramid t'.
Proof. apply same_type_preds. Qed.
Lemma same_prism t t' : same_type t t' -> isPrism t = isPrism t'.
Proof. apply same_type_preds. Qed.
Lemma same_cube t t' : same_type t t' -> isCube t = isCube t'.
Proof. intros [R _]. unfold isCube. now rewrite R. Qed.
Lemma same_simplex t t' : same_type t t' -> isSimplex t = isSimplex t'.
Proof. intros [R _]. unfold isSimplex. now rewrite R. Qed.
Lemma same_dim t t' : same_type t t' -> gt_dim t = gt_dim t'.
Proof. intros [_ L]. exact L. Qed.
Lemma numbered_mapper {E X} (els : E -> Prop) (g : grid E X) lay types keys mp :
  grid_ok els g -> layout_ok lay -> types_ok els g types -> mapper_ok els g lay mp -> keys_ok els g lay keys ->
  numbered els g keys (mapper_leaf g mp lay types keys).
Proof. intros. now apply C30_mapper_leaf. Qed.

(** * Raviart-Thomas *)
Lemma rt_layout_ok k d : layout_ok (fun t => rt_layout k d t d).
Proof.
  intros t t' S. unfold rt_layout. now rewrite (same_pyramid _ _ S), (same_cube _ _ S), (same_dim _ _ S).
Qed.
Lemma rt_counts k d t : gt_dim t = d -> rt_finite_element d k t = true -> counts_check (fun s => rt_layout k d s d) (rt_functions 1 k d) t = true.
Proof.
  intros D F.
  assert (d = 2 \/ d = 3) as [-> | ->].
  { clear - F. unfold rt_finite_element in F. destruct d as [|[|[|[|d]]]]; auto; exfalso; destruct (isSimplex t), (isCube t), (isPyramid t), (isPrism t); cbn in F; discriminate. }
  - destruct t as [|a [|b [|]]]; try discriminate D. destruct k as [|[|[|k]]]; destruct a, b; try reflexivity; cbn in F; discriminate F.
  - destruct t as [|a [|b [|c [|]]]]; try discriminate D. destruct k as [|[|[|k]]]; destruct a, b, c; try reflexivity; cbn in F; discriminate F.
Qed.
Lemma rt_element_same d k t t' : same_type t t' -> rt_finite_element d k t = rt_finite_element d k t'.
Proof. intros S. unfold rt_finite_element. now rewrite (same_simplex _ _ S), (same_cube _ _ S), (same_pyramid _ _ S), (same_prism _ _ S). Qed.
(** For every element type and order that has a finite element.  In the interior of a pyramid
    the layout expects one function. *)
Theorem C57_raviart_thomas {E X} (els : E -> Prop) (g : grid E X) k types keys mp :
  let d := g_dim g in let lay := fun t => rt_layout k d t d in
  grid_ok els g -> types_ok els g types -> mapper_ok els g lay mp ->
  (forall t, In t types -> rt_finite_element d k t = true) ->
  keys_ok els g (rt_functions 1 k d) keys ->
  numbered els g keys (mapper_leaf g mp lay types keys).
Proof.
  intros d lay HG HT HM HF HK. apply numbered_mapper; auto; [apply rt_layout_ok|].
  apply (counts_agree els g (rt_functions 1 k d)); auto. intros e i c t He St. destruct (HT e He) as (T & IT & ST).
  apply (counts_check_ok lay _ (g_type g e)) with c; [|eapply nth_error_In; exact St].
  apply rt_counts; [now apply (go_dim _ _ HG)|]. rewrite <- (rt_element_same d k T _ ST). now apply HF.
Qed.

(** If a layout reserves more indices for an element than it has functions, some indices
    belong to no basis function. *)
Lemma gap {E X} (els : E -> Prop) (g : grid E X) lay n types keys mp e j :
  grid_ok els g -> mapper_ok els g lay mp -> keys_ok els g n keys -> layout_ok n ->
  (forall e i c t, els e -> subtype g e i c t -> n t <= lay t) ->
  els e -> n (g_type g e) <= j < lay (g_type g e) ->
  let l := mapper_leaf g mp lay types keys in
  exists m, m < lf_dim l /\ forall e', els e' -> ~ In m (lf_indices l e').
Proof.
  intros HG HM HK HN HL He Hj l. assert (ST : subtype g e 0 0 (g_type g e)) by (unfold subtype; now rewrite subtypes_0).
  assert (EN : entity els g (g_sub g e 0 0) (g_type g e)) by (exists e, 0, 0; auto).
  exists (mp_off mp (g_sub g e 0 0) + j). split; [apply (mo_range _ _ _ _ HM _ _ j EN); lia|].
  intros e' He' I. apply in_range in I as (s & c & i & I & Q). apply (HK e' He') in I as (t & St & Hi).
  assert (EN' : entity els g (g_sub g e' s c) t) by (exists e', s, c; auto).
  assert (Hl := HL e' s c t He' St).
  assert (X0 := mo_disjoint _ _ _ _ HM _ _ j _ _ i EN EN' ltac:(lia) ltac:(lia) Q).
  destruct (go_type _ _ HG e 0 0 (g_type g e) e' s c t He He' ST St X0) as [S C].
  rewrite <- (HN _ _ S) in Hi. rewrite X0 in Q. lia.
Qed.
(** If the keys of an element are among those of the layout, indices are still in range and
    distinct. *)
Lemma numbered_subset {E X} (els : E -> Prop) (g : grid E X) lay n types keys mp :
  grid_ok els g -> layout_ok lay -> types_ok els g types -> mapper_ok els g lay mp -> keys_ok els g n keys ->
  (forall e i c t, els e -> subtype g e i c t -> n t <= lay t) ->
  numbered_with_gaps els g keys (mapper_leaf g mp lay types keys).
Proof.
  intros HG HLo HT HM HK HL. set (all := fun e => all_keys lay (g_type g e)).
  assert (KA : keys_ok els g lay all) by (intros e _; split; [apply all_keys_nodup|]; intros i c m; unfold all; rewrite all_keys_in; reflexivity).
  destruct (numbered_mapper els g lay types all mp HG HLo HT HM KA) as (OK & ND & EQ).
  assert (SUB : forall e k, els e -> In k (keys e) -> In k (all e)).
  { intros e [[i c] m] He I. apply (HK e He) in I as (t & St & Hm). apply (KA e He). exists t. split; auto. specialize (HL e i c t He St). lia. }
  assert (EQ' : forall e s c i e' s' c' i', els e -> els e' -> In (s, c, i) (keys e) -> In (s', c', i') (keys e') ->
    (subIndex g mp e s c + i = subIndex g mp e' s' c' + i' <-> g_sub g e s c = g_sub g e' s' c' /\ i = i')).
  { intros e s c i e' s' c' i' He He' I I'. apply SUB in I; auto. apply SUB in I'; auto.
    apply In_nth_error in I as [a Ha]. apply In_nth_error in I' as [a' Ha'].
    destruct (EQ e a s c i e' a' s' c' i' He He' Ha Ha') as (m & m' & Hm & Hm' & X1). cbn in Hm, Hm'. unfold subIndexRange in Hm, Hm'. unfold localkey in *.
    rewrite nth_error_map_eq, Ha in Hm. rewrite nth_error_map_eq, Ha' in Hm'. injection Hm as <-. injection Hm' as <-. exact X1. }
  split; [|split; [|split; [|split]]].
  - intros e He. cbn. apply map_length.
  - intros e He. cbn. transitivity (length (all e)).
    + apply NoDup_incl_length; [apply (HK e He)|]. intros k. now apply SUB.
    + apply (lok_max _ _ OK e He).
  - intros e m He I. apply in_range in I as (s & c & i & I & ->). apply SUB in I; auto. apply (lok_range _ _ OK e); auto. cbn. apply in_range. now exists s, c, i.
  - intros e He. cbn. unfold subIndexRange. destruct (HK e He) as [N I].
    assert (Z : forall k, incl k (keys e) -> NoDup k -> NoDup (map (fun key : localkey => match key with (s, c, i) => subIndex g mp e s c + i end) k)).
    { induction k as [|[[s c] i] k IH]; intros Inc Nk; [constructor|]. inversion Nk; subst. cbn [map]. constructor.
      - intros J. apply in_map_iff in J as ([[s' c'] i'] & H & J).
        assert (I1 : In (s, c, i) (keys e)) by (apply Inc; left; reflexivity).
        assert (I2 : In (s', c', i') (keys e)) by (apply Inc; right; exact J).
        symmetry in H. apply (EQ' e s c i e s' c' i' He He I1 I2) in H as [Q ->].
        apply I in I1 as (t & T & _). apply I in I2 as (t' & T' & _).
        destruct (go_inj _ _ HG e s c t s' c' t' He T T' Q) as [-> ->]. tauto.
      - apply IH; [intros x Ix; apply Inc; right; exact Ix|assumption]. }
    apply Z; [apply incl_refl|exact N].
  - intros e a s c i e' a' s' c' i' He He' Ha Ha'. exists (subIndex g mp e s c + i), (subIndex g mp e' s' c' + i').
    cbn. unfold subIndexRange. unfold localkey in *. rewrite !nth_error_map_eq, Ha, Ha'. split; [reflexivity|split; [reflexivity|]].
    apply EQ'; auto; eapply nth_error_In; eassumption.
Qed.

(** With another number of functions in the interior of a pyramid the basis has indices that
    no element has. *)
Theorem C57_rt_pyramid_without_interior_refuted {E X} (els : E -> Prop) (g : grid E X) types keys mp e :
  let lay := fun t => rt_layout 0 3 t 3 in
  grid_ok els g -> g_dim g = 3 -> mapper_ok els g lay mp ->
  keys_ok els g (rt_functions 0 0 3) keys -> els e -> isPyramid (g_type g e) = true ->
  let l := mapper_leaf g mp lay types keys in
  exists n, n < lf_dim l /\ forall e', els e' -> ~ In n (lf_indices l e').
Proof.
  intros lay HG HD HM HK He HP l. assert (P0 : forall t, rt_functions 0 0 3 t = if gt_dim t =? 2 then 1 else 0).
  { intros t. unfold rt_functions, polynomials. rewrite lattice_0. destruct (Nat.eqb_spec (gt_dim t) 3) as [D|D].
    - rewrite D. cbn. destruct (isPyramid t), (isCube t); reflexivity.
    - reflexivity. }
  apply (gap els g lay (rt_functions 0 0 3)) with (e := e) (j := 0); auto.
  - intros t t' S. now rewrite !P0, (same_dim _ _ S).
  - intros e' i c t _ _. rewrite P0. unfold lay, rt_layout. destruct (Nat.eqb_spec (gt_dim t) 2) as [D|D]; [|lia]. rewrite D.
    destruct (isPyramid t); [cbn; lia|]. destruct (isCube t); cbn; lia.
  - rewrite P0. unfold lay, rt_layout. rewrite HP. apply pyramid_shape in HP as [x ->]. cbn. lia.
Qed.

(** * Brezzi-Douglas-Marini *)
Lemma bdm_layout_ok k d : layout_ok (fun t => bdm_layout k d t d).
Proof. intros t t' S. unfold bdm_layout. now rewrite (same_dim _ _ S). Qed.
Theorem C57_bdm1 {E X} (els : E -> Prop) (g : grid E X) types keys mp :
  let lay := fun t => bdm_layout 1 2 t 2 in
  grid_ok els g -> g_dim g = 2 -> types_ok els g types -> mapper_ok els g lay mp ->
  keys_ok els g (bdm_functions 1) keys ->
  numbered els g keys (mapper_leaf g mp lay types keys).
Proof.
  intros lay HG HD HT HM HK. apply numbered_mapper; auto; [apply bdm_layout_ok|].
  apply (counts_agree els g (bdm_functions 1)); auto. intros e i c t He St.
  apply (counts_check_ok lay _ (g_type g e)) with c; [|eapply nth_error_In; exact St].
  assert (D := go_dim _ _ HG e He). rewrite HD in D. destruct (g_type g e) as [|a [|b [|]]]; try discriminate D. destruct a, b; reflexivity.
Qed.
(** For k = 2 the layout reserves six indices for each element; the element has three
    (triangles) or two (quadrilaterals) interior functions. *)
Theorem C57_bdm2_refuted {E X} (els : E -> Prop) (g : grid E X) types keys mp :
  let lay := fun t => bdm_layout 2 2 t 2 in
  grid_ok els g -> g_dim g = 2 -> mapper_ok els g lay mp -> keys_ok els g (bdm_functions 2) keys ->
  let l := mapper_leaf g mp lay types keys in
  forall e, els e -> exists n, n < lf_dim l /\ forall e', els e' -> ~ In n (lf_indices l e').
Proof.
  intros lay HG HD HM HK l e He. assert (T : forall e, els e -> exists a b, g_type g e = [a; b]).
  { intros e' He'. assert (D := go_dim _ _ HG e' He'). rewrite HD in D. destruct (g_type g e') as [|a [|b [|]]]; try discriminate D. eauto. }
  apply (gap els g lay (bdm_functions 2)) with (e := e) (j := 5); auto.
  - intros t t' S. unfold bdm_functions. now rewrite (same_simplex _ _ S), (same_dim _ _ S).
  - intros e' i c t _ _. unfold bdm_functions, lay, bdm_layout. destruct (gt_dim t) as [|[|[|]]]; cbn; try lia. destruct (isSimplex t); lia.
  - destruct (T e He) as (a & b & ->). destruct a; cbn; lia.
Qed.
(** What remains for k = 2: indices are in range, distinct, and shared exactly as they should. *)
Theorem C57_bdm2_partial {E X} (els : E -> Prop) (g : grid E X) types keys mp :
  let lay := fun t => bdm_layout 2 2 t 2 in
  grid_ok els g -> g_dim g = 2 -> types_ok els g types -> mapper_ok els g lay mp ->
  keys_ok els g (bdm_functions 2) keys ->
  numbered_with_gaps els g keys (mapper_leaf g mp lay types keys).
Proof.
  intros lay HG HD HT HM HK. apply (numbered_subset els g lay (bdm_functions 2)); auto; [apply bdm_layout_ok|].
  intros e' i c t _ _. unfold bdm_functions, lay, bdm_layout. destruct (gt_dim t) as [|[|[|]]]; cbn; try lia. destruct (isSimplex t); lia.
Qed.

(** * Nedelec, hierarchical, refined *)
Theorem C57_nedelec {E X} (els : E -> Prop) (g : grid E X) types keys mp :
  let lay := fun t => nedelec_layout t (g_dim g) in
  grid_ok els g -> types_ok els g types -> mapper_ok els g lay mp ->
  keys_ok els g edge_functions keys ->
  numbered els g keys (mapper_leaf g mp lay types keys).
Proof.
  intros lay HG HT HM HK. apply numbered_mapper; auto.
  - intros t t' S. unfold lay, nedelec_layout. now rewrite (same_dim _ _ S).
  - apply (counts_agree els g edge_functions); auto. intros e i c t _ _. unfold lay, nedelec_layout, edge_functions. destruct (gt_dim t) as [|[|]]; reflexivity.
Qed.
Lemma simplex_grid {E X} (els : E -> Prop) (g : grid E X) types : types_ok els g types -> simplex_constructor types = Some tt ->
  forall e i c t, els e -> subtype g e i c t -> isSimplex t = true.
Proof.
  intros HT HC e i c t He St. unfold simplex_constructor in HC. destruct (forallb isSimplex types) eqn:F; [|discriminate].
  rewrite forallb_forall in F. destruct (HT e He) as (T & IT & ST). assert (S := F T IT). rewrite (same_simplex _ _ ST) in S.
  apply (simplex_subentity (g_type g e)); auto. exists c. eapply nth_error_In, St.
Qed.
Lemma subtypes_dim r : forall c t, In t (subtypes r c) -> gt_dim t + c = gt_dim r.
Proof.
  unfold gt_dim. induction r as [|b r IH]; intros c t St.
  - destruct c; [destruct St as [<-|[]]; cbn; lia|destruct St].
  - destruct c as [|c]; [destruct St as [<-|[]]; cbn; lia|]. cbn [subtypes] in St. cbn [length].
    destruct b.
    + apply in_app_or in St as [St|St]; [apply in_map_iff in St as (x & <- & I); apply IH in I; cbn; lia|].
      apply in_app_or in St as [St|St]; apply IH in St; lia.
    + apply in_app_or in St as [St|St]; [apply IH in St; lia|].
      cbn [length] in St. destruct (S c <? S (length r)); [apply in_map_iff in St as (x & <- & I); apply IH in I; cbn; lia|].
      destruct (Nat.eqb_spec (S c) (S (length r))) as [L|]; [destruct St as [<-|[]]; cbn; lia|destruct St].
Qed.
Lemma sub_dim {E X} (els : E -> Prop) (g : grid E X) e i c t : grid_ok els g -> els e -> subtype g e i c t -> gt_dim t + c = g_dim g.
Proof. intros HG He St. rewrite <- (go_dim _ _ HG e He). eapply subtypes_dim, nth_error_In, St. Qed.
Lemma binomial_small n : MonomialSet_model.binomial 1 n = match n with 0 | 1 => 1 | _ => 0 end.
Proof. destruct n as [|[|[|n]]]; reflexivity. Qed.
Theorem C57_hierarchical_lagrange {E X} (els : E -> Prop) (g : grid E X) k types keys mp :
  let lay := fun t => hierarchical_layout k t (g_dim g) in
  k = 1 \/ k = 2 -> grid_ok els g -> types_ok els g types -> simplex_constructor types = Some tt ->
  mapper_ok els g lay mp -> keys_ok els g (lagrange_functions k) keys ->
  numbered els g keys (mapper_leaf g mp lay types keys).
Proof.
  intros lay Hk HG HT HC HM HK. apply numbered_mapper; auto.
  - intros t t' S. unfold lay, hierarchical_layout, isVertex, isLine. now rewrite (same_dim _ _ S).
  - apply (counts_agree els g (lagrange_functions k)); auto. intros e i c t He St.
    assert (Sx := simplex_grid els g types HT HC e i c t He St). unfold lagrange_functions. rewrite interior_simplex by (auto; lia).
    unfold lay, hierarchical_layout, isVertex, isLine. destruct Hk as [-> | ->]; cbn [Nat.eqb Nat.sub].
    + destruct (gt_dim t) as [|]; reflexivity.
    + rewrite binomial_small. destruct (gt_dim t) as [|[|]]; reflexivity.
Qed.
Theorem C57_hierarchical_with_bubble {E X} (els : E -> Prop) (g : grid E X) k types keys mp :
  let d := g_dim g in let lay := fun t => bubble_layout k d t d in
  k = 1 \/ k = 2 -> 1 <= d -> grid_ok els g -> types_ok els g types -> simplex_constructor types = Some tt ->
  mapper_ok els g lay mp -> keys_ok els g (bubble_functions k d) keys ->
  numbered els g keys (mapper_leaf g mp lay types keys).
Proof.
  intros d lay Hk Hd HG HT HC HM HK. apply numbered_mapper; auto.
  - intros t t' S. unfold lay, bubble_layout, isVertex. now rewrite (same_dim _ _ S).
  - apply (counts_agree els g (bubble_functions k d)); auto. intros e i c t He St.
    assert (Sx := simplex_grid els g types HT HC e i c t He St). unfold bubble_functions, lagrange_functions. rewrite interior_simplex by (auto; lia).
    assert (B := sub_dim els g e i c t HG He St). fold d in B. clearbody d. unfold lay, bubble_layout, isVertex. destruct Hk as [-> | ->]; cbn [Nat.eqb Nat.sub].
    + destruct (gt_dim t) as [|n].
      * destruct d; [lia|reflexivity].
      * cbn [orb]. replace (MonomialSet_model.binomial 0 (S n)) with 0 by reflexivity. rewrite andb_false_r. cbn [negb]. rewrite andb_true_r. destruct (Nat.eqb_spec (S n) d); reflexivity.
    + rewrite binomial_small, andb_true_r. destruct (gt_dim t) as [|[|n]].
      * destruct d; [lia|reflexivity].
      * destruct d as [|[|d]]; [lia|reflexivity|reflexivity].
      * cbn [Nat.leb orb]. destruct (Nat.eqb_spec (S (S n)) d) as [<-|]; reflexivity.
Qed.
Theorem C57_refined_lagrange {E X} (els : E -> Prop) (g : grid E X) k types keys mp :
  let d := g_dim g in let lay := fun t => refined_layout k d t d in
  k = 0 \/ k = 1 -> grid_ok els g -> types_ok els g types -> simplex_constructor types = Some tt ->
  mapper_ok els g lay mp -> keys_ok els g (refined_functions k d) keys ->
  numbered els g keys (mapper_leaf g mp lay types keys).
Proof.
  intros d lay Hk HG HT HC HM HK. apply numbered_mapper; auto.
  - intros t t' S. unfold lay, refined_layout. now rewrite (same_dim _ _ S).
  - apply (counts_agree els g (refined_functions k d)); auto. intros e i c t He St.
    assert (Sx := simplex_grid els g types HT HC e i c t He St). unfold refined_functions, lagrange_functions, lay, refined_layout. destruct Hk as [-> | ->]; cbn [Nat.eqb].
    + rewrite Nat.shiftl_1_l. reflexivity.
    + rewrite interior_simplex by (auto; lia). reflexivity.
Qed.

(** * Rannacher-Turek *)
Lemma facets_simplex t : isSimplex t = true -> 1 <= gt_dim t -> length (subtypes t 1) = gt_dim t + 1.
Proof.
  induction t as [|b r IH]; intros S D; [cbn in D; lia|]. rewrite isSimplex_cons in S. destruct r as [|b' r].
  - destruct b; reflexivity.
  - apply andb_true_iff in S as [B S]. destruct b; [discriminate|]. specialize (IH S ltac:(cbn; lia)). set (r' := b' :: r) in *. cbn [subtypes]. rewrite subtypes_0.
    replace (1 <? length (false :: r')) with true by (symmetry; apply Nat.ltb_lt; unfold r'; cbn; lia).
    assert (L := map_length (cons false) (subtypes r' 1)). unfold gt_dim, gt in *. rewrite app_length. cbn [length]. lia.
Qed.
Lemma facets_cube t : isCube t = true -> length (subtypes t 1) = 2 * gt_dim t.
Proof.
  induction t as [|b r IH]; intros S; [reflexivity|]. rewrite isCube_cons in S. destruct r as [|b' r].
  - destruct b; reflexivity.
  - apply andb_true_iff in S as [B S]. destruct b; [|discriminate]. specialize (IH S). set (r' := b' :: r) in *. cbn [subtypes]. rewrite subtypes_0.
    assert (L := map_length (cons true) (subtypes r' 1)). unfold gt_dim, gt in *. rewrite !app_length. cbn [length]. lia.
Qed.

(** The index set numbers the facets consecutively; the finite element has one function per
    facet. *)
Theorem C57_rannacher_turek {E X} (els : E -> Prop) (g : grid E X) types size1 index1 keys :
  let d := g_dim g in
  1 <= d -> grid_ok els g -> types_ok els g types -> rt_turek_constructor types = Some tt ->
  mapper_ok els g (facet_functions d) (MAP size1 index1) -> keys_ok els g (facet_functions d) keys ->
  numbered els g keys (rannacher_turek_leaf g size1 index1 keys).
Proof.
  intros d Hd HG HT HC HM HK. assert (L : layout_ok (facet_functions d)) by (intros t t' S; unfold facet_functions; now rewrite (same_dim _ _ S)).
  destruct (numbered_mapper els g (facet_functions d) types keys _ HG L HT HM HK) as (OK & ND & EQ).
  assert (KK : forall e s c i, els e -> In (s, c, i) (keys e) -> c = 1 /\ i = 0 /\ s < length (subtypes (g_type g e) 1)).
  { intros e s c i He I. apply (HK e He) in I as (t & St & Hi). unfold facet_functions in Hi. destruct (Nat.eqb_spec (S (gt_dim t)) d) as [Q|]; [|lia].
    assert (C := sub_dim els g e s c t HG He St). fold d in C. assert (c = 1) by lia. subst c. split; [auto|split; [lia|]]. apply nth_error_Some. unfold subtype in St. congruence. }
  assert (IE : forall e, els e -> lf_indices (rannacher_turek_leaf g size1 index1 keys) e = lf_indices (mapper_leaf g (MAP size1 index1) (facet_functions d) types keys) e).
  { intros e He. cbn. unfold subIndexRange. apply map_ext_in. intros [[s c] i] I. destruct (KK e s c i He I) as (-> & -> & _). unfold subIndex. cbn. lia. }
  split; [constructor|split].
  - intros e He. rewrite IE by auto. apply (lok_size _ _ OK e He).
  - intros e He. cbn. destruct (HK e He) as [N _].
    assert (X1 : length (keys e) <= length (subtypes (g_type g e) 1)).
    { transitivity (length (map (fun s => (s, 1, 0)) (seq 0 (length (subtypes (g_type g e) 1))))); [|now rewrite map_length, seq_length].
      apply NoDup_incl_length; auto. intros [[s c] i] I. destruct (KK e s c i He I) as (-> & -> & Q). apply in_map_iff. exists s. rewrite in_seq. split; [reflexivity|lia]. }
    unfold rt_turek_constructor in HC. destruct (forallb _ types) eqn:F; [|discriminate]. rewrite forallb_forall in F.
    destruct (HT e He) as (T & IT & ST). specialize (F T IT). rewrite (same_simplex _ _ ST), (same_cube _ _ ST) in F.
    assert (D := go_dim _ _ HG e He). fold d in D. fold d. apply orb_true_iff in F as [F|F].
    + rewrite facets_simplex in X1 by (auto; lia). lia.
    + rewrite facets_cube in X1 by auto. lia.
  - intros e n He I. rewrite IE in I by auto. apply (lok_range _ _ OK e n He I).
  - intros n Hn. destruct (lok_cover _ _ OK n Hn) as (e & He & I). exists e. split; auto. now rewrite IE.
  - intros e He. rewrite IE by auto. now apply ND.
  - intros e a s c i e' a' s' c' i' He He' Ha Ha'. destruct (EQ e a s c i e' a' s' c' i' He He' Ha Ha') as (n & n' & H1 & H2 & H3). exists n, n'. now rewrite !IE.
Qed.

(** * Local sizes *)
(** The number of shape functions on an element, for comparison with the literature. *)
Theorem C57_sizes :
  (forall b, layout_total (fun t => rt_layout 0 2 t 2) [false; b] = 3) /\
  (forall b, layout_total (fun t => rt_layout 1 2 t 2) [false; b] = 8) /\
  (forall b, layout_total (fun t => rt_layout 0 3 t 3) [false; false; b] = 4) /\
  (forall k b, k <= 2 -> layout_total (fun t => rt_layout k 2 t 2) [true; b] = 2 * (k + 1) * (k + 2)) /\
  (forall k b, k <= 1 -> layout_total (fun t => rt_layout k 3 t 3) [true; true; b] = 3 * (k + 1) * (k + 1) * (k + 2)) /\
  (forall b, layout_total (fun t => rt_layout 0 3 t 3) [true; false; b] = 5) /\
  (forall b, layout_total (fun t => bdm_layout 1 2 t 2) [false; b] = 6) /\
  (forall b, layout_total (fun t => bdm_layout 1 2 t 2) [true; b] = 8) /\
  (forall b, layout_total (fun t => nedelec_layout t 2) [false; b] = 3 /\ layout_total (fun t => nedelec_layout t 2) [true; b] = 4) /\
  (forall b, layout_total (fun t => nedelec_layout t 3) [false; false; b] = 6 /\ layout_total (fun t => nedelec_layout t 3) [true; true; b] = 12).
Proof.
  split; [intros []; reflexivity|]. split; [intros []; reflexivity|]. split; [intros []; reflexivity|].
  split; [intros [|[|[|k]]] []; try lia; reflexivity|]. split; [intros [|[|k]] []; try lia; reflexivity|].
  split; [intros []; reflexivity|]. split; [intros []; reflexivity|]. split; [intros []; reflexivity|].
  split; intros []; split; reflexivity.
Qed.

(** * The hypotheses can be met *)
(** One element of each type, with the mapper and keys of Mapper_blocks. *)
Example C57_rt_case k t : In (k, t) [(0, [false; false]); (1, [false; false]); (2, [true; true]); (0, [false; false; false]); (1, [true; true; true]); (0, [true; false; false]); (0, [false; true; true])] ->
  numbered one_els (one t) (one_keys (rt_functions 1 k (gt_dim t)) t)
    (mapper_leaf (one t) (one_mapper (fun s => rt_layout k (gt_dim t) s (gt_dim t)) t) (fun s => rt_layout k (gt_dim t) s (gt_dim t)) [t] (one_keys (rt_functions 1 k (gt_dim t)) t)).
Proof.
  intros I. apply (C57_raviart_thomas one_els (one t) k [t]); [apply one_grid_ok|apply one_types_ok|apply one_mapper_ok| |apply one_keys_ok].
  intros t' [<-|[]]. cbn in I. repeat (destruct I as [I|I]; [injection I as <- <-; reflexivity|]). destruct I.
Qed.
(** The indices on the hexahedron for k = 1: 24 on the facets, 12 in the interior. *)
Example C57_rt_indices :
  lf_dim (mapper_leaf (one [true; true; true]) (one_mapper (fun s => rt_layout 1 3 s 3) [true; true; true]) (fun s => rt_layout 1 3 s 3) [[true; true; true]] (one_keys (rt_functions 1 1 3) [true; true; true])) = 36.
Proof. reflexivity. Qed.
Example C57_rt_pyramid_case : exists n, n < 6 /\ ~ In n (subIndexRange (one [false; true; true]) (one_mapper (fun s => rt_layout 0 3 s 3) [false; true; true]) tt (one_keys (rt_functions 0 0 3) [false; true; true] tt)).
Proof.
  destruct (C57_rt_pyramid_without_interior_refuted one_els (one [false; true; true]) [] (one_keys (rt_functions 0 0 3) [false; true; true]) _ tt
    (one_grid_ok _) eq_refl (one_mapper_ok _ _) (one_keys_ok _ _) I eq_refl) as (n & H & N).
  exists n. split; [exact H|]. apply (N tt I).
Qed.
Example C57_bdm_case a : numbered one_els (one [a; a]) (one_keys (bdm_functions 1) [a; a])
  (mapper_leaf (one [a; a]) (one_mapper (fun s => bdm_layout 1 2 s 2) [a; a]) (fun s => bdm_layout 1 2 s 2) [[a; a]] (one_keys (bdm_functions 1) [a; a])).
Proof. apply (C57_bdm1 one_els (one [a; a])); [apply one_grid_ok|reflexivity|apply one_types_ok|apply one_mapper_ok|apply one_keys_ok]. Qed.
(** On one triangle the BDM space of order 2 has 12 functions, but dimension() is 15. *)
Example C57_bdm2_case :
  let l := mapper_leaf (one [false; false]) (one_mapper (fun s => bdm_layout 2 2 s 2) [false; false]) (fun s => bdm_layout 2 2 s 2) [[false; false]] (one_keys (bdm_functions 2) [false; false]) in
  lf_dim l = 15 /\ length (lf_indices l tt) = 12 /\ lf_indices l tt = [0; 1; 2; 6; 7; 8; 9; 10; 11; 12; 13; 14] /\
  exists n, n < 15 /\ ~ In n (lf_indices l tt).
Proof.
  intros l. split; [reflexivity|split; [reflexivity|split; [reflexivity|]]].
  destruct (C57_bdm2_refuted one_els (one [false; false]) [] (one_keys (bdm_functions 2) [false; false]) _ (one_grid_ok _) eq_refl (one_mapper_ok _ _) (one_keys_ok _ _) tt I) as (n & H & N).
  exists n. split; [exact H|]. apply (N tt I).
Qed.
Example C57_bdm2_partial_case : numbered_with_gaps one_els (one [true; true]) (one_keys (bdm_functions 2) [true; true])
  (mapper_leaf (one [true; true]) (one_mapper (fun s => bdm_layout 2 2 s 2) [true; true]) (fun s => bdm_layout 2 2 s 2) [[true; true]] (one_keys (bdm_functions 2) [true; true])).
Proof. apply (C57_bdm2_partial one_els (one [true; true])); [apply one_grid_ok|reflexivity|apply one_types_ok|apply one_mapper_ok|apply one_keys_ok]. Qed.
Example C57_nedelec_case t : numbered one_els (one t) (one_keys edge_functions t)
  (mapper_leaf (one t) (one_mapper (fun s => nedelec_layout s (gt_dim t)) t) (fun s => nedelec_layout s (gt_dim t)) [t] (one_keys edge_functions t)).
Proof. apply (C57_nedelec one_els (one t)); [apply one_grid_ok|apply one_types_ok|apply one_mapper_ok|apply one_keys_ok]. Qed.
Example C57_hierarchical_case : numbered one_els (one [false; false; false]) (one_keys (lagrange_functions 2) [false; false; false])
  (mapper_leaf (one [false; false; false]) (one_mapper (fun s => hierarchical_layout 2 s 3) [false; false; false]) (fun s => hierarchical_layout 2 s 3) [[false; false; false]] (one_keys (lagrange_functions 2) [false; false; false])).
Proof. apply (C57_hierarchical_lagrange one_els (one [false; false; false]) 2); [auto|apply one_grid_ok|apply one_types_ok|reflexivity|apply one_mapper_ok|apply one_keys_ok]. Qed.
Example C57_bubble_case : numbered one_els (one [false; false]) (one_keys (bubble_functions 2 2) [false; false])
  (mapper_leaf (one [false; false]) (one_mapper (fun s => bubble_layout 2 2 s 2) [false; false]) (fun s => bubble_layout 2 2 s 2) [[false; false]] (one_keys (bubble_functions 2 2) [false; false])).
Proof. apply (C57_hierarchical_with_bubble one_els (one [false; false]) 2); [auto|cbn; lia|apply one_grid_ok|apply one_types_ok|reflexivity|apply one_mapper_ok|apply one_keys_ok]. Qed.
Example C57_refined_case : numbered one_els (one [false; false; false]) (one_keys (refined_functions 1 3) [false; false; false])
  (mapper_leaf (one [false; false; false]) (one_mapper (fun s => refined_layout 1 3 s 3) [false; false; false]) (fun s => refined_layout 1 3 s 3) [[false; false; false]] (one_keys (refined_functions 1 3) [false; false; false])).
Proof. apply (C57_refined_lagrange one_els (one [false; false; false]) 1); [auto|apply one_grid_ok|apply one_types_ok|reflexivity|apply one_mapper_ok|apply one_keys_ok]. Qed.
(** A triangle and a quadrilateral with a common edge: the grid of Mapper_props. *)
Definition rt_keys (e : bool) : list localkey := map (fun i => (i, 1, 0)) (seq 0 (if e then 4 else 3)).
Definition facet_mapper : mapper nat := MAP 6 (fun x => x - 5).
Lemma facet_entities x t : entity all_els ex_grid x t -> 0 < facet_functions 2 t -> 5 <= x < 11 /\ facet_functions 2 t = 1.
Proof. intros (e & i & c & _ & H & ->) P. ex_cases H; cbn in P; try lia; cbn; lia. Qed.
Lemma facet_mapper_ok : mapper_ok all_els ex_grid (facet_functions 2) facet_mapper.
Proof.
  constructor; cbn.
  - intros x t i H Hi. destruct (facet_entities x t H ltac:(lia)). lia.
  - intros x t i y t' j H H' Hi Hj Q. destruct (facet_entities x t H ltac:(lia)), (facet_entities y t' H' ltac:(lia)). lia.
  - intros n Hn. destruct n as [|[|[|[|[|[|n]]]]]]; [..|lia].
    + exists 5, [false], 0. split; [exists false, 0, 1; repeat split|]; split; [cbn; lia|reflexivity].
    + exists 6, [false], 0. split; [exists false, 1, 1; repeat split|]; split; [cbn; lia|reflexivity].
    + exists 7, [false], 0. split; [exists false, 2, 1; repeat split|]; split; [cbn; lia|reflexivity].
    + exists 8, [true], 0. split; [exists true, 1, 1; repeat split|]; split; [cbn; lia|reflexivity].
    + exists 9, [true], 0. split; [exists true, 2, 1; repeat split|]; split; [cbn; lia|reflexivity].
    + exists 10, [true], 0. split; [exists true, 3, 1; repeat split|]; split; [cbn; lia|reflexivity].
Qed.
Lemma rt_keys_ok : keys_ok all_els ex_grid (facet_functions 2) rt_keys.
Proof. intros e _. unfold subtype. apply keys_check_ok. destruct e; reflexivity. Qed.
Example C57_rannacher_turek_case :
  numbered all_els ex_grid rt_keys (rannacher_turek_leaf ex_grid 6 (fun x => x - 5) rt_keys) /\
  lf_indices (rannacher_turek_leaf ex_grid 6 (fun x => x - 5) rt_keys) false = [0; 1; 2] /\
  lf_indices (rannacher_turek_leaf ex_grid 6 (fun x => x - 5) rt_keys) true = [2; 3; 4; 5].
Proof.
  split; [|split; reflexivity]. apply (C57_rannacher_turek all_els ex_grid [[true; true]; [false; false]]); [cbn; lia|apply ex_grid_ok|apply C30_types_ok|reflexivity|apply facet_mapper_ok|apply rt_keys_ok].
Qed.

Print Assumptions C57_raviart_thomas.
Print Assumptions C57_rt_pyramid_without_interior_refuted.
Print Assumptions C57_bdm1.
Print Assumptions C57_bdm2_refuted.
Print Assumptions C57_bdm2_partial.
Print Assumptions C57_nedelec.
Print Assumptions C57_hierarchical_lagrange.
Print Assumptions C57_hierarchical_with_bubble.
Print Assumptions C57_refined_lagrange.
Print Assumptions C57_rannacher_turek.
Print Assumptions C57_sizes.
