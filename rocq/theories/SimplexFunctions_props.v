(** C90: discrete functions of the hierarchical Lagrange bases (with and without bubble) and of
    the refined Lagrange basis are continuous, those of the Rannacher-Turek basis in the centers
    of the facets. *)
From Coq Require Import List Arith Lia Bool Reals Lra Permutation.
From Verif Require Import Lib Basis_model Basis_spec Basis_ok Basis_view Basis_proofs Basis_props Container_model Container_spec FlatVector_model FlatVector_props
  DiscreteFunction_model DiscreteFunction_spec DiscreteFunction_proofs
  GeometryType_model GeometryType_spec GeometryType_props Mapper_model Mapper_spec Mapper_props Lagrange_model Lagrange_spec Lagrange_tables Lagrange_proofs Lagrange_props
  Conforming_spec Conforming_proofs Conforming_shapes Conforming_refs Conforming_props Families_model Families_spec Families_props
  SimplexFunctions_spec SimplexFunctions_proofs.
Import ListNotations.

Lemma nth_of_key {A} (f : A -> R) l a k : nth_error l a = Some k -> nth a (map f l) 0%R = f k.
Proof. intros H. apply nth_error_nth. now rewrite nth_error_map_eq, H. Qed.

Section Props.
Context {E X P : Type}.
Variables (els : E -> Prop) (b : bexpr E) (path : list nat) (su : setup E P) (p : list nat).
Variables (g : grid E X) (ref : E -> refelem) (vid : E -> nat -> nat) (bary : E -> P -> nat -> R).
Variables (types : list gt) (mp : mapper X) (keys : E -> list localkey).

Lemma hierarchical_continuous (lay : gt -> nat) norm : setup_ok b path els su ->
  (forall e, els e -> In (g_dim g, ref e) simplices) -> grid_ok els g -> ids_ok els g ref vid -> faces_ok els g ref vid ->
  types_ok els g types -> mapper_ok els g lay mp -> layout_ok lay -> (forall t, lay t <= 1) -> keys_ok els g lay keys ->
  leaf_at b (path ++ p) = Some (mapper_leaf g mp lay types keys) ->
  scalar_leaf els su p (hierarchical_shapes g ref keys bary norm) ->
  continuous els b path su p g ref vid bary.
Proof.
  intros OKS HR HG HI HF HT HM HL L1 HK Hl Hs c e x s t e' x' s' t' He He' Hc Ht Ht' SL.
  pose proof (numbered_mapper els g lay types keys mp HG HL HT HM HK) as HN.
  apply (agree_of_basis els b path su p _ (fun e => length (keys e)) _ e x e' x' OKS Hl Hs); auto.
  { intros. apply map_length. }
  intros m. assert (HD : 1 <= g_dim g).
  { specialize (HR e He). cbn in HR. destruct HR as [Q|[Q|[Q|[]]]]; injection Q as Q _; lia. }
  apply (traces_single_valued els g ref vid keys (mapper_leaf g mp lay types keys) HD HG HI HF lay) with
    (bary := bary) (trace := fun own _ => (norm (length own) * product own)%R) (s := s) (c := c) (t := t) (s' := s') (t' := t'); auto.
  - intros a a' r r' Pa _. now rewrite (Permutation_length Pa), (product_perm _ _ Pa).
  - intros e0 x0 s0 c0 t0 a s1 c1 i1 t1 H0 _ _ _ Ka _ _. unfold hierarchical_shapes. rewrite (nth_of_key _ _ _ _ Ka). now rewrite map_length.
  - intros e0 x0 s0 c0 t0 a s1 c1 i1 t1 H0 H1 H2 OF Ka St NP. unfold hierarchical_shapes. rewrite (nth_of_key _ _ _ _ Ka).
    destruct (simplex_outside els g ref vid HR HI e0 s0 c0 t0 s1 c1 t1 H0 H1 H2 St NP) as (v & Iv & Nv).
    rewrite product_zero; [ring|]. rewrite <- (OF v Nv). now apply in_map.
Qed.

(** Hierarchical Lagrange bases of order one and two *)
Theorem C90_hierarchical_lagrange k norm :
  let lay := fun t => hierarchical_layout k t (g_dim g) in
  setup_ok b path els su -> k = 1 \/ k = 2 ->
  (forall e, els e -> In (g_dim g, ref e) simplices) -> grid_ok els g -> ids_ok els g ref vid -> faces_ok els g ref vid ->
  types_ok els g types -> simplex_constructor types = Some tt ->
  mapper_ok els g lay mp -> keys_ok els g (lagrange_functions k) keys ->
  leaf_at b (path ++ p) = Some (mapper_leaf g mp lay types keys) ->
  scalar_leaf els su p (hierarchical_shapes g ref keys bary norm) ->
  continuous els b path su p g ref vid bary.
Proof.
  intros lay OKS Hk HR HG HI HF HT HC HM HK. apply (hierarchical_continuous lay); auto.
  - intros t t' S. unfold lay, hierarchical_layout, isVertex, isLine. now rewrite (same_dim _ _ S).
  - intros t. unfold lay, hierarchical_layout. destruct (k =? 1), (isVertex t), (isLine t); cbn; lia.
  - apply (counts_agree els g (lagrange_functions k)); auto. intros e i c t He St.
    assert (Sx := simplex_grid els g types HT HC e i c t He St). unfold lagrange_functions. rewrite interior_simplex by (auto; lia).
    unfold lay, hierarchical_layout, isVertex, isLine. destruct Hk as [-> | ->]; cbn [Nat.eqb Nat.sub].
    + destruct (gt_dim t) as [|]; reflexivity.
    + rewrite binomial_small. destruct (gt_dim t) as [|[|]]; reflexivity.
Qed.

(** With element bubbles *)
Theorem C90_hierarchical_with_bubble k norm :
  let d := g_dim g in let lay := fun t => bubble_layout k d t d in
  setup_ok b path els su -> k = 1 \/ k = 2 -> 1 <= d ->
  (forall e, els e -> In (d, ref e) simplices) -> grid_ok els g -> ids_ok els g ref vid -> faces_ok els g ref vid ->
  types_ok els g types -> simplex_constructor types = Some tt ->
  mapper_ok els g lay mp -> keys_ok els g (bubble_functions k d) keys ->
  leaf_at b (path ++ p) = Some (mapper_leaf g mp lay types keys) ->
  scalar_leaf els su p (hierarchical_shapes g ref keys bary norm) ->
  continuous els b path su p g ref vid bary.
Proof.
  intros d lay OKS Hk Hd HR HG HI HF HT HC HM HK. apply (hierarchical_continuous lay); auto.
  - intros t t' S. unfold lay, bubble_layout, isVertex. now rewrite (same_dim _ _ S).
  - intros t. unfold lay, bubble_layout. destruct (k =? 1); match goal with |- (if ?c then _ else _) <= _ => destruct c; lia end.
  - apply (counts_agree els g (bubble_functions k d)); auto. intros e i c t He St.
    assert (Sx := simplex_grid els g types HT HC e i c t He St). unfold bubble_functions, lagrange_functions. rewrite interior_simplex by (auto; lia).
    assert (B := sub_dim els g e i c t HG He St). fold d in B. clearbody d. unfold lay, bubble_layout, isVertex. destruct Hk as [-> | ->]; cbn [Nat.eqb Nat.sub].
    + destruct (gt_dim t) as [|n].
      * destruct d; [lia|reflexivity].
      * cbn [orb]. replace (MonomialSet_model.binomial 0 (S n)) with 0 by reflexivity. rewrite andb_false_r. cbn [negb]. rewrite andb_true_r. destruct (Nat.eqb_spec (S n) d); reflexivity.
    + rewrite binomial_small, andb_true_r. destruct (gt_dim t) as [|[|n]].
      * destruct d; [lia|reflexivity].
      * destruct d as [|[|d]]; [lia|reflexivity|reflexivity].
      * cbn [Nat.leb orb]. destruct (Nat.eqb_spec (S (S n)) d) as [<-|]; reflexivity.
Qed.

(** Refined Lagrange basis of order one *)
Theorem C90_refined_lagrange shape :
  let d := g_dim g in let lay := fun t => refined_layout 1 d t d in
  setup_ok b path els su ->
  (forall e, els e -> In (d, ref e) simplices) -> grid_ok els g -> ids_ok els g ref vid -> faces_ok els g ref vid ->
  types_ok els g types -> simplex_constructor types = Some tt ->
  mapper_ok els g lay mp -> keys_ok els g (refined_functions 1 d) keys ->
  leaf_at b (path ++ p) = Some (mapper_leaf g mp lay types keys) ->
  refined_on_faces g ref keys bary els shape -> scalar_leaf els su p shape ->
  continuous els b path su p g ref vid bary.
Proof.
  intros d lay OKS HR HG HI HF HT HC HM HK0 Hl (Sz & Sf) Hs.
  assert (HL : layout_ok lay) by (intros t t' S; unfold lay, refined_layout; now rewrite (same_dim _ _ S)).
  assert (L1 : forall t, lay t <= 1) by (intros t; unfold lay, refined_layout; cbn [Nat.eqb]; rewrite binomial_small; destruct (gt_dim t) as [|[|]]; lia).
  assert (HK : keys_ok els g lay keys).
  { apply (counts_agree els g (refined_functions 1 d)); auto. intros e i c t He St.
    assert (Sx := simplex_grid els g types HT HC e i c t He St). unfold refined_functions, lagrange_functions, lay, refined_layout. cbn [Nat.eqb].
    rewrite interior_simplex by (auto; lia). reflexivity. }
  intros c e x s t e' x' s' t' He He' Hc Ht Ht' SL.
  pose proof (numbered_mapper els g lay types keys mp HG HL HT HM HK) as HN.
  apply (agree_of_basis els b path su p _ (fun e => length (keys e)) _ e x e' x' OKS Hl Hs); auto.
  intros m. assert (HD : 1 <= g_dim g).
  { specialize (HR e He). cbn in HR. destruct HR as [Q|[Q|[Q|[]]]]; injection Q as Q _; unfold d in Q; lia. }
  apply (traces_single_valued els g ref vid keys (mapper_leaf g mp lay types keys) HD HG HI HF lay) with
    (bary := bary) (trace := hat) (s := s) (c := c) (t := t) (s' := s') (t' := t'); auto.
  - intros a a' r r' Pa Pr. apply hat_sym; auto. now apply sum_perm.
  - intros e0 x0 s0 c0 t0 a s1 c1 i1 t1 H0 H1 H2 OF Ka St [_ PI]. rewrite (Sf e0 x0 s0 c0 t0 H0 H1 H2 OF).
    unfold refined_shapes. rewrite (nth_of_key _ _ _ _ Ka). apply hat_sym; auto.
    destruct (face_sub els g ref vid HR HI e0 s0 c0 t0 H0 H1 H2) as (N0 & NF & IF).
    set (vs := vertices g ref e0 s1 c1) in *. set (fs := vertices g ref e0 s0 c0) in *. set (all := vertices g ref e0 0 0) in *.
    rewrite (sum_zeros (bary e0 x0) (fun v => memb v fs) (others vs all)).
    2: { intros v _ Q. apply OF. fold fs. rewrite <- memb_In. congruence. }
    apply sum_perm, Permutation_map, NoDup_Permutation.
    + apply NoDup_filter. apply NoDup_filter. exact N0.
    + apply NoDup_filter. exact NF.
    + intros v. rewrite filter_In, !others_In, memb_In. split; [tauto|]. intros [A B]. auto.
  - intros e0 x0 s0 c0 t0 a s1 c1 i1 t1 H0 H1 H2 OF Ka St NP. rewrite (Sf e0 x0 s0 c0 t0 H0 H1 H2 OF).
    unfold refined_shapes. rewrite (nth_of_key _ _ _ _ Ka). apply hat_zero.
    destruct (simplex_outside els g ref vid HR HI e0 s0 c0 t0 s1 c1 t1 H0 H1 H2 St NP) as (v & Iv & Nv).
    rewrite <- (OF v Nv). now apply in_map.
Qed.

(** Rannacher-Turek basis: both sides agree in the centers of the facets. *)
Theorem C90_rannacher_turek size1 index1 center shape :
  let d := g_dim g in
  setup_ok b path els su -> 1 <= d -> grid_ok els g -> types_ok els g types -> rt_turek_constructor types = Some tt ->
  mapper_ok els g (facet_functions d) (MAP size1 index1) -> keys_ok els g (facet_functions d) keys ->
  leaf_at b (path ++ p) = Some (rannacher_turek_leaf g size1 index1 keys) ->
  facet_shapes g keys els center shape -> scalar_leaf els su p shape ->
  forall e s t e' s' t', els e -> els e' -> subtype g e s 1 t -> subtype g e' s' 1 t' -> g_sub g e s 1 = g_sub g e' s' 1 ->
  agree b path su p e (center e s) e' (center e' s').
Proof.
  intros d OKS Hd HG HT HC HM HK Hl (Sz & Sv) Hs e s t e' s' t' He He' Ht Ht' Q.
  pose proof (C57_rannacher_turek els g types size1 index1 keys Hd HG HT HC HM HK) as (LK & LN & LI).
  set (l := rannacher_turek_leaf g size1 index1 keys) in *.
  apply (agree_of_basis els b path su p l (fun e => length (keys e)) shape); auto.
  assert (KI : forall e s t, els e -> subtype g e s 1 t -> exists a, nth_error (keys e) a = Some (s, 1, 0)).
  { intros e0 s0 t0 H0 H1. apply In_nth_error, (HK e0 H0). exists t0. split; auto. pose proof (sub_dim els g e0 s0 1 t0 HG H0 H1).
    unfold facet_functions, d. destruct (Nat.eqb_spec (S (gt_dim t0)) (g_dim g)); lia. }
  assert (KC : forall e a s c i, els e -> nth_error (keys e) a = Some (s, c, i) -> c = 1 /\ i = 0).
  { intros e0 a s0 c0 i0 H0 Ka. apply nth_error_In, (HK e0 H0) in Ka as (t0 & St & Li). pose proof (sub_dim els g e0 s0 c0 t0 HG H0 St).
    unfold facet_functions, d in Li. destruct (Nat.eqb_spec (S (gt_dim t0)) (g_dim g)); lia. }
  assert (LL : forall e, els e -> length (lf_indices l e) = length (keys e)) by (intros e0 H0; apply (lok_size _ _ LK e0 H0)).
  assert (Lt : forall e s t, subtype g e s 1 t -> s < length (subtypes (g_type g e) 1)) by (intros e0 s0 t0 H0; apply nth_error_Some; unfold subtype in H0; congruence).
  (* the value is one for the function of the facet and zero for all others *)
  assert (V : forall e s t a m0, els e -> subtype g e s 1 t -> nth_error (keys e) a = Some (s, 1, 0) -> nth_error (lf_indices l e) a = Some m0 ->
    forall m, basis_value (length (keys e)) (lf_indices l e) (fun a => nth a (shape e (center e s)) 0%R) m = if m0 =? m then 1%R else 0%R).
  { intros e0 s0 t0 a m0 H0 St Ka Ma m. destruct (Nat.eqb_spec m0 m) as [<-|D].
    - rewrite (basis_value_at _ _ _ m0 a (LN e0 H0)); auto. rewrite (Sv e0 a s0 1 0 s0 H0 Ka (Lt _ _ _ St)). now rewrite Nat.eqb_refl.
    - destruct (in_dec Nat.eq_dec m (lf_indices l e0)) as [I|I]; [|now apply basis_value_none].
      apply In_nth_error in I as (a1 & Ma1). rewrite (basis_value_at _ _ _ m a1 (LN e0 H0)); auto.
      assert (La1 : a1 < length (keys e0)) by (rewrite <- (LL e0 H0); apply nth_error_Some; congruence).
      destruct (nth_error_lt_Some _ _ La1) as ([[s1 c1] i1] & Ka1). rewrite (Sv e0 a1 s1 c1 i1 s0 H0 Ka1 (Lt _ _ _ St)).
      destruct (Nat.eqb_spec s1 s0) as [->|]; auto. exfalso. destruct (KC _ _ _ _ _ H0 Ka1) as [-> ->].
      destruct (LI e0 a s0 1 0 e0 a1 s0 1 0 H0 H0 Ka Ka1) as (q & q' & Hq & Hq' & QQ). apply D. assert (q = q') by (apply QQ; auto). congruence. }
  intros m. destruct (KI e s t He Ht) as (a & Ka). destruct (KI e' s' t' He' Ht') as (a' & Ka').
  destruct (LI e a s 1 0 e' a' s' 1 0 He He' Ka Ka') as (q & q' & Hq & Hq' & QQ). assert (q = q') by (apply QQ; auto). subst q'.
  rewrite (V e s t a q He Ht Ka Hq m), (V e' s' t' a' q He' Ht' Ka' Hq' m). reflexivity.
Qed.
End Props.

(** The functions [hat] of the refined triangle are the nodal ones: in each of the four
    triangles they are linear, and they are one in one node and zero in the other five.  (In
    the inner triangle all weights are at most 1/2, in the others one of them is at least.) *)
Theorem C90_hat_is_linear_in_the_parts a b c : (a + b + c = 1 -> 0 <= a -> 0 <= b -> 0 <= c ->
  hat [a] [b; c] = (if Rle_dec (1/2) a then 2 * a - 1 else 0) /\
  hat [a; b] [c] = (if Rle_dec (1/2) a then 2 * b else if Rle_dec (1/2) b then 2 * a else if Rle_dec (1/2) c then 0 else 1 - 2 * c))%R.
Proof.
  intros S Ha Hb Hc. cbn [hat sum fold_right].
  split; [destruct (Rle_dec (1/2) a); [apply Rmax_right|apply Rmax_left]; lra|].
  destruct (Rle_dec (1/2) a); [|destruct (Rle_dec (1/2) b); [|destruct (Rle_dec (1/2) c)]].
  - rewrite (Rmin_right (2 * a) (2 * b)), Rmin_left, Rmax_right; lra.
  - rewrite (Rmin_left (2 * a) (2 * b)), Rmin_left, Rmax_right; lra.
  - apply Rmax_left. eapply Rle_trans; [apply Rmin_r|lra].
  - rewrite Rmin_right, Rmax_right; [lra|lra|]. apply Rmin_glb; lra.
Qed.

Print Assumptions C90_hierarchical_lagrange.
Print Assumptions C90_hierarchical_with_bubble.
Print Assumptions C90_refined_lagrange.
Print Assumptions C90_rannacher_turek.
Print Assumptions C90_hat_is_linear_in_the_parts.
