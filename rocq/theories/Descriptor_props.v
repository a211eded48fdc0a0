(** C59: functionalDescriptor(i) describes the i-th degree of freedom. *)
From Coq Require Import Reals Lra Lia List Arith Bool.
From Verif Require Import Lib Nodal_spec Nodal_poly Hermite_spec Triangle_spec Triangle_proofs Descriptor_model Descriptor_spec.
From Verif Require Hermite_model Hermite_proofs Hermite_props Morley_model Morley_spec Morley_proofs Morley_props Argyris_model Argyris_spec Argyris_proofs Argyris_props.
Import ListNotations.
Local Open Scope R_scope.
#[local] Arguments total : simpl never.

Lemma dot_unit d k a : (d = 1 \/ d = 2 \/ d = 3)%nat -> (k < d)%nat -> is_vec d a -> dot a (unit_vector d k) = nth k a 0.
Proof.
  intros Hd Hk Ha. unfold is_vec in Ha. destruct a as [|a [|b [|c [|]]]]; cbn in Ha; subst; try lia;
  destruct k as [|[|[|k]]]; try lia; unfold dot, unit_vector; unfold total; cbn -[Rplus Rmult]; ring.
Qed.
Lemma unit_vec d k : is_vec d (unit_vector d k).
Proof. unfold is_vec, unit_vector. now rewrite map_length, seq_length. Qed.
Lemma described_value d fd u z a b h : (d = 1 \/ d = 2 \/ d = 3)%nat -> fd = fd_value d -> described d fd u z a b h (u z).
Proof. intros Hd ->. exists u. split; [constructor|]. destruct Hd as [-> | [-> | ->]]; cbn; ring. Qed.
Lemma first_derivative d u g k : (d = 1 \/ d = 2 \/ d = 3)%nat -> gradient d u g -> (k < d)%nat ->
  iterated d u (increase k (repeat 0%nat d)) (fun z => nth k (g z) 0).
Proof.
  intros Hd Hg Hk. apply (it_derivative d u _ u); [constructor|auto|]. intros z Hz. destruct (Hg z Hz) as [V D].
  rewrite <- (dot_unit d k (g z)) by auto. apply D. apply unit_vec.
Qed.
Lemma second_derivative u g H k l : gradient 2 u g -> hessian 2 g H -> (k < 2)%nat -> (l < 2)%nat ->
  iterated 2 u (increase l (increase k (repeat 0%nat 2))) (fun z => nth l (nth k (H z) []) 0).
Proof.
  intros Hg HH Hk Hl. eapply it_derivative; [apply first_derivative; [auto|exact Hg|exact Hk]|auto|]. intros z Hz. destruct (HH k Hk z Hz) as [V D].
  rewrite <- (dot_unit 2 l (nth k (H z) [])) by auto. apply D. apply unit_vec.
Qed.
Lemma described_partial d fd u v z a b h c : normalDerivativeOrder fd = 0%nat -> iterated d u (partialDerivativeOrder fd) v -> c = h ^ list_sum (partialDerivativeOrder fd) * v z -> described d fd u z a b h c.
Proof. intros N I E. unfold described, isNormalDerivative. rewrite N. cbn [Nat.ltb Nat.leb]. now exists v. Qed.
Lemma described_normal P o i u g z h : (i < 3)%nat -> simplex 2 P -> gradient 2 u g -> is_vec 2 z ->
  described 2 (fd_normal 2 1) u z (nth (fst (edge_vertices i)) P []) (nth (snd (edge_vertices i)) P []) h (dot (g z) (edge_normal P o i)).
Proof.
  intros Hi HS Hg Hz. unfold described. cbn [isNormalDerivative normalDerivativeOrder fd_normal Nat.ltb Nat.leb]. split; [reflexivity|]. exists (edge_normal P o i). split; [apply Morley_props.edge_normal_vec|].
  assert (L := plen_pos P i HS). destruct HS as (HP & HF & _).
  assert (V : is_vec 2 (nth (fst (edge_vertices i)) P []) /\ is_vec 2 (nth (snd (edge_vertices i)) P [])).
  { assert (fst (edge_vertices i) < 3 /\ snd (edge_vertices i) < 3)%nat as [] by (destruct i as [|[|i]]; cbn; lia). rewrite Forall_forall in HF. split; apply HF, nth_In; lia. }
  destruct V as [Va Vb]. unfold plen, pedge in L. unfold edge_normal, unit_normal, distance.
  set (a := nth (fst (edge_vertices i)) P []) in *. set (b := nth (snd (edge_vertices i)) P []) in *. clearbody a b.
  assert (Q : dot (vsub b a) (vsub b a) = dot (vsub a b) (vsub a b)).
  { destruct a as [|? [|? [|]]]; try discriminate. destruct b as [|? [|? [|]]]; try discriminate. unfold dot, vsub; unfold total. cbn -[Rplus Rmult Rminus]. ring. }
  rewrite <- Q. assert (S2 : sqrt (dot (vsub b a) (vsub b a)) * sqrt (dot (vsub b a) (vsub b a)) = dot (vsub b a) (vsub b a)).
  { apply sqrt_sqrt. destruct (Rle_lt_dec 0 (dot (vsub b a) (vsub b a))); auto. rewrite sqrt_neg_0 in L by lra. lra. }
  set (s := sqrt (dot (vsub b a) (vsub b a))) in *. clearbody s. clear Q.
  destruct a as [|a0 [|a1 [|]]]; try discriminate. destruct b as [|b0 [|b1 [|]]]; try discriminate. revert S2. unfold dot, vsub; unfold total. cbn -[Rplus Rmult Rminus Rdiv Ropp]. intros S2.
  split; [|split].
  - destruct (nth i o false); cbn -[Rplus Rmult Rminus Rdiv Ropp].
    + transitivity (((b0 - a0) * (b0 - a0) + ((b1 - a1) * (b1 - a1) + 0)) / (s * s)); [field; lra|]. rewrite <- S2. field. lra.
    + transitivity (((b0 - a0) * (b0 - a0) + ((b1 - a1) * (b1 - a1) + 0)) / (s * s)); [field; lra|]. rewrite <- S2. field. lra.
  - intros _. destruct (nth i o false); cbn -[Rplus Rmult Rminus Rdiv Ropp]; field; lra.
  - apply Hg; auto. destruct (nth i o false); reflexivity.
Qed.

Lemma vertex_point d P i k : (d = 1 \/ d = 2 \/ d = 3)%nat -> length P = S d -> Forall (is_vec d) P -> (i <= d)%nat -> key_point d P (i, d, k) = nth i P [].
Proof.
  intros Hd HP HF Hi. unfold key_point, sub_vertices. rewrite Nat.eqb_refl. unfold barycentre. cbn [map length].
  assert (V : is_vec d (nth i P [])) by (rewrite Forall_forall in HF; apply HF, nth_In; lia). destruct (nth i P []) as [|a [|b [|c [|]]]]; unfold is_vec in V; cbn in V; subst; try lia;
  unfold vscale, vadd; cbn -[Rplus Rmult Rinv INR]; repeat (apply cons_eq; [cbn; field|]); reflexivity.
Qed.
Lemma key_point_inner d P i k : (d = 2 \/ d = 3)%nat -> key_point d P (i, if (d =? 2)%nat then 0%nat else 1%nat, k) = barycentre d (map (fun v => nth v P []) (face_vertices d i)).
Proof. intros [-> | ->]; reflexivity. Qed.
Lemma edge_point P i k : length P = 3%nat -> Forall (is_vec 2) P -> (i < 3)%nat -> key_point 2 P (i, 1%nat, k) = edge_midpoint P i.
Proof.
  intros HP HF Hi. unfold key_point, edge_midpoint, between, sub_vertices, barycentre. cbn [Nat.eqb andb map length].
  assert (V : is_vec 2 (nth (fst (edge_vertices i)) P []) /\ is_vec 2 (nth (snd (edge_vertices i)) P [])).
  { assert (fst (edge_vertices i) < 3 /\ snd (edge_vertices i) < 3)%nat as [] by (destruct i as [|[|i]]; cbn; lia). rewrite Forall_forall in HF. split; apply HF, nth_In; lia. }
  destruct V as [Va Vb]. destruct (nth (fst (edge_vertices i)) P []) as [|a0 [|a1 [|]]]; try discriminate. destruct (nth (snd (edge_vertices i)) P []) as [|b0 [|b1 [|]]]; try discriminate.
  unfold vscale, vadd. cbn -[Rplus Rmult Rinv Rdiv INR]. repeat (apply cons_eq; [cbn; field|]); reflexivity.
Qed.

(** * The theorems *)
Lemma split_index n d : (n < (d + 1) * (d + 1))%nat -> exists i m, (i <= d)%nat /\ (m <= d)%nat /\ n = (i * (d + 1) + m)%nat.
Proof.
  intros Hn. exists (n / (d + 1))%nat, (n mod (d + 1))%nat. assert (Q := Nat.div_mod n (d + 1) ltac:(lia)). assert (M := Nat.mod_upper_bound n (d + 1) ltac:(lia)).
  assert (n / (d + 1) < d + 1)%nat by (apply Nat.div_lt_upper_bound; lia). repeat split; lia.
Qed.
(** Hermite elements in two and three dimensions: whatever the (differentiable) function,
    interpolate() returns what functionalDescriptor() says. *)
Theorem C59_hermite d r P h fe u g :
  Hermite_model.valid d r -> d <> 1%nat -> Hermite_spec.bound d P h fe -> gradient d u g ->
  all_described d (hermite_descriptors d r) (Hermite_model.localKeys d r) P h u
    (Hermite_model.interpolate d r fe (fun x => u (image d P x)) (fun x => g (image d P x))).
Proof.
  intros Hv Hd Hb Hg. assert (D := Hermite_proofs.valid_dims _ _ Hv). apply Hermite_proofs.bound_is in Hb. destruct Hb as ((HP & HF & _) & Lh & Ph & ->).
  set (c := Hermite_model.interpolate d r _ _ _). assert (Lc : length c = Hermite_model.size d r) by now apply Hermite_proofs.interpolate_length.
  assert (K : length (hermite_descriptors d r) = Hermite_model.size d r /\ length (Hermite_model.localKeys d r) = Hermite_model.size d r) by (clear - Hv Hd; Hermite_proofs.by_valid Hv; try (exfalso; lia); auto).
  destruct K as [K1 K2]. split; [congruence|]. split; [congruence|]. rewrite Lc. intros n Hn.
  destruct (lt_dec n ((d + 1) * (d + 1))) as [V|V].
  - destruct (split_index n d V) as (i & m & Hi & Hm & ->).
    assert (Z : key_point d P (i, d, m) = nth i P []) by now apply vertex_point.
    assert (EK : nth_error (Hermite_model.localKeys d r) (i * (d + 1) + m) = Some (i, d, m)).
    { clear - Hv Hd Hi Hm. Hermite_proofs.by_valid Hv; try (exfalso; lia); Hermite_proofs.upto 4%nat i ltac:(first [exfalso; lia | Hermite_proofs.upto 4%nat m ltac:(first [exfalso; lia | reflexivity])]). }
    destruct m as [|m].
    + exists (fd_value d), (i, d, 0%nat). split; [clear - Hv Hd Hi; Hermite_proofs.by_valid Hv; try (exfalso; lia); Hermite_proofs.upto 4%nat i ltac:(first [exfalso; lia | reflexivity])|]. split; [exact EK|]. rewrite Z, Nat.add_0_r. unfold c. rewrite Hermite_proofs.interpolate_value by auto.
      rewrite Hermite_props.image_vertex by auto. now apply described_value.
    + exists (fd_partial (increase m (repeat 0%nat d))), (i, d, S m). split; [clear - Hv Hd Hi Hm; Hermite_proofs.by_valid Hv; try (exfalso; lia); Hermite_proofs.upto 4%nat i ltac:(first [exfalso; lia | Hermite_proofs.upto 3%nat m ltac:(first [exfalso; lia | reflexivity])])|]. split; [exact EK|]. rewrite Z.
      apply (described_partial d _ u (fun z => nth m (g z) 0)); [reflexivity|apply first_derivative; auto; lia|].
      assert (list_sum (increase m (repeat 0%nat d)) = 1)%nat as Q by (clear - D Hm; destruct D as [-> | [-> | ->]]; do 3 (destruct m as [|m]; try reflexivity; try lia)). cbn [partialDerivativeOrder fd_partial fst]. rewrite Q, pow_1.
      unfold c. replace (i * (d + 1) + S m)%nat with (i * (d + 1) + 1 + m)%nat by lia. rewrite Hermite_proofs.interpolate_slot by (auto; lia). rewrite Hermite_props.image_vertex by auto. cbn [Hermite_model.averageVertexMeshSize Hermite_proofs.bound_form].
      rewrite (nth_indep h 1 0) by lia. ring.
  - assert (exists f, n = ((d + 1) * (d + 1) + f)%nat) as (f & ->) by (exists (n - (d + 1) * (d + 1))%nat; lia).
    assert (D23 : (d = 2 \/ d = 3)%nat) by (destruct D as [|[|]]; lia).
    assert (Hf : (f < (d - 1) * (d - 1))%nat) by (clear - Hv Hn Hd; Hermite_proofs.by_valid Hv; cbn in *; lia).
    exists (fd_value d), (f, if (d =? 2)%nat then 0%nat else 1%nat, 0%nat).
    split; [clear - Hv Hd Hf Hn; Hermite_proofs.by_valid Hv; cbn in Hn; try (exfalso; lia); cbn in Hf; Hermite_proofs.upto 4%nat f ltac:(first [exfalso; lia | reflexivity])|].
    split; [clear - Hv Hd Hf Hn; Hermite_proofs.by_valid Hv; cbn in Hn; try (exfalso; lia); cbn in Hf; Hermite_proofs.upto 4%nat f ltac:(first [exfalso; lia | reflexivity])|].
    rewrite key_point_inner by auto. unfold c. rewrite Hermite_proofs.interpolate_inner by auto. rewrite Hermite_props.image_inner by auto. now apply described_value.
Qed.

(** The Morley element. *)
Theorem C59_morley P o fe u g : Morley_spec.bound P o fe -> gradient 2 u g ->
  all_described 2 morley_descriptors Morley_model.localKeys P [] u
    (Morley_model.interpolate fe (fun x => u (image 2 P x)) (fun x => g (image 2 P x))).
Proof.
  intros Hb Hg. apply Morley_proofs.bound_is in Hb. destruct Hb as (G & HS & HG & Ho & ->). rewrite Morley_proofs.interpolate_is by auto.
  destruct (Morley_proofs.nth_target P o u g) as [T1 T2]. assert (HS' := HS). destruct HS' as (HP & HF & _).
  assert (L : length (Morley_proofs.target P o u g) = 6%nat) by reflexivity. split; [reflexivity|]. split; [reflexivity|]. rewrite L. intros n Hn.
  destruct (lt_dec n 3) as [V|V].
  - exists (fd_value 2), (n, 2, 0)%nat. split; [clear - V; do 3 (destruct n as [|n]; [reflexivity|]); lia|]. split; [clear - V; do 3 (destruct n as [|n]; [reflexivity|]); lia|].
    rewrite T1, vertex_point by (auto; lia). apply described_value; auto.
  - assert (exists i, n = (3 + i)%nat) as (i & ->) by (exists (n - 3)%nat; lia). assert (Hi : (i < 3)%nat) by lia.
    exists (fd_normal 2 1), (i, 1, 0)%nat. split; [clear - Hi; do 3 (destruct i as [|i]; [reflexivity|]); lia|]. split; [clear - Hi; do 3 (destruct i as [|i]; [reflexivity|]); lia|].
    assert (Vz := Morley_proofs.midpoint_is_vec P i HP HF Hi). rewrite T2, edge_point by auto.
    rewrite <- Morley_props.dot_dot2; [|now apply Hg|apply Morley_props.edge_normal_vec]. apply described_normal; auto.
Qed.
(** The Argyris element. *)
Theorem C59_argyris P h o fe u g H : Argyris_spec.bound P h o fe -> gradient 2 u g -> hessian 2 g H ->
  all_described 2 argyris_descriptors Argyris_model.localKeys P h u
    (Argyris_model.interpolate fe (fun x => u (image 2 P x)) (fun x => g (image 2 P x)) (fun x => H (image 2 P x))).
Proof.
  intros Hb Hg HH. apply Argyris_proofs.bound_is in Hb. destruct Hb as (G & HS & HG & Lh & Ph & Ho & ->). rewrite Argyris_proofs.interpolate_is by auto.
  assert (HS' := HS). destruct HS' as (HP & HF & _).
  assert (L : length (Argyris_proofs.target P h o u g H) = 21%nat) by reflexivity. split; [reflexivity|]. split; [reflexivity|]. rewrite L. intros n Hn.
  destruct (lt_dec n 18) as [V|V].
  - assert (exists i j, (i < 3)%nat /\ (j < 6)%nat /\ n = (6 * i + j)%nat) as (i & j & Hi & Hj & ->).
    { exists (n / 6)%nat, (n mod 6)%nat. assert (Q := Nat.div_mod n 6 ltac:(lia)). assert (M := Nat.mod_upper_bound n 6 ltac:(lia)). lia. }
    assert (EK : nth_error Argyris_model.localKeys (6 * i + j) = Some (i, 2, j)%nat) by (clear - Hi Hj; Hermite_proofs.upto 3%nat i ltac:(first [exfalso; lia | Hermite_proofs.upto 6%nat j ltac:(first [exfalso; lia | reflexivity])])).
    assert (ED : nth_error argyris_descriptors (6 * i + j) = nth_error [fd_value 2; fd_partial [1; 0]%nat; fd_partial [0; 1]%nat; fd_partial [2; 0]%nat; fd_partial [1; 1]%nat; fd_partial [0; 2]%nat] j) by (clear - Hi Hj; Hermite_proofs.upto 3%nat i ltac:(first [exfalso; lia | Hermite_proofs.upto 6%nat j ltac:(first [exfalso; lia | reflexivity])])).
    rewrite (Argyris_proofs.target_vertex P h o u g H i Hi j Hj). rewrite ED, EK.
    assert (Z : key_point 2 P (i, 2, j)%nat = nth i P []) by (apply vertex_point; auto; lia). cbn zeta.
    assert (Hs : nth i h 1 = nth i h 0) by (apply nth_indep; lia).
    assert (D1 := fun k => first_derivative 2 u g k ltac:(auto) Hg). assert (D2 := fun k l => second_derivative u g H k l Hg HH).
    clear EK ED. destruct j as [|[|[|[|[|[|j]]]]]]; [| | | | | |lia]; (eexists; eexists; split; [reflexivity|]; split; [reflexivity|]; rewrite Z; cbn [fst snd nth]; rewrite Hs).
    + apply described_value; auto.
    + eapply described_partial; [reflexivity|exact (D1 0%nat ltac:(lia))|]. cbn -[Rmult pow]. cbn [pow]. unfold Argyris_model.entry; ring.
    + eapply described_partial; [reflexivity|exact (D1 1%nat ltac:(lia))|]. cbn -[Rmult pow]. cbn [pow]. unfold Argyris_model.entry; ring.
    + eapply described_partial; [reflexivity|exact (D2 0%nat 0%nat ltac:(lia) ltac:(lia))|]. cbn -[Rmult pow]. cbn [pow]. unfold Argyris_model.entry; ring.
    + eapply described_partial; [reflexivity|exact (D2 0%nat 1%nat ltac:(lia) ltac:(lia))|]. cbn -[Rmult pow]. cbn [pow]. unfold Argyris_model.entry; ring.
    + eapply described_partial; [reflexivity|exact (D2 1%nat 1%nat ltac:(lia) ltac:(lia))|]. cbn -[Rmult pow]. cbn [pow]. unfold Argyris_model.entry; ring.
  - assert (exists i, n = (18 + i)%nat) as (i & ->) by (exists (n - 18)%nat; lia). assert (Hi : (i < 3)%nat) by lia.
    exists (fd_normal 2 1), (i, 1, 0)%nat. split; [clear - Hi; do 3 (destruct i as [|i]; [reflexivity|]); lia|]. split; [clear - Hi; do 3 (destruct i as [|i]; [reflexivity|]); lia|].
    assert (Vz := Morley_proofs.midpoint_is_vec P i HP HF Hi). rewrite Argyris_proofs.target_edge, edge_point by auto.
    rewrite <- Morley_props.dot_dot2; [|now apply Hg|apply Morley_props.edge_normal_vec]. apply described_normal; auto.
Qed.

(** One dimension: [FunctionalDescriptor({1})] is not the first derivative but a normal
    derivative.  The degree of freedom is the derivative times the mesh size, which is not a
    derivative in the direction of a unit vector: here u(x) = x, the mesh size is 2. *)
Theorem C59_hermite_1d_refuted : exists P h fe u g, Hermite_spec.bound 1 P h fe /\ gradient 1 u g /\
  nth_error (hermite_descriptors 1 false) 1 = Some (fd_normal 1 1) /\
  ~ all_described 1 (hermite_descriptors 1 false) (Hermite_model.localKeys 1 false) P h u
      (Hermite_model.interpolate 1 false fe (fun x => u (image 1 P x)) (fun x => g (image 1 P x))).
Proof.
  set (P := [[0]; [1]]). set (h := [2; 2]).
  set (G := Hermite_model.Geo (image 1 P) (fun _ => [[1 - 0]])).
  exists P, h, (Hermite_proofs.bound_form 1 P h), (fun z => nth 0 z 0), (fun _ => [1]).
  split; [|split; [|split; [reflexivity|]]].
  - exists G, (fun i => i), h. split.
    { split; [reflexivity|]. split; [repeat constructor|]. intros g Hg H. assert (H1 := H 1%nat ltac:(lia)). destruct g as [|a [|]]; try discriminate. revert H1. unfold dot, P, vsub; unfold total. cbn -[Rplus Rmult Rminus]. intros H1. apply cons_eq; [lra|reflexivity]. }
    split; [intros x _; split; [reflexivity|]|split; [reflexivity|split; [repeat constructor; lra|split; [reflexivity|]]]].
    + cbn. repeat (apply cons_eq; [repeat (apply cons_eq; [lra|]); reflexivity|]). reflexivity.
    + reflexivity.
  - intros z Hz. split; [reflexivity|]. intros w Hw. destruct z as [|a [|]]; try discriminate. destruct w as [|p [|]]; try discriminate. unfold dot; unfold total. cbn -[Rplus Rmult].
    replace (1 * p + 0) with p by ring. apply Hermite_props.affine_dlim.
  - intros (_ & _ & H). destruct (H 1%nat ltac:(cbn; lia)) as (fd & key & E1 & E2 & X). injection E1 as <-. injection E2 as <-.
    unfold described in X. cbn [isNormalDerivative normalDerivativeOrder fd_normal fd_braces Nat.ltb Nat.leb] in X. destruct X as (_ & n & Vn & N1 & _ & D). destruct n as [|a [|]]; try discriminate.
    assert (a * a = 1) by (revert N1; unfold dot; unfold total; cbn -[Rplus Rmult]; lra).
    assert (D' : derivable_pt_lim (fun t => nth 0 (vadd (key_point 1 P (0, 1, 1)%nat) (vscale t [a])) 0) 0 a).
    { rewrite vertex_point; [|auto|reflexivity|repeat constructor|lia]. cbn -[Rplus Rmult]. apply Hermite_props.affine_dlim. }
    assert (Q := uniqueness_limite _ _ _ _ D D'). revert Q. cbn -[Rplus Rmult]. intros Q. nra.
Qed.

(** * Examples *)
Example C59_ex_hermite : all_described 2 (hermite_descriptors 2 false) (Hermite_model.localKeys 2 false) Hermite_props.ex_P [1; 2; 3] Hermite_props.ex_u (Hermite_props.ex_c Hermite_props.ex_P [1; 2; 3]).
Proof. apply C59_hermite; [apply Hermite_props.ex_valid|discriminate|apply Hermite_props.C52_ex_bound|apply Hermite_props.C52_ex_gradient]. Qed.
Example C59_ex_morley : all_described 2 morley_descriptors Morley_model.localKeys Hermite_props.ex_P [] Morley_props.ex_u
  (Morley_model.interpolate Morley_props.ex_fe (fun x => Morley_props.ex_u (image 2 Hermite_props.ex_P x)) (fun x => Morley_props.ex_g (image 2 Hermite_props.ex_P x))).
Proof. apply (C59_morley _ _ _ _ _ Morley_props.C53_ex_bound Morley_props.C53_ex_gradient). Qed.
Example C59_ex_argyris : all_described 2 argyris_descriptors Argyris_model.localKeys Hermite_props.ex_P Argyris_props.ex_h Argyris_props.ex_u
  (Argyris_model.interpolate Argyris_props.ex_fe (fun x => Argyris_props.ex_u (image 2 Hermite_props.ex_P x)) (fun x => Argyris_props.ex_g (image 2 Hermite_props.ex_P x)) (fun x => Argyris_props.ex_H (image 2 Hermite_props.ex_P x))).
Proof. apply (C59_argyris _ _ _ _ _ _ _ Argyris_props.C54_ex_bound Argyris_props.C54_ex_gradient Argyris_props.C54_ex_hessian). Qed.

Print Assumptions C59_hermite.
Print Assumptions C59_morley.
Print Assumptions C59_argyris.
Print Assumptions C59_hermite_1d_refuted.
