(** C52: the cubic Hermite basis. *)
From Coq Require Import Reals Lra Lia List Arith Bool.
From Verif Require Import Lib MonomialSet_spec MonomialSet_props Nodal_spec Nodal_poly Nodal_rat GeometryType_model.
From Verif Require Basis_model.
From Verif Require Import Mapper_model Mapper_spec Mapper_props Keys_check.
From Verif Require Import Hermite_model Hermite_spec Hermite_proofs Hermite_trace.
Import ListNotations.
Local Open Scope R_scope.
#[local] Arguments total : simpl never.

(** * Degrees of freedom *)
Lemma image_vertex d P i : dims d -> length P = S d -> Forall (is_vec d) P -> (i <= d)%nat -> image d P (vertex_position d i) = nth i P [].
Proof.
  intros [-> | [-> | ->]] HP HF Hi; vec_cases; four i; try (exfalso; lia);
    unfold image, comb, bary, total; cbn -[Rplus Rmult Rdiv Rminus]; repeat (apply cons_eq; [ring|]); reflexivity.
Qed.
Lemma image_inner d P i : (d = 2 \/ d = 3)%nat -> length P = S d -> Forall (is_vec d) P -> (i < (d - 1) * (d - 1))%nat ->
  image d P (inner_position d i) = barycentre d (map (fun v => nth v P []) (face_vertices d i)).
Proof.
  intros [-> | ->] HP HF Hi; vec_cases; cbn in Hi; four i; try (exfalso; lia);
    unfold barycentre, image, comb, bary, total; cbn -[Rplus Rmult Rdiv Rminus]; repeat (apply cons_eq; [field|]); reflexivity.
Qed.
Lemma interpolate_is d r P h fe u g c : valid d r -> bound d P h fe -> gradient d u g -> has_coefficients d r P fe u c ->
  interpolate d r fe (fun x => u (image d P x)) (fun x => g (image d P x)) = c.
Proof.
  intros Hv Hb Hg H. assert (N := nodal_ref d r P h fe u g c Hv Hb Hg H). apply bound_is in Hb. destruct Hb as (HS & Hh & Hpos & ->).
  assert (HS' := HS). destruct HS' as (HP & HF & _).
  apply (tT_injective d r P h); auto; [now apply interpolate_length|apply H|]. rewrite <- N. apply tT_interpolate; auto.
  intros i. apply Hg, image_vec; auto; [eapply valid_dims; eauto|apply vertex_vec].
Qed.

(** The coefficient of a function of the space are its values and its scaled partial
    derivatives at the vertices and its values at the barycentres of the triangles. *)
Theorem C52_degrees_of_freedom d r P h fe u g c :
  valid d r -> bound d P h fe -> gradient d u g -> has_coefficients d r P fe u c ->
  (forall i, (i <= d)%nat ->
     nth (i * (d + 1)) c 0 = u (nth i P []) /\
     forall m, (m < d)%nat -> nth (i * (d + 1) + 1 + m) c 0 = nth i h 0 * nth m (g (nth i P [])) 0) /\
  (forall f, ((d + 1) * (d + 1) + f < size d r)%nat ->
     nth ((d + 1) * (d + 1) + f) c 0 = u (barycentre d (map (fun v => nth v P []) (face_vertices d f)))).
Proof.
  intros Hv Hb Hg H. assert (E := interpolate_is d r P h fe u g c Hv Hb Hg H). assert (Hd := valid_dims _ _ Hv).
  apply bound_is in Hb. destruct Hb as ((HP & HF & _) & Hh & Hpos & ->). subst c. split.
  - intros i Hi. split.
    + rewrite interpolate_value by auto. now rewrite image_vertex.
    + intros m Hm. rewrite interpolate_slot by auto. rewrite image_vertex by auto. cbn [averageVertexMeshSize bound_form]. ring.
  - intros f Hf. rewrite interpolate_inner by auto.
    assert (D : (d = 2 \/ d = 3)%nat) by (clear - Hv Hf; by_valid Hv; cbn in Hf; auto; lia).
    rewrite image_inner; auto. clear - Hv Hf. by_valid Hv; cbn in *; lia.
Qed.
(** Interpolating a function of the space gives back its coefficients. *)
Theorem C52_interpolation_inverse d r P h fe u g c :
  valid d r -> bound d P h fe -> gradient d u g -> has_coefficients d r P fe u c ->
  interpolate d r fe (fun x => u (image d P x)) (fun x => g (image d P x)) = c.
Proof. apply interpolate_is. Qed.
(** Polynomials (of degree 3, or 2 for the reduced element) are reproduced. *)
Theorem C52_reproduces_polynomials d r P h fe u g :
  valid d r -> bound d P h fe -> polynomial d (full_degree r) u -> gradient d u g ->
  has_coefficients d r P fe u (interpolate d r fe (fun x => u (image d P x)) (fun x => g (image d P x))).
Proof.
  intros Hv Hb Hu Hg. assert (Hd := valid_dims _ _ Hv). apply (coefficients_ref d r P h fe); auto; [now apply interpolate_length|].
  apply bound_is in Hb. destruct Hb as (HS & Hh & Hpos & ->). destruct HS as (HP & HF & _).
  rewrite tT_interpolate; auto. 2: { intros i. apply Hg, image_vec; auto. apply vertex_vec. }
  destruct (poly_image d _ P u Hd HP HF Hu) as (p & Hp & E). intros x Hx.
  rewrite E by auto. change (poly p x) with (poly_at [] p x). rewrite <- (ref_reproduce d r p [] x) by auto.
  change (shape (exps d) (referenceBasisCoefficients d r) [] x) with (phi d r x). f_equal.
  assert (D : forall y k, is_vec d y -> (k < d)%nat -> dpoly p k y = dot (g (image d P y)) (column P k)).
  { intros y k Hy Hk. apply (partial_unique (fun y => u (image d P y)) k y); [|now apply (local_gradient d)].
    eapply partial_ext; [|unfold is_vec in Hy; lia|apply (poly_partial d); auto].
    - intros z Hz. apply E. unfold is_vec in *. lia.
    - eapply Forall_impl; [|exact Hp]. cbn. tauto. }
  unfold refN. f_equal.
  - f_equal. apply map_ext_in. intros i Hi. f_equal; [symmetry; apply E, vertex_vec|]. apply map_ext_in. intros k Hk. apply in_seq in Hk. apply D; [apply vertex_vec|lia].
  - destruct r; auto. destruct Hd as [-> | Hd]; [reflexivity|]. apply map_ext_in. intros i Hi. symmetry. apply E, inner_vec, Hd.
Qed.

(** * Derivatives *)
Lemma transform_nth d r P h v w i : valid d r -> length P = S d -> Forall (is_vec d) P -> length h = S d -> length v = size d r ->
  transform d r (bound_form d P h) v = Some w -> (i < size d r)%nat -> nth i w 0 = dot (tT d r (bound_form d P h) (unit_vec (size d r) i)) v.
Proof.
  intros Hv HP HF Hh HL E Hi. destruct (transform_form d r P h v Hv HP HF Hh HL) as (w' & E' & L & T). rewrite E' in E. injection E as ->.
  rewrite <- T by (unfold unit_vec; now rewrite map_length, seq_length). symmetry. now apply dot_unit_vec.
Qed.
Definition get (o : option (list R)) : list R := match o with Some l => l | None => [] end.
(** evaluateJacobian and evaluateHessian return the partial derivatives of evaluateFunction
    and evaluateJacobian. *)
Theorem C52_derivatives d r P h fe : valid d r -> bound d P h fe ->
  exists F J, (forall y, is_vec d y -> evaluateFunction d r fe y = Some (F y) /\ length (F y) = size d r /\
                 forall k, (k < d)%nat -> evaluateJacobian d r fe y k = Some (J k y) /\ length (J k y) = size d r) /\
    forall x k, is_vec d x -> (k < d)%nat ->
      (forall i, (i < size d r)%nat -> partial (fun y => nth i (F y) 0) k x (nth i (J k x) 0)) /\
      forall l, (l < d)%nat -> exists H, evaluateHessian d r fe x k l = Some H /\ length H = size d r /\
        forall i, (i < size d r)%nat -> partial (fun y => nth i (J k y) 0) l x (nth i H 0).
Proof.
  intros Hv Hb. assert (Hd := valid_dims _ _ Hv). apply bound_is in Hb. destruct Hb as ((HP & HF & _) & Hh & Hpos & ->).
  set (fe := bound_form d P h).
  exists (fun y => get (evaluateFunction d r fe y)), (fun k y => get (evaluateJacobian d r fe y k)).
  assert (TF : forall ks y, exists w, transform d r fe (shape (exps d) (referenceBasisCoefficients d r) ks y) = Some w /\ length w = size d r).
  { intros ks y. destruct (transform_form d r P h (shape (exps d) (referenceBasisCoefficients d r) ks y) Hv HP HF Hh) as (w & E & L & _); [now rewrite shape_length, coefficients_size|].
    exists w. auto. }
  assert (L0 : forall ks y, length (shape (exps d) (referenceBasisCoefficients d r) ks y) = size d r) by (intros; now rewrite shape_length, coefficients_size).
  assert (F0 : forall y, is_vec d y -> evaluateFunction d r fe y = transform d r fe (phi d r y)).
  { intros y Hy. unfold evaluateFunction. now rewrite ref_function. }
  assert (J0 : forall y k, is_vec d y -> (k < d)%nat -> evaluateJacobian d r fe y k = transform d r fe (dphi d r k y)).
  { intros y k Hy Hk. unfold evaluateJacobian. now rewrite ref_jacobian. }
  split.
  - intros y Hy. destruct (TF [] y) as (w & E & L). rewrite F0 by auto. unfold phi. rewrite E. cbn [get]. split; [|split]; auto.
    intros k Hk. destruct (TF [k] y) as (w' & E' & L'). rewrite J0 by auto. unfold dphi. rewrite E'. cbn [get]. auto.
  - intros x k Hx Hk. split.
    + intros i Hi. destruct (TF [k] x) as (w' & E' & L'). rewrite J0 by auto. unfold dphi. rewrite E'. cbn [get].
      rewrite (transform_nth d r P h _ w' i Hv HP HF Hh (L0 [k] x) E' Hi). eapply partial_ext; [|unfold is_vec in Hx; lia|apply phi_partial; auto].
      intros z Hz. assert (Hz' : is_vec d z) by (unfold is_vec in *; lia). rewrite F0 by auto. destruct (TF [] z) as (w & E & L). unfold phi. rewrite E. cbn [get].
      apply (transform_nth d r P h _ w i Hv HP HF Hh (L0 [] z) E Hi).
    + intros l Hl. destruct (TF [k; l] x) as (w' & E' & L'). exists w'. unfold evaluateHessian. rewrite ref_hessian by auto. cbn [obind]. split; [exact E'|]. split; auto.
      intros i Hi. rewrite (transform_nth d r P h _ w' i Hv HP HF Hh (L0 [k; l] x) E' Hi). eapply partial_ext; [|unfold is_vec in Hx; lia|apply dphi_partial; auto].
      intros z Hz. assert (Hz' : is_vec d z) by (unfold is_vec in *; lia). rewrite J0 by auto. destruct (TF [k] z) as (w & E & L). unfold dphi. rewrite E. cbn [get].
      apply (transform_nth d r P h _ w i Hv HP HF Hh (L0 [k] z) E Hi).
Qed.
(** partial() agrees with them, and rejects derivatives of order three and higher. *)
Theorem C52_partial_method d r fe x : valid d r ->
  partial_of d r fe (repeat 0%nat d) x = evaluateFunction d r fe x /\
  (forall k, (k < d)%nat -> partial_of d r fe (map (fun j => if (j =? k)%nat then 1%nat else 0%nat) (seq 0 d)) x = evaluateJacobian d r fe x k) /\
  (forall k l, (k <= l)%nat -> (l < d)%nat ->
     partial_of d r fe (map (fun j => (if (j =? k) then 1 else 0) + (if (j =? l) then 1 else 0))%nat (seq 0 d)) x = evaluateHessian d r fe x k l) /\
  (forall order, (2 < degree order)%nat -> partial_of d r fe order x = None).
Proof.
  intros Hv. assert (Hd := valid_dims _ _ Hv). split; [|split; [|split]].
  - destruct Hd as [-> | [-> | ->]]; reflexivity.
  - intros k Hk. destruct Hd as [-> | [-> | ->]]; three k; try (exfalso; lia); reflexivity.
  - intros k l Hkl Hl. destruct Hd as [-> | [-> | ->]]; three l; try (exfalso; lia); three k; try (exfalso; lia); reflexivity.
  - intros order H. unfold partial_of, ref_partial.
    assert (E : forall l a, fold_left Nat.add l a = (a + degree l)%nat).
    { induction l as [|b l IH]; intros a; cbn [fold_left]; [unfold degree; cbn; lia|]. rewrite IH. unfold degree. cbn. lia. }
    rewrite E. cbn [Nat.add]. destruct (degree order) as [|[|[|n]]]; try lia. reflexivity.
Qed.

(** * Continuity *)
Lemma facet_image2 P i j w0 : length P = 3%nat -> Forall (is_vec 2) P -> (i <= 2)%nat -> (j <= 2)%nat -> i <> j ->
  is_vec 2 (facet_point 2 [i; j] [w0; 1 - w0]) /\
  image 2 P (facet_point 2 [i; j] [w0; 1 - w0]) = comb 2 [w0; 1 - w0] [nth i P []; nth j P []].
Proof.
  intros HP HF Hi Hj N. split; [reflexivity|]. vec_cases. three i; three j; try congruence;
  unfold facet_point, weight_of, image, comb, bary, total; cbn -[Rplus Rmult Rdiv Rminus]; repeat (apply cons_eq; [ring|]); reflexivity.
Qed.
Lemma facet_image3 P i j k w0 w1 : length P = 4%nat -> Forall (is_vec 3) P -> (i <= 3)%nat -> (j <= 3)%nat -> (k <= 3)%nat -> i <> j -> i <> k -> j <> k ->
  is_vec 3 (facet_point 3 [i; j; k] [w0; w1; 1 - w0 - w1]) /\
  image 3 P (facet_point 3 [i; j; k] [w0; w1; 1 - w0 - w1]) = comb 3 [w0; w1; 1 - w0 - w1] [nth i P []; nth j P []; nth k P []].
Proof.
  intros HP HF Hi Hj Hk N1 N2 N3. split; [reflexivity|]. vec_cases. four i; four j; try congruence; four k; try congruence;
  unfold facet_point, weight_of, image, comb, bary, total; cbn -[Rplus Rmult Rdiv Rminus]; repeat (apply cons_eq; [ring|]); reflexivity.
Qed.
Lemma dot_vsub d a : dims d -> forall b c v, is_vec d a -> is_vec d b -> is_vec d c -> is_vec d v -> dot a (vsub b v) - dot a (vsub c v) = dot a (vsub b c).
Proof. intros [-> | [-> | ->]] b c v Ha Hb Hc Hv; vec_cases; unfold dot, vsub, total; cbn; ring. Qed.
Lemma dot_vsub_self d a v : dims d -> is_vec d a -> is_vec d v -> dot a (vsub v v) = 0.
Proof. intros [-> | [-> | ->]] Ha Hv; vec_cases; unfold dot, vsub, total; cbn; ring. Qed.
Lemma nth_vec d P i : length P = S d -> Forall (is_vec d) P -> (i <= d)%nat -> is_vec d (nth i P []).
Proof. intros HP HF Hi. rewrite Forall_forall in HF. apply HF, nth_In. lia. Qed.
Definition direction (d : nat) (P : list (list R)) (h c : list R) (i j : nat) : R := dot (slot d i c) (vsub (nth j P []) (nth i P [])) / nth i h 0.
Lemma towards_tT d r P h c i j : valid d r -> length c = size d r -> length P = S d -> Forall (is_vec d) P -> length h = S d -> (i <= d)%nat -> (j <= d)%nat ->
  towards d (tT d r (bound_form d P h) c) i j = direction d P h c i j.
Proof.
  intros Hv Hc HP HF Hh Hi Hj. assert (Hd := valid_dims _ _ Hv).
  assert (A : forall j, (j <= d)%nat -> (if (j =? 0)%nat then 0 else nth (i * (d + 1) + j) (tT d r (bound_form d P h) c) 0) = dot (slot d i c) (vsub (nth j P []) (nth 0 P [])) / nth i h 0).
  { intros [|k] Hk.
    - cbn [Nat.eqb]. rewrite (dot_vsub_self d); [unfold Rdiv; ring|auto|unfold is_vec, slot; now rewrite map_length, seq_length|apply nth_vec; auto; lia].
    - cbn [Nat.eqb]. replace (i * (d + 1) + S k)%nat with (i * (d + 1) + 1 + k)%nat by lia. rewrite tT_slot by auto. reflexivity. }
  unfold towards, direction. rewrite !A by auto.
  rewrite <- (dot_vsub d (slot d i c) Hd (nth j P []) (nth i P []) (nth 0 P [])); [unfold Rdiv; ring|unfold is_vec, slot; now rewrite map_length, seq_length|apply nth_vec; auto; lia..].
Qed.
Lemma edge_trace r P h fe u c i j w0 : bound 2 P h fe -> has_coefficients 2 r P fe u c -> (i <= 2)%nat -> (j <= 2)%nat -> i <> j ->
  u (comb 2 [w0; 1 - w0] [nth i P []; nth j P []]) = trace2 w0 (1 - w0) (nth (i * 3) c 0) (nth (j * 3) c 0) (direction 2 P h c i j) (direction 2 P h c j i).
Proof.
  intros Hb H Hi Hj N. assert (Hc : length c = size 2 r) by apply H. assert (Hv : valid 2 r) by (split; auto).
  assert (H' := proj1 (coefficients_ref 2 r P h fe u c Hv Hb Hc) H). apply bound_is in Hb. destruct Hb as ((HP & HF & _) & Hh & Hpos & ->).
  destruct (facet_image2 P i j w0 HP HF Hi Hj N) as [Hx E]. rewrite <- E, (H' _ Hx), facet_trace2 by (auto; now rewrite tT_length).
  rewrite !towards_tT by auto. assert (Vi := tT_value 2 r P h c i Hv Hc Hi). assert (Vj := tT_value 2 r P h c j Hv Hc Hj). cbn [Nat.add] in Vi, Vj. now rewrite Vi, Vj.
Qed.
Lemma face_trace P h fe u c i j k l w0 w1 : bound 3 P h fe -> has_coefficients 3 false P fe u c ->
  (i <= 3)%nat -> (j <= 3)%nat -> (k <= 3)%nat -> i <> j -> i <> k -> j <> k -> (i + j + k + l = 6)%nat ->
  u (comb 3 [w0; w1; 1 - w0 - w1] [nth i P []; nth j P []; nth k P []]) =
  trace3 w0 w1 (1 - w0 - w1) (nth (i * 4) c 0) (nth (j * 4) c 0) (nth (k * 4) c 0)
    (direction 3 P h c i j) (direction 3 P h c i k) (direction 3 P h c j i) (direction 3 P h c j k) (direction 3 P h c k i) (direction 3 P h c k j) (nth (16 + (3 - l)) c 0).
Proof.
  intros Hb H Hi Hj Hk N1 N2 N3 HS. assert (Hc : length c = size 3 false) by apply H. assert (Hv : valid 3 false) by (split; auto; discriminate).
  assert (H' := proj1 (coefficients_ref 3 false P h fe u c Hv Hb Hc) H). apply bound_is in Hb. destruct Hb as ((HP & HF & _) & Hh & Hpos & ->).
  destruct (facet_image3 P i j k w0 w1 HP HF Hi Hj Hk N1 N2 N3) as [Hx E]. rewrite <- E, (H' _ Hx).
  rewrite (facet_trace3 _ i j k l) by (auto; apply (tT_length 3 false P h c Hv Hc)).
  rewrite !towards_tT by auto. assert (Vi := tT_value 3 false P h c i Hv Hc Hi). assert (Vj := tT_value 3 false P h c j Hv Hc Hj). assert (Vk := tT_value 3 false P h c k Hv Hc Hk). cbn [Nat.add] in Vi, Vj, Vk. rewrite Vi, Vj, Vk.
  replace (19 - l)%nat with (16 + (3 - l))%nat by lia. rewrite (tT_inner 3 false P h c) by (auto; cbn; lia). reflexivity.
Qed.
(** The functions on two elements that have the same coefficients for their common
    degrees of freedom agree on the common facet. *)
Theorem C52_continuous d r P h fe u c P' h' fe' u' c' s w :
  valid d r -> bound d P h fe -> bound d P' h' fe' -> has_coefficients d r P fe u c -> has_coefficients d r P' fe' u' c' ->
  common_facet d P P' s -> same_coefficients d s h c h' c' -> length w = d -> total w = 1 ->
  let z := comb d w (map (fun p => nth (fst p) P []) s) in u z = u' z.
Proof.
  intros Hv Hb Hb' H H' (Ls & ND & ND' & HV) (HC & HFc) Lw Hw z.
  assert (Ez : z = comb d w (map (fun p => nth (snd p) P' []) s)).
  { unfold z. f_equal. apply map_ext_in. intros [i j] Hp. now apply HV. }
  assert (Hslot : forall i j, In (i, j) s -> slot d i c = slot d j c').
  { intros i j Hp. unfold slot. apply map_ext_in. intros m Hm. apply in_seq in Hm. destruct (HC i j Hp) as [_ Q]. replace (i * (d + 1) + 1 + m)%nat with (i * (d + 1) + S m)%nat by lia.
    replace (j * (d + 1) + 1 + m)%nat with (j * (d + 1) + S m)%nat by lia. apply Q. lia. }
  assert (Hval : forall i j, In (i, j) s -> nth (i * (d + 1)) c 0 = nth (j * (d + 1)) c' 0).
  { intros i j Hp. destruct (HC i j Hp) as [_ Q]. specialize (Q 0%nat ltac:(lia)). now rewrite !Nat.add_0_r in Q. }
  assert (Hdir : forall i j a b, In (i, j) s -> In (a, b) s -> direction d P h c i a = direction d P' h' c' j b).
  { intros i j a b Hp Hq. unfold direction. rewrite (Hslot i j Hp). destruct (HV i j Hp) as (_ & _ & ->). destruct (HV a b Hq) as (_ & _ & ->). destruct (HC i j Hp) as [-> _]. reflexivity. }
  destruct (valid_dims _ _ Hv) as [-> | [-> | ->]].
  - destruct s as [|[i j] [|]]; try discriminate. destruct w as [|w0 [|]]; try discriminate.
    assert (w0 = 1) by (unfold total in Hw; cbn in Hw; lra). subst w0. rewrite Ez at 2. unfold z. cbn [map fst snd].
    destruct (HV i j (or_introl eq_refl)) as (Hi & Hj & _).
    assert (V : forall P h fe u c i, bound 1 P h fe -> has_coefficients 1 r P fe u c -> (i <= 1)%nat -> u (comb 1 [1] [nth i P []]) = nth (i * 2) c 0).
    { clear - Hv. intros P h fe u c i Hb H Hi. assert (Hc : length c = size 1 r) by apply H.
      assert (H' := proj1 (coefficients_ref 1 r P h fe u c Hv Hb Hc) H). apply bound_is in Hb. destruct Hb as ((HP & HF & _) & Hh & Hpos & ->).
      assert (E : comb 1 [1] [nth i P []] = image 1 P (vertex_position 1 i)).
      { rewrite image_vertex by (auto; now left). assert (X := nth_vec 1 P i HP HF Hi). destruct (nth i P []) as [|p [|]]; try discriminate. unfold comb. cbn. apply cons_eq; [ring|reflexivity]. }
      rewrite E, H' by apply vertex_vec.
      assert (D := ref_dual 1 r (tT 1 r (bound_form 1 P h) c) Hv (tT_length 1 r P h c Hv Hc)).
      apply (f_equal (fun l => nth (i * (1 + 1)) l 0)) in D. rewrite refN_value in D by auto. rewrite D. now rewrite tT_value. }
    rewrite (V P h fe u c i Hb H Hi), (V P' h' fe' u' c' j Hb' H' Hj). apply (Hval i j). now left.
  - destruct s as [|[i j] [|[a b] [|]]]; try discriminate. destruct w as [|w0 [|w1 [|]]]; try discriminate.
    assert (w1 = 1 - w0) by (unfold total in Hw; cbn in Hw; lra). subst w1. rewrite Ez at 2. unfold z. cbn [map fst snd].
    assert (I1 : In (i, j) [(i, j); (a, b)]) by now left. assert (I2 : In (a, b) [(i, j); (a, b)]) by (right; now left).
    destruct (HV i j I1) as (Hi & Hj & _). destruct (HV a b I2) as (Ha & Hb2 & _).
    cbn [map fst snd] in ND, ND'. inversion ND as [|? ? N1 _]; subst. inversion ND' as [|? ? N2 _]; subst.
    rewrite (edge_trace r P h fe u c i a w0) by (auto; intros ->; apply N1; now left).
    rewrite (edge_trace r P' h' fe' u' c' j b w0) by (auto; intros ->; apply N2; now left).
    rewrite (Hdir i j a b I1 I2), (Hdir a b i j I2 I1). assert (V1 := Hval i j I1). assert (V2 := Hval a b I2). cbn [Nat.add] in V1, V2. now rewrite V1, V2.
  - assert (r = false) by (destruct Hv as [_ Q]; destruct r; auto; specialize (Q eq_refl); discriminate). subst r.
    destruct s as [|[i j] [|[a b] [|[e f] [|]]]]; try discriminate. destruct w as [|w0 [|w1 [|w2 [|]]]]; try discriminate.
    assert (w2 = 1 - w0 - w1) by (unfold total in Hw; cbn in Hw; lra). subst w2. rewrite Ez at 2. unfold z. cbn [map fst snd].
    assert (I1 : In (i, j) [(i, j); (a, b); (e, f)]) by now left. assert (I2 : In (a, b) [(i, j); (a, b); (e, f)]) by (right; now left).
    assert (I3 : In (e, f) [(i, j); (a, b); (e, f)]) by (right; right; now left).
    destruct (HV i j I1) as (Hi & Hj & _). destruct (HV a b I2) as (Ha & Hb2 & _). destruct (HV e f I3) as (He & Hf & _).
    cbn [map fst snd] in ND, ND', HFc.
    inversion ND as [|? ? N1 ND1]; subst. inversion ND1 as [|? ? N1' _]; subst. inversion ND' as [|? ? N2 ND2]; subst. inversion ND2 as [|? ? N2' _]; subst.
    assert (i <> a) by (intros ->; apply N1; now left). assert (i <> e) by (intros ->; apply N1; right; now left). assert (a <> e) by (intros ->; apply N1'; now left).
    assert (j <> b) by (intros ->; apply N2; now left). assert (j <> f) by (intros ->; apply N2; right; now left). assert (b <> f) by (intros ->; apply N2'; now left).
    assert (F : forall i a e, (i <= 3)%nat -> (a <= 3)%nat -> (e <= 3)%nat -> i <> a -> i <> e -> a <> e ->
      exists l, (i + a + e + l = 6)%nat /\ (l <= 3)%nat /\ forall v, In v (face_vertices 3 (3 - l)) <-> In v [i; a; e]).
    { clear. intros i a e Hi Ha He N1 N2 N3. exists (6 - i - a - e)%nat. four i; four a; try congruence; four e; try congruence; cbn; (split; [lia|split; [lia|]]); intros v; intuition lia. }
    destruct (F i a e) as (l & HS & Hl & Fl); auto. destruct (F j b f) as (l' & HS' & Hl' & Fl'); auto.
    rewrite (face_trace P h fe u c i a e l w0 w1) by auto. rewrite (face_trace P' h' fe' u' c' j b f l' w0 w1) by auto.
    rewrite (Hdir i j a b I1 I2), (Hdir a b i j I2 I1), (Hdir i j e f I1 I3), (Hdir e f i j I3 I1), (Hdir a b e f I2 I3), (Hdir e f a b I3 I2).
    assert (V1 := Hval i j I1). assert (V2 := Hval a b I2). assert (V3 := Hval e f I3). cbn [Nat.add] in V1, V2, V3. rewrite V1, V2, V3.
    rewrite (HFc eq_refl (3 - l) (3 - l'))%nat; auto; lia.
Qed.
(** The gradients agree at common vertices. *)
Theorem C52_gradients_agree_at_vertices d r P h fe u g c P' h' fe' u' g' c' i j :
  valid d r -> bound d P h fe -> bound d P' h' fe' -> gradient d u g -> gradient d u' g' ->
  has_coefficients d r P fe u c -> has_coefficients d r P' fe' u' c' ->
  (i <= d)%nat -> (j <= d)%nat -> nth i P [] = nth j P' [] -> nth i h 0 = nth j h' 0 ->
  (forall m, (m <= d)%nat -> nth (i * (d + 1) + m) c 0 = nth (j * (d + 1) + m) c' 0) ->
  u (nth i P []) = u' (nth i P []) /\ g (nth i P []) = g' (nth i P []).
Proof.
  intros Hv Hb Hb' Hg Hg' H H' Hi Hj EP Eh Ec.
  destruct (C52_degrees_of_freedom d r P h fe u g c Hv Hb Hg H) as [D _]. destruct (C52_degrees_of_freedom d r P' h' fe' u' g' c' Hv Hb' Hg' H') as [D' _].
  destruct (D i Hi) as [D0 D1]. destruct (D' j Hj) as [D0' D1'].
  apply bound_is in Hb. destruct Hb as ((HP & HF & _) & Hh & Hpos & ->).
  split.
  - rewrite <- D0, EP, <- D0'. specialize (Ec 0%nat ltac:(lia)). now rewrite !Nat.add_0_r in Ec.
  - assert (V := nth_vec d P i HP HF Hi). apply (nth_ext _ _ 0 0).
    + destruct (Hg _ V) as [L _]. destruct (Hg' _ V) as [L' _]. unfold is_vec in *. lia.
    + intros m Hm. destruct (Hg _ V) as [L _]. unfold is_vec in L. rewrite L in Hm. specialize (D1 m Hm). specialize (D1' m Hm).
      specialize (Ec (S m) ltac:(lia)). replace (i * (d + 1) + S m)%nat with (i * (d + 1) + 1 + m)%nat in Ec by lia. replace (j * (d + 1) + S m)%nat with (j * (d + 1) + 1 + m)%nat in Ec by lia.
      rewrite D1, D1', <- EP, <- Eh in Ec. apply Rmult_eq_reg_l in Ec; auto.
      assert (0 < nth i h 0); [|lra]. rewrite Forall_forall in Hpos. apply Hpos, nth_In. lia.
Qed.

(** * Layout *)
Lemma simplex_gt d t : dims d -> gt_dim t = d -> isSimplex t = true ->
  exists b, t = match d with 1%nat => [b] | 2%nat => [false; b] | _ => [false; false; b] end.
Proof.
  unfold gt_dim. intros [-> | [-> | ->]] HL H; repeat (destruct t as [|? t]; try discriminate); repeat match goal with b : bool |- _ => destruct b end; try discriminate; (exists true; reflexivity) || (exists false; reflexivity).
Qed.
(** On simplex grids the local keys of an element name each degree of freedom that the
    layout puts on its subentities once, so that C30_mapper_leaf applies: global indices are
    consecutive, and equal exactly for the same degree of freedom of the same entity. *)
Theorem C52_layout_matches_keys {E X} (els : E -> Prop) (g : grid E X) d r :
  valid d r -> (forall e, els e -> gt_dim (g_type g e) = d /\ isSimplex (g_type g e) = true) ->
  layout_ok (fun t => cubicHermiteMapperLayout r t d) /\
  keys_ok els g (fun t => cubicHermiteMapperLayout r t d) (fun _ => localKeys d r).
Proof.
  intros Hv Hg. split.
  - intros t t' [H L]. unfold cubicHermiteMapperLayout, isTriangle, isSimplex, gt_dim. now rewrite H, L.
  - intros e He. destruct (Hg e He) as [HD HS]. destruct (simplex_gt d (g_type g e) (valid_dims _ _ Hv) HD HS) as [b Ht].
    unfold subtype. apply keys_check_ok. rewrite Ht. clear - Hv. by_valid Hv; destruct b; vm_compute; reflexivity.
Qed.
Lemma key_vertex d r i m : valid d r -> (i <= d)%nat -> (m <= d)%nat -> nth_error (localKeys d r) (i * (d + 1) + m) = Some (i, d, m).
Proof. intros Hv Hi Hm. by_valid Hv; four i; try (exfalso; lia); four m; try (exfalso; lia); reflexivity. Qed.
Lemma key_face f : (f < 4)%nat -> nth_error (localKeys 3 false) (16 + f) = Some (f, 1%nat, 0%nat).
Proof. intros H. four f; reflexivity. Qed.
(** Elements that share a facet get the same coefficients for its degrees of freedom from a
    global coefficient vector. *)
Theorem C52_common_coefficients {E X} (g : grid E X) mp types d r e e' s (sizes : X -> R) (coefficient : nat -> R) :
  valid d r ->
  (forall i j, In (i, j) s -> (i <= d)%nat /\ (j <= d)%nat /\ g_sub g e i d = g_sub g e' j d) ->
  (d = 3%nat -> forall f f', (f < 4)%nat -> (f' < 4)%nat ->
     (forall v, In v (face_vertices 3 f) <-> In v (map fst s)) ->
     (forall v, In v (face_vertices 3 f') <-> In v (map snd s)) -> g_sub g e f 1 = g_sub g e' f' 1) ->
  let l := mapper_leaf g mp (fun t => cubicHermiteMapperLayout r t d) types (fun _ => localKeys d r) in
  let h e := map (fun i => sizes (g_sub g e i d)) (seq 0 (d + 1)) in
  let c e := map coefficient (Basis_model.lf_indices l e) in
  same_coefficients d s (h e) (c e) (h e') (c e').
Proof.
  intros Hv HV HF l h c.
  assert (C : forall e a i k n, nth_error (localKeys d r) a = Some (i, k, n) -> nth a (c e) 0 = coefficient (mp_off mp (g_sub g e i k) + n)%nat).
  { intros e0 a i k n Ha. unfold c, l. cbn [mapper_leaf Basis_model.lf_indices]. unfold subIndexRange. rewrite map_map.
    apply nth_error_nth with (d := 0). rewrite nth_error_map_eq, Ha. reflexivity. }
  split.
  - intros i j Hp. destruct (HV i j Hp) as (Hi & Hj & Es). split.
    + unfold h. rewrite !nth_map_seq by lia. now rewrite Es.
    + intros m Hm. rewrite (C e _ i d m), (C e' _ j d m) by (apply key_vertex; auto). now rewrite Es.
  - intros -> f f' Hf Hf' V V'. assert (r = false) by (destruct Hv as [_ Q]; destruct r; auto; specialize (Q eq_refl); discriminate). subst r.
    rewrite (C e _ f 1%nat 0%nat), (C e' _ f' 1%nat 0%nat) by (apply key_face; auto). now rewrite (HF eq_refl f f' Hf Hf' V V').
Qed.

(** * Examples *)
Definition ex_P : list (list R) := [[0; 0]; [2; 0]; [1; 3]].
Definition ex_P' : list (list R) := [[2; 0]; [4; 2]; [1; 3]].
Definition ex_geo (P : list (list R)) : geometry :=
  Geo (image 2 P) (fun _ => map (fun m => map (fun k => nth m (vsub (nth (S k) P []) (nth 0 P [])) 0) (seq 0 2)) (seq 0 2)).
Lemma ex_simplex : simplex 2 ex_P.
Proof.
  split; [reflexivity|]. split; [repeat constructor|]. intros g Hg H. vec_cases.
  assert (H1 := H 1%nat ltac:(lia)). assert (H2 := H 2%nat ltac:(lia)). unfold dot, total in H1, H2. cbn in H1, H2. repeat (apply cons_eq; [lra|]). reflexivity.
Qed.
Lemma ex_simplex' : simplex 2 ex_P'.
Proof.
  split; [reflexivity|]. split; [repeat constructor|]. intros g Hg H. vec_cases.
  assert (H1 := H 1%nat ltac:(lia)). assert (H2 := H 2%nat ltac:(lia)). unfold dot, total in H1, H2. cbn in H1, H2. repeat (apply cons_eq; [lra|]). reflexivity.
Qed.
Example C52_ex_bound : bound 2 ex_P [1; 2; 3] (bound_form 2 ex_P [1; 2; 3]).
Proof.
  exists (ex_geo ex_P), (fun i => i), [1; 2; 3]. split; [apply ex_simplex|]. split; [intros x _; split; reflexivity|]. split; [reflexivity|].
  split; [repeat constructor; lra|]. split; [reflexivity|]. reflexivity.
Qed.
Example C52_ex_bound' : bound 2 ex_P' [2; 1; 3] (bound_form 2 ex_P' [2; 1; 3]).
Proof.
  exists (ex_geo ex_P'), (fun i => i), [2; 1; 3]. split; [apply ex_simplex'|]. split; [intros x _; split; reflexivity|]. split; [reflexivity|].
  split; [repeat constructor; lra|]. split; [reflexivity|]. reflexivity.
Qed.
(** u(x,y) = x^2 y *)
Definition ex_u (z : list R) : R := nth 0 z 0 * nth 0 z 0 * nth 1 z 0.
Definition ex_g (z : list R) : list R := [2 * nth 0 z 0 * nth 1 z 0; nth 0 z 0 * nth 0 z 0].
Example C52_ex_polynomial : polynomial 2 3 ex_u.
Proof.
  exists [(1, [2; 1]%nat)]. split; [repeat constructor|]. intros x Hx. vec_cases. unfold ex_u, poly, total, mono. cbn. ring.
Qed.
Lemma affine_dlim a b : derivable_pt_lim (fun t => a + t * b) 0 b.
Proof.
  apply dlim_ext with (g := plus_fct (fct_cte a) (mult_real_fct b id)); [intros t; unfold plus_fct, fct_cte, mult_real_fct, id; ring|].
  replace b with (0 + b * 1) at 2 by ring. apply derivable_pt_lim_plus; [apply derivable_pt_lim_const|apply derivable_pt_lim_scal, derivable_pt_lim_id].
Qed.
Example C52_ex_gradient : gradient 2 ex_u ex_g.
Proof.
  intros z Hz. split; [reflexivity|]. intros w Hw. destruct z as [|a [|b [|]]]; try discriminate. destruct w as [|p [|q [|]]]; try discriminate. unfold ex_u, ex_g, dot, total. cbn -[Rplus Rmult].
  assert (L := affine_dlim).
  apply dlim_ext with (g := mult_fct (mult_fct (fun t => a + t * p) (fun t => a + t * p)) (fun t => b + t * q)); [reflexivity|].
  eapply eq_rect; [apply derivable_pt_lim_mult; [apply derivable_pt_lim_mult|]; apply L|]. unfold mult_fct. ring.
Qed.
Definition ex_c (P : list (list R)) (h : list R) : list R :=
  interpolate 2 false (bound_form 2 P h) (fun x => ex_u (image 2 P x)) (fun x => ex_g (image 2 P x)).
Lemma ex_valid : valid 2 false. Proof. split; auto. Qed.
Example C52_ex_coefficients : has_coefficients 2 false ex_P (bound_form 2 ex_P [1; 2; 3]) ex_u (ex_c ex_P [1; 2; 3]).
Proof. apply (C52_reproduces_polynomials 2 false ex_P [1; 2; 3]); [exact ex_valid|apply C52_ex_bound|apply C52_ex_polynomial|apply C52_ex_gradient]. Qed.
Example C52_ex_coefficients' : has_coefficients 2 false ex_P' (bound_form 2 ex_P' [2; 1; 3]) ex_u (ex_c ex_P' [2; 1; 3]).
Proof. apply (C52_reproduces_polynomials 2 false ex_P' [2; 1; 3]); [exact ex_valid|apply C52_ex_bound'|apply C52_ex_polynomial|apply C52_ex_gradient]. Qed.
Example C52_ex_nonzero : nth 6 (ex_c ex_P [1; 2; 3]) 0 = 3 /\ nth 7 (ex_c ex_P [1; 2; 3]) 0 = 18.
Proof. unfold ex_c, ex_u, ex_g, image, comb, bary, total. cbn -[Rplus Rmult Rminus]. split; ring. Qed.
Example C52_ex_common_facet : common_facet 2 ex_P ex_P' [(1, 0); (2, 2)]%nat.
Proof.
  split; [reflexivity|]. split; [repeat constructor; cbn; intuition discriminate|]. split; [repeat constructor; cbn; intuition discriminate|].
  intros i j [H|[H|[]]]; injection H as <- <-; (split; [lia|split; [lia|reflexivity]]).
Qed.
Example C52_ex_same_coefficients : same_coefficients 2 [(1, 0); (2, 2)]%nat [1; 2; 3] (ex_c ex_P [1; 2; 3]) [2; 1; 3] (ex_c ex_P' [2; 1; 3]).
Proof.
  split; [|discriminate]. intros i j [H|[H|[]]]; injection H as <- <-; (split; [reflexivity|]); intros m Hm; three m;
  unfold ex_c, ex_u, ex_g, image, comb, bary, total; cbn -[Rplus Rmult Rminus]; ring.
Qed.
(** the layout on a grid of two triangles *)
Definition ex_sub2 (e : bool) (i c : nat) : nat :=
  match c with 2%nat => nth i (if e then [1; 3; 2] else [0; 1; 2])%nat 0%nat | 1%nat => nth i (if e then [7; 6; 8] else [4; 5; 6])%nat 0%nat | _ => if e then 10%nat else 9%nat end.
Definition ex_grid2 : grid bool nat := GRID 2 (fun _ => [false; true]) ex_sub2.
Example C52_ex_layout : forall e : bool, True -> gt_dim (g_type ex_grid2 e) = 2%nat /\ isSimplex (g_type ex_grid2 e) = true.
Proof. split; reflexivity. Qed.
Example C52_ex_shared : forall i j, In (i, j) [(1, 0); (2, 2)]%nat -> (i <= 2)%nat /\ (j <= 2)%nat /\ g_sub ex_grid2 false i 2 = g_sub ex_grid2 true j 2.
Proof. intros i j [H|[H|[]]]; injection H as <- <-; (split; [lia|split; [lia|reflexivity]]). Qed.

Print Assumptions C52_degrees_of_freedom.
Print Assumptions C52_interpolation_inverse.
Print Assumptions C52_reproduces_polynomials.
Print Assumptions C52_derivatives.
Print Assumptions C52_partial_method.
Print Assumptions C52_continuous.
Print Assumptions C52_gradients_agree_at_vertices.
Print Assumptions C52_layout_matches_keys.
Print Assumptions C52_common_coefficients.
