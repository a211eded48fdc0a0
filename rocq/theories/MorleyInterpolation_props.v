(** C81 for the Morley basis. *)
From Coq Require Import List Arith Lia Bool Reals Lra.
From Verif Require Import Lib Basis_model Basis_spec Container_model Container_spec Interpolate_model Interpolate_props
  DiscreteFunction_model DiscreteFunction_spec Projection_spec MonomialSet_spec Nodal_spec Nodal_poly Nodal_rat Derivative_spec NodalFunctions_spec NodalFunctions_proofs.
From Verif Require Import GeometryType_model Mapper_model Mapper_spec Hermite_model Hermite_spec Orientation_model Triangle_spec Table2_model Table2_proofs Triangle_grid
  Morley_model Morley_spec Morley_proofs Morley_props MorleyFunctions_props.
From Verif Require Import Mapper_props NodalFunctions_example Reproduction_spec Reproduction_props Reproduction_nodal Reproduction_example.
Import ListNotations.
Local Open Scope R_scope.

Lemma morley_keys a s c i : nth_error localKeys a = Some (s, c, i) ->
  (s < 3)%nat /\ i = 0%nat /\ ((c = 2%nat /\ a = s) \/ (c = 1%nat /\ a = (3 + s)%nat)).
Proof.
  intros H. do 6 (destruct a as [|a]; [cbn in H; injection H as <- <- <-; split; [lia|]; split; [reflexivity|]; (left; split; reflexivity) || (right; split; reflexivity)|]).
  destruct a; discriminate H.
Qed.

Theorem C81_morley : forall (E X : Type) (fg : fgrid E) (gr : grid E X) (P : E -> list (list R)) (position : nat -> list R)
    (pb : prebasis E) (geo : E -> geometry) (fe0 fe : E -> morley) (mp : mapper X) (types : list gt)
    (b : bexpr E) (path : list nat) (su : setup E (list R)) (t : cty) (interp : E -> list nat -> list R)
    (u : list nat -> list R -> R) (g : list nat -> list R -> list R) c es c',
  let els := fun e => In e (fg_elements fg) in
  triangles fg P position -> grid_ok els gr ->
  (forall e, els e -> gt_dim (g_type gr e) = 2%nat /\ isSimplex (g_type gr e) = true) ->
  (* vertices have one number, and edges have two vertices *)
  (forall e e' i j, els e -> els e' -> (i < 3)%nat -> (j < 3)%nat -> g_sub gr e i 2 = g_sub gr e' j 2 -> fg_vidx fg e i = fg_vidx fg e' j) ->
  (forall e e' i j, els e -> els e' -> (i < 3)%nat -> (j < 3)%nat -> g_sub gr e i 1 = g_sub gr e' j 1 -> same_edge fg e i e' j) ->
  types_ok els gr types -> mapper_ok els gr layout mp ->
  (* a Morley basis, and its finite elements, which may have been bound before *)
  construct fg = Some pb ->
  (forall e, els e -> affine_geometry 2 (P e) (geo e) /\ reachable (fe0 e) /\ node_bind pb (fe0 e) e (geo e) = Some (fe e)) ->
  (* the leaves of the basis are this basis *)
  setup_ok b path els su -> su_cdim su = 1%nat ->
  (forall p l, leaf_at b (path ++ p) = Some l -> l = mapper_leaf gr mp layout types (fun _ => localKeys) /\
     forall e, els e -> leaf_element su p 2 (P e) e (evaluateFunction (fe e)) (evaluateJacobian (fe e))) ->
  (* the local interpolation of the function, whose entry for leaf [p] is [u p] *)
  (forall p, gradient 2 (u p) (g p)) ->
  (forall p e, els e -> interp e p = interpolate (fe e) (fun x => u p (image 2 (P e) x)) (fun x => g p (image 2 (P e) x))) ->
  call_ok b els path t interp c es ->
  Interpolate_model.interpolate t (fun _ => true) interp 0 (subspace_of_root (build b) path) es c = Done c' ->
  forall e w p n, In e es -> leaf_of b path e w p n -> node_size n <> 0%nat ->
  let coefficients := contents t c' in
  (* the discrete function has the value of the function at vertices, *)
  (forall i x y, (i < 3)%nat -> is_vec 2 x -> image 2 (P e) x = nth i (P e) [] ->
     is_value b path su e coefficients x y -> range_entry p y 0 = u p (nth i (P e) [])) /\
  (* its normal derivative at the midpoints of edges, *)
  (forall i x dy, (i < 3)%nat -> is_vec 2 x -> image 2 (P e) x = edge_midpoint (P e) i -> is_derivative b path su e coefficients x dy ->
     forall normal, normal = unit_normal (nth (fst (edge_vertices i)) (P e) []) (nth (snd (edge_vertices i)) (P e) []) ->
     dot [range_entry p dy 0; range_entry p dy 1] normal = dot (g p (edge_midpoint (P e) i)) normal) /\
  (* and is the function if this is a quadratic polynomial *)
  (polynomial 2 2 (u p) -> forall x y dy, is_vec 2 x -> is_value b path su e coefficients x y -> is_derivative b path su e coefficients x dy ->
     range_entry p y 0 = u p (image 2 (P e) x) /\ forall m, (m < 2)%nat -> range_entry p dy m = nth m (g p (image 2 (P e) x)) 0).
Proof.
  intros E X fg gr P position pb geo fe0 fe mp types b path su t interp u g c es c' els T3 HG HTy VX ED HT HM HC FE OKS Hcd HL HU HI CO RUN e w p n He L NZ cf.
  destruct (C53_layout_matches_keys els gr HTy) as (_ & LO & KO).
  destruct (orientation_normals fg P position T3) as (os & HO & HN). pose proof HC as HC'. unfold construct in HC'. rewrite HO in HC'. injection HC' as <-.
  assert (BD : forall e, els e -> exists o, bound (P e) o (fe e) /\
    (forall i, (i < 3)%nat -> edge_normal (P e) o i = unit_normal (low_end fg position e i) (high_end fg position e i)) /\
    forall p, interp e p = target (P e) o (u p) (g p)).
  { intros a Ha. destruct (FE a Ha) as (F1 & F2 & F3). destruct (HN a Ha) as (o & Ho & Lo & No). exists o.
    assert (B2 : bound (P a) o (fe a)).
    { unfold node_bind in F3. cbn [pb_data pb_mapper] in F3. rewrite Ho in F3. cbn [obind] in F3.
      exists (fe0 a), (geo a). split; [exact F2|]. split; [exact (tr_simplex fg P position T3 a Ha)|]. split; [exact F1|]. split; [exact Lo|]. exact F3. }
    split; auto. split; auto. intros q. rewrite (HI q a Ha). apply bound_is in B2. destruct B2 as (G & HS & HGe & _ & ->). now apply interpolate_is. }
  assert (CS : consistent els b path interp).
  { apply (mapper_consistent els gr layout types (fun _ => localKeys) mp b path interp); auto; [intros q l Hl; now apply (HL q l Hl)|].
    intros q e1 e2 a a' s s' k i t1 t2 x x' H1 H2 K K' _ _ Q X1 X2.
    destruct (BD e1 H1) as (o & _ & N1 & I1). destruct (BD e2 H2) as (o' & _ & N2 & I2). rewrite I1 in X1. rewrite I2 in X2.
    apply nth_error_nth with (d := 0) in X1, X2. subst x x'. destruct (nth_target (P e1) o (u q) (g q)) as [A1 A2]. destruct (nth_target (P e2) o' (u q) (g q)) as [B1 B2].
    apply morley_keys in K as (Ls & -> & [(-> & ->)|(-> & ->)]); apply morley_keys in K' as (Ls' & _ & [(C2 & ->)|(C2 & ->)]); try discriminate.
    - rewrite A1, B1 by auto. f_equal. rewrite !(tr_position _ _ _ T3) by auto. f_equal. now apply VX.
    - rewrite A2, B2 by auto. assert (SE := ED e1 e2 s s' H1 H2 Ls Ls' Q). rewrite N1, N2 by auto.
      rewrite !(midpoint_ends fg P position T3) by auto. now destruct (same_ends fg position e1 s e2 s' SE) as [<- <-]. }
  pose proof (call_elements _ _ _ _ _ _ _ CO e He) as Hel.
  destruct (leaf_exists b path els e w p n (call_basis _ _ _ _ _ _ _ CO) Hel L NZ) as [l Hl].
  destruct (HL p l Hl) as [El LE]. specialize (LE e Hel). destruct (BD e Hel) as (o & BO & NO & IO). pose proof (HU p) as Gu.
  pose proof BO as BO'. apply bound_is in BO' as (G & HS & HGe & Ho & Q).
  destruct (leaf_function b path els su OKS 2 2 (P e) 6 (evaluateFunction (fe e)) (evaluateJacobian (fe e))
      (elem 2 coefficients (matrix G o) []) (fun k => elem 2 coefficients (matrix G o) [k]) cf e w p n l 0)
      as (Lc & uh & gh & Hh & G1 & G2 & U & V & D); auto.
  - right. now left.
  - lia.
  - intros c0 Hc0. now apply morley_poly.
  - intros x Hx. rewrite Q. split; [now apply eval_function|apply elem_length].
  - intros x m Hx Hm. rewrite Q. split; [now apply eval_jacobian|]. split; [apply elem_length|]. intros a Ha. apply elem_partial; auto. now left.
  - assert (EC : map (coefficient b path cf p 0) (lf_indices l e) = target (P e) o (u p) (g p)).
    { rewrite <- IO. eapply interpolated_coefficients; eauto. rewrite IO, El. reflexivity. }
    assert (HCf : has_coefficients (P e) (fe e) uh (target (P e) o (u p) (g p))).
    { split; [reflexivity|]. intros x Hx. eexists. rewrite Q. split; [now apply eval_function|]. rewrite <- EC. now apply U. }
    destruct (C53_degrees_of_freedom (P e) o (fe e) uh gh _ BO G1 HCf) as [DV DE].
    destruct (nth_target (P e) o (u p) (g p)) as [TV TE].
    assert (D' : forall x y m, is_vec 2 x -> is_derivative b path su e cf x y -> (m < 2)%nat -> range_entry p y m = nth m (gh (image 2 (P e) x)) 0) by (intros x y m Hx HY Hm; now apply (D x y m)).
    split; [|split].
    + intros i x y Hi Hx Iz HV. rewrite (V x y Hx HV), Iz. rewrite <- (DV i Hi). now apply TV.
    + intros i x dy Hi Hx Iz HD normal ->. specialize (DE i Hi). rewrite TE in DE by auto.
      assert (Vm : is_vec 2 (edge_midpoint (P e) i)) by (destruct HS as (HP & HF & _); now apply midpoint_is_vec).
      assert (Vg := proj1 (Gu _ Vm)). assert (Vh := proj1 (G1 _ Vm)).
      rewrite (D' x dy 0%nat Hx HD), (D' x dy 1%nat Hx HD), Iz by lia.
      replace [nth 0 (gh (edge_midpoint (P e) i)) 0; nth 1 (gh (edge_midpoint (P e) i)) 0] with (gh (edge_midpoint (P e) i)).
      2: { apply Nodal_inverse.vec2 in Vh as (a0 & a1 & ->). reflexivity. }
      rewrite <- dot_dot2 in DE by (auto; apply edge_normal_vec).
      revert DE. unfold edge_normal. destruct (nth i o false); intros DE; [|symmetry; exact DE].
      assert (QN : forall a a' z, is_vec 2 a -> is_vec 2 a' -> is_vec 2 z -> dot z (unit_normal a' a) = - dot z (unit_normal a a')).
      { clear. intros a a' z Va Va' Vz. unfold unit_normal. assert (Q : distance a' a = distance a a').
        { unfold distance. f_equal. vec_cases. unfold dot, vsub, total. cbn -[Rplus Rmult Rminus]. ring. }
        rewrite Q. generalize (distance a a'). intros d. vec_cases. unfold dot, vsub, total. cbn -[Rplus Rmult Rminus Rdiv Ropp]. unfold Rdiv. ring. }
      assert (VV : forall k, (k < 3)%nat -> is_vec 2 (nth k (P e) [])).
      { intros k Hk. destruct HS as (HP & HF & _). rewrite Forall_forall in HF. apply HF, nth_In. lia. }
      assert (Lt : (fst (edge_vertices i) < 3)%nat /\ (snd (edge_vertices i) < 3)%nat) by (destruct i as [|[|[|]]]; cbn; lia).
      set (a := nth (fst (edge_vertices i)) (P e) []) in *. set (a' := nth (snd (edge_vertices i)) (P e) []) in *.
      assert (Va : is_vec 2 a) by (apply VV; lia). assert (Va' : is_vec 2 a') by (apply VV; lia).
      rewrite (QN a a' _ Va Va' Vg), (QN a a' _ Va Va' Vh) in DE. lra.
    + intros PU x y dy Hx HV HD.
      pose proof (C53_reproduces_polynomials (P e) o (fe e) (u p) (g p) BO PU Gu) as RP. rewrite <- (HI p e Hel), IO in RP.
      destruct (same_function 2 (P e) uh gh (u p) (g p)) with (z := image 2 (P e) x) as [S1 S2]; auto.
      * right. now left.
      * intros x0 Hx0. destruct RP as [_ RP]. destruct HCf as [_ HCf]. destruct (RP x0 Hx0) as (f1 & F1 & ->). destruct (HCf x0 Hx0) as (f2 & F2 & ->). congruence.
      * destruct HS as (HP & HF & _). apply image_vec; auto. right. now left.
      * rewrite (V x y Hx HV), S1. split; auto. intros m Hm. now rewrite (D' x dy m Hx HD Hm), S2.
Qed.
Print Assumptions C81_morley.

(** * The hypotheses are met *)

(** Interpolation on the two triangles (0,0), (2,0), (1,3) and (2,0), (4,2), (1,3); the
    discrete function can be evaluated everywhere. *)
Example C81_morley_met : let fg := Triangle_example.two in let geo := fun e => Hermite_props.ex_geo (Triangle_example.P e) in
  forall (u : list R -> R) (g : list R -> list R), gradient 2 u g ->
  exists (pb : prebasis bool) (fe0 fe : bool -> morley) (mp : mapper nat) (su : setup bool (list R)) (interp : bool -> list nat -> list R) (c' : cont R),
  let l := mapper_leaf grid2 mp layout [[false; true]] (fun _ => localKeys) in let els := fun e => In e (fg_elements fg) in let b := BLeaf l in
  let t := TDyn TScalar in
  triangles fg Triangle_example.P Triangle_example.position /\ grid_ok els grid2 /\
  (forall e, els e -> gt_dim (g_type grid2 e) = 2%nat /\ isSimplex (g_type grid2 e) = true) /\
  (forall e e' i j, els e -> els e' -> (i < 3)%nat -> (j < 3)%nat -> g_sub grid2 e i 2 = g_sub grid2 e' j 2 -> fg_vidx fg e i = fg_vidx fg e' j) /\
  (forall e e' i j, els e -> els e' -> (i < 3)%nat -> (j < 3)%nat -> g_sub grid2 e i 1 = g_sub grid2 e' j 1 -> same_edge fg e i e' j) /\
  types_ok els grid2 [[false; true]] /\ mapper_ok els grid2 layout mp /\
  construct fg = Some pb /\
  (forall e, els e -> affine_geometry 2 (Triangle_example.P e) (geo e) /\ reachable (fe0 e) /\ node_bind pb (fe0 e) e (geo e) = Some (fe e)) /\
  setup_ok b [] els su /\ su_cdim su = 1%nat /\
  (forall p l', leaf_at b ([] ++ p) = Some l' -> l' = l /\
     forall e, els e -> leaf_element su p 2 (Triangle_example.P e) e (evaluateFunction (fe e)) (evaluateJacobian (fe e))) /\
  (forall (p : list nat) e, els e -> interp e p =
     interpolate (fe e) (fun x => u (image 2 (Triangle_example.P e) x)) (fun x => g (image 2 (Triangle_example.P e) x))) /\
  call_ok b els [] t interp (CBlk []) [false; true] /\
  Interpolate_model.interpolate t (fun _ => true) interp 0 (subspace_of_root (build b) []) [false; true] (CBlk []) = Done c' /\
  forall e, els e -> (exists w n, leaf_of b [] e w [] n /\ node_size n <> 0%nat) /\
    forall x, exists y dy, is_value b [] su e (contents t c') x y /\ is_derivative b [] su e (contents t c') x dy.
Proof.
  intros fg geo u g Hg. destruct (C53_common_normals fg _ _ Triangle_example.two_ok) as (pb & HC & HB).
  assert (GE : forall e, affine_geometry 2 (Triangle_example.P e) (geo e)) by (intros e x _; split; reflexivity).
  destruct (HB false (geo false) default (all2 false) (GE false) r_default) as (o & fe & Hfe & Bf & HB').
  destruct (HB' true (geo true) default (all2 true) (GE true) r_default) as (o' & fe' & Hfe' & Bf' & _). clear HB HB'.
  apply bound_is in Bf as (G & _ & _ & _ & Q). apply bound_is in Bf' as (G' & _ & _ & _ & Q').
  assert (TY : forall e : bool, els2 e -> gt_dim (g_type grid2 e) = 2%nat /\ isSimplex (g_type grid2 e) = true) by (intros [|] _; split; reflexivity).
  destruct (C53_layout_matches_keys els2 grid2 TY) as (_ & LO & KO).
  set (mp := mapper2 1 1 0).
  assert (MO : mapper_ok els2 grid2 layout mp) by (apply mapper2_ok; try split; reflexivity).
  pose proof (proj1 (C30_mapper_leaf els2 grid2 layout [[false; true]] (fun _ => localKeys) mp grid2_ok LO types2_ok MO KO)) as L2.
  set (l := mapper_leaf grid2 mp layout [[false; true]] (fun _ => localKeys)) in *.
  set (fes := fun e : bool => if e then fe' else fe).
  set (mats := fun e : bool => if e then matrix G' o' else matrix G o).
  set (su := su2 l 6 (fun e => elem 2 coefficients (mats e) []) (fun e k => elem 2 coefficients (mats e) [k])).
  set (interp := fun e (p : list nat) => interpolate (fes e) (fun x => u (image 2 (Triangle_example.P e) x)) (fun x => g (image 2 (Triangle_example.P e) x))).
  assert (LI : forall e p, length (interp e p) = 6%nat).
  { intros e p. unfold interp, interpolate. rewrite app_length, !map_length, !seq_length. reflexivity. }
  assert (LD : lf_dim l <> 0%nat) by (cbn; lia).
  destruct (run2 l 6 interp L2 (fun _ => eq_refl) LD LI) as [c' RUN].
  exists pb, (fun _ => default), fes, mp, su, interp, c'.
  cbv zeta. fold l. change (fun e => In e (fg_elements fg)) with els2.
  assert (LE : forall e ks x, length (elem 2 coefficients (mats e) ks x) = 6%nat) by (intros e ks x; unfold mats; destruct e; apply elem_length).
  assert (OKS : setup_ok (BLeaf l) [] els2 su) by (apply setup2_ok; auto).
  split; [exact Triangle_example.two_ok|]. split; [exact grid2_ok|]. split; [exact TY|].
  split; [intros e e' i j _ _; apply vertices2_num|]. split; [intros e e' i j _ _; apply edges2_ends|].
  split; [exact types2_ok|]. split; [exact MO|]. split; [exact HC|].
  split; [intros [|] _; (split; [apply GE|split; [constructor|assumption]])|]. split; [exact OKS|]. split; [reflexivity|].
  split. { intros p l' Hl. destruct p as [|i p]; cbn in Hl; [|discriminate]. injection Hl as <-. split; auto.
    intros e _. apply element2_ok; try (intros; apply LE); unfold fes, mats.
    - intros x Hx. destruct e; [rewrite Q'|rewrite Q]; now apply eval_function.
    - intros x k Hx Hk. destruct e; [rewrite Q'|rewrite Q]; now apply eval_jacobian. }
  split; [intros p e _; reflexivity|]. split; [apply (call2_ok l 6 interp L2 (fun _ => eq_refl) LD LI)|]. split; [exact RUN|].
  intros e He. split.
  - destruct (leaf2_ex l 6 L2 (fun _ => eq_refl) e) as (w & n & H1 & H2). exists w, n. split; auto. now rewrite H2.
  - intros x. apply (values_exist (BLeaf l) [] els2); auto. now apply (contents2_ok l 6 interp L2 (fun _ => eq_refl) LD LI).
Qed.
