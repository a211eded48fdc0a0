(** C81 for the Argyris basis. *)
From Coq Require Import List Arith Lia Bool Reals Lra.
From Verif Require Import Lib Basis_model Basis_spec Container_model Container_spec Interpolate_model Interpolate_props
  DiscreteFunction_model DiscreteFunction_spec Projection_spec MonomialSet_spec Nodal_spec Nodal_poly Nodal_rat Derivative_spec NodalFunctions_spec NodalFunctions_proofs.
From Verif Require Import GeometryType_model Mapper_model Mapper_spec Hermite_model Hermite_spec Orientation_model Triangle_spec Table2_proofs Triangle_grid
  Argyris_model Argyris_spec Argyris_proofs Argyris_props ArgyrisFunctions_props.
From Verif Require Import Mapper_props NodalFunctions_example Reproduction_spec Reproduction_props Reproduction_nodal Reproduction_example.
Import ListNotations.
Local Open Scope R_scope.

Lemma argyris_keys a s c i : nth_error localKeys a = Some (s, c, i) ->
  (s < 3)%nat /\ ((c = 2%nat /\ (i < 6)%nat /\ a = (6 * s + i)%nat) \/ (c = 1%nat /\ i = 0%nat /\ a = (18 + s)%nat)).
Proof.
  intros H. do 21 (destruct a as [|a]; [cbn in H; injection H as <- <- <-; split; [lia|]; (left; split; [reflexivity|split; [lia|reflexivity]]) || (right; repeat split; reflexivity)|]).
  destruct a; discriminate H.
Qed.
Lemma target_length P h o u g H : length (target P h o u g H) = 21%nat. Proof. reflexivity. Qed.

Theorem C81_argyris : forall (E X : Type) (v : view E X) (P : E -> list (list R)) (position : nat -> list R)
    (pb : prebasis E X) (geo : E -> geometry) (fe : E -> argyris) (mp : mapper X) (types : list gt)
    (b : bexpr E) (path : list nat) (su : setup E (list R)) (t : cty) (interp : E -> list nat -> list R)
    (u : list nat -> list R -> R) (g : list nat -> list R -> list R) (H : list nat -> list R -> list (list R)) c es c',
  let els := fun e => In e (fg_elements (v_f v)) in
  triangle_view v P position ->
  (* vertices have one number, and edges have two vertices *)
  (forall e e' i j, els e -> els e' -> (i < 3)%nat -> (j < 3)%nat ->
     g_sub (v_grid v) e i 2 = g_sub (v_grid v) e' j 2 -> fg_vidx (v_f v) e i = fg_vidx (v_f v) e' j) ->
  (forall e e' i j, els e -> els e' -> (i < 3)%nat -> (j < 3)%nat ->
     g_sub (v_grid v) e i 1 = g_sub (v_grid v) e' j 1 -> same_edge (v_f v) e i e' j) ->
  types_ok els (v_grid v) types -> mapper_ok els (v_grid v) layout mp ->
  (* an Argyris basis, and its finite elements *)
  construct v = Some pb -> (forall e, els e -> affine_geometry 2 (P e) (geo e) /\ node_bind pb e (geo e) = Some (fe e)) ->
  (* the leaves of the basis are this basis *)
  setup_ok b path els su -> su_cdim su = 1%nat ->
  (forall p l, leaf_at b (path ++ p) = Some l -> l = mapper_leaf (v_grid v) mp layout types (fun _ => localKeys) /\
     forall e, els e -> leaf_element su p 2 (P e) e (evaluateFunction (fe e)) (evaluateJacobian (fe e))) ->
  (* the local interpolation of the function, whose entry for leaf [p] is [u p] *)
  (forall p, gradient 2 (u p) (g p) /\ hessian 2 (g p) (H p)) ->
  (forall p e, els e -> interp e p =
     interpolate (fe e) (fun x => u p (image 2 (P e) x)) (fun x => g p (image 2 (P e) x)) (fun x => H p (image 2 (P e) x))) ->
  call_ok b els path t interp c es ->
  Interpolate_model.interpolate t (fun _ => true) interp 0 (subspace_of_root (build b) path) es c = Done c' ->
  forall e w p n, In e es -> leaf_of b path e w p n -> node_size n <> 0%nat ->
  let coefficients := contents t c' in
  (* the discrete function has the value and the derivative of the function at vertices, *)
  (forall i x y dy, (i < 3)%nat -> is_vec 2 x -> image 2 (P e) x = nth i (P e) [] ->
     is_value b path su e coefficients x y -> is_derivative b path su e coefficients x dy ->
     range_entry p y 0 = u p (nth i (P e) []) /\ forall m, (m < 2)%nat -> range_entry p dy m = nth m (g p (nth i (P e) [])) 0) /\
  (* its normal derivative at the midpoints of edges, *)
  (forall i x dy, (i < 3)%nat -> is_vec 2 x -> image 2 (P e) x = edge_midpoint (P e) i -> is_derivative b path su e coefficients x dy ->
     forall normal, normal = unit_normal (nth (fst (edge_vertices i)) (P e) []) (nth (snd (edge_vertices i)) (P e) []) ->
     dot [range_entry p dy 0; range_entry p dy 1] normal = dot (g p (edge_midpoint (P e) i)) normal) /\
  (* and is the function if this is a polynomial of degree 5 *)
  (polynomial 2 5 (u p) -> forall x y dy, is_vec 2 x -> is_value b path su e coefficients x y -> is_derivative b path su e coefficients x dy ->
     range_entry p y 0 = u p (image 2 (P e) x) /\ forall m, (m < 2)%nat -> range_entry p dy m = nth m (g p (image 2 (P e) x)) 0).
Proof.
  intros E X v P position pb geo fe mp types b path su t interp u g H c es c' els TV VX ED HT HM HC FE OKS Hcd HL HU HI CO RUN e w p n He L NZ cf.
  assert (T3 := tv_triangles _ _ _ TV).
  destruct (C54_layout_matches_keys els (v_grid v)) as (_ & LO & KO).
  { intros e0 He0. split; [|now apply (tv_type _ _ _ TV)]. rewrite <- (tv_dim _ _ _ TV). now apply (Mapper_spec.go_dim _ _ (tv_grid _ _ _ TV)). }
  (* what the finite elements know *)
  destruct (grid_binds v P position TV) as (pb' & HC' & B). rewrite HC in HC'. injection HC' as <-.
  assert (BD : forall e, els e -> exists h o, bound (P e) h o (fe e) /\
    (forall i, (i < 3)%nat -> edge_normal (P e) o i = unit_normal (low_end (v_f v) position e i) (high_end (v_f v) position e i)) /\
    (forall i, (i < 3)%nat -> nth_error (pb_averageVertexMeshSize pb) (mp_off (v_vertices v) (g_sub (v_grid v) e i 2)) = Some (nth i h 0)) /\
    forall p, interp e p = target (P e) h o (u p) (g p) (H p)).
  { intros a Ha. destruct (FE a Ha) as [F1 F2]. destruct (B a (geo a) Ha F1) as (h & o & f & B1 & B2 & B3 & B4). rewrite F2 in B1. injection B1 as <-.
    exists h, o. split; auto. split; auto. split; auto. intros q. rewrite (HI q a Ha). apply bound_is in B2. destruct B2 as (G & HS & HG & _ & _ & _ & ->). now apply interpolate_is. }
  (* common DOFs get the same coefficient *)
  assert (CS : consistent els b path interp).
  { apply (mapper_consistent els (v_grid v) layout types (fun _ => localKeys) mp b path interp); auto; [apply TV|intros q l Hl; now apply (HL q l Hl)|].
    intros q e1 e2 a a' s s' k i t1 t2 x x' H1 H2 K K' _ _ Q X1 X2.
    destruct (BD e1 H1) as (h & o & _ & N1 & M1 & I1). destruct (BD e2 H2) as (h' & o' & _ & N2 & M2 & I2). rewrite I1 in X1. rewrite I2 in X2.
    apply nth_error_nth with (d := 0) in X1, X2. subst x x'.
    apply argyris_keys in K as [Ls [(-> & Li & ->)|(-> & -> & ->)]]; apply argyris_keys in K' as [Ls' [(C2 & Li' & ->)|(C2 & C3 & ->)]]; try discriminate.
    - rewrite !target_vertex by auto. assert (Qh : nth s h 0 = nth s' h' 0) by (specialize (M1 s Ls); rewrite Q, (M2 s' Ls') in M1; congruence).
      cbv zeta. rewrite Qh. assert (Qz : nth s (P e1) [] = nth s' (P e2) []) by (rewrite !(tr_position _ _ _ T3) by auto; f_equal; now apply VX). now rewrite Qz.
    - rewrite !target_edge by auto. assert (SE := ED e1 e2 s s' H1 H2 Ls Ls' Q). rewrite N1, N2 by auto.
      rewrite !(midpoint_ends (v_f v) P position T3) by auto. now destruct (same_ends (v_f v) position e1 s e2 s' SE) as [<- <-]. }
  pose proof (call_elements _ _ _ _ _ _ _ CO e He) as Hel.
  (* the discrete function *)
  destruct (leaf_exists b path els e w p n (call_basis _ _ _ _ _ _ _ CO) Hel L NZ) as [l Hl].
  destruct (HL p l Hl) as [El LE]. specialize (LE e Hel). destruct (BD e Hel) as (h & o & BO & NO & _ & IO).
  destruct (HU p) as [Gu Hu].
  destruct (leaf_function b path els su OKS 2 5 (P e) 21 (evaluateFunction (fe e)) (evaluateJacobian (fe e)) (basis (fe e) []) (fun k => basis (fe e) [k]) cf e w p n l 0)
    as (Lc & uh & gh & Hh & G1 & G2 & U & V & D); auto.
  - right. now left.
  - now apply (tr_simplex _ _ _ T3).
  - lia.
  - intros c0 Hc0. now apply argyris_poly.
  - intros x Hx. split; [now apply eval_function|apply basis_length].
  - intros x m Hx Hm. split; [now apply eval_jacobian|]. split; [apply basis_length|]. intros a Ha. now apply basis_partial.
  - assert (EC : map (coefficient b path cf p 0) (lf_indices l e) = target (P e) h o (u p) (g p) (H p)).
    { rewrite <- IO. eapply interpolated_coefficients; eauto. rewrite IO. rewrite target_length. rewrite El. reflexivity. }
    assert (HCf : has_coefficients (P e) (fe e) uh (target (P e) h o (u p) (g p) (H p))).
    { split; [reflexivity|]. intros x Hx. exists (basis (fe e) [] x). split; [now apply eval_function|]. rewrite <- EC. now apply U. }
    destruct (C54_degrees_of_freedom (P e) h o (fe e) uh gh Hh _ BO G1 G2 HCf) as [DV DE].
    assert (HS := tr_simplex _ _ _ T3 e Hel).
    assert (D' : forall x y m, is_vec 2 x -> is_derivative b path su e cf x y -> (m < 2)%nat -> range_entry p y m = nth m (gh (image 2 (P e) x)) 0) by (intros x y m Hx HY Hm; now apply (D x y m)).
    split; [|split].
    + intros i x y dy Hi Hx Iz HV HD. rewrite (V x y Hx HV), Iz. destruct (DV i Hi) as (A0 & A1 & A2 & _). clear DV.
      assert (T := target_vertex (P e) h o (u p) (g p) (H p) i Hi). cbv zeta in T.
      assert (T0 := T 0%nat ltac:(lia)). rewrite Nat.add_0_r in T0. rewrite (T 1%nat) in A1 by lia. rewrite (T 2%nat) in A2 by lia. rewrite T0 in A0. cbn [nth] in A0, A1, A2.
      split; [congruence|].
      assert (Ps : 0 < nth i h 0) by (apply bound_is in BO; destruct BO as (G & _ & _ & Lh & Ph & _); now apply size_pos).
      intros m Hm. rewrite (D' x dy m Hx HD Hm), Iz. apply (Rmult_eq_reg_l (nth i h 0)); [|lra]. destruct m as [|[|m]]; [| |lia]; lra.
    + intros i x dy Hi Hx Iz HD normal ->. specialize (DE i Hi). rewrite target_edge in DE by auto.
      assert (Vm : is_vec 2 (edge_midpoint (P e) i)) by (destruct HS as (HP & HF & _); now apply Morley_proofs.midpoint_is_vec).
      assert (Vg := proj1 (Gu _ Vm)). assert (Vh := proj1 (G1 _ Vm)).
      rewrite (D' x dy 0%nat Hx HD), (D' x dy 1%nat Hx HD), Iz by lia.
      replace [nth 0 (gh (edge_midpoint (P e) i)) 0; nth 1 (gh (edge_midpoint (P e) i)) 0] with (gh (edge_midpoint (P e) i)).
      2: { apply Nodal_inverse.vec2 in Vh as (a0 & a1 & ->). reflexivity. }
      rewrite <- Morley_props.dot_dot2 in DE by (auto; apply Morley_props.edge_normal_vec).
      revert DE. unfold edge_normal. destruct (nth i o false); intros DE; [|symmetry; exact DE].
      assert (Q : forall a a' z, is_vec 2 a -> is_vec 2 a' -> is_vec 2 z -> dot z (unit_normal a' a) = - dot z (unit_normal a a')).
      { clear. intros a a' z Va Va' Vz. unfold unit_normal. assert (Q : distance a' a = distance a a').
        { unfold distance. f_equal. vec_cases. unfold dot, vsub, total. cbn -[Rplus Rmult Rminus]. ring. }
        rewrite Q. generalize (distance a a'). intros d. vec_cases. unfold dot, vsub, total. cbn -[Rplus Rmult Rminus Rdiv Ropp]. unfold Rdiv. ring. }
      assert (VV : forall k, (k < 3)%nat -> is_vec 2 (nth k (P e) [])) by (intros k Hk; now apply vertex_vec). assert (Lt := edge_lt i).
      set (a := nth (fst (edge_vertices i)) (P e) []) in *. set (a' := nth (snd (edge_vertices i)) (P e) []) in *.
      assert (Va : is_vec 2 a) by (apply VV; lia). assert (Va' : is_vec 2 a') by (apply VV; lia).
      rewrite (Q a a' _ Va Va' Vg), (Q a a' _ Va Va' Vh) in DE. lra.
    + intros PU x y dy Hx HV HD.
      pose proof (C54_reproduces_polynomials (P e) h o (fe e) (u p) (g p) (H p) BO PU Gu Hu) as RP. rewrite <- (HI p e Hel), IO in RP.
      destruct (same_function 2 (P e) uh gh (u p) (g p)) with (z := image 2 (P e) x) as [S1 S2]; auto.
      * right. now left.
      * intros x0 Hx0. destruct RP as [_ RP]. destruct HCf as [_ HCf]. destruct (RP x0 Hx0) as (f1 & F1 & ->). destruct (HCf x0 Hx0) as (f2 & F2 & ->). congruence.
      * destruct HS as (HP & HF & _). apply image_vec; auto. right. now left.
      * rewrite (V x y Hx HV), S1. split; auto. intros m Hm. now rewrite (D' x dy m Hx HD Hm), S2.
Qed.
Print Assumptions C81_argyris.

(** * The hypotheses are met *)

(** Interpolation on the two triangles (0,0), (2,0), (1,3) and (2,0), (4,2), (1,3); the
    discrete function can be evaluated everywhere. *)
Example C81_argyris_met : let v := ex_view in let geo := fun e => Hermite_props.ex_geo (Triangle_example.P e) in
  forall (u : list R -> R) (g : list R -> list R) (H : list R -> list (list R)), gradient 2 u g -> hessian 2 g H ->
  exists (pb : prebasis bool nat) (fe : bool -> argyris) (mp : mapper nat) (su : setup bool (list R)) (interp : bool -> list nat -> list R) (c' : cont R),
  let l := mapper_leaf (v_grid v) mp layout [[false; true]] (fun _ => localKeys) in let els := fun e => In e (fg_elements (v_f v)) in let b := BLeaf l in
  let t := TDyn TScalar in
  triangle_view v Triangle_example.P Triangle_example.position /\
  (forall e e' i j, els e -> els e' -> (i < 3)%nat -> (j < 3)%nat ->
     g_sub (v_grid v) e i 2 = g_sub (v_grid v) e' j 2 -> fg_vidx (v_f v) e i = fg_vidx (v_f v) e' j) /\
  (forall e e' i j, els e -> els e' -> (i < 3)%nat -> (j < 3)%nat ->
     g_sub (v_grid v) e i 1 = g_sub (v_grid v) e' j 1 -> same_edge (v_f v) e i e' j) /\
  types_ok els (v_grid v) [[false; true]] /\ mapper_ok els (v_grid v) layout mp /\
  construct v = Some pb /\ (forall e, els e -> affine_geometry 2 (Triangle_example.P e) (geo e) /\ node_bind pb e (geo e) = Some (fe e)) /\
  setup_ok b [] els su /\ su_cdim su = 1%nat /\
  (forall p l', leaf_at b ([] ++ p) = Some l' -> l' = l /\
     forall e, els e -> leaf_element su p 2 (Triangle_example.P e) e (evaluateFunction (fe e)) (evaluateJacobian (fe e))) /\
  (forall (p : list nat) e, els e -> interp e p =
     interpolate (fe e) (fun x => u (image 2 (Triangle_example.P e) x)) (fun x => g (image 2 (Triangle_example.P e) x)) (fun x => H (image 2 (Triangle_example.P e) x))) /\
  call_ok b els [] t interp (CBlk []) [false; true] /\
  Interpolate_model.interpolate t (fun _ => true) interp 0 (subspace_of_root (build b) []) [false; true] (CBlk []) = Done c' /\
  forall e, els e -> (exists w n, leaf_of b [] e w [] n /\ node_size n <> 0%nat) /\
    forall x, exists y dy, is_value b [] su e (contents t c') x y /\ is_derivative b [] su e (contents t c') x dy.
Proof.
  intros v geo u g H Hg HH. destruct (C54_bind v _ _ C54_ex_view) as (pb & HC & HB).
  destruct (HB false (geo false) (all2 false) (C54_ex_geometry false)) as (h & o & fe & Hfe & _ & HB').
  destruct (HB' true (geo true) (all2 true) (C54_ex_geometry true)) as (h' & o' & fe' & Hfe' & _). clear HB HB'.
  destruct (C54_layout_matches_keys els2 grid2) as (_ & LO & KO); [intros [|] _; split; reflexivity|].
  set (mp := mapper2 6 1 0).
  assert (MO : mapper_ok els2 grid2 layout mp) by (apply mapper2_ok; try split; reflexivity).
  pose proof (proj1 (C30_mapper_leaf els2 grid2 layout [[false; true]] (fun _ => localKeys) mp grid2_ok LO types2_ok MO KO)) as L2.
  set (l := mapper_leaf grid2 mp layout [[false; true]] (fun _ => localKeys)) in *.
  set (fes := fun e : bool => if e then fe' else fe).
  set (interp := fun e (p : list nat) => interpolate (fes e) (fun x => u (image 2 (Triangle_example.P e) x)) (fun x => g (image 2 (Triangle_example.P e) x)) (fun x => H (image 2 (Triangle_example.P e) x))).
  assert (LI : forall e p, length (interp e p) = 21%nat).
  { intros e p. unfold interp, interpolate. rewrite app_length, map_length, seq_length. cbn [seq map concat app length]. reflexivity. }
  assert (LD : lf_dim l <> 0%nat) by (cbn; lia).
  destruct (run2 l 21 interp L2 (fun _ => eq_refl) LD LI) as [c' RUN].
  exists pb, fes, mp, (su2 l 21 (fun e => basis (fes e) []) (fun e k => basis (fes e) [k])), interp, c'.
  cbv zeta. change (v_grid v) with grid2. fold l. change (fun e => In e (fg_elements (v_f v))) with els2.
  assert (OKS : setup_ok (BLeaf l) [] els2 (su2 l 21 (fun e => basis (fes e) []) (fun e k => basis (fes e) [k]))).
  { apply setup2_ok; auto. }
  split; [exact C54_ex_view|]. split; [intros e e' i j _ _; apply vertices2_num|]. split; [intros e e' i j _ _; apply edges2_ends|].
  split; [exact types2_ok|]. split; [exact MO|]. split; [exact HC|].
  split; [intros [|] _; (split; [apply C54_ex_geometry|assumption])|]. split; [exact OKS|]. split; [reflexivity|].
  split. { intros p l' Hl. destruct p as [|i p]; cbn in Hl; [|discriminate]. injection Hl as <-. split; auto.
    intros e _. apply element2_ok; try (intros; apply basis_length); [intros x Hx; now apply eval_function|intros x k Hx Hk; now apply eval_jacobian]. }
  split; [intros p e _; reflexivity|]. split; [apply (call2_ok l 21 interp L2 (fun _ => eq_refl) LD LI)|]. split; [exact RUN|].
  intros e He. split.
  - destruct (leaf2_ex l 21 L2 (fun _ => eq_refl) e) as (w & n & H1 & H2). exists w, n. split; auto. now rewrite H2.
  - intros x. apply (values_exist (BLeaf l) [] els2); auto. now apply (contents2_ok l 21 interp L2 (fun _ => eq_refl) LD LI).
Qed.
