(** C81 for the cubic Hermite basis. *)
From Coq Require Import List Arith Lia Bool Reals Lra Permutation.
From Verif Require Import Lib Basis_model Basis_spec Container_model Container_spec Interpolate_model Interpolate_props
  DiscreteFunction_model DiscreteFunction_spec Projection_spec MonomialSet_spec Nodal_spec Nodal_poly Nodal_rat Derivative_spec NodalFunctions_spec NodalFunctions_proofs.
From Verif Require Import GeometryType_model Mapper_model Mapper_spec MeshSize_model MeshSize_props Hermite_model Hermite_spec Hermite_proofs Hermite_trace Hermite_props.
From Verif Require Import HermiteBasis_model HermiteBasis_spec HermiteFunctions_props.
From Verif Require Import Mapper_props NodalFunctions_example Reproduction_spec Reproduction_props Reproduction_nodal Reproduction_example.
From Verif Require Argyris_props Triangle_example.
Import ListNotations.
Local Open Scope R_scope.

Lemma hermite_keys d r a s c i : valid d r -> nth_error (localKeys d r) a = Some (s, c, i) ->
  ((s <= d)%nat /\ c = d /\ (i <= d)%nat /\ a = (s * (d + 1) + i)%nat) \/
  ((d = 2 \/ d = 3)%nat /\ r = false /\ (s < (d - 1) * (d - 1))%nat /\ c = (d - 2)%nat /\ i = 0%nat /\ a = ((d + 1) * (d + 1) + s)%nat).
Proof.
  intros Hv H. by_valid Hv.
  - do 4 (destruct a as [|a]; [injection H as <- <- <-; left; cbn; lia|]). destruct a; discriminate H.
  - do 9 (destruct a as [|a]; [injection H as <- <- <-; left; cbn; lia|]). destruct a as [|a]; [injection H as <- <- <-; right; cbn; lia|]. destruct a; discriminate H.
  - do 9 (destruct a as [|a]; [injection H as <- <- <-; left; cbn; lia|]). destruct a; discriminate H.
  - do 16 (destruct a as [|a]; [injection H as <- <- <-; left; cbn; lia|]). do 4 (destruct a as [|a]; [injection H as <- <- <-; right; cbn; lia|]). destruct a; discriminate H.
Qed.
Lemma vadd_swap a b c : vadd a (vadd b c) = vadd b (vadd a c).
Proof.
  unfold vadd. revert b c. induction a as [|x a IH]; intros [|y b] [|z c]; cbn; try reflexivity; try (destruct b; reflexivity).
  rewrite IH. f_equal. ring.
Qed.
Lemma barycentre_perm d l l' : Permutation l l' -> barycentre d l = barycentre d l'.
Proof.
  intros H. unfold barycentre. rewrite (Permutation_length H). f_equal. clear - H. induction H; cbn; auto; [now rewrite IHPermutation|apply vadd_swap|congruence].
Qed.
Section Faces.
Context {E X : Type} (v : view E X) (d : nat) (P : E -> list (list R)) (T : simplex_view v d P) (Hd : dims d).
Lemma vertices_differ e i j : In e (v_elements v) -> (i <= d)%nat -> (j <= d)%nat -> nth i (P e) [] = nth j (P e) [] -> i = j.
Proof.
  intros He Hi Hj Q. apply (sv_vertices v d P T e e i j He He Hi Hj) in Q.
  now apply (go_inj _ _ (sv_grid v d P T) e i d [] j d [] He) in Q; [|now apply (vertex_subtype v d P T Hd)..].
Qed.
Lemma face_nodup e f : In e (v_elements v) -> NoDup (map (fun a => nth a (P e) []) (face_vertices d f)).
Proof.
  intros He. pose proof (fun i j => vertices_differ e i j He) as D. destruct Hd as [-> | [-> | ->]].
  - constructor.
  - destruct f; cbn [face_vertices map]; repeat constructor; cbn [In]; intros Q; repeat destruct Q as [Q|Q]; try contradiction; apply D in Q; lia.
  - destruct f as [|[|[|[|f]]]]; cbn [face_vertices map]; repeat constructor; cbn [In]; intros Q; repeat destruct Q as [Q|Q]; try contradiction; apply D in Q; lia.
Qed.
Lemma face_length f f' : (f < (d - 1) * (d - 1))%nat -> (f' < (d - 1) * (d - 1))%nat -> length (face_vertices d f) = length (face_vertices d f').
Proof.
  intros Hf Hf'. destruct Hd as [-> | [-> | ->]]; cbn in Hf, Hf'; [lia|destruct f, f'; try lia; reflexivity|].
  destruct f as [|[|[|[|f]]]]; [..|lia]; (destruct f' as [|[|[|[|f']]]]; [..|lia]); reflexivity.
Qed.
Lemma same_barycentre e e' f f' : In e (v_elements v) -> (f < (d - 1) * (d - 1))%nat -> (f' < (d - 1) * (d - 1))%nat ->
  (forall z, In z (map (fun a => nth a (P e) []) (face_vertices d f)) -> In z (map (fun a => nth a (P e') []) (face_vertices d f'))) ->
  barycentre d (map (fun a => nth a (P e) []) (face_vertices d f)) = barycentre d (map (fun a => nth a (P e') []) (face_vertices d f')).
Proof.
  intros He Hf Hf' Q. apply barycentre_perm, NoDup_Permutation_bis; [now apply face_nodup|rewrite !map_length, (face_length f f'); auto|exact Q].
Qed.
End Faces.

Theorem C81_hermite : forall (E X : Type) (v : view E X) (d : nat) (reduced : bool) (P : E -> list (list R))
    (pb : prebasis E X) (geo : E -> geometry) (fe : E -> hermite) (mp : mapper X) (types : list gt)
    (b : bexpr E) (path : list nat) (su : setup E (list R)) (t : cty) (interp : E -> list nat -> list R)
    (u : list nat -> list R -> R) (g : list nat -> list R -> list R) c es c',
  let els := fun e => In e (v_elements v) in
  let layout := fun t => cubicHermiteMapperLayout reduced t d in
  valid d reduced -> simplex_view v d P ->
  (* triangles (the elements, or the faces of tetrahedra) have their vertices *)
  (forall e e' f f', els e -> els e' -> (f < (d - 1) * (d - 1))%nat -> (f' < (d - 1) * (d - 1))%nat -> g_sub (v_grid v) e f (d - 2) = g_sub (v_grid v) e' f' (d - 2) ->
     forall z, In z (map (fun a => nth a (P e) []) (face_vertices d f)) -> In z (map (fun a => nth a (P e') []) (face_vertices d f'))) ->
  types_ok els (v_grid v) types -> mapper_ok els (v_grid v) layout mp ->
  (* a cubic Hermite basis, and its finite elements *)
  construct v = Some pb -> (forall e, els e -> affine_geometry d (P e) (geo e) /\ node_bind pb e (geo e) = Some (fe e)) ->
  (* the leaves of the basis are this basis *)
  setup_ok b path els su -> su_cdim su = 1%nat ->
  (forall p l, leaf_at b (path ++ p) = Some l -> l = mapper_leaf (v_grid v) mp layout types (fun _ => localKeys d reduced) /\
     forall e, els e -> leaf_element su p d (P e) e (evaluateFunction d reduced (fe e)) (evaluateJacobian d reduced (fe e))) ->
  (* the local interpolation of the function, whose entry for leaf [p] is [u p] *)
  (forall p, gradient d (u p) (g p)) ->
  (forall p e, els e -> interp e p = interpolate d reduced (fe e) (fun x => u p (image d (P e) x)) (fun x => g p (image d (P e) x))) ->
  call_ok b els path t interp c es ->
  Interpolate_model.interpolate t (fun _ => true) interp 0 (subspace_of_root (build b) path) es c = Done c' ->
  forall e w p n, In e es -> leaf_of b path e w p n -> node_size n <> 0%nat ->
  let coefficients := contents t c' in
  (* the discrete function has the value and the gradient of the function at vertices, *)
  (forall i x y dy, (i <= d)%nat -> is_vec d x -> image d (P e) x = nth i (P e) [] ->
     is_value b path su e coefficients x y -> is_derivative b path su e coefficients x dy ->
     range_entry p y 0 = u p (nth i (P e) []) /\ forall m, (m < d)%nat -> range_entry p dy m = nth m (g p (nth i (P e) [])) 0) /\
  (* its value at the barycentres of triangles, *)
  (reduced = false -> forall f x y, (f < (d - 1) * (d - 1))%nat -> is_vec d x ->
     image d (P e) x = barycentre d (map (fun a => nth a (P e) []) (face_vertices d f)) ->
     is_value b path su e coefficients x y -> range_entry p y 0 = u p (barycentre d (map (fun a => nth a (P e) []) (face_vertices d f)))) /\
  (* and is the function if this is a cubic polynomial (quadratic for the reduced element) *)
  (polynomial d (full_degree reduced) (u p) -> forall x y dy, is_vec d x -> is_value b path su e coefficients x y -> is_derivative b path su e coefficients x dy ->
     range_entry p y 0 = u p (image d (P e) x) /\ forall m, (m < d)%nat -> range_entry p dy m = nth m (g p (image d (P e) x)) 0).
Proof.
  intros E X v d r P pb geo fe mp types b path su t interp u g c es c' els lay Hv TV FV HT HM HC FE OKS Hcd HL HU HI CO RUN e w p n He L NZ cf.
  assert (Hd := valid_dims _ _ Hv).
  assert (HTy : forall e, els e -> gt_dim (g_type (v_grid v) e) = d /\ isSimplex (g_type (v_grid v) e) = true).
  { intros a Ha. split; [|now apply (sv_type v d P TV)]. rewrite (Mapper_spec.go_dim _ _ (sv_grid v d P TV) a Ha). apply (sv_dim v d P TV). }
  destruct (C52_layout_matches_keys els (v_grid v) d r Hv HTy) as (LO & KO).
  set (h := fun e => map (fun i => mesh_sizes pb (g_sub (v_grid v) e i d)) (seq 0 (d + 1))).
  assert (BD : forall e, els e -> bound d (P e) (h e) (fe e)).
  { intros a Ha. destruct (FE a Ha) as (A1 & A2). destruct (binds v d P TV Hd) as (pb' & C1 & _ & C2).
    rewrite HC in C1. injection C1 as <-. destruct (C2 a (geo a) Ha A1) as (f & F1 & F2). rewrite A2 in F1. injection F1 as <-. exact F2. }
  assert (ND : forall e p, els e -> (forall i, (i <= d)%nat -> nth (i * (d + 1)) (interp e p) 0 = u p (nth i (P e) []) /\
      forall m, (m < d)%nat -> nth (i * (d + 1) + 1 + m) (interp e p) 0 = nth m (g p (nth i (P e) [])) 0 * mesh_sizes pb (g_sub (v_grid v) e i d)) /\
      forall f, (d = 2 \/ d = 3)%nat -> r = false -> (f < (d - 1) * (d - 1))%nat -> nth ((d + 1) * (d + 1) + f) (interp e p) 0 = u p (barycentre d (map (fun a => nth a (P e) []) (face_vertices d f)))).
  { intros a q Ha. rewrite (HI q a Ha). pose proof (BD a Ha) as Bo. apply bound_is in Bo as (HS & Hh & _ & Q). pose proof HS as (HP & HF & _). split.
    - intros i Hi. split; [rewrite interpolate_value, image_vertex by auto; reflexivity|].
      intros m Hm. rewrite interpolate_slot, image_vertex by auto. f_equal. rewrite Q. cbn [averageVertexMeshSize bound_form]. unfold h. now rewrite nth_map_seq by lia.
    - intros f D -> Hf. rewrite interpolate_inner; auto; [now rewrite image_inner|]. clear - D Hf. destruct D as [-> | ->]; cbn in *; lia. }
  assert (CS : consistent els b path interp).
  { apply (mapper_consistent els (v_grid v) lay types (fun _ => localKeys d r) mp b path interp); auto; [apply TV|intros q l Hl; now apply (HL q l Hl)|].
    intros q e1 e2 a a' s s' k i t1 t2 x x' H1 H2 K K' _ _ Q X1 X2.
    apply nth_error_nth with (d := 0) in X1, X2. subst x x'. destruct (ND e1 q H1) as [A1 A2]. destruct (ND e2 q H2) as [B1 B2].
    apply (hermite_keys d r _ _ _ _ Hv) in K. apply (hermite_keys d r _ _ _ _ Hv) in K'.
    destruct K as [(Ls & -> & Li & ->)|(D & Er & Ls & -> & -> & ->)]; destruct K' as [(Ls' & Ck & _ & ->)|(D' & _ & Ls' & Ck & C0 & ->)]; try (exfalso; clear - D Ck Hd; lia); try (exfalso; clear - D' Ck Hd; lia).
    - pose proof (proj1 (sv_vertices v d P TV e1 e2 s s' H1 H2 Ls Ls') Q) as Qp. destruct (A1 s Ls) as [A3 A4]. destruct (B1 s' Ls') as [B3 B4].
      destruct i as [|m]; [rewrite !Nat.add_0_r, A3, B3; now f_equal|].
      replace (s * (d + 1) + S m)%nat with (s * (d + 1) + 1 + m)%nat by lia. replace (s' * (d + 1) + S m)%nat with (s' * (d + 1) + 1 + m)%nat by lia.
      rewrite A4, B4 by lia. now rewrite Qp, Q.
    - rewrite A2, B2 by auto. f_equal. apply (same_barycentre v d P TV Hd e1 e2 s s' H1 Ls Ls'). now apply FV. }
  pose proof (call_elements _ _ _ _ _ _ _ CO e He) as Hel.
  destruct (leaf_exists b path els e w p n (call_basis _ _ _ _ _ _ _ CO) Hel L NZ) as [l Hl].
  destruct (HL p l Hl) as [El LE]. specialize (LE e Hel). pose proof (BD e Hel) as Bo. pose proof (HU p) as Gu. pose proof (sv_simplex v d P TV e Hel) as HS.
  destruct (C52_derivatives d r (P e) (h e) (fe e) Hv Bo) as (phi & J & J1 & J2).
  destruct (leaf_function b path els su OKS d 3 (P e) (size d r) (evaluateFunction d r (fe e)) (evaluateJacobian d r (fe e)) phi J cf e w p n l 0)
      as (Lc & uh & gh & Hh & G1 & G2 & U & V & D); auto.
  - lia.
  - intros c0 Hc0. apply (hermite_poly d r (P e) (h e) (fe e)); auto. intros x Hx. now apply J1.
  - intros x Hx. destruct (J1 x Hx) as (A & B & _). auto.
  - intros x m Hx Hm. destruct (J1 x Hx) as (_ & _ & C). destruct (C m Hm) as [C1 C2]. split; auto. split; auto. now apply J2.
  - assert (Li : length (interp e p) = size d r) by (rewrite (HI p e Hel); now apply interpolate_length).
    assert (EC : map (coefficient b path cf p 0) (lf_indices l e) = interp e p).
    { eapply interpolated_coefficients; eauto. rewrite Li. now rewrite <- Lc, map_length. }
    rewrite EC in U.
    assert (HCf : has_coefficients d r (P e) (fe e) uh (interp e p)).
    { split; [exact Li|]. intros x Hx. exists (phi x). split; [now apply J1|]. now apply U. }
    destruct (C52_degrees_of_freedom d r (P e) (h e) (fe e) uh gh _ Hv Bo G1 HCf) as [DV DF]. destruct (ND e p Hel) as [TV' TF].
    assert (D' : forall x y m, is_vec d x -> is_derivative b path su e cf x y -> (m < d)%nat -> range_entry p y m = nth m (gh (image d (P e) x)) 0) by (intros x y m Hx HY Hm; now apply (D x y m)).
    split; [|split].
    + intros i x y dy Hi Hx Iz HV HD. destruct (DV i Hi) as [D1 D2]. destruct (TV' i Hi) as [T1 T2]. split.
      * rewrite (V x y Hx HV), Iz, <- D1. exact T1.
      * intros m Hm. rewrite (D' x dy m Hx HD Hm), Iz. specialize (D2 m Hm). rewrite (T2 m Hm) in D2. unfold h in D2. rewrite nth_map_seq in D2 by lia.
        apply bound_is in Bo as (_ & _ & Hpos & _). assert (0 < mesh_sizes pb (g_sub (v_grid v) e i d)).
        { rewrite Forall_forall in Hpos. apply Hpos. unfold h. apply in_map_iff. exists i. split; auto. apply in_seq. lia. }
        rewrite Rmult_comm in D2. apply Rmult_eq_reg_l in D2; [auto|lra].
    + intros Er f x y Hf Hx Iz HV. assert (D23 : (d = 2 \/ d = 3)%nat) by (clear - Hd Hf; destruct Hd as [-> | H]; [cbn in Hf; lia|exact H]).
      rewrite (V x y Hx HV), Iz, <- DF; [now apply TF|]. clear - D23 Er Hf. subst r. destruct D23 as [-> | ->]; cbn in *; lia.
    + intros PU x y dy Hx HV HD.
      pose proof (C52_reproduces_polynomials d r (P e) (h e) (fe e) (u p) (g p) Hv Bo PU Gu) as RP. rewrite <- (HI p e Hel) in RP.
      destruct (same_function d (P e) uh gh (u p) (g p)) with (z := image d (P e) x) as [S1 S2]; auto.
      * intros x0 Hx0. destruct RP as [_ RP]. destruct HCf as [_ HCf]. destruct (RP x0 Hx0) as (f1 & F1 & ->). destruct (HCf x0 Hx0) as (f2 & F2 & ->). congruence.
      * destruct HS as (HP & HF & _). now apply image_vec.
      * rewrite (V x y Hx HV), S1. split; auto. intros m Hm. now rewrite (D' x dy m Hx HD Hm), S2.
Qed.
Print Assumptions C81_hermite.

(** * The hypotheses are met *)

(** Interpolation on the two triangles (0,0), (2,0), (1,3) and (2,0), (4,2), (1,3); the
    discrete function can be evaluated everywhere. *)
Notation P2 := Triangle_example.P.
Example C81_hermite_met : let geo := fun e => ex_geo (P2 e) in
  forall (u : list R -> R) (g : list R -> list R), gradient 2 u g ->
  exists (pb : prebasis bool nat) (fe : bool -> hermite) (mp : mapper nat) (su : setup bool (list R)) (interp : bool -> list nat -> list R) (c' : cont R),
  let layout := fun t => cubicHermiteMapperLayout false t 2 in
  let l := mapper_leaf grid2 mp layout [[false; true]] (fun _ => localKeys 2 false) in
  let els := fun e => In e (v_elements view2) in let b := BLeaf l in let t := TDyn TScalar in
  valid 2 false /\ simplex_view view2 2 P2 /\
  (forall e e' f f', els e -> els e' -> (f < 1)%nat -> (f' < 1)%nat -> g_sub (v_grid view2) e f 0 = g_sub (v_grid view2) e' f' 0 ->
     forall z, In z (map (fun a => nth a (P2 e) []) (face_vertices 2 f)) -> In z (map (fun a => nth a (P2 e') []) (face_vertices 2 f'))) /\
  types_ok els (v_grid view2) [[false; true]] /\ mapper_ok els (v_grid view2) layout mp /\
  construct view2 = Some pb /\ (forall e, els e -> affine_geometry 2 (P2 e) (geo e) /\ node_bind pb e (geo e) = Some (fe e)) /\
  setup_ok b [] els su /\ su_cdim su = 1%nat /\
  (forall p l', leaf_at b ([] ++ p) = Some l' -> l' = l /\
     forall e, els e -> leaf_element su p 2 (P2 e) e (evaluateFunction 2 false (fe e)) (evaluateJacobian 2 false (fe e))) /\
  (forall (p : list nat) e, els e -> interp e p = interpolate 2 false (fe e) (fun x => u (image 2 (P2 e) x)) (fun x => g (image 2 (P2 e) x))) /\
  call_ok b els [] t interp (CBlk []) [false; true] /\
  Interpolate_model.interpolate t (fun _ => true) interp 0 (subspace_of_root (build b) []) [false; true] (CBlk []) = Done c' /\
  forall e, els e -> (exists w n, leaf_of b [] e w [] n /\ node_size n <> 0%nat) /\
    forall x, exists y dy, is_value b [] su e (contents t c') x y /\ is_derivative b [] su e (contents t c') x dy.
Proof.
  intros geo u g Hg. destruct (binds view2 2 P2 view2_ok ltac:(right; now left)) as (pb & HC & _ & HB).
  assert (GE : forall e, affine_geometry 2 (P2 e) (geo e)) by (intros e x _; split; reflexivity).
  destruct (HB false (geo false) (all2 false) (GE false)) as (fe & Hfe & Bf).
  destruct (HB true (geo true) (all2 true) (GE true)) as (fe' & Hfe' & Bf'). clear HB.
  destruct (C52_layout_matches_keys els2 grid2 2 false ex_valid) as (LO & KO); [intros [|] _; split; reflexivity|].
  set (mp := mapper2 3 0 1). set (lay := fun t => cubicHermiteMapperLayout false t 2) in *.
  assert (MO : mapper_ok els2 grid2 lay mp) by (apply mapper2_ok; try split; reflexivity).
  pose proof (proj1 (C30_mapper_leaf els2 grid2 lay [[false; true]] (fun _ => localKeys 2 false) mp grid2_ok LO types2_ok MO KO)) as L2.
  set (l := mapper_leaf grid2 mp lay [[false; true]] (fun _ => localKeys 2 false)) in *.
  set (fes := fun e : bool => if e then fe' else fe).
  assert (D : forall e, exists F J, (forall y, is_vec 2 y -> evaluateFunction 2 false (fes e) y = Some (F y) /\ length (F y) = 10%nat /\
     forall k, (k < 2)%nat -> evaluateJacobian 2 false (fes e) y k = Some (J k y) /\ length (J k y) = 10%nat)).
  { intros [|]; [destruct (C52_derivatives 2 false _ _ _ ex_valid Bf') as (F & J & H & _)|destruct (C52_derivatives 2 false _ _ _ ex_valid Bf) as (F & J & H & _)]; exists F, J; exact H. }
  (* the functions, continued to lists that are no points *)
  set (cut := fun z : list R => match z with [a; b] => z | _ => [0; 0] end).
  assert (Cv : forall z, is_vec 2 (cut z)) by (intros [|a [|b [|]]]; reflexivity).
  assert (Ci : forall z, is_vec 2 z -> cut z = z) by (intros [|a [|b [|]]] Hz; try discriminate; reflexivity).
  set (phi := fun e z => get (evaluateFunction 2 false (fes e) (cut z))).
  set (dphi := fun e k z => get (evaluateJacobian 2 false (fes e) (cut z) (if (k =? 0)%nat then 0 else 1)%nat)).
  assert (Lp : forall e z, length (phi e z) = 10%nat) by (intros e z; destruct (D e) as (F & J & H); unfold phi; destruct (H (cut z) (Cv z)) as (-> & A & _); exact A).
  assert (Ld : forall e k z, length (dphi e k z) = 10%nat).
  { intros e k z; destruct (D e) as (F & J & H); unfold dphi; destruct (H (cut z) (Cv z)) as (_ & _ & A); destruct (k =? 0)%nat; [destruct (A 0%nat ltac:(lia)) as [-> B]|destruct (A 1%nat ltac:(lia)) as [-> B]]; exact B. }
  set (su := su2 l 10 phi dphi).
  set (interp := fun e (p : list nat) => interpolate 2 false (fes e) (fun x => u (image 2 (P2 e) x)) (fun x => g (image 2 (P2 e) x))).
  assert (LI : forall e p, length (interp e p) = 10%nat) by (intros e p; unfold interp; now rewrite interpolate_length by exact ex_valid).
  assert (LD : lf_dim l <> 0%nat) by (cbn; lia).
  destruct (run2 l 10 interp L2 (fun _ => eq_refl) LD LI) as [c' RUN].
  exists pb, fes, mp, su, interp, c'.
  cbv zeta. fold lay. change (v_grid view2) with grid2. fold l. change (fun e => In e (v_elements view2)) with els2.
  assert (OKS : setup_ok (BLeaf l) [] els2 su) by (apply setup2_ok; auto).
  split; [exact ex_valid|]. split; [exact view2_ok|].
  split. { intros e e' f f' _ _ Hf Hf'. destruct f, f'; try lia. destruct e, e'; cbn; intros Q z Hz; try discriminate; exact Hz. }
  split; [exact types2_ok|]. split; [exact MO|]. split; [exact HC|].
  split; [intros [|] _; (split; [apply GE|assumption])|]. split; [exact OKS|]. split; [reflexivity|].
  split. { intros p l' Hl. destruct p as [|i p]; cbn in Hl; [|discriminate]. injection Hl as <-. split; auto. intros e _. apply element2_ok; auto.
    - intros x Hx. unfold phi. rewrite (Ci x Hx). destruct (D e) as (F & J & H). destruct (H x Hx) as (-> & _). reflexivity.
    - intros x k Hx Hk. unfold dphi. rewrite (Ci x Hx). destruct (D e) as (F & J & H). destruct (H x Hx) as (_ & _ & A). destruct k as [|[|k]]; [| |lia]; cbn [Nat.eqb]; [destruct (A 0%nat ltac:(lia)) as [-> _]|destruct (A 1%nat ltac:(lia)) as [-> _]]; reflexivity. }
  split; [intros p e _; reflexivity|]. split; [apply (call2_ok l 10 interp L2 (fun _ => eq_refl) LD LI)|]. split; [exact RUN|].
  intros e He. split.
  - destruct (leaf2_ex l 10 L2 (fun _ => eq_refl) e) as (w & n & H1 & H2). exists w, n. split; auto. now rewrite H2.
  - intros x. apply (values_exist (BLeaf l) [] els2); auto. now apply (contents2_ok l 10 interp L2 (fun _ => eq_refl) LD LI).
Qed.
