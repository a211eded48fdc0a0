(** C80 for the cubic Hermite basis: functions are continuous, gradients agree at vertices. *)
From Coq Require Import List Arith Lia Bool Reals Lra.
From Verif Require Import Lib Basis_model Basis_spec Container_model
  DiscreteFunction_model DiscreteFunction_spec MonomialSet_spec Nodal_spec Nodal_poly Nodal_rat Derivative_spec NodalFunctions_spec NodalFunctions_proofs.
From Verif Require Import GeometryType_model Mapper_model Mapper_spec MeshSize_model MeshSize_props Hermite_model Hermite_spec Hermite_proofs Hermite_props.
From Verif Require Import HermiteBasis_model HermiteBasis_spec.
From Verif Require Import Mapper_props NodalFunctions_example.
From Verif Require Argyris_spec Argyris_props Triangle_example.
Import ListNotations.
Local Open Scope R_scope.

Lemma hermite_poly d r P h fe phi c : valid d r -> bound d P h fe -> (forall x, is_vec d x -> evaluateFunction d r fe x = Some (phi x)) -> length c = size d r ->
  polynomial d 3 (fun x => dot c (phi x)).
Proof.
  intros Hv Hb HF Lc. assert (Hd := valid_dims _ _ Hv). apply bound_is in Hb. destruct Hb as ((HP & FP & _) & Hh & Hpos & ->).
  apply poly_ext with (v := fun x => dot (tT d r (bound_form d P h) c) (shape (exps d) (referenceBasisCoefficients d r) [] x)).
  - intros x Hx. specialize (HF x Hx). unfold evaluateFunction in HF. rewrite ref_function in HF by auto. cbn [obind] in HF.
    destruct (transform_form d r P h (Hermite_proofs.phi d r x) Hv HP FP Hh) as (w & E & L & Q); [unfold Hermite_proofs.phi; now rewrite shape_length, coefficients_size|].
    rewrite E in HF. injection HF as <-. now apply Q.
  - apply shape_poly.
    + apply Forall_forall. intros e He. split; [now apply exps_length|]. revert e He. apply Forall_forall. clear - Hd. destruct Hd as [-> | [-> | ->]]; vm_compute; repeat constructor.
    + apply Forall_forall. rewrite coefficients_rational by auto. intros q Hq. apply in_map_iff in Hq as (q' & <- & Hq'). unfold rv. rewrite map_length. revert q' Hq'. apply Forall_forall. clear - Hv. by_valid Hv; repeat constructor.
Qed.

(** The mesh size at a vertex. *)
Definition mesh_sizes {E X} (pb : prebasis E X) (x : X) : R := nth (mp_off (v_vertices (pb_vertexMapper pb)) x) (pb_averageVertexMeshSize pb) 0.

Section Binds.
Context {E X : Type} (v : view E X) (d : nat) (P : E -> list (list R)) (T : simplex_view v d P) (Hd : dims d).
Notation els := (fun e => In e (v_elements v)).
Lemma vertex_subtype e i : In e (v_elements v) -> (i <= d)%nat -> subtype (v_grid v) e i d [].
Proof.
  intros He Hi. assert (HD := Mapper_spec.go_dim _ _ (sv_grid v d P T) e He). rewrite (sv_dim v d P T) in HD. assert (HT := sv_type v d P T e He).
  destruct (simplex_gt d (g_type (v_grid v) e) Hd HD HT) as [b Hb]. unfold subtype. rewrite Hb. clear - Hd Hi. destruct Hd as [-> | [-> | ->]].
  - destruct i as [|[|i]]; [..|lia]; destruct b; reflexivity.
  - destruct i as [|[|[|i]]]; [..|lia]; destruct b; reflexivity.
  - destruct i as [|[|[|[|i]]]]; [..|lia]; destruct b; reflexivity.
Qed.
Lemma binds : exists pb, construct v = Some pb /\ pb_vertexMapper pb = v /\
  forall e G, In e (v_elements v) -> affine_geometry d (P e) G ->
    exists fe, node_bind pb e G = Some fe /\ bound d (P e) (map (fun i => mesh_sizes pb (g_sub (v_grid v) e i d)) (seq 0 (d + 1))) fe.
Proof.
  assert (LO : layout_ok mcmgVertexLayout) by (intros t t' [_ L]; unfold mcmgVertexLayout, gt_dim; now rewrite L).
  destruct (C55_average_mesh_size (v_grid v) (v_vertices v) mcmgVertexLayout els (v_elements v) (v_volume v)) as (r & Hr & _ & HV);
    [apply T|exact LO|apply T|rewrite (sv_dim v d P T); destruct Hd as [-> | [-> | ->]]; lia|apply T|tauto|apply T|].
  unfold construct, averageVertexMeshSizes. rewrite Hr. cbn [obind]. eexists. split; [reflexivity|]. split; [reflexivity|].
  intros e G He HG.
  assert (S : forall i, (i <= d)%nat -> exists s, nth_error r (mp_off (v_vertices v) (g_sub (v_grid v) e i d)) = Some s /\ 0 < s).
  { intros i Hi. destruct (HV (g_sub (v_grid v) e i d) [] 0%nat) as (s & _ & Hs & Ps & _); [exists e, i, d; split; auto; split; auto; now apply vertex_subtype|cbn; lia|]. rewrite Nat.add_0_r in Hs. eauto. }
  unfold mesh_sizes. cbn [pb_vertexMapper pb_averageVertexMeshSize].
  set (hs := map (fun i => nth (mp_off (v_vertices v) (g_sub (v_grid v) e i d)) r 0) (seq 0 (d + 1))).
  assert (Ls : length hs = (d + 1)%nat) by (unfold hs; now rewrite map_length, seq_length).
  assert (N : forall i, (i <= d)%nat -> nth_error r (mp_off (v_vertices v) (g_sub (v_grid v) e i d)) = nth_error hs i).
  { intros i Hi. destruct (S i Hi) as (s & Hs & _). rewrite Hs. symmetry. rewrite (nth_error_nth' hs 0) by lia. f_equal. unfold hs.
    rewrite (nth_indep _ 0 (nth (mp_off (v_vertices v) (g_sub (v_grid v) e 0 d)) r 0)) by (rewrite map_length, seq_length; lia).
    rewrite (map_nth (fun i => nth (mp_off (v_vertices v) (g_sub (v_grid v) e i d)) r 0)), seq_nth by lia. cbn [Nat.add]. now apply nth_error_nth. }
  assert (A : all_of (map (fun i => nth_error r (mp_off (v_vertices v) (g_sub (v_grid v) e i d))) (seq 0 (d + 1))) = Some hs).
  { rewrite (map_ext_in _ (fun i => nth_error hs i)) by (intros i Hi; apply in_seq in Hi; apply N; lia).
    rewrite <- Ls. generalize hs. clear. induction hs as [|a h IH]; [reflexivity|]. cbn [length seq map all_of]. cbn [nth_error obind].
    rewrite <- seq_shift, map_map. cbn [nth_error]. rewrite IH. reflexivity. }
  unfold node_bind. cbn [pb_vertexMapper pb_averageVertexMeshSize]. rewrite (sv_dim v d P T).
  assert (B : exists fe, bind d (fun i => subIndex (v_grid v) (v_vertices v) e i d) r G = Some fe) by (unfold bind, subIndex; rewrite A; cbn [obind]; eauto).
  destruct B as (fe & B). exists fe. split; auto.
  exists G, (fun i => subIndex (v_grid v) (v_vertices v) e i d), r. split; [now apply (sv_simplex v d P T)|]. split; auto. split; [lia|].
  split; [|split; auto]. apply Forall_forall. intros s Hs. unfold hs in Hs. apply in_map_iff in Hs as (i & <- & Hi). apply in_seq in Hi.
  destruct (S i ltac:(lia)) as (s & Hs & Ps). now rewrite (nth_error_nth _ _ _ Hs).
Qed.
End Binds.

Theorem C80_hermite_agreement : forall (E X : Type) (v : view E X) (d : nat) (reduced : bool) (P : E -> list (list R))
    (pb : prebasis E X) (geo : E -> geometry) (fe : E -> hermite) (mp : mapper X) (types : list gt)
    (b : bexpr E) (path : list nat) (su : setup E (list R)) (p : list nat),
  let els := fun e => In e (v_elements v) in
  valid d reduced -> simplex_view v d P ->
  (* a cubic Hermite basis, and its finite elements *)
  construct v = Some pb -> (forall e, els e -> affine_geometry d (P e) (geo e) /\ node_bind pb e (geo e) = Some (fe e)) ->
  (* leaf [p] of the basis of the function is this basis *)
  setup_ok b path els su ->
  leaf_at b (path ++ p) = Some (mapper_leaf (v_grid v) mp (fun t => cubicHermiteMapperLayout reduced t d) types (fun _ => localKeys d reduced)) ->
  (forall e, els e -> leaf_element su p d (P e) e (evaluateFunction d reduced (fe e)) (evaluateJacobian d reduced (fe e))) ->
  forall (coefficients : mi -> option (list R)) e e' x x' y y' w n w' n',
  els e -> els e' -> is_vec d x -> is_vec d x' ->
  (* the leaf is not switched off in one of the elements by a restricted basis *)
  leaf_of b path e w p n -> leaf_of b path e' w' p n' -> node_size n <> 0%nat -> node_size n' <> 0%nat ->
  is_value b path su e coefficients x y -> is_value b path su e' coefficients x' y' ->
  (* the same point of a common facet of two elements *)
  (forall s a, common_facet d (P e) (P e') s -> length a = d -> total a = 1 ->
     image d (P e) x = comb d a (map (fun q => nth (fst q) (P e) []) s) -> image d (P e') x' = image d (P e) x ->
     forall k, (k < su_cdim su)%nat -> range_entry p y k = range_entry p y' k) /\
  (* a common vertex *)
  (forall i j dy dy', (i <= d)%nat -> (j <= d)%nat -> nth i (P e) [] = nth j (P e') [] ->
     image d (P e) x = nth i (P e) [] -> image d (P e') x' = nth i (P e) [] ->
     is_derivative b path su e coefficients x dy -> is_derivative b path su e' coefficients x' dy' ->
     (forall k, (k < su_cdim su)%nat -> range_entry p y k = range_entry p y' k) /\
     forall k g, (k < su_cdim su)%nat -> (g < d)%nat -> range_entry p dy (k * d + g) = range_entry p dy' (k * d + g)).
Proof.
  intros E X v d r P pb geo fe mp types b path su p els Hv TV HC FE OKS Hl LE cf e e' x x' y y' w n w' n'
    He He' Hx Hx' L L' NZ NZ' V V'. assert (Hd := valid_dims _ _ Hv).
  set (l := mapper_leaf (v_grid v) mp (fun t => cubicHermiteMapperLayout r t d) types (fun _ => localKeys d r)) in *.
  set (h := fun e => map (fun i => mesh_sizes pb (g_sub (v_grid v) e i d)) (seq 0 (d + 1))).
  assert (BD : forall e, els e -> bound d (P e) (h e) (fe e)).
  { intros a Ha. destruct (FE a Ha) as (A1 & A2). destruct (binds v d P TV Hd) as (pb' & C1 & _ & C2).
    rewrite HC in C1. injection C1 as <-. destruct (C2 a (geo a) Ha A1) as (f & F1 & F2). rewrite A2 in F1. injection F1 as <-. exact F2. }
  assert (F : forall k e w n, (k < su_cdim su)%nat -> els e -> leaf_of b path e w p n -> node_size n <> 0%nat ->
    let c := map (coefficient b path cf p k) (lf_indices l e) in
    exists u g, gradient d u g /\ has_coefficients d r (P e) (fe e) u c /\
    (forall x y, is_vec d x -> is_value b path su e cf x y -> range_entry p y k = u (image d (P e) x)) /\
    forall x y m, is_vec d x -> is_derivative b path su e cf x y -> (m < d)%nat -> range_entry p y (k * d + m) = nth m (g (image d (P e) x)) 0).
  { clear - OKS BD LE Hl TV Hv Hd. intros k e w n Hk He L NZ c. pose proof (BD e He) as Bo.
    destruct (C52_derivatives d r (P e) (h e) (fe e) Hv Bo) as (phi & J & J1 & J2).
    destruct (leaf_function b path els su OKS d 3 (P e) (size d r) (evaluateFunction d r (fe e)) (evaluateJacobian d r (fe e)) phi J cf e w p n l k)
      as (Lc & u & g & H & Hg & HH & U & V & D); auto.
    - now apply (sv_simplex v d P TV).
    - intros c0 Hc0. apply (hermite_poly d r (P e) (h e) (fe e)); auto. intros x Hx. now apply J1.
    - intros x Hx. destruct (J1 x Hx) as (A & B & _). auto.
    - intros x m Hx Hm. destruct (J1 x Hx) as (_ & _ & C). destruct (C m Hm) as [C1 C2]. split; auto. split; auto. now apply J2.
    - exists u, g. split; auto. split; [split; [exact Lc|]|split; auto]. intros x Hx. exists (phi x). split; [now apply J1|]. now apply U. }
  split.
  - intros s a CF La Ta I I' k Hk.
    destruct (F k e w n Hk He L NZ) as (u & g & G1 & G2 & G3 & _). destruct (F k e' w' n' Hk He' L' NZ') as (u' & g' & G1' & G2' & G3' & _).
    rewrite (G3 x y Hx V), (G3' x' y' Hx' V'), I', I.
    apply (C52_continuous d r (P e) (h e) (fe e) u _ (P e') (h e') (fe e') u' _ s a Hv (BD e He) (BD e' He') G2 G2' CF); auto.
    destruct CF as (CL & _ & _ & CV).
    apply (C52_common_coefficients (v_grid v) mp types d r e e' s (mesh_sizes pb) (coefficient b path cf p k) Hv).
    + intros i j Hij. destruct (CV i j Hij) as (A1 & A2 & A3). split; auto. split; auto. now apply (sv_vertices v d P TV).
    + intros D3 f f' Hf Hf' Q Q'. apply (sv_faces v d P TV); auto. intros z. rewrite !in_map_iff. split.
      * intros (i & <- & Hi). apply Q in Hi. apply in_map_iff in Hi as ([i' j] & Ei & Hij). cbn in Ei. subst i'. exists j. destruct (CV i j Hij) as (_ & _ & A3). split; auto. apply Q'. apply in_map_iff. now exists (i, j).
      * intros (j & <- & Hj). apply Q' in Hj. apply in_map_iff in Hj as ([i j'] & Ei & Hij). cbn in Ei. subst j'. exists i. destruct (CV i j Hij) as (_ & _ & A3). split; auto. apply Q. apply in_map_iff. now exists (i, j).
  - intros i j dy dy' Hi Hj Q I I' D D'.
    assert (A : forall k, (k < su_cdim su)%nat -> range_entry p y k = range_entry p y' k /\ forall g, (g < d)%nat -> range_entry p dy (k * d + g) = range_entry p dy' (k * d + g)).
    2: { split; [intros k Hk; now apply A|intros k g Hk Hg; now apply A]. }
    intros k Hk.
    destruct (F k e w n Hk He L NZ) as (u & g & G1 & G2 & G3 & G4). destruct (F k e' w' n' Hk He' L' NZ') as (u' & g' & G1' & G2' & G3' & G4').
    destruct (C52_common_coefficients (v_grid v) mp types d r e e' [(i, j)] (mesh_sizes pb) (coefficient b path cf p k) Hv) as [SC _].
    { intros i' j' [Eij|[]]. injection Eij as <- <-. split; auto. split; auto. now apply (sv_vertices v d P TV). }
    { intros D3 f f' Hf Hf' B _. exfalso. clear - Hf B. assert (A : forall z, In z (face_vertices 3 f) -> z = i) by (intros z Hz; apply B in Hz; cbn in Hz; intuition congruence).
      destruct f as [|[|[|[|f]]]]; [..|lia]; cbn in A; pose proof (A _ (or_introl eq_refl)) as A1; pose proof (A _ (or_intror (or_introl eq_refl))) as A2; lia. }
    destruct (SC i j (or_introl eq_refl)) as [S1 S2].
    destruct (C52_gradients_agree_at_vertices d r (P e) (h e) (fe e) u g _ (P e') (h e') (fe e') u' g' _ i j Hv (BD e He) (BD e' He') G1 G1' G2 G2' Hi Hj Q S1 S2) as [B1 B2].
    split; [rewrite (G3 x y Hx V), (G3' x' y' Hx' V'), I', I; exact B1|].
    intros m Hm. rewrite (G4 x dy m Hx D Hm), (G4' x' dy' m Hx' D' Hm), I', I. now f_equal.
Qed.

(** * The hypotheses are met *)

(** Functions on the two triangles (0,0), (2,0), (1,3) and (2,0), (4,2), (1,3); the point
    (3/2,3/2) of their common edge and their common vertex (2,0). *)
Definition view2 : view bool nat := View grid2 MeshSize_props.ex_mapper [false; true] MeshSize_props.ex_volume.
Notation P2 := Triangle_example.P.
Lemma view2_ok : simplex_view view2 2 P2.
Proof.
  pose proof Argyris_props.C54_ex_view as [A1 A2 A3 A4 A5 A6 A7 A8].
  constructor; auto.
  - intros [|] _; [apply ex_simplex'|apply ex_simplex].
  - intros e e' i j _ _ Hi Hj. revert e e'. destruct i as [|[|[|i]]]; [..|lia]; (destruct j as [|[|[|j]]]; [..|lia]); intros [|] [|]; cbn; (split; intros Q; [try discriminate; reflexivity|]); try reflexivity; exfalso; injection Q; intros; lra.
  - discriminate.
Qed.
Example C80_hermite_met : let geo := fun e => ex_geo (P2 e) in
  exists (pb : prebasis bool nat) (fe : bool -> hermite) (mp : mapper nat) (su : setup bool (list R)),
  let l := mapper_leaf grid2 mp (fun t => cubicHermiteMapperLayout false t 2) [[false; true]] (fun _ => localKeys 2 false) in
  let els := fun e => In e (v_elements view2) in
  valid 2 false /\ simplex_view view2 2 P2 /\
  construct view2 = Some pb /\ (forall e, els e -> affine_geometry 2 (P2 e) (geo e) /\ node_bind pb e (geo e) = Some (fe e)) /\
  setup_ok (BLeaf l) [] els su /\ leaf_at (BLeaf l) ([] ++ []) = Some l /\
  (forall e, els e -> leaf_element su [] 2 (P2 e) e (evaluateFunction 2 false (fe e)) (evaluateJacobian 2 false (fe e))) /\
  common_facet 2 (P2 false) (P2 true) [(1, 0); (2, 2)]%nat /\ total [1/2; 1/2] = 1 /\
  image 2 (P2 false) [1/2; 1/2] = comb 2 [1/2; 1/2] (map (fun q => nth (fst q) (P2 false) []) [(1, 0); (2, 2)]%nat) /\
  image 2 (P2 true) [0; 1/2] = image 2 (P2 false) [1/2; 1/2] /\
  nth 1 (P2 false) [] = nth 0 (P2 true) [] /\ image 2 (P2 false) [1; 0] = nth 1 (P2 false) [] /\ image 2 (P2 true) [0; 0] = nth 1 (P2 false) [] /\
  (forall c e x, coefs_ok (BLeaf l) els su c -> els e ->
     exists y dy, is_value (BLeaf l) [] su e c x y /\ is_derivative (BLeaf l) [] su e c x dy) /\
  (forall e, exists w n, leaf_of (BLeaf l) [] e w [] n /\ node_size n <> 0%nat).
Proof.
  intros geo. destruct (binds view2 2 P2 view2_ok ltac:(right; now left)) as (pb & HC & _ & HB).
  assert (GE : forall e, affine_geometry 2 (P2 e) (geo e)) by (intros e x _; split; reflexivity).
  destruct (HB false (geo false) (all2 false) (GE false)) as (fe & Hfe & Bf).
  destruct (HB true (geo true) (all2 true) (GE true)) as (fe' & Hfe' & Bf'). clear HB.
  destruct (C52_layout_matches_keys els2 grid2 2 false ex_valid) as (LO & KO); [intros [|] _; split; reflexivity|].
  set (mp := mapper2 3 0 1). set (lay := fun t => cubicHermiteMapperLayout false t 2) in *.
  assert (MO : mapper_ok els2 grid2 lay mp) by (apply mapper2_ok; try split; reflexivity).
  pose proof (proj1 (C30_mapper_leaf els2 grid2 lay [[false; true]] (fun _ => localKeys 2 false) mp grid2_ok LO types2_ok MO KO)) as L2.
  set (l := mapper_leaf grid2 mp lay [[false; true]] (fun _ => localKeys 2 false)) in *.
  set (fes := fun e : bool => if e then fe' else fe).
  assert (D : forall e, exists F J, (forall y, is_vec 2 y -> evaluateFunction 2 false (fes e) y = Some (F y) /\ length (F y) = 10%nat /\
     forall k, (k < 2)%nat -> evaluateJacobian 2 false (fes e) y k = Some (J k y) /\ length (J k y) = 10%nat)).
  { intros [|]; [destruct (C52_derivatives 2 false _ _ _ ex_valid Bf') as (F & J & H & _)|destruct (C52_derivatives 2 false _ _ _ ex_valid Bf) as (F & J & H & _)]; exists F, J; exact H. }
  (* the functions, continued to lists that are no points *)
  set (cut := fun z : list R => match z with [a; b] => z | _ => [0; 0] end).
  assert (Cv : forall z, is_vec 2 (cut z)) by (intros [|a [|b [|]]]; reflexivity).
  assert (Ci : forall z, is_vec 2 z -> cut z = z) by (intros [|a [|b [|]]] Hz; try discriminate; reflexivity).
  set (phi := fun e z => get (evaluateFunction 2 false (fes e) (cut z))).
  set (dphi := fun e k z => get (evaluateJacobian 2 false (fes e) (cut z) (if (k =? 0)%nat then 0 else 1)%nat)).
  assert (Lp : forall e z, length (phi e z) = 10%nat) by (intros e z; destruct (D e) as (F & J & H); unfold phi; destruct (H (cut z) (Cv z)) as (-> & A & _); exact A).
  assert (Ld : forall e k z, length (dphi e k z) = 10%nat).
  { intros e k z; destruct (D e) as (F & J & H); unfold dphi; destruct (H (cut z) (Cv z)) as (_ & _ & A); destruct (k =? 0)%nat; [destruct (A 0%nat ltac:(lia)) as [-> B]|destruct (A 1%nat ltac:(lia)) as [-> B]]; exact B. }
  set (su := su2 l 10 phi dphi).
  exists pb, fes, mp, su.
  cbv zeta. fold lay. fold l. change (fun e => In e (v_elements view2)) with els2.
  assert (OKS : setup_ok (BLeaf l) [] els2 su) by (apply setup2_ok; auto).
  split; [exact ex_valid|]. split; [exact view2_ok|]. split; [exact HC|].
  split; [intros [|] _; (split; [apply GE|assumption])|]. split; [exact OKS|]. split; [reflexivity|].
  split. { intros e _. apply element2_ok; auto.
    - intros x Hx. unfold phi. rewrite (Ci x Hx). destruct (D e) as (F & J & H). destruct (H x Hx) as (-> & _). reflexivity.
    - intros x k Hx Hk. unfold dphi. rewrite (Ci x Hx). destruct (D e) as (F & J & H). destruct (H x Hx) as (_ & _ & A). destruct k as [|[|k]]; [| |lia]; cbn [Nat.eqb]; [destruct (A 0%nat ltac:(lia)) as [-> _]|destruct (A 1%nat ltac:(lia)) as [-> _]]; reflexivity. }
  split; [exact C52_ex_common_facet|]. split; [unfold total; cbn; lra|].
  split; [unfold image, comb, bary, total; cbn; f_equal; [lra|f_equal; lra]|]. split; [unfold image, comb, bary, total; cbn; f_equal; [lra|f_equal; lra]|].
  split; [reflexivity|].
  split; [unfold image, comb, bary, total; cbn; f_equal; [lra|f_equal; lra]|]. split; [unfold image, comb, bary, total; cbn; f_equal; [lra|f_equal; lra]|].
  split; [intros c e x Hc He; now apply (values_exist (BLeaf l) [] els2)|].
  intros e. destruct (leaf2_ex l 10 L2 (fun _ => eq_refl) e) as (w & n & H1 & H2). exists w, n. split; auto. now rewrite H2.
Qed.

Print Assumptions C80_hermite_agreement.
