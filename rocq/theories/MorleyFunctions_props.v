(** C80 for the Morley basis: values agree at vertices, gradients at midpoints of edges. *)
From Coq Require Import List Arith Lia Bool Reals Lra.
From Verif Require Import Lib Basis_model Basis_spec Container_model
  DiscreteFunction_model DiscreteFunction_spec MonomialSet_spec Nodal_spec Nodal_poly Nodal_rat Derivative_spec NodalFunctions_spec NodalFunctions_proofs.
From Verif Require Import GeometryType_model Mapper_model Mapper_spec Hermite_model Hermite_spec Orientation_model Triangle_spec Table2_model Table2_proofs
  Morley_model Morley_spec Morley_proofs Morley_props.
From Verif Require Import Mapper_props NodalFunctions_example.
Import ListNotations.
Local Open Scope R_scope.

Lemma morley_poly G o c : length c = 6%nat -> polynomial 2 2 (fun x => dot c (elem 2 coefficients (matrix G o) [] x)).
Proof.
  intros Hc. apply poly_ext with (v := fun x => dot (pull G o c) (sh [] x)); [intros x _; now apply element_values|].
  apply shape_poly.
  - apply Forall_forall. intros e He. vm_compute in He. repeat (destruct He as [<-|He]; [split; [reflexivity|vm_compute; lia]|]). destruct He.
  - apply Forall_forall. intros r Hr. apply in_map_iff in Hr as (q & <- & Hq). unfold rv. rewrite map_length. revert q Hq. apply Forall_forall. repeat constructor.
Qed.

Theorem C80_morley_agreement : forall (E X : Type) (fg : fgrid E) (gr : grid E X) (P : E -> list (list R)) (position : nat -> list R)
    (pb : prebasis E) (geo : E -> geometry) (fe0 fe : E -> morley) (mp : mapper X) (types : list gt)
    (b : bexpr E) (path : list nat) (su : setup E (list R)) (p : list nat),
  let els := fun e => In e (fg_elements fg) in
  triangles fg P position ->
  (* vertices with the same number, and edges with the same vertices, are the same entity *)
  (forall e e' i j, els e -> els e' -> (i < 3)%nat -> (j < 3)%nat -> fg_vidx fg e i = fg_vidx fg e' j -> g_sub gr e i 2 = g_sub gr e' j 2) ->
  (forall e e' i j, els e -> els e' -> (i < 3)%nat -> (j < 3)%nat -> same_edge fg e i e' j -> g_sub gr e i 1 = g_sub gr e' j 1) ->
  (* a Morley basis, and its finite elements, which may have been bound before *)
  construct fg = Some pb ->
  (forall e, els e -> affine_geometry 2 (P e) (geo e) /\ reachable (fe0 e) /\ node_bind pb (fe0 e) e (geo e) = Some (fe e)) ->
  (* leaf [p] of the basis of the function is this basis *)
  setup_ok b path els su ->
  leaf_at b (path ++ p) = Some (mapper_leaf gr mp layout types (fun _ => localKeys)) ->
  (forall e, els e -> leaf_element su p 2 (P e) e (evaluateFunction (fe e)) (evaluateJacobian (fe e))) ->
  forall (coefficients : mi -> option (list R)) e e' i j x x' w n w' n',
  els e -> els e' -> (i < 3)%nat -> (j < 3)%nat -> is_vec 2 x -> is_vec 2 x' ->
  (* the leaf is not switched off in one of the elements by a restricted basis *)
  leaf_of b path e w p n -> leaf_of b path e' w' p n' -> node_size n <> 0%nat -> node_size n' <> 0%nat ->
  (* a common vertex of two elements *)
  (fg_vidx fg e i = fg_vidx fg e' j -> image 2 (P e) x = nth i (P e) [] -> image 2 (P e') x' = nth i (P e) [] ->
   forall y y', is_value b path su e coefficients x y -> is_value b path su e' coefficients x' y' ->
   forall k, (k < su_cdim su)%nat -> range_entry p y k = range_entry p y' k) /\
  (* the midpoint of a common edge *)
  (same_edge fg e i e' j -> image 2 (P e) x = edge_midpoint (P e) i -> image 2 (P e') x' = edge_midpoint (P e) i ->
   forall dy dy', is_derivative b path su e coefficients x dy -> is_derivative b path su e' coefficients x' dy' ->
   forall k g, (k < su_cdim su)%nat -> (g < 2)%nat -> range_entry p dy (k * 2 + g) = range_entry p dy' (k * 2 + g)).
Proof.
  intros E X fg gr P position pb geo fe0 fe mp types b path su p els TV VX ED HC FE OKS Hl LE cf e e' i j x x' w n w' n'
    He He' Hi Hj Hx Hx' L L' NZ NZ'.
  set (l := mapper_leaf gr mp layout types (fun _ => localKeys)) in *.
  destruct (FE e He) as (HG & HR & HB). destruct (FE e' He') as (HG' & HR' & HB').
  assert (BD : forall e, els e -> exists o, bound (P e) o (fe e)).
  { intros a Ha. destruct (FE a Ha) as (A1 & A2 & A3). destruct (C53_common_normals fg P position TV) as (pb' & C1 & C2).
    destruct (C2 a (geo a) (fe0 a) Ha A1 A2) as (o & f & F1 & F2 & _). exists o. congruence. }
  assert (F : forall k e w n, (k < su_cdim su)%nat -> els e -> leaf_of b path e w p n -> node_size n <> 0%nat ->
    let c := map (coefficient b path cf p k) (lf_indices l e) in
    exists u g, gradient 2 u g /\ has_coefficients (P e) (fe e) u c /\
    (forall x y, is_vec 2 x -> is_value b path su e cf x y -> range_entry p y k = u (image 2 (P e) x)) /\
    forall x y m, is_vec 2 x -> is_derivative b path su e cf x y -> (m < 2)%nat -> range_entry p y (k * 2 + m) = nth m (g (image 2 (P e) x)) 0).
  { clear - OKS BD LE Hl TV. intros k e w n Hk He L NZ c. destruct (BD e He) as (o & Bo). apply bound_is in Bo as (G & HS & HG & Ho & Q).
    destruct (leaf_function b path els su OKS 2 2 (P e) 6 (evaluateFunction (fe e)) (evaluateJacobian (fe e))
      (elem 2 coefficients (matrix G o) []) (fun k => elem 2 coefficients (matrix G o) [k]) cf e w p n l k)
      as (Lc & u & g & H & Hg & HH & U & V & D); auto.
    - right. now left.
    - intros c0 Hc0. now apply morley_poly.
    - intros x Hx. rewrite Q. split; [now apply eval_function|apply elem_length].
    - intros x m Hx Hm. rewrite Q. split; [now apply eval_jacobian|]. split; [apply elem_length|]. intros a Ha. apply elem_partial; auto. now left.
    - exists u, g. split; auto. split; [split; [exact Lc|]|split; auto]. intros x Hx. eexists. rewrite Q. split; [now apply eval_function|]. now apply U. }
  split.
  - intros Q I I' y y' V V' k Hk.
    destruct (F k e w n Hk He L NZ) as (u & d & G1 & G3 & G4 & _). destruct (F k e' w' n' Hk He' L' NZ') as (u' & d' & G1' & G3' & G4' & _).
    destruct (BD e He) as (o & B). destruct (BD e' He') as (o' & B').
    rewrite (G4 x y Hx V), (G4' x' y' Hx' V'), I, I'.
    apply (C53_agree_at_vertices (P e) o (fe e) u d _ (P e') o' (fe e') u' d' _ i j B B' G1 G1' G3 G3' Hi Hj).
    + destruct TV. rewrite tr_position, tr_position by auto. now rewrite Q.
    + apply (proj1 (C53_common_coefficients gr mp types e e' i j (coefficient b path cf p k) Hi Hj)). now apply VX.
  - intros SE I I' y y' V V' k g Hk Hg.
    destruct (F k e w n Hk He L NZ) as (u & d & G1 & G3 & _ & G5). destruct (F k e' w' n' Hk He' L' NZ') as (u' & d' & G1' & G3' & _ & G5').
    rewrite (G5 x y g Hx V Hg), (G5' x' y' g Hx' V' Hg), I, I'. f_equal.
    apply (C53_gradients_agree_at_midpoints fg P position pb e e' i j (geo e) (geo e') (fe0 e) (fe0 e') (fe e) (fe e') u d _ u' d' _ TV HC He He' HG HG' HR HR' HB HB' G1 G1' G3 G3' Hi Hj SE).
    + apply (proj2 (C53_common_coefficients gr mp types e e' i j (coefficient b path cf p k) Hi Hj)). now apply ED.
    + intros a a' Ha Ha' Q. apply (proj1 (C53_common_coefficients gr mp types e e' a a' (coefficient b path cf p k) Ha Ha')). now apply VX.
Qed.

(** * The hypotheses are met *)

(** Functions on the two triangles (0,0), (2,0), (1,3) and (2,0), (4,2), (1,3); their
    common vertex (2,0) and the midpoint (3/2,3/2) of their common edge. *)
Example C80_morley_met : let fg := Triangle_example.two in let geo := fun e => Hermite_props.ex_geo (Triangle_example.P e) in
  exists (pb : prebasis bool) (fe0 fe : bool -> morley) (mp : mapper nat) (su : setup bool (list R)),
  let l := mapper_leaf grid2 mp layout [[false; true]] (fun _ => localKeys) in let els := fun e => In e (fg_elements fg) in
  triangles fg Triangle_example.P Triangle_example.position /\
  (forall e e' i j, els e -> els e' -> (i < 3)%nat -> (j < 3)%nat -> fg_vidx fg e i = fg_vidx fg e' j -> g_sub grid2 e i 2 = g_sub grid2 e' j 2) /\
  (forall e e' i j, els e -> els e' -> (i < 3)%nat -> (j < 3)%nat -> same_edge fg e i e' j -> g_sub grid2 e i 1 = g_sub grid2 e' j 1) /\
  construct fg = Some pb /\
  (forall e, els e -> affine_geometry 2 (Triangle_example.P e) (geo e) /\ reachable (fe0 e) /\ node_bind pb (fe0 e) e (geo e) = Some (fe e)) /\
  setup_ok (BLeaf l) [] els su /\ leaf_at (BLeaf l) ([] ++ []) = Some l /\
  (forall e, els e -> leaf_element su [] 2 (Triangle_example.P e) e (evaluateFunction (fe e)) (evaluateJacobian (fe e))) /\
  fg_vidx fg false 1 = fg_vidx fg true 0 /\
  image 2 (Triangle_example.P false) [1; 0] = nth 1 (Triangle_example.P false) [] /\ image 2 (Triangle_example.P true) [0; 0] = nth 1 (Triangle_example.P false) [] /\
  same_edge fg false 2 true 1 /\
  image 2 (Triangle_example.P false) [1/2; 1/2] = edge_midpoint (Triangle_example.P false) 2 /\
  image 2 (Triangle_example.P true) [0; 1/2] = edge_midpoint (Triangle_example.P false) 2 /\
  (forall c e x, coefs_ok (BLeaf l) els su c -> els e ->
     exists y dy, is_value (BLeaf l) [] su e c x y /\ is_derivative (BLeaf l) [] su e c x dy) /\
  (forall e, exists w n, leaf_of (BLeaf l) [] e w [] n /\ node_size n <> 0%nat).
Proof.
  intros fg geo. destruct (C53_common_normals fg _ _ Triangle_example.two_ok) as (pb & HC & HB).
  assert (GE : forall e, affine_geometry 2 (Triangle_example.P e) (geo e)) by (intros e x _; split; reflexivity).
  destruct (HB false (geo false) default (all2 false) (GE false) r_default) as (o & fe & Hfe & Bf & HB').
  destruct (HB' true (geo true) default (all2 true) (GE true) r_default) as (o' & fe' & Hfe' & Bf' & _). clear HB HB'.
  apply bound_is in Bf as (G & _ & _ & _ & Q). apply bound_is in Bf' as (G' & _ & _ & _ & Q').
  destruct (C53_layout_matches_keys els2 grid2) as (_ & LO & KO); [intros [|] _; split; reflexivity|].
  set (mp := mapper2 1 1 0).
  assert (MO : mapper_ok els2 grid2 layout mp) by (apply mapper2_ok; try split; reflexivity).
  pose proof (proj1 (C30_mapper_leaf els2 grid2 layout [[false; true]] (fun _ => localKeys) mp grid2_ok LO types2_ok MO KO)) as L2.
  set (l := mapper_leaf grid2 mp layout [[false; true]] (fun _ => localKeys)) in *.
  set (fes := fun e : bool => if e then fe' else fe).
  set (mats := fun e : bool => if e then matrix G' o' else matrix G o).
  set (su := su2 l 6 (fun e => elem 2 coefficients (mats e) []) (fun e k => elem 2 coefficients (mats e) [k])).
  exists pb, (fun _ => default), fes, mp, su.
  cbv zeta. fold l. change (fun e => In e (fg_elements fg)) with els2.
  assert (LE : forall e ks x, length (elem 2 coefficients (mats e) ks x) = 6%nat) by (intros e ks x; unfold mats; destruct e; apply elem_length).
  assert (OKS : setup_ok (BLeaf l) [] els2 su).
  { apply setup2_ok; auto. }
  split; [exact Triangle_example.two_ok|].
  split. { intros e e' i j _ _ Hi Hj. revert e e'. destruct i as [|[|[|i]]]; [..|lia]; (destruct j as [|[|[|j]]]; [..|lia]); intros [|] [|]; cbn; intros Y; try discriminate; reflexivity. }
  split; [intros e e' i j _ _; apply edges2|]. split; [exact HC|].
  split; [intros [|] _; (split; [apply GE|split; [constructor|assumption]])|]. split; [exact OKS|]. split; [reflexivity|].
  split. { intros e _. apply element2_ok; try (intros; apply LE); unfold fes, mats.
    - intros x Hx. destruct e; [rewrite Q'|rewrite Q]; now apply eval_function.
    - intros x k Hx Hk. destruct e; [rewrite Q'|rewrite Q]; now apply eval_jacobian. }
  split; [reflexivity|].
  split; [unfold image, comb, bary, total; cbn; f_equal; [lra|f_equal; lra]|]. split; [unfold image, comb, bary, total; cbn; f_equal; [lra|f_equal; lra]|].
  split; [left; reflexivity|].
  split; [unfold image, comb, bary, total; cbn; f_equal; [lra|f_equal; lra]|]. split; [unfold image, comb, bary, total; cbn; f_equal; [lra|f_equal; lra]|].
  split; [intros c e x Hc He; now apply (values_exist (BLeaf l) [] els2)|].
  intros e. destruct (leaf2_ex l 6 L2 (fun _ => eq_refl) e) as (w & n & H1 & H2). exists w, n. split; auto. now rewrite H2.
Qed.

Print Assumptions C80_morley_agreement.
