(** C80 for the Argyris basis: discrete functions are continuously differentiable. *)
From Coq Require Import List Arith Lia Bool Reals Lra.
From Verif Require Import Lib Basis_model Basis_spec Container_model
  DiscreteFunction_model DiscreteFunction_spec MonomialSet_spec Nodal_spec Nodal_poly Nodal_rat Derivative_spec NodalFunctions_spec NodalFunctions_proofs.
From Verif Require Import GeometryType_model Mapper_model Mapper_spec Hermite_model Hermite_spec Orientation_model Triangle_spec Table2_proofs
  Argyris_model Argyris_spec Argyris_proofs Argyris_props.
From Verif Require Import Mapper_props NodalFunctions_example.
Import ListNotations.
Local Open Scope R_scope.

Lemma argyris_poly fe c : length c = 21%nat -> polynomial 2 5 (fun x => dot c (basis fe [] x)).
Proof.
  intros Hc. apply poly_ext with (v := fun x => dot (pull fe c) (sh [] x)); [intros x _; now apply basis_values|].
  apply shape_poly.
  - apply Forall_forall. intros e He. vm_compute in He. repeat (destruct He as [<-|He]; [split; [reflexivity|vm_compute; lia]|]). destruct He.
  - apply Forall_forall. intros r Hr. apply in_map_iff in Hr as (q & <- & Hq). unfold rv. rewrite map_length. revert q Hq. apply Forall_forall. repeat constructor.
Qed.

Theorem C80_argyris_continuously_differentiable : forall (E X : Type) (v : view E X) (P : E -> list (list R)) (position : nat -> list R)
    (pb : prebasis E X) (geo : E -> geometry) (fe : E -> argyris) (mp : mapper X) (types : list gt)
    (b : bexpr E) (path : list nat) (su : setup E (list R)) (p : list nat),
  let els := fun e => In e (fg_elements (v_f v)) in
  triangle_view v P position ->
  (* edges with the same vertices are the same entity *)
  (forall e e' i j, els e -> els e' -> (i < 3)%nat -> (j < 3)%nat -> same_edge (v_f v) e i e' j ->
     g_sub (v_grid v) e i 1 = g_sub (v_grid v) e' j 1) ->
  (* an Argyris basis, and its finite elements *)
  construct v = Some pb -> (forall e, els e -> affine_geometry 2 (P e) (geo e) /\ node_bind pb e (geo e) = Some (fe e)) ->
  (* leaf [p] of the basis of the function is this basis *)
  setup_ok b path els su ->
  leaf_at b (path ++ p) = Some (mapper_leaf (v_grid v) mp layout types (fun _ => localKeys)) ->
  (forall e, els e -> leaf_element su p 2 (P e) e (evaluateFunction (fe e)) (evaluateJacobian (fe e))) ->
  forall (coefficients : mi -> option (list R)) e e' i j z x x' y y' dy dy' w n w' n',
  (* the same point of a common edge in two elements *)
  els e -> els e' -> (i < 3)%nat -> (j < 3)%nat -> same_edge (v_f v) e i e' j -> on_edge (P e) i z ->
  is_vec 2 x -> is_vec 2 x' -> image 2 (P e) x = z -> image 2 (P e') x' = z ->
  is_value b path su e coefficients x y -> is_value b path su e' coefficients x' y' ->
  is_derivative b path su e coefficients x dy -> is_derivative b path su e' coefficients x' dy' ->
  (* the leaf is not switched off in one of the elements by a restricted basis *)
  leaf_of b path e w p n -> leaf_of b path e' w' p n' -> node_size n <> 0%nat -> node_size n' <> 0%nat ->
  (forall k, (k < su_cdim su)%nat -> range_entry p y k = range_entry p y' k) /\
  forall k g, (k < su_cdim su)%nat -> (g < 2)%nat -> range_entry p dy (k * 2 + g) = range_entry p dy' (k * 2 + g).
Proof.
  intros E X v P position pb geo fe mp types b path su p els TV ED HC FE OKS Hl LE cf e e' i j z x x' y y' dy dy' w n w' n'
    He He' Hi Hj SE (t & Hz) Hx Hx' Iz Iz' V V' D D' L L' NZ NZ'.
  set (l := mapper_leaf (v_grid v) mp layout types (fun _ => localKeys)) in *.
  destruct (FE e He) as [HG HB]. destruct (FE e' He') as [HG' HB'].
  assert (Q : forall k, (k < su_cdim su)%nat -> range_entry p y k = range_entry p y' k /\
    forall g, (g < 2)%nat -> range_entry p dy (k * 2 + g) = range_entry p dy' (k * 2 + g)).
  2: { split; intros k; [intros Hk; apply Q; auto|intros g Hk Hg; now apply Q]. }
  intros k Hk.
  assert (F : forall e w n, els e -> leaf_of b path e w p n -> node_size n <> 0%nat ->
    let c := map (coefficient b path cf p k) (lf_indices l e) in
    exists u g H, gradient 2 u g /\ hessian 2 g H /\ has_coefficients (P e) (fe e) u c /\
    (forall x y, is_vec 2 x -> is_value b path su e cf x y -> range_entry p y k = u (image 2 (P e) x)) /\
    forall x y m, is_vec 2 x -> is_derivative b path su e cf x y -> (m < 2)%nat -> range_entry p y (k * 2 + m) = nth m (g (image 2 (P e) x)) 0).
  { clear - OKS FE LE Hl Hk TV. intros e w n He L NZ c.
    destruct (leaf_function b path els su OKS 2 5 (P e) 21 (evaluateFunction (fe e)) (evaluateJacobian (fe e)) (basis (fe e) []) (fun k => basis (fe e) [k]) cf e w p n l k)
      as (Lc & u & g & H & Hg & HH & U & V & D); auto.
    - right. now left.
    - exact (tr_simplex _ _ _ (tv_triangles _ _ _ TV) e He).
    - intros c0 Hc0. now apply argyris_poly.
    - intros x Hx. split; [now apply eval_function|apply basis_length].
    - intros x m Hx Hm. split; [now apply eval_jacobian|]. split; [apply basis_length|]. intros a Ha. now apply basis_partial.
    - exists u, g, H. split; auto. split; auto. split; auto. split; auto. intros x Hx. exists (basis (fe e) [] x). split; [now apply eval_function|]. now apply U. }
  destruct (F e w n He L NZ) as (u & d & H & G1 & G2 & G3 & G4 & G5). destruct (F e' w' n' He' L' NZ') as (u' & d' & H' & G1' & G2' & G3' & G4' & G5').
  assert (A : u z = u' z /\ d z = d' z).
  { rewrite Hz. apply (C54_continuously_differentiable v P position pb e e' i j (geo e) (geo e') (fe e) (fe e') u d H _ u' d' H' _ t TV HC He He' HG HG' HB HB' G1 G2 G1' G2' G3 G3' Hi Hj SE).
    - apply (proj2 (C54_common_coefficients (v_grid v) mp types e e' i j (coefficient b path cf p k) Hi Hj)). now apply ED.
    - intros a a' m Ha Ha' Hm Q. apply (proj1 (C54_common_coefficients (v_grid v) mp types e e' a a' (coefficient b path cf p k) Ha Ha')); auto.
      now apply (tv_vertices _ _ _ TV). }
  destruct A as [A B]. split.
  - rewrite (G4 x y Hx V), (G4' x' y' Hx' V'), Iz, Iz'. exact A.
  - intros g Hg. rewrite (G5 x dy g Hx D Hg), (G5' x' dy' g Hx' D' Hg), Iz, Iz', B. reflexivity.
Qed.
(** * The hypotheses are met *)

(** Functions on the two triangles (0,0), (2,0), (1,3) and (2,0), (4,2), (1,3); the point
    (3/2,3/2) of their common edge. *)
Example C80_argyris_met : let v := ex_view in let geo := fun e => Hermite_props.ex_geo (Triangle_example.P e) in
  exists (pb : prebasis bool nat) (fe : bool -> argyris) (mp : mapper nat) (su : setup bool (list R)),
  let l := mapper_leaf (v_grid v) mp layout [[false; true]] (fun _ => localKeys) in let els := fun e => In e (fg_elements (v_f v)) in
  triangle_view v Triangle_example.P Triangle_example.position /\
  (forall e e' i j, els e -> els e' -> (i < 3)%nat -> (j < 3)%nat -> same_edge (v_f v) e i e' j ->
     g_sub (v_grid v) e i 1 = g_sub (v_grid v) e' j 1) /\
  construct v = Some pb /\ (forall e, els e -> affine_geometry 2 (Triangle_example.P e) (geo e) /\ node_bind pb e (geo e) = Some (fe e)) /\
  setup_ok (BLeaf l) [] els su /\ leaf_at (BLeaf l) ([] ++ []) = Some l /\
  (forall e, els e -> leaf_element su [] 2 (Triangle_example.P e) e (evaluateFunction (fe e)) (evaluateJacobian (fe e))) /\
  same_edge (v_f v) false 2 true 1 /\ on_edge (Triangle_example.P false) 2 [3/2; 3/2] /\
  image 2 (Triangle_example.P false) [1/2; 1/2] = [3/2; 3/2] /\ image 2 (Triangle_example.P true) [0; 1/2] = [3/2; 3/2] /\
  (forall c e x, coefs_ok (BLeaf l) els su c -> els e ->
     exists y dy, is_value (BLeaf l) [] su e c x y /\ is_derivative (BLeaf l) [] su e c x dy) /\
  (forall e, exists w n, leaf_of (BLeaf l) [] e w [] n /\ node_size n <> 0%nat).
Proof.
  intros v geo. destruct (C54_bind v _ _ C54_ex_view) as (pb & HC & HB).
  destruct (HB false (geo false) (all2 false) (C54_ex_geometry false)) as (h & o & fe & Hfe & _ & HB').
  destruct (HB' true (geo true) (all2 true) (C54_ex_geometry true)) as (h' & o' & fe' & Hfe' & _). clear HB HB'.
  destruct (C54_layout_matches_keys els2 grid2) as (_ & LO & KO); [intros [|] _; split; reflexivity|].
  set (mp := mapper2 6 1 0).
  assert (MO : mapper_ok els2 grid2 layout mp) by (apply mapper2_ok; try split; reflexivity).
  pose proof (proj1 (C30_mapper_leaf els2 grid2 layout [[false; true]] (fun _ => localKeys) mp grid2_ok LO types2_ok MO KO)) as L2.
  set (l := mapper_leaf grid2 mp layout [[false; true]] (fun _ => localKeys)) in *.
  set (fes := fun e : bool => if e then fe' else fe).
  exists pb, fes, mp, (su2 l 21 (fun e => basis (fes e) []) (fun e k => basis (fes e) [k])).
  cbv zeta. change (v_grid v) with grid2. fold l. change (fun e => In e (fg_elements (v_f v))) with els2.
  assert (OKS : setup_ok (BLeaf l) [] els2 (su2 l 21 (fun e => basis (fes e) []) (fun e k => basis (fes e) [k]))).
  { apply setup2_ok; auto. }
  split; [exact C54_ex_view|]. split; [intros e e' i j _ _; apply edges2|]. split; [exact HC|].
  split; [intros [|] _; (split; [apply C54_ex_geometry|assumption])|]. split; [exact OKS|]. split; [reflexivity|].
  split. { intros e _. apply element2_ok; try (intros; apply basis_length); [intros x Hx; now apply eval_function|intros x k Hx Hk; now apply eval_jacobian]. }
  split; [exact C54_ex_same_edge|]. split; [exists (1/2); cbn; f_equal; [lra|f_equal; lra]|].
  split; [unfold image, comb, bary, total; cbn; f_equal; [lra|f_equal; lra]|]. split; [unfold image, comb, bary, total; cbn; f_equal; [lra|f_equal; lra]|].
  split; [intros c e x Hc He; now apply (values_exist (BLeaf l) [] els2)|].
  intros e. destruct (leaf2_ex l 21 L2 (fun _ => eq_refl) e) as (w & n & H1 & H2). exists w, n. split; auto. now rewrite H2.
Qed.

Print Assumptions C80_argyris_continuously_differentiable.
