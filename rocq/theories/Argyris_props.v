(** C54: the Argyris basis. *)
From Coq Require Import Reals QArith Qreals Lra Lia List Arith Bool.
From Verif Require Import Lib MonomialSet_spec MonomialSet_props Nodal_spec Nodal_poly Nodal_rat GeometryType_model.
From Verif Require Basis_model.
From Verif Require Import Mapper_model Mapper_spec Mapper_props Keys_check MeshSize_model MeshSize_spec MeshSize_props.
From Verif Require Import Orientation_model Orientation_spec Orientation_props.
From Verif Require Morley_proofs Morley_props Hermite_props Triangle_example.
From Verif Require Import Hermite_model Hermite_spec Hermite_proofs Table2_model Table2_proofs Triangle_spec Triangle_proofs Triangle_grid Argyris_model Argyris_spec Argyris_proofs Argyris_edges Argyris_lines.
Import ListNotations.
Local Open Scope R_scope.
#[local] Arguments total : simpl never.

(** * Degrees of freedom *)
(** The coefficients of a function of the space are its values and (scaled) derivatives of
    first and second order at the vertices, and its normal derivatives at the midpoints of
    the edges. *)
Theorem C54_degrees_of_freedom P h o fe u g H c : bound P h o fe -> gradient 2 u g -> hessian 2 g H -> has_coefficients P fe u c ->
  (forall i, (i < 3)%nat -> let z := nth i P [] in let s := nth i h 0 in
     nth (6 * i) c 0 = u z /\
     nth (6 * i + 1) c 0 = s * nth 0 (g z) 0 /\ nth (6 * i + 2) c 0 = s * nth 1 (g z) 0 /\
     nth (6 * i + 3) c 0 = s ^ 2 * nth 0 (nth 0 (H z) []) 0 /\
     nth (6 * i + 4) c 0 = s ^ 2 * nth 1 (nth 0 (H z) []) 0 /\
     nth (6 * i + 4) c 0 = s ^ 2 * nth 0 (nth 1 (H z) []) 0 /\
     nth (6 * i + 5) c 0 = s ^ 2 * nth 1 (nth 1 (H z) []) 0) /\
  forall i, (i < 3)%nat -> nth (18 + i) c 0 = dot (g (edge_midpoint P i)) (edge_normal P o i).
Proof.
  intros Hb Hg HH Hc. apply bound_is in Hb. destruct Hb as (G & HS & HG & Lh & Ph & Lo & ->). assert (Lc : length c = 21%nat) by apply Hc.
  assert (S : forall i, (i < 3)%nat -> entry (H (nth i P [])) 0 1 = entry (H (nth i P [])) 1 0) by (intros i Hi; apply (vertex_sym P u g H (pull (bound_form G h o) c) HS Hg HH); auto; now apply (coefficients_ref P _ u c)).
  assert (E := coefficients_target P G h o u g H c HS HG Lh Ph Hg HH Hc). clear Hc Lc. subst c. split.
  - intros i Hi z s. unfold entry in S. assert (T := target_vertex P h o u g H i Hi). specialize (S i Hi). fold z in S. fold z s in T.
    assert (T0 := T 0%nat ltac:(lia)). rewrite Nat.add_0_r in T0. rewrite T0, !T by lia. cbn [nth]. unfold entry. rewrite <- S. repeat split; ring.
  - intros i Hi. rewrite target_edge by auto. symmetry. apply Morley_props.dot_dot2; [|apply Morley_props.edge_normal_vec]. apply Hg. destruct HS as (HP & HF & _). now apply Morley_proofs.midpoint_is_vec.
Qed.
(** interpolate() returns the coefficients of every function of the space. *)
Theorem C54_interpolation_inverse P h o fe u g H c : bound P h o fe -> gradient 2 u g -> hessian 2 g H -> has_coefficients P fe u c ->
  interpolate fe (fun x => u (image 2 P x)) (fun x => g (image 2 P x)) (fun x => H (image 2 P x)) = c.
Proof.
  intros Hb Hg HH Hc. apply bound_is in Hb. destruct Hb as (G & HS & HG & Lh & Ph & Lo & ->). rewrite interpolate_is by auto. symmetry. now apply (coefficients_target P G).
Qed.
(** All polynomials of degree 5 belong to the space, and interpolate() finds their
    coefficients. *)
Theorem C54_reproduces_polynomials P h o fe u g H : bound P h o fe -> polynomial 2 5 u -> gradient 2 u g -> hessian 2 g H ->
  has_coefficients P fe u (interpolate fe (fun x => u (image 2 P x)) (fun x => g (image 2 P x)) (fun x => H (image 2 P x))).
Proof.
  intros Hb Hu Hg HH. apply bound_is in Hb. destruct Hb as (G & HS & HG & Lh & Ph & Lo & ->). rewrite interpolate_is by auto. now apply target_coefficients.
Qed.

(** * Derivatives *)
(** evaluateJacobian and evaluateHessian return the partial derivatives of evaluateFunction
    and evaluateJacobian. *)
Theorem C54_derivatives P h o fe : bound P h o fe ->
  exists F J, (forall y, is_vec 2 y -> evaluateFunction fe y = Some (F y) /\ length (F y) = 21%nat /\
                 forall k, (k < 2)%nat -> evaluateJacobian fe y k = Some (J k y) /\ length (J k y) = 21%nat) /\
    forall x k, is_vec 2 x -> (k < 2)%nat ->
      (forall i, (i < 21)%nat -> partial (fun y => nth i (F y) 0) k x (nth i (J k x) 0)) /\
      forall l, (l < 2)%nat -> exists H, evaluateHessian fe x k l = Some H /\ length H = 21%nat /\
        forall i, (i < 21)%nat -> partial (fun y => nth i (J k y) 0) l x (nth i H 0).
Proof.
  intros _. exists (basis fe []), (fun k => basis fe [k]). split.
  - intros y Hy. split; [now apply eval_function|]. split; [apply basis_length|]. intros k Hk. split; [now apply eval_jacobian|apply basis_length].
  - intros x k Hx Hk. split.
    + intros i Hi. now apply basis_partial.
    + intros l Hl. eexists. split; [now apply eval_hessian|]. split; [apply basis_length|]. intros i Hi. now apply basis_partial2.
Qed.
(** partial() agrees with them, and rejects derivatives of order three and higher. *)
Theorem C54_partial_method fe x :
  partial_of fe [0; 0]%nat x = evaluateFunction fe x /\
  partial_of fe [1; 0]%nat x = evaluateJacobian fe x 0 /\ partial_of fe [0; 1]%nat x = evaluateJacobian fe x 1 /\
  partial_of fe [2; 0]%nat x = evaluateHessian fe x 0 0 /\ partial_of fe [1; 1]%nat x = evaluateHessian fe x 0 1 /\
  partial_of fe [0; 2]%nat x = evaluateHessian fe x 1 1 /\
  forall order, (2 < degree order)%nat -> partial_of fe order x = None.
Proof.
  repeat (split; [reflexivity|]). intros order H. unfold partial_of, ref_partial.
  assert (E : forall l a, fold_left Nat.add l a = (a + degree l)%nat).
  { induction l as [|b l IH]; intros a; cbn [fold_left]; [unfold degree; cbn; lia|]. rewrite IH. unfold degree. cbn. lia. }
  rewrite E. cbn [Nat.add]. destruct (degree order) as [|[|[|n]]]; try lia. reflexivity.
Qed.

(** * Conformity *)
Section Grid.
Context {E X : Type} (v : view E X) (P : E -> list (list R)) (position : nat -> list R) (T : triangle_view v P position).
Let els e := In e (fg_elements (v_f v)).
Lemma vertex_subtype e i : els e -> (i < 3)%nat -> subtype (v_grid v) e i 2 [].
Proof.
  intros He Hi. assert (HD := Mapper_spec.go_dim _ _ (tv_grid v P position T) e He). rewrite (tv_dim v P position T) in HD. assert (HT := tv_type v P position T e He).
  destruct (Hermite_props.simplex_gt 2 (g_type (v_grid v) e) ltac:(right; now left) HD HT) as [b Hb]. unfold subtype. rewrite Hb. revert i Hi. apply three_cases; destruct b; reflexivity.
Qed.
Lemma vertex_layout : layout_ok mcmgVertexLayout.
Proof. intros t t' [_ L]. unfold mcmgVertexLayout, gt_dim. now rewrite L. Qed.
Lemma grid_binds : exists pb, construct v = Some pb /\
  forall e G, els e -> affine_geometry 2 (P e) G -> exists h o fe, node_bind pb e G = Some fe /\ bound (P e) h o fe /\
    (forall i, (i < 3)%nat -> edge_normal (P e) o i = unit_normal (low_end (v_f v) position e i) (high_end (v_f v) position e i)) /\
    forall i, (i < 3)%nat -> nth_error (pb_averageVertexMeshSize pb) (mp_off (v_vertices v) (g_sub (v_grid v) e i 2)) = Some (nth i h 0).
Proof.
  destruct (C55_average_mesh_size (v_grid v) (v_vertices v) mcmgVertexLayout els (fg_elements (v_f v)) (v_volume v)) as (r & Hr & _ & HV);
    [apply T|apply vertex_layout|apply T|rewrite (tv_dim v P position T); lia|apply T|tauto|apply T|].
  destruct (orientation_normals (v_f v) P position (tv_triangles v P position T)) as (os & HO & HN).
  unfold construct, averageVertexMeshSizes. rewrite Hr. cbn [obind]. rewrite HO. cbn [obind]. eexists. split; [reflexivity|].
  intros e G He HG. destruct (HN e He) as (o & Ho & Lo & No).
  assert (S : forall i, (i < 3)%nat -> exists s, nth_error r (mp_off (v_vertices v) (g_sub (v_grid v) e i 2)) = Some s /\ 0 < s).
  { intros i Hi. destruct (HV (g_sub (v_grid v) e i 2) [] 0%nat) as (s & _ & Hs & Ps & _); [exists e, i, 2%nat; split; auto; split; auto; now apply vertex_subtype|cbn; lia|]. rewrite Nat.add_0_r in Hs. eauto. }
  destruct (S 0%nat ltac:(lia)) as (s0 & H0 & P0). destruct (S 1%nat ltac:(lia)) as (s1 & H1 & P1). destruct (S 2%nat ltac:(lia)) as (s2 & H2 & P2).
  assert (Q : forall i, (i < 3)%nat -> nth_error r (mp_off (v_vertices v) (g_sub (v_grid v) e i 2)) = nth_error [s0; s1; s2] i) by (apply three_cases; auto).
  exists [s0; s1; s2], o, (bound_form G [s0; s1; s2] o). split; [unfold node_bind; cbn [pb_vertexMapper pb_averageVertexMeshSize pb_elementMapper pb_edgeOrientations]; unfold subIndex; apply (bind_is _ _ _ _ _ [s0; s1; s2] o); auto|].
  split; [|split; auto; cbn [pb_averageVertexMeshSize]; apply three_cases; auto].
  exists G, (fun i => mp_off (v_vertices v) (g_sub (v_grid v) e i 2)), r, (fg_idx (v_f v) e), os. split; [apply (tr_simplex _ _ _ (tv_triangles v P position T) e He)|]. split; auto.
  split; auto. split; [repeat constructor; auto|]. split; auto. split; auto. split; auto. now apply bind_is.
Qed.
End Grid.
(** Every element of the grid view can be bound.  Common vertices get the same mesh size, and
    common edges get one normal. *)
Theorem C54_bind {E X} (v : view E X) P position : triangle_view v P position ->
  exists pb, construct v = Some pb /\
  forall e G, In e (fg_elements (v_f v)) -> affine_geometry 2 (P e) G ->
    exists h o fe, node_bind pb e G = Some fe /\ bound (P e) h o fe /\
    forall e' G', In e' (fg_elements (v_f v)) -> affine_geometry 2 (P e') G' ->
      exists h' o' fe', node_bind pb e' G' = Some fe' /\ bound (P e') h' o' fe' /\
      (forall i j, (i < 3)%nat -> (j < 3)%nat -> fg_vidx (v_f v) e i = fg_vidx (v_f v) e' j -> nth i h 0 = nth j h' 0) /\
      forall i j, (i < 3)%nat -> (j < 3)%nat -> same_edge (v_f v) e i e' j ->
        edge_midpoint (P e) i = edge_midpoint (P e') j /\ edge_normal (P e) o i = edge_normal (P e') o' j.
Proof.
  intros T. destruct (grid_binds v P position T) as (pb & HC & B). exists pb. split; auto. intros e G He HG. destruct (B e G He HG) as (h & o & fe & HB & Hb & HN & HM). exists h, o, fe. split; auto. split; auto.
  intros e' G' He' HG'. destruct (B e' G' He' HG') as (h' & o' & fe' & HB' & Hb' & HN' & HM'). exists h', o', fe'. split; auto. split; auto. assert (T3 := tv_triangles v P position T). split.
  - intros i j Hi Hj X0. assert (Y := HM i Hi). rewrite (tv_vertices v P position T e e' i j He He' Hi Hj X0), (HM' j Hj) in Y. congruence.
  - intros i j Hi Hj HE. rewrite HN, HN' by auto. destruct (same_ends (v_f v) position e i e' j HE) as [<- <-]. split; auto.
    rewrite !(midpoint_ends (v_f v) P position T3) by auto. now destruct (same_ends (v_f v) position e i e' j HE) as [<- <-].
Qed.
(** The functions on two elements with the same coefficients for a common vertex have the
    same value, gradient and Hessian there. *)
Theorem C54_agree_at_vertices P h o fe u g H c P' h' o' fe' u' g' H' c' i j :
  bound P h o fe -> bound P' h' o' fe' -> gradient 2 u g -> gradient 2 u' g' -> hessian 2 g H -> hessian 2 g' H' ->
  has_coefficients P fe u c -> has_coefficients P' fe' u' c' ->
  (i < 3)%nat -> (j < 3)%nat -> nth i P [] = nth j P' [] -> nth i h 0 = nth j h' 0 ->
  (forall k, (k < 6)%nat -> nth (6 * i + k) c 0 = nth (6 * j + k) c' 0) ->
  let z := nth i P [] in u z = u' z /\ g z = g' z /\ forall k, (k < 2)%nat -> nth k (H z) [] = nth k (H' z) [].
Proof.
  intros Hb Hb' Hg Hg' HH HH' Hc Hc' Hi Hj EP Eh Ec z.
  destruct (C54_degrees_of_freedom P h o fe u g H c Hb Hg HH Hc) as [D _]. destruct (C54_degrees_of_freedom P' h' o' fe' u' g' H' c' Hb' Hg' HH' Hc') as [D' _].
  specialize (D i Hi). specialize (D' j Hj). cbv zeta in D, D'. rewrite <- EP, <- Eh in D'. fold z in D, D'.
  assert (Ps : 0 < nth i h 0) by (apply bound_is in Hb; destruct Hb as (G & _ & _ & Lh & Ph & _); now apply size_pos).
  assert (Vz : is_vec 2 z) by (apply bound_is in Hb; destruct Hb as (G & HS & _); now apply vertex_vec).
  revert D D' Ps. generalize (nth i h 0). intros s D D' Ps.
  assert (E0 := Ec 0%nat ltac:(lia)). assert (E1 := Ec 1%nat ltac:(lia)). assert (E2 := Ec 2%nat ltac:(lia)). assert (E3 := Ec 3%nat ltac:(lia)). assert (E4 := Ec 4%nat ltac:(lia)). assert (E5 := Ec 5%nat ltac:(lia)). clear Ec.
  rewrite !Nat.add_0_r in E0. destruct D as (A0 & A1 & A2 & A3 & A4 & A5 & A6). destruct D' as (B0 & B1 & B2 & B3 & B4 & B5 & B6).
  assert (G1 := proj1 (Hg z Vz)). assert (G2 := proj1 (Hg' z Vz)).
  assert (R0 := proj1 (HH 0%nat ltac:(lia) z Vz)). assert (R1 := proj1 (HH 1%nat ltac:(lia) z Vz)). assert (R0' := proj1 (HH' 0%nat ltac:(lia) z Vz)). assert (R1' := proj1 (HH' 1%nat ltac:(lia) z Vz)). cbv beta in *.
  assert (Z1 : forall a b, s * a = s * b -> a = b) by (intros a b Q; apply (Rmult_eq_reg_l s); auto; lra).
  assert (Z2 : forall a b, s ^ 2 * a = s ^ 2 * b -> a = b) by (intros a b Q; apply (Rmult_eq_reg_l (s ^ 2)); auto; apply pow_nonzero; lra).
  split; [congruence|]. split.
  - destruct (g z) as [|p [|q [|]]]; try discriminate. destruct (g' z) as [|p' [|q' [|]]]; try discriminate. cbn [nth] in *. f_equal; [|f_equal]; apply Z1; congruence.
  - intros k Hk. destruct k as [|[|k]]; [| |lia].
    + destruct (nth 0 (H z) []) as [|p [|q [|]]]; try discriminate. destruct (nth 0 (H' z) []) as [|p' [|q' [|]]]; try discriminate. cbn [nth] in *. f_equal; [|f_equal]; apply Z2; congruence.
    + destruct (nth 1 (H z) []) as [|p [|q [|]]]; try discriminate. destruct (nth 1 (H' z) []) as [|p' [|q' [|]]]; try discriminate. cbn [nth] in *. f_equal; [|f_equal]; apply Z2; congruence.
Qed.
(** The global functions are continuously differentiable: the functions on two elements with
    the same coefficients for the vertices and the normal derivative of a common edge have the
    same values and gradients on that edge. *)
Theorem C54_continuously_differentiable {E X} (v : view E X) P position pb e e' i j G G' fe fe' u d H c u' d' H' c' t :
  triangle_view v P position -> construct v = Some pb -> In e (fg_elements (v_f v)) -> In e' (fg_elements (v_f v)) ->
  affine_geometry 2 (P e) G -> affine_geometry 2 (P e') G' ->
  node_bind pb e G = Some fe -> node_bind pb e' G' = Some fe' ->
  gradient 2 u d -> hessian 2 d H -> gradient 2 u' d' -> hessian 2 d' H' ->
  has_coefficients (P e) fe u c -> has_coefficients (P e') fe' u' c' ->
  (i < 3)%nat -> (j < 3)%nat -> same_edge (v_f v) e i e' j -> nth (18 + i) c 0 = nth (18 + j) c' 0 ->
  (forall a b k, (a < 3)%nat -> (b < 3)%nat -> (k < 6)%nat -> fg_vidx (v_f v) e a = fg_vidx (v_f v) e' b -> nth (6 * a + k) c 0 = nth (6 * b + k) c' 0) ->
  let a := nth (fst (edge_vertices i)) (P e) [] in let b := nth (snd (edge_vertices i)) (P e) [] in
  let z := vadd a (vscale t (vsub b a)) in
  u z = u' z /\ d z = d' z.
Proof.
  intros T HC He He' HG HG' HB HB' Hd HH Hd' HH' Hc Hc' Hi Hj HE Hn Hv a b z. assert (T3 := tv_triangles v P position T).
  destruct (C54_bind v P position T) as (pb0 & HC0 & B). assert (pb0 = pb) by congruence. subst pb0. clear HC0.
  destruct (B e G He HG) as (h & o & fe0 & HB0 & Hb & B'). destruct (B' e' G' He' HG') as (h' & o' & fe0' & HB0' & Hb' & HM & HN). clear B B'.
  assert (fe0 = fe) by congruence. assert (fe0' = fe') by congruence. subst fe0 fe0'. clear HB0 HB0'.
  destruct (C54_degrees_of_freedom _ _ _ _ _ _ _ _ Hb Hd HH Hc) as [_ D1]. destruct (C54_degrees_of_freedom _ _ _ _ _ _ _ _ Hb' Hd' HH' Hc') as [_ D1'].
  destruct (HN i j Hi Hj HE) as [M Nn]. rewrite D1, D1', <- M, <- Nn in Hn by auto. clear D1 D1' HN.
  assert (HS := tr_simplex _ _ _ T3 e He). assert (HS' := tr_simplex _ _ _ T3 e' He').
  assert (L := edge_lt i). assert (L' := edge_lt j). assert (V : forall k, (k < 3)%nat -> is_vec 2 (nth k (P e) [])) by (intros k Hk; now apply vertex_vec).
  assert (Va : is_vec 2 a) by (apply V; lia). assert (Vb : is_vec 2 b) by (apply V; lia).
  assert (Nab : a <> b) by now apply (positions_differ (v_f v) P position T3).
  (* the ends, as vertices of the other triangle *)
  assert (exists p q, (p < 3)%nat /\ (q < 3)%nat /\ p <> q /\ fg_vidx (v_f v) e' p = fg_vidx (v_f v) e (fst (edge_vertices i)) /\ fg_vidx (v_f v) e' q = fg_vidx (v_f v) e (snd (edge_vertices i))) as (p & q & Lp & Lq & Npq & Ep & Eq).
  { unfold same_edge in HE. rewrite (ends_are (v_f v) P position T3 e i He Hi), (ends_are (v_f v) P position T3 e' j He' Hj) in HE. cbn [fst snd] in HE.
    destruct HE as [HE|HE]; injection HE as X1 X2; [exists (fst (edge_vertices j)), (snd (edge_vertices j))|exists (snd (edge_vertices j)), (fst (edge_vertices j))]; (split; [lia|split; [lia|split; [lia|split; congruence]]]). }
  assert (Qa : nth p (P e') [] = a) by (unfold a; rewrite (tr_position _ _ _ T3 e' p He' Lp), (tr_position _ _ _ T3 e _ He) by lia; now rewrite Ep).
  assert (Qb : nth q (P e') [] = b) by (unfold b; rewrite (tr_position _ _ _ T3 e' q He' Lq), (tr_position _ _ _ T3 e _ He) by lia; now rewrite Eq).
  apply bound_is in Hb as HF. destruct HF as (G0 & _ & _ & _ & _ & _ & HF). apply bound_is in Hb' as HF'. destruct HF' as (G0' & _ & _ & _ & _ & _ & HF').
  assert (Lc : length c = 21%nat) by apply Hc. assert (Lc' : length c' = 21%nat) by apply Hc'.
  apply (agree_on_line (P e) u d H (pull fe c) (fst (edge_vertices i)) (snd (edge_vertices i)) (P e') u' d' H' (pull fe' c') p q t); auto; try lia; try (now apply (coefficients_ref _ _ _ _)).
  - assert (K : forall n m, (n < 3)%nat -> (m < 3)%nat -> fg_vidx (v_f v) e' m = fg_vidx (v_f v) e n -> nth m (P e') [] = nth n (P e) [] -> let y := nth n (P e) [] in u y = u' y /\ d y = d' y /\ forall k, (k < 2)%nat -> nth k (H y) [] = nth k (H' y) []).
    { intros n m Ln Lm Em Ey. apply (C54_agree_at_vertices _ _ _ _ _ _ _ _ _ _ _ _ _ _ _ _ n m Hb Hb' Hd Hd' HH HH' Hc Hc'); auto. }
    intros y [-> | ->]; [apply (K (fst (edge_vertices i)) p)|apply (K (snd (edge_vertices i)) q)]; auto; lia.
  - fold a b. change (edge_midpoint (P e) i) with (between a b) in Hn. unfold edge_normal in Hn. fold a b in Hn.
    destruct (nth i o false); [|exact Hn].
    assert (F : forall w, is_vec 2 w -> dot w (unit_normal b a) = - dot w (unit_normal a b)).
    { clear - Va Vb Nab. intros w Hw. unfold unit_normal. assert (Q : distance b a = distance a b).
      { unfold distance. f_equal. clear Nab. vec_cases. unfold dot, vsub, total. cbn -[Rplus Rmult Rminus]. ring. }
      rewrite Q. generalize (distance a b). intros L. clear Nab Q. vec_cases. unfold dot, vsub, total. cbn -[Rplus Rmult Rminus Rdiv Ropp]. unfold Rdiv. ring. }
    assert (Vm : is_vec 2 (between a b)) by (clear - Va Vb; revert Va Vb; generalize a b; intros x y Vx Vy; vec_cases; reflexivity).
    rewrite !F in Hn by (now apply Hd || now apply Hd'). lra.
Qed.

(** * Layout *)
(** On triangle grids the local keys of an element name each degree of freedom that the
    layout puts on its subentities once, so that C30_mapper_leaf applies. *)
Definition layout (t : gt) : nat := match ArgyrisMapperLayout t 2 with Some n => n | None => 0%nat end.
Theorem C54_layout_matches_keys {E X} (els : E -> Prop) (g : grid E X) :
  (forall e, els e -> gt_dim (g_type g e) = 2%nat /\ isSimplex (g_type g e) = true) ->
  (forall e i c t, els e -> subtype g e i c t -> ArgyrisMapperLayout t 2 = Some (layout t)) /\ layout_ok layout /\ keys_ok els g layout (fun _ => localKeys).
Proof.
  intros Hg. assert (Ht : forall e, els e -> exists b, g_type g e = [false; b]) by (intros e He; destruct (Hg e He) as [HD HS]; apply (Hermite_props.simplex_gt 2 (g_type g e) ltac:(right; now left) HD HS)).
  split; [|split].
  - intros e i c t He Hs. destruct (Ht e He) as [b Hb]. unfold subtype in Hs. rewrite Hb in Hs. apply nth_error_In in Hs.
    unfold layout. assert (exists n, ArgyrisMapperLayout t 2 = Some n) as [n ->]; [|reflexivity].
    destruct b; destruct c as [|[|[|c]]]; try rewrite GeometryType_props.subtypes_big in Hs by (cbn; lia); cbn in Hs; repeat (destruct Hs as [<-|Hs]; [eexists; reflexivity|]); destruct Hs.
  - intros t t' [H L]. unfold layout, ArgyrisMapperLayout, isTriangle, isSimplex, gt_dim. now rewrite L, H.
  - intros e He. destruct (Ht e He) as [b Hb]. unfold subtype. apply keys_check_ok. rewrite Hb. destruct b; vm_compute; reflexivity.
Qed.
(** Elements get the same coefficients for common vertices and edges from a global
    coefficient vector. *)
Theorem C54_common_coefficients {E X} (g : grid E X) mp types e e' i j (coefficient : nat -> R) :
  (i < 3)%nat -> (j < 3)%nat ->
  let l := mapper_leaf g mp layout types (fun _ => localKeys) in
  let c e := map coefficient (Basis_model.lf_indices l e) in
  (g_sub g e i 2 = g_sub g e' j 2 -> forall k, (k < 6)%nat -> nth (6 * i + k) (c e) 0 = nth (6 * j + k) (c e') 0) /\
  (g_sub g e i 1 = g_sub g e' j 1 -> nth (18 + i) (c e) 0 = nth (18 + j) (c e') 0).
Proof.
  intros Hi Hj l c.
  assert (C : forall e a i k n, nth_error localKeys a = Some (i, k, n) -> nth a (c e) 0 = coefficient (mp_off mp (g_sub g e i k) + n)%nat).
  { intros e0 a i0 k n Ha. unfold c, l. cbn [mapper_leaf Basis_model.lf_indices]. unfold subIndexRange. rewrite map_map.
    apply nth_error_nth with (d := 0). rewrite nth_error_map_eq, Ha. reflexivity. }
  assert (K0 : forall i, (i < 3)%nat -> forall k, (k < 6)%nat -> nth_error localKeys (6 * i + k) = Some (i, 2%nat, k)) by (intros i0 Hi0 k Hk; do 3 (destruct i0 as [|i0]; [do 6 (destruct k as [|k]; [reflexivity|]); lia|]); lia).
  assert (K1 : forall i, (i < 3)%nat -> nth_error localKeys (18 + i) = Some (i, 1%nat, 0%nat)) by (apply three_cases; reflexivity).
  split.
  - intros X0 k Hk. rewrite (C e _ i 2%nat k), (C e' _ j 2%nat k) by auto. now rewrite X0.
  - intros X0. rewrite (C e _ i 1%nat 0%nat), (C e' _ j 1%nat 0%nat) by auto. now rewrite X0.
Qed.

(** * Updates *)
(** After update() the pre-basis is the one of the new grid view. *)
Theorem C54_update {E X} (v v' : view E X) pb : construct v = Some pb -> update pb v' = construct v'.
Proof. intros _. reflexivity. Qed.

(** * Examples *)
Definition ex_h : list R := [1; 2; 1/2].
Definition ex_o : list bool := [false; true; false].
Definition ex_fe : argyris := bound_form (Hermite_props.ex_geo Hermite_props.ex_P) ex_h ex_o.
Example C54_ex_bound : bound Hermite_props.ex_P ex_h ex_o ex_fe.
Proof.
  exists (Hermite_props.ex_geo Hermite_props.ex_P), (fun i => i), ex_h, 0%nat, [ex_o]. split; [apply Hermite_props.ex_simplex|]. split; [intros x _; split; reflexivity|].
  split; [reflexivity|]. split; [repeat constructor; lra|]. split; [reflexivity|]. split; [reflexivity|]. split; [reflexivity|]. now apply bind_is.
Qed.
(** u(x,y) = x^2 y *)
Definition ex_u (z : list R) : R := nth 0 z 0 * nth 0 z 0 * nth 1 z 0.
Definition ex_g (z : list R) : list R := [2 * nth 0 z 0 * nth 1 z 0; nth 0 z 0 * nth 0 z 0].
Definition ex_H (z : list R) : list (list R) := [[2 * nth 1 z 0; 2 * nth 0 z 0]; [2 * nth 0 z 0; 0]].
Example C54_ex_polynomial : polynomial 2 5 ex_u.
Proof. exists [(1, [2; 1]%nat)]. split; [repeat constructor|]. intros x Hx. vec_cases. unfold ex_u, poly, total, mono. cbn. ring. Qed.
Example C54_ex_gradient : gradient 2 ex_u ex_g.
Proof.
  intros z Hz. split; [reflexivity|]. intros w Hw. destruct z as [|a [|b [|]]]; try discriminate. destruct w as [|p [|q [|]]]; try discriminate. unfold ex_u, ex_g, dot, total. cbn -[Rplus Rmult].
  assert (L := Hermite_props.affine_dlim).
  apply dlim_ext with (g := mult_fct (mult_fct (fun t => a + t * p) (fun t => a + t * p)) (fun t => b + t * q)); [reflexivity|].
  eapply eq_rect; [apply derivable_pt_lim_mult; [apply derivable_pt_lim_mult|]; apply L|]. unfold mult_fct. cbv beta. ring.
Qed.
Example C54_ex_hessian : hessian 2 ex_g ex_H.
Proof.
  assert (L := Hermite_props.affine_dlim).
  intros m Hm z Hz. destruct m as [|[|m]]; [| |lia]; (split; [reflexivity|]); intros w Hw; destruct z as [|a [|b [|]]]; try discriminate; destruct w as [|p [|q [|]]]; try discriminate; unfold ex_g, ex_H, dot, total; cbn -[Rplus Rmult].
  - apply dlim_ext with (g := mult_fct (mult_fct (fun t => 2 + t * 0) (fun t => a + t * p)) (fun t => b + t * q)); [intros t; unfold mult_fct; ring|].
    eapply eq_rect; [apply derivable_pt_lim_mult; [apply derivable_pt_lim_mult|]; apply L|]. unfold mult_fct. cbv beta. ring.
  - apply dlim_ext with (g := mult_fct (fun t => a + t * p) (fun t => a + t * p)); [reflexivity|].
    eapply eq_rect; [apply derivable_pt_lim_mult; apply L|]. cbv beta. ring.
Qed.
Example C54_ex_coefficients : exists c, has_coefficients Hermite_props.ex_P ex_fe ex_u c /\ nth 12 c 0 = 3 /\ nth 15 c 0 = 3/2.
Proof.
  eexists. split; [apply (C54_reproduces_polynomials _ _ _ _ _ _ _ C54_ex_bound C54_ex_polynomial C54_ex_gradient C54_ex_hessian)|].
  unfold interpolate, ex_u, ex_H, image, comb, bary, ex_fe, entry. unfold total. cbn -[Rplus Rmult Rminus]. split; lra.
Qed.
(** two triangles with a common edge, in a grid *)
Definition ex_view : view bool nat := View Triangle_example.two Hermite_props.ex_grid2 MeshSize_props.ex_mapper MeshSize_props.ex_volume.
Example C54_ex_view : triangle_view ex_view Triangle_example.P Triangle_example.position.
Proof.
  assert (I : forall e : bool, In e [false; true]) by (intros [|]; cbn; auto).
  assert (G := C55_ex_grid). assert (M := C55_ex_mapper).
  constructor; cbn [ex_view v_f v_grid v_vertices v_volume Triangle_example.two Triangle_example.view fg_elements].
  - apply Triangle_example.two_ok.
  - apply C55_ex_elements.
  - destruct G as [G1 G2 G3]. constructor; [intros e _; now apply G1|intros e i c t i' c' t' _; now apply G2|intros e i c t e' i' c' t' _ _; now apply G3].
  - reflexivity.
  - reflexivity.
  - assert (Q : forall x t, entity (fun e => In e [false; true]) Hermite_props.ex_grid2 x t <-> entity (fun _ => True) Hermite_props.ex_grid2 x t) by (intros x t; split; intros (e & i & c & _ & Y); exists e, i, c; auto).
    destruct M as [M1 M2 M3]. constructor.
    + intros x t i Hx. now apply M1, Q.
    + intros x t i y t' j Hx Hy. now apply (M2 x t i y t' j); apply Q.
    + intros n Hn. destruct (M3 n Hn) as (x & t & i & Hx & Hi). exists x, t, i. split; auto. now apply Q.
  - intros e _. apply C55_ex_elements.
  - intros e e' i j _ _ Hi Hj. revert e e'. destruct i as [|[|[|i]]]; [..|lia]; (destruct j as [|[|[|j]]]; [..|lia]); intros [|] [|]; cbn; intros Q; try discriminate; reflexivity.
Qed.
Example C54_ex_same_edge : same_edge (v_f ex_view) false 2 true 1.
Proof. left. reflexivity. Qed.
Example C54_ex_geometry e : affine_geometry 2 (Triangle_example.P e) (Hermite_props.ex_geo (Triangle_example.P e)).
Proof. intros x _. split; reflexivity. Qed.

Print Assumptions C54_degrees_of_freedom.
Print Assumptions C54_interpolation_inverse.
Print Assumptions C54_reproduces_polynomials.
Print Assumptions C54_derivatives.
Print Assumptions C54_partial_method.
Print Assumptions C54_bind.
Print Assumptions C54_agree_at_vertices.
Print Assumptions C54_continuously_differentiable.
Print Assumptions C54_layout_matches_keys.
Print Assumptions C54_common_coefficients.
Print Assumptions C54_update.
