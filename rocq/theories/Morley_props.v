(** C53: the Morley basis. *)
From Coq Require Import Reals Lra Lia List Arith Bool.
From Verif Require Import Lib MonomialSet_spec MonomialSet_props Nodal_spec Nodal_poly Nodal_rat GeometryType_model.
From Verif Require Basis_model.
From Verif Require Import Mapper_model Mapper_spec Mapper_props Keys_check.
From Verif Require Import Orientation_model Orientation_spec Orientation_props.
From Verif Require Hermite_props Triangle_example.
From Verif Require Import Hermite_model Hermite_spec Hermite_proofs Table2_model Table2_proofs Triangle_spec Triangle_proofs Triangle_grid Morley_model Morley_spec Morley_proofs.
Import ListNotations.
Local Open Scope R_scope.
#[local] Arguments total : simpl never.

(** * Binding *)
(** A finite element can be bound again and again: the result only depends on the element. *)
Theorem C53_bind fe o G : reachable fe -> exists fe', bind fe o G = Some fe' /\ bind default o G = Some fe'.
Proof. intros H. exists (bound_form G o). split; apply bind_reachable; auto. constructor. Qed.

(** * Degrees of freedom *)
Lemma dot_dot2 a b : is_vec 2 a -> is_vec 2 b -> dot a b = dot2 a b.
Proof. intros Ha Hb. vec_cases. unfold dot, dot2, total. cbn -[Rplus Rmult]. ring. Qed.
Lemma edge_normal_vec P o i : is_vec 2 (edge_normal P o i).
Proof. unfold edge_normal. destruct (nth i o false); reflexivity. Qed.
(** The coefficients of a function of the space are its values at the vertices and its
    normal derivatives at the midpoints of the edges. *)
Theorem C53_degrees_of_freedom P o fe u g c : bound P o fe -> gradient 2 u g -> has_coefficients P fe u c ->
  (forall i, (i < 3)%nat -> nth i c 0 = u (nth i P [])) /\
  forall i, (i < 3)%nat -> nth (3 + i) c 0 = dot (g (edge_midpoint P i)) (edge_normal P o i).
Proof.
  intros Hb Hg H. apply bound_is in Hb. destruct Hb as (G & HS & HG & Ho & ->).
  assert (E := coefficients_target P G o u g c HS HG Hg H). subst c. destruct (nth_target P o u g) as [T1 T2]. split; auto.
  intros i Hi. rewrite T2 by auto. symmetry. apply dot_dot2; [|apply edge_normal_vec]. apply Hg. destruct HS as (HP & HF & _). now apply midpoint_is_vec.
Qed.
(** interpolate() returns the coefficients of every function of the space. *)
Theorem C53_interpolation_inverse P o fe u g c : bound P o fe -> gradient 2 u g -> has_coefficients P fe u c ->
  interpolate fe (fun x => u (image 2 P x)) (fun x => g (image 2 P x)) = c.
Proof.
  intros Hb Hg H. apply bound_is in Hb. destruct Hb as (G & HS & HG & Ho & ->).
  rewrite interpolate_is by auto. symmetry. now apply (coefficients_target P G).
Qed.
(** All quadratic polynomials belong to the space, and interpolate() finds their coefficients. *)
Theorem C53_reproduces_polynomials P o fe u g : bound P o fe -> polynomial 2 2 u -> gradient 2 u g ->
  has_coefficients P fe u (interpolate fe (fun x => u (image 2 P x)) (fun x => g (image 2 P x))).
Proof.
  intros Hb Hu Hg. apply bound_is in Hb. destruct Hb as (G & HS & HG & Ho & ->).
  rewrite interpolate_is by auto. now apply target_coefficients.
Qed.

(** * Derivatives *)
(** evaluateJacobian and evaluateHessian return the partial derivatives of evaluateFunction
    and evaluateJacobian. *)
Theorem C53_derivatives P o fe : bound P o fe ->
  exists F J, (forall y, is_vec 2 y -> evaluateFunction fe y = Some (F y) /\ length (F y) = 6%nat /\
                 forall k, (k < 2)%nat -> evaluateJacobian fe y k = Some (J k y) /\ length (J k y) = 6%nat) /\
    forall x k, is_vec 2 x -> (k < 2)%nat ->
      (forall i, (i < 6)%nat -> partial (fun y => nth i (F y) 0) k x (nth i (J k x) 0)) /\
      forall l, (l < 2)%nat -> exists H, evaluateHessian fe x k l = Some H /\ length H = 6%nat /\
        forall i, (i < 6)%nat -> partial (fun y => nth i (J k y) 0) l x (nth i H 0).
Proof.
  intros Hb. apply bound_is in Hb. destruct Hb as (G & HS & HG & Ho & ->).
  exists (elem 2 coefficients (matrix G o) []), (fun k => elem 2 coefficients (matrix G o) [k]). split.
  - intros y Hy. split; [now apply eval_function|]. split; [apply elem_length|]. intros k Hk. split; [now apply eval_jacobian|apply elem_length].
  - intros x k Hx Hk. split.
    + intros i Hi. apply elem_partial; auto. now left.
    + intros l Hl. eexists. split; [now apply eval_hessian|]. split; [apply elem_length|]. intros i Hi. apply elem_partial2; auto. now left.
Qed.
(** partial() agrees with them, and rejects derivatives of order three and higher. *)
Theorem C53_partial_method fe x :
  partial_of fe [0; 0]%nat x = evaluateFunction fe x /\
  partial_of fe [1; 0]%nat x = evaluateJacobian fe x 0 /\ partial_of fe [0; 1]%nat x = evaluateJacobian fe x 1 /\
  partial_of fe [2; 0]%nat x = evaluateHessian fe x 0 0 /\ partial_of fe [1; 1]%nat x = evaluateHessian fe x 0 1 /\
  partial_of fe [0; 2]%nat x = evaluateHessian fe x 1 1 /\
  forall order, (2 < degree order)%nat -> partial_of fe order x = None.
Proof.
  repeat (split; [reflexivity|]). intros order H. unfold partial_of, ref_partial.
  assert (E : forall l a, fold_left Nat.add l a = (a + degree l)%nat).
  { induction l as [|b l IH]; intros a; cbn [fold_left]; [unfold degree; cbn; lia|]. rewrite IH. unfold degree. cbn. lia. }
  rewrite E. cbn [Nat.add]. destruct (degree order) as [|[|[|n]]]; try lia. reflexivity.
Qed.

(** * Conformity *)
(** Every element of the grid can be bound; a common edge gets one normal. *)
Theorem C53_common_normals {E} (g : fgrid E) P position : triangles g P position ->
  exists pb, construct g = Some pb /\
  forall e G fe0, In e (fg_elements g) -> affine_geometry 2 (P e) G -> reachable fe0 ->
    exists o fe, node_bind pb fe0 e G = Some fe /\ bound (P e) o fe /\
    forall e' G' fe0', In e' (fg_elements g) -> affine_geometry 2 (P e') G' -> reachable fe0' ->
      exists o' fe', node_bind pb fe0' e' G' = Some fe' /\ bound (P e') o' fe' /\
      forall i j, (i < 3)%nat -> (j < 3)%nat -> same_edge g e i e' j ->
        edge_midpoint (P e) i = edge_midpoint (P e') j /\ edge_normal (P e) o i = edge_normal (P e') o' j.
Proof.
  intros T. destruct (orientation_normals g P position T) as (os & HO & H). unfold construct. rewrite HO. cbn [obind]. eexists. split; [reflexivity|].
  assert (B : forall e G fe0, In e (fg_elements g) -> affine_geometry 2 (P e) G -> reachable fe0 -> exists o fe, node_bind (PB g g os) fe0 e G = Some fe /\ bound (P e) o fe /\
    forall i, (i < 3)%nat -> edge_normal (P e) o i = unit_normal (low_end g position e i) (high_end g position e i)).
  { intros e G fe0 He HG Hr. destruct (H e He) as (b & Hb & HL & HN). exists b. unfold node_bind. cbn [pb_data pb_mapper]. rewrite Hb. cbn [obind].
    assert (X := bind_reachable fe0 b G Hr). exists (bound_form G b). split; [exact X|]. split; auto. exists fe0, G. split; [exact Hr|]. split; [exact (tr_simplex g P position T e He)|]. split; [exact HG|]. split; [exact HL|]. assumption. }
  intros e G fe0 He HG Hr. destruct (B e G fe0 He HG Hr) as (o & fe & HB & Hb & HN). exists o, fe. split; [auto|split; auto].
  intros e' G' fe0' He' HG' Hr'. destruct (B e' G' fe0' He' HG' Hr') as (o' & fe' & HB' & Hb' & HN'). exists o', fe'. split; [auto|split; auto].
  intros i j Hi Hj HE. rewrite HN, HN' by auto. destruct (same_ends g position e i e' j HE) as [<- <-]. split; auto.
  rewrite !(midpoint_ends g P position T) by auto. now destruct (same_ends g position e i e' j HE) as [<- <-].
Qed.
Lemma edge_derivative P o fe u g c i : bound P o fe -> gradient 2 u g -> has_coefficients P fe u c -> (i < 3)%nat ->
  dot2 (g (edge_midpoint P i)) (pedge P i) = u (nth (snd (edge_vertices i)) P []) - u (nth (fst (edge_vertices i)) P []).
Proof.
  intros Hb Hg H Hi. apply bound_is in Hb. destruct Hb as (G & HS & HG & Ho & ->). assert (Hc : length c = 6%nat) by apply H.
  assert (Ht := coefficients_target P G o u g c HS HG Hg H). assert (H' := proj1 (coefficients_ref P G o u c Hc) H). destruct (pull_form P G o c HS HG Hc) as [F _].
  assert (L := edge_lt i). assert (HS' := HS). destruct HS' as (HP & HF & _).
  rewrite (along_edge P u g (pull G o c) i HP HF Hg (pull_length G o c) H' Hi). rewrite !F by lia.
  destruct (nth_target P o u g) as [T _]. rewrite Ht. now rewrite !T by lia.
Qed.
(** The functions on two elements with the same coefficient for a common vertex agree there.
    If they have the same coefficients for the vertices and the normal derivative of a common
    edge, then their gradients agree at its midpoint. *)
Theorem C53_agree_at_vertices P o fe u g c P' o' fe' u' g' c' i j :
  bound P o fe -> bound P' o' fe' -> gradient 2 u g -> gradient 2 u' g' -> has_coefficients P fe u c -> has_coefficients P' fe' u' c' ->
  (i < 3)%nat -> (j < 3)%nat -> nth i P [] = nth j P' [] -> nth i c 0 = nth j c' 0 -> u (nth i P []) = u' (nth i P []).
Proof.
  intros Hb Hb' Hg Hg' H H' Hi Hj EP Ec. destruct (C53_degrees_of_freedom P o fe u g c Hb Hg H) as [D _]. destruct (C53_degrees_of_freedom P' o' fe' u' g' c' Hb' Hg' H') as [D' _].
  rewrite <- D by auto. rewrite EP, <- D' by auto. exact Ec.
Qed.
Theorem C53_gradients_agree_at_midpoints {E} (g : fgrid E) P position pb e e' i j G G' fe0 fe0' fe fe' u d c u' d' c' :
  triangles g P position -> construct g = Some pb -> In e (fg_elements g) -> In e' (fg_elements g) ->
  affine_geometry 2 (P e) G -> affine_geometry 2 (P e') G' -> reachable fe0 -> reachable fe0' ->
  node_bind pb fe0 e G = Some fe -> node_bind pb fe0' e' G' = Some fe' ->
  gradient 2 u d -> gradient 2 u' d' -> has_coefficients (P e) fe u c -> has_coefficients (P e') fe' u' c' ->
  (i < 3)%nat -> (j < 3)%nat -> same_edge g e i e' j -> nth (3 + i) c 0 = nth (3 + j) c' 0 ->
  (forall a b, (a < 3)%nat -> (b < 3)%nat -> fg_vidx g e a = fg_vidx g e' b -> nth a c 0 = nth b c' 0) ->
  d (edge_midpoint (P e) i) = d' (edge_midpoint (P e) i).
Proof.
  intros T HC He He' HG HG' Hr Hr' HB HB' Hd Hd' H H' Hi Hj HE Hn Hv.
  destruct (orientation_normals g P position T) as (os & HO & HN). unfold construct in HC. rewrite HO in HC. injection HC as <-.
  assert (B : forall e G fe0 fe, In e (fg_elements g) -> affine_geometry 2 (P e) G -> reachable fe0 -> node_bind (PB g g os) fe0 e G = Some fe -> exists o, bound (P e) o fe /\
    forall i, (i < 3)%nat -> edge_normal (P e) o i = unit_normal (low_end g position e i) (high_end g position e i)).
  { clear - T HN. intros e G fe0 fe He HG Hr HB. destruct (HN e He) as (b & Hb & HL & HN'). exists b. split; auto. unfold node_bind in HB. cbn [pb_data pb_mapper] in HB. rewrite Hb in HB. cbn [obind] in HB.
    exists fe0, G. split; [exact Hr|]. split; [exact (tr_simplex g P position T e He)|]. split; [exact HG|]. split; [exact HL|]. assumption. }
  destruct (B e G fe0 fe He HG Hr HB) as (o & Hb & N). destruct (B e' G' fe0' fe' He' HG' Hr' HB') as (o' & Hb' & N').
  destruct (C53_degrees_of_freedom _ _ _ _ _ _ Hb Hd H) as [D0 D1]. destruct (C53_degrees_of_freedom _ _ _ _ _ _ Hb' Hd' H') as [D0' D1'].
  rewrite D1, D1', N, N' in Hn by auto.
  assert (Ed := edge_derivative _ _ _ _ _ _ i Hb Hd H Hi). assert (Ed' := edge_derivative _ _ _ _ _ _ j Hb' Hd' H' Hj).
  destruct (ends_vec g P position T e i He Hi) as (V1 & V2 & V3).
  assert (M : edge_midpoint (P e) i = edge_midpoint (P e') j).
  { rewrite !(midpoint_ends g P position T) by auto. now destruct (same_ends g position e i e' j HE) as [<- <-]. }
  destruct (tr_simplex g P position T e He) as (HP & HF & _). destruct (tr_simplex g P position T e' He') as (HP' & HF' & _).
  assert (W : is_vec 2 (d (edge_midpoint (P e) i))) by (now apply Hd, midpoint_is_vec).
  assert (W' : is_vec 2 (d' (edge_midpoint (P e) i))) by (rewrite M; now apply Hd', midpoint_is_vec).
  apply (vector_of_components (low_end g position e i) (high_end g position e i)); auto.
  2: { rewrite Hn. rewrite <- M. now destruct (same_ends g position e i e' j HE) as [<- <-]. }
  (* along the edge *)
  assert (K : forall e i u d, In e (fg_elements g) -> (i < 3)%nat -> is_vec 2 (d (edge_midpoint (P e) i)) ->
     dot2 (d (edge_midpoint (P e) i)) (pedge (P e) i) = u (nth (snd (edge_vertices i)) (P e) []) - u (nth (fst (edge_vertices i)) (P e) []) ->
     dot (d (edge_midpoint (P e) i)) (vsub (high_end g position e i) (low_end g position e i)) = u (high_end g position e i) - u (low_end g position e i)).
  { clear - T. intros e i u d He Hi W X. destruct (tr_simplex g P position T e He) as (HP & HF & _). assert (L := edge_lt i).
    assert (V : forall k, (k < 3)%nat -> is_vec 2 (nth k (P e) [])) by (intros k Hk; rewrite Forall_forall in HF; apply HF, nth_In; lia).
    assert (V0 := V (fst (edge_vertices i)) ltac:(lia)). assert (V1 := V (snd (edge_vertices i)) ltac:(lia)).
    destruct (ends_cases g P position T e i He Hi) as [(-> & -> & _)|(-> & -> & _)].
    - rewrite dot_dot2; auto. now apply (pedge_vec (P e) i).
    - unfold pedge in X. revert V0 V1 X. generalize (nth (fst (edge_vertices i)) (P e) []), (nth (snd (edge_vertices i)) (P e) []). intros a b Ha Hb X.
      assert (Y : dot (d (edge_midpoint (P e) i)) (vsub a b) = - dot2 (d (edge_midpoint (P e) i)) (vsub b a)); [|rewrite Y, X; ring].
      destruct (d (edge_midpoint (P e) i)) as [|p [|q [|]]]; try discriminate. vec_cases. unfold dot, dot2, vsub. unfold total. cbn -[Rplus Rmult Rminus]. ring. }
  rewrite (K e i u d He Hi W Ed). destruct (same_ends g position e i e' j HE) as [E1 E2].
  rewrite M, E1, E2. assert (W2 : is_vec 2 (d' (edge_midpoint (P e') j))) by now rewrite <- M.
  rewrite (K e' j u' d' He' Hj W2 Ed').
  assert (Q : forall n, (n = fst (edge_ends g e' j) \/ n = snd (edge_ends g e' j)) -> u (position n) = u' (position n)).
  { intros n Hn'. assert (exists b, (b < 3)%nat /\ n = fg_vidx g e' b) as (b & Lb & Eb).
    { rewrite (ends_are g P position T e' j He' Hj) in Hn'. cbn [fst snd] in Hn'. assert (L := edge_lt j). destruct Hn' as [-> | ->]; eexists; (split; [|reflexivity]); lia. }
    assert (exists a, (a < 3)%nat /\ n = fg_vidx g e a) as (a & La & Ea).
    { assert (L := edge_lt i). rewrite (ends_are g P position T e' j He' Hj) in Hn'. unfold same_edge in HE. rewrite (ends_are g P position T e i He Hi), (ends_are g P position T e' j He' Hj) in HE.
      cbn [fst snd] in HE, Hn'. destruct HE as [HE|HE]; injection HE as X1 X2; destruct Hn' as [-> | ->]; rewrite <- ?X1, <- ?X2; eexists; (split; [|reflexivity]); lia. }
    assert (X := Hv a b La Lb ltac:(congruence)). rewrite D0, D0' in X by auto. rewrite (tr_position g P position T e a He La), (tr_position g P position T e' b He' Lb) in X. congruence. }
  unfold high_end, low_end. rewrite !Q; auto.
  - destruct (Nat.min_dec (fst (edge_ends g e' j)) (snd (edge_ends g e' j))) as [-> | ->]; auto.
  - destruct (Nat.max_dec (fst (edge_ends g e' j)) (snd (edge_ends g e' j))) as [-> | ->]; auto.
Qed.

(** * Layout *)
(** On triangle grids the local keys of an element name each degree of freedom that the
    layout puts on its subentities once, so that C30_mapper_leaf applies. *)
Definition layout (t : gt) : nat := match morleyMapperLayout t 2 with Some n => n | None => 0%nat end.
Theorem C53_layout_matches_keys {E X} (els : E -> Prop) (g : grid E X) :
  (forall e, els e -> gt_dim (g_type g e) = 2%nat /\ isSimplex (g_type g e) = true) ->
  (forall t, morleyMapperLayout t 2 = Some (layout t)) /\ layout_ok layout /\ keys_ok els g layout (fun _ => localKeys).
Proof.
  intros Hg. split; [|split].
  - intros t. unfold layout, morleyMapperLayout. cbn [Nat.eqb negb]. destruct (gt_dim t) as [|[|]]; reflexivity.
  - intros t t' [H L]. unfold layout, morleyMapperLayout, gt_dim. now rewrite L.
  - intros e He. destruct (Hg e He) as [HD HS]. destruct (Hermite_props.simplex_gt 2 (g_type g e) ltac:(right; now left) HD HS) as [b Ht].
    unfold subtype. apply keys_check_ok. rewrite Ht. destruct b; vm_compute; reflexivity.
Qed.
(** Elements get the same coefficients for common vertices and edges from a global
    coefficient vector. *)
Theorem C53_common_coefficients {E X} (g : grid E X) mp types e e' i j (coefficient : nat -> R) :
  (i < 3)%nat -> (j < 3)%nat ->
  let l := mapper_leaf g mp layout types (fun _ => localKeys) in
  let c e := map coefficient (Basis_model.lf_indices l e) in
  (g_sub g e i 2 = g_sub g e' j 2 -> nth i (c e) 0 = nth j (c e') 0) /\
  (g_sub g e i 1 = g_sub g e' j 1 -> nth (3 + i) (c e) 0 = nth (3 + j) (c e') 0).
Proof.
  intros Hi Hj l c.
  assert (C : forall e a i k n, nth_error localKeys a = Some (i, k, n) -> nth a (c e) 0 = coefficient (mp_off mp (g_sub g e i k) + n)%nat).
  { intros e0 a i0 k n Ha. unfold c, l. cbn [mapper_leaf Basis_model.lf_indices]. unfold subIndexRange. rewrite map_map.
    apply nth_error_nth with (d := 0). rewrite nth_error_map_eq, Ha. reflexivity. }
  assert (K0 : forall i, (i < 3)%nat -> nth_error localKeys i = Some (i, 2%nat, 0%nat)) by (apply three_cases; reflexivity).
  assert (K1 : forall i, (i < 3)%nat -> nth_error localKeys (3 + i) = Some (i, 1%nat, 0%nat)) by (apply three_cases; reflexivity).
  split; intros X0.
  - rewrite (C e _ i 2%nat 0%nat), (C e' _ j 2%nat 0%nat) by auto. now rewrite X0.
  - rewrite (C e _ i 1%nat 0%nat), (C e' _ j 1%nat 0%nat) by auto. now rewrite X0.
Qed.

(** * Updates *)
(** update() with the grid view of the pre-basis changes nothing; but with another grid view,
    the node still works with the old one: binding an element of the new grid view fails
    (reads data_ out of bounds), although a new pre-basis would work. *)
Theorem C53_update_same {E} (g : fgrid E) pb : construct g = Some pb -> update pb g = Some pb.
Proof. unfold construct, update. destruct (compute_edge_orientations g) as [d|] eqn:H; [|discriminate]. intros X. injection X as <-. cbn [pb_mapper]. now rewrite H. Qed.
Theorem C53_update_refuted : exists (g g' : fgrid bool) P position pb pb' e G,
  triangles g P position /\ triangles g' P position /\ construct g = Some pb /\ update pb g' = Some pb' /\
  In e (fg_elements g') /\ affine_geometry 2 (P e) G /\ node_bind pb' default e G = None /\
  exists pb2 fe, construct g' = Some pb2 /\ node_bind pb2 default e G = Some fe.
Proof.
  exists Triangle_example.one, Triangle_example.two, Triangle_example.P, Triangle_example.position.
  eexists _, _, true, (Hermite_props.ex_geo (Triangle_example.P true)).
  split; [apply Triangle_example.one_ok|]. split; [apply Triangle_example.two_ok|]. split; [reflexivity|]. split; [reflexivity|].
  split; [right; now left|]. split; [intros x _; split; reflexivity|]. split; [reflexivity|]. eexists _, _. split; reflexivity.
Qed.

(** * Examples *)
Definition ex_o : list bool := [false; true; false].
Definition ex_fe : morley := bound_form (Hermite_props.ex_geo Hermite_props.ex_P) ex_o.
Example C53_ex_bound : bound Hermite_props.ex_P ex_o ex_fe.
Proof.
  exists default, (Hermite_props.ex_geo Hermite_props.ex_P). split; [constructor|]. split; [apply Hermite_props.ex_simplex|]. split; [intros x _; split; reflexivity|].
  split; [reflexivity|]. apply bind_reachable. constructor.
Qed.
(** an element bound to another triangle before *)
Example C53_ex_reachable : exists fe fe', reachable fe /\ mat fe <> mat default /\ bind fe ex_o (Hermite_props.ex_geo Hermite_props.ex_P) = Some fe'.
Proof.
  exists ex_fe, ex_fe. assert (R : reachable ex_fe) by (apply (r_bind default ex_o (Hermite_props.ex_geo Hermite_props.ex_P)); [constructor|apply bind_reachable; constructor]).
  split; [exact R|]. split; [|now apply bind_reachable]. cbn. intros H. injection H as H _. lra.
Qed.
(** u(x,y) = x^2 + x y *)
Definition ex_u (z : list R) : R := nth 0 z 0 * nth 0 z 0 + nth 0 z 0 * nth 1 z 0.
Definition ex_g (z : list R) : list R := [2 * nth 0 z 0 + nth 1 z 0; nth 0 z 0].
Example C53_ex_polynomial : polynomial 2 2 ex_u.
Proof.
  exists [(1, [2; 0]%nat); (1, [1; 1]%nat)]. split; [repeat constructor|]. intros x Hx. vec_cases. unfold ex_u, poly, total, mono. cbn. ring.
Qed.
Example C53_ex_gradient : gradient 2 ex_u ex_g.
Proof.
  intros z Hz. split; [reflexivity|]. intros w Hw. destruct z as [|a [|b [|]]]; try discriminate. destruct w as [|p [|q [|]]]; try discriminate. unfold ex_u, ex_g, dot, total. cbn -[Rplus Rmult].
  assert (L := Hermite_props.affine_dlim).
  apply dlim_ext with (g := plus_fct (mult_fct (fun t => a + t * p) (fun t => a + t * p)) (mult_fct (fun t => a + t * p) (fun t => b + t * q))); [reflexivity|].
  eapply eq_rect; [apply derivable_pt_lim_plus; apply derivable_pt_lim_mult; apply L|]. cbv beta. ring.
Qed.
Example C53_ex_coefficients : exists c, has_coefficients Hermite_props.ex_P ex_fe ex_u c /\ nth 2 c 0 = 4.
Proof.
  eexists. split; [apply (C53_reproduces_polynomials _ _ _ _ _ C53_ex_bound C53_ex_polynomial C53_ex_gradient)|].
  unfold interpolate, ex_u, image, comb, bary, ex_fe. unfold total. cbn -[Rplus Rmult Rminus]. ring.
Qed.
(** two triangles with a common edge, in a grid *)
Example C53_ex_triangles : triangles Triangle_example.two Triangle_example.P Triangle_example.position.
Proof. apply Triangle_example.two_ok. Qed.
Example C53_ex_same_edge : same_edge Triangle_example.two false 2 true 1 /\ nth 2 (nth 0 (match construct Triangle_example.two with Some pb => pb_data pb | None => [] end) []) false = true.
Proof. split; [left; reflexivity|reflexivity]. Qed.
Example C53_ex_layout : forall e : bool, True -> gt_dim (g_type Hermite_props.ex_grid2 e) = 2%nat /\ isSimplex (g_type Hermite_props.ex_grid2 e) = true.
Proof. split; reflexivity. Qed.
Example C53_ex_common : g_sub Hermite_props.ex_grid2 false 2 1 = g_sub Hermite_props.ex_grid2 true 1 1.
Proof. reflexivity. Qed.

Print Assumptions C53_bind.
Print Assumptions C53_degrees_of_freedom.
Print Assumptions C53_interpolation_inverse.
Print Assumptions C53_reproduces_polynomials.
Print Assumptions C53_derivatives.
Print Assumptions C53_partial_method.
Print Assumptions C53_common_normals.
Print Assumptions C53_agree_at_vertices.
Print Assumptions C53_gradients_agree_at_midpoints.
Print Assumptions C53_layout_matches_keys.
Print Assumptions C53_common_coefficients.
Print Assumptions C53_update_same.
Print Assumptions C53_update_refuted.
