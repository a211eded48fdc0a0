(** C63: discrete functions of Lagrange bases are continuous across elements. *)
From Coq Require Import List Arith Lia Bool Reals Lra Permutation.
From Verif Require Import Lib Basis_model Basis_spec Basis_ok Basis_view Basis_proofs Basis_props Container_model Container_spec FlatVector_model FlatVector_props
  DiscreteFunction_model DiscreteFunction_spec DiscreteFunction_proofs
  GeometryType_model Mapper_model Mapper_spec Mapper_props Lagrange_model Lagrange_spec Lagrange_tables Lagrange_proofs Lagrange_props
  Conforming_spec Conforming_proofs Conforming_shapes Conforming_refs.
Import ListNotations.

(** * Global basis functions have one value at a point of a shared face *)
Theorem C63_basis_functions_single_valued : forall (E X P : Type) (els : E -> Prop) (g : grid E X) (mp : mapper X)
    (vertexIndex : X -> nat) (ref : E -> refelem) (vid : E -> nat -> nat) (k : nat) (types : list gt) (keys : E -> list localkey)
    (bary : E -> P -> nat -> R) (shape : E -> P -> list R),
  1 <= g_dim g <= 3 -> grid_ok els g -> ids_ok els g ref vid -> faces_ok els g ref vid -> types_ok els g types ->
  lagrange_ctor g k types = true ->
  let lay := fun t => lagrange_layout k t (g_dim g) in
  mapper_ok els g lay mp -> keys_ok els g lay keys ->
  (k = 1 -> mapper_ok els g lay (MAP (mp_size mp) vertexIndex)) ->
  shapes_ok els g ref k keys bary shape ->
  let l := lagrange_leaf g mp vertexIndex ref vid k keys in
  forall c e x s t e' x' s' t' n, els e -> els e' -> 0 < c -> subtype g e s c t -> subtype g e' s' c t' ->
  same_location g ref vid bary c e x s e' x' s' ->
  basis_value (length (keys e)) (lf_indices l e) (fun a => nth a (shape e x) 0%R) n =
  basis_value (length (keys e')) (lf_indices l e') (fun a => nth a (shape e' x') 0%R) n.
Proof.
  intros. eapply lagrange_single_valued with (shape := shape); eassumption.
Qed.
Print Assumptions C63_basis_functions_single_valued.

(** * The finite elements keep the contract *)

(** The products of one-dimensional factors over the sides of a simplex, cube or prism. *)
Theorem C63_shape_functions : forall (E X P : Type) (els : E -> Prop) (g : grid E X) (ref : E -> refelem) (vid : E -> nat -> nat)
    (k : nat) (keys : E -> list localkey) (bary : E -> P -> nat -> R) (coordinate : E -> localkey -> list nat -> nat),
  1 <= g_dim g <= 3 -> 0 < k -> (g_dim g = 3 -> k <= 17) -> grid_ok els g -> ids_ok els g ref vid ->
  keys_ok els g (fun t => lagrange_layout k t (g_dim g)) keys ->
  (forall e, els e -> In (g_dim g, ref e) [(1, line1); (2, triangle2); (2, square2); (3, tetrahedron3); (3, hexahedron3); (3, prism3)]) ->
  let sides := fun e => sides_of (ref e) in
  bary_ok els g ref bary -> coordinates_ok els g ref k keys sides coordinate ->
  shapes_ok els g ref k keys bary (lagrange_shapes k keys bary sides coordinate).
Proof.
  intros E X P els g ref vid k keys bary coordinate HD Hk H17 HG HI HK HR sides HB HC.
  assert (HS : forall e, els e -> sides_ok g ref sides e).
  { intros e He. apply (reference_sides g ref e (ref e)); auto. symmetry. apply (io_type _ _ _ _ HI); auto. }
  assert (HV : forall e s t, els e -> subtype g e s (g_dim g) t -> vertices g ref e s (g_dim g) = [s]).
  { intros e s t He _. specialize (HR e He). unfold vertices. cbn [In] in HR.
    repeat (destruct HR as [HR|HR]; [injection HR as <- <-; reflexivity|]). destruct HR. }
  assert (HW : forall e s c i, els e -> In (s, c, i) (keys e) -> 0 < c -> exists W, key_weights g ref k e s c i W).
  { intros e s c i He I Hc. apply (HK e He) in I as (t & Ht & Hi). pose proof (codim_le els g k HD HG H17 e s c t He Ht) as Le.
    destruct (Nat.eq_dec c (g_dim g)) as [Q|Q].
    - eexists. left. split; [exact Q|]. reflexivity.
    - destruct (perm_spec els g ref vid k HD HG HI H17 e s c t i He Ht Hi) as (j & _ & _ & A & _).
      destruct (A ltac:(lia)) as (u & w & wu & _ & _ & W & _). eexists. right. split; [lia|]. exists w. split; [|reflexivity].
      unfold face_ids in W. rewrite map_length in W. exact W. }
  constructor.
  - intros e x He. apply map_length.
  - intros. eapply trace_ok; eauto.
  - intros. eapply zero_ok; eauto.
Qed.
Print Assumptions C63_shape_functions.

(** * Discrete functions *)
Lemma rsum_single n (f : nat -> R) m : m < n -> rsum n (fun g => if m =? g then f g else 0%R) = f m.
Proof.
  intros H. induction n as [|n IH]; [lia|]. rewrite rsum_S. destruct (Nat.eq_dec m n) as [->|D].
  - rewrite Nat.eqb_refl. rewrite (rsum_ext n _ (fun _ => (0 * 0)%R)).
    + rewrite rsum_scal. lra.
    + intros i Hi. destruct (Nat.eqb_spec n i); [lia|ring].
  - rewrite IH by lia. destruct (Nat.eqb_spec m n); [lia|lra].
Qed.
Lemma by_numbers size idx (phi C : nat -> R) N : size <= length idx -> (forall m, In m idx -> m < N) ->
  rsum size (fun a => (match nth_error idx a with Some m => C m | None => 0 end * phi a)%R) = rsum N (fun g => (C g * basis_value size idx phi g)%R).
Proof.
  intros L B. unfold basis_value.
  rewrite (rsum_ext N _ (fun g => rsum size (fun a => (C g * match nth_error idx a with Some m => if m =? g then phi a else 0 | None => 0 end)%R))).
  2: { intros g _. now rewrite rsum_scal. }
  rewrite rsum_swap. apply rsum_ext. intros a Ha. destruct (nth_error_lt_Some idx a ltac:(lia)) as [m Hm]. rewrite Hm.
  rewrite <- (rsum_single N (fun g => (C g * phi a)%R) m); [|apply B; eapply nth_error_In; eauto].
  apply rsum_ext. intros g _. destruct (m =? g); ring.
Qed.
Lemma list_bound (l : list nat) : exists N, forall m, In m l -> m < N.
Proof. exists (S (list_max l)). intros m Hm. pose proof (proj1 (list_max_le l (list_max l)) (le_n _)) as F. rewrite Forall_forall in F. specialize (F m Hm). lia. Qed.

Section Functions.
Context {E X : Type}.
Variables (b : bexpr E) (path : list nat) (els : E -> Prop) (su : setup E X).
Hypothesis OKS : setup_ok b path els su.

(** The coefficient of the global basis function with number [g] in the leaf at [p]. *)
Lemma sum_by_numbers c e v p n x j k : els e -> leaf_of b path e v p n -> node_size n <> 0 ->
  exists l, leaf_at b (path ++ p) = Some l /\ length (lf_indices l e) = node_size n /\
  forall N, (forall m, In m (lf_indices l e) -> m < N) ->
  rsum (node_size n) (fun i => (coef_of c v n i j * shape_of su e p x i k)%R) =
  rsum N (fun g => (match c (sp_glob (meaning b) (path ++ p, g)) with Some q => nth j q 0 | None => 0 end *
                    basis_value (node_size n) (lf_indices l e) (fun i => shape_of su e p x i k) g)%R).
Proof.
  intros He (Hv & D & L) NZ. pose proof (so_wf _ _ _ _ OKS) as Hwf. pose proof (build_ok b els Hwf) as OK.
  rewrite (bind_new_ok els _ _ e OK He) in Hv. injection Hv as <-. cbn [lv_tree] in D.
  set (n0 := fst (init_tree 0 (pb_node (build b)))) in *.
  assert (Hsk : skel n0 = skel (pb_node (build b))) by apply new_skel.
  assert (HI : In (path ++ p, n) (leaf_nodes (bind_tree e 0 n0))) by (apply leaf_nodes_descendant; auto).
  destruct (leaf_block_length b els e n0 Hwf He Hsk 0 (path ++ p, n) HI NZ) as (l & A1 & A2). cbn [fst snd] in A1, A2.
  exists l. split; auto. split; auto. intros N B.
  rewrite <- (by_numbers (node_size n) (lf_indices l e) (fun i => shape_of su e p x i k)
    (fun g => match c (sp_glob (meaning b) (path ++ p, g)) with Some q => nth j q 0%R | None => 0%R end)); [|lia|auto].
  apply rsum_ext. intros i Hi. f_equal. unfold coef_of.
  assert (LI : local_index n i = Some (node_offset n + i)) by (apply local_index_Some; auto). rewrite LI.
  destruct (key_at b els e n0 (path ++ p) n i _ Hwf He Hsk D L LI) as (l1 & g1 & B1 & B2 & B3).
  rewrite A1 in B1. injection B1 as <-. rewrite B2. unfold lv_index. cbn [lv_indices]. rewrite nth_error_map_eq, B3. reflexivity.
Qed.

(** If the global basis functions of a leaf have the same values at two points then any
    function has the same entries for this leaf there. *)
Theorem C63_functions_follow_basis_functions c e x y v n e' x' y' v' n' p l :
  els e -> els e' -> is_value b path su e c x y -> is_value b path su e' c x' y' ->
  leaf_of b path e v p n -> leaf_of b path e' v' p n' -> node_size n <> 0 -> node_size n' <> 0 ->
  leaf_at b (path ++ p) = Some l ->
  (forall k g, k < su_vdim su p ->
     basis_value (node_size n) (lf_indices l e) (fun i => shape_of su e p x i k) g =
     basis_value (node_size n') (lf_indices l e') (fun i => shape_of su e' p x' i k) g) ->
  exists z z', node_to_range p y = Some z /\ node_to_range p y' = Some z' /\ scalars z = scalars z'.
Proof.
  intros He He' (_ & V) (_ & V') Lf Lf' NZ NZ' Hl H.
  destruct (V v p n Lf) as (z & Z1 & _ & Z2). destruct (Z2 NZ) as [Lz Ez].
  destruct (V' v' p n' Lf') as (z' & Z1' & _ & Z2'). destruct (Z2' NZ') as [Lz' Ez'].
  exists z, z'. split; auto. split; auto. apply nth_error_ext. intros i.
  destruct (Nat.lt_ge_cases i (su_cdim su * su_vdim su p)) as [Hi|Hi].
  2: { rewrite !(proj2 (nth_error_None _ _)) by lia. reflexivity. }
  assert (Vz : su_vdim su p <> 0) by nia.
  pose proof (Nat.div_mod i (su_vdim su p) Vz) as DM. pose proof (Nat.mod_upper_bound i (su_vdim su p) Vz) as Km.
  assert (Jm : i / su_vdim su p < su_cdim su) by (apply Nat.div_lt_upper_bound; lia).
  rewrite Nat.mul_comm in DM. rewrite DM, Ez, Ez' by auto. f_equal. 
  set (j := i / su_vdim su p) in *. set (k := i mod su_vdim su p) in *.
  destruct (sum_by_numbers c e v p n x j k He Lf NZ) as (l1 & A1 & _ & B1). rewrite Hl in A1. injection A1 as <-.
  destruct (sum_by_numbers c e' v' p n' x' j k He' Lf' NZ') as (l1 & A1 & _ & B1'). rewrite Hl in A1. injection A1 as <-.
  destruct (list_bound (lf_indices l e ++ lf_indices l e')) as [N HN].
  rewrite (B1 N), (B1' N) by (intros m Hm; apply HN, in_or_app; auto). apply rsum_ext. intros g _. now rewrite H.
Qed.
End Functions.
Print Assumptions C63_functions_follow_basis_functions.

(** The two together: the entries of a discrete function that belong to a Lagrange basis are
    continuous, whatever tree the basis is part of and whatever the coefficients are. *)
Theorem C63_continuous : forall (E X P : Type) (els : E -> Prop) (b : bexpr E) (path : list nat) (su : setup E P)
    (g : grid E X) (mp : mapper X) (vertexIndex : X -> nat) (ref : E -> refelem) (vid : E -> nat -> nat) (k : nat) (types : list gt)
    (keys : E -> list localkey) (bary : E -> P -> nat -> R) (shape : E -> P -> list R) (p : list nat),
  setup_ok b path els su ->
  1 <= g_dim g <= 3 -> grid_ok els g -> ids_ok els g ref vid -> faces_ok els g ref vid -> types_ok els g types ->
  lagrange_ctor g k types = true ->
  let lay := fun t => lagrange_layout k t (g_dim g) in
  mapper_ok els g lay mp -> keys_ok els g lay keys ->
  (k = 1 -> mapper_ok els g lay (MAP (mp_size mp) vertexIndex)) ->
  shapes_ok els g ref k keys bary shape ->
  (* leaf [p] of the basis is this Lagrange basis, with scalar shape functions *)
  leaf_at b (path ++ p) = Some (lagrange_leaf g mp vertexIndex ref vid k keys) ->
  su_vdim su p = 1 ->
  (forall e x, els e -> su_shape su e p x = map (fun r => [r]) (shape e x)) ->
  forall (coefficients : mi -> option (list R)) c e x s t e' x' s' t' y y' v n v' n',
  els e -> els e' -> 0 < c -> subtype g e s c t -> subtype g e' s' c t' ->
  same_location g ref vid bary c e x s e' x' s' ->
  is_value b path su e coefficients x y -> is_value b path su e' coefficients x' y' ->
  (* the leaf is not switched off in one of the elements by a restricted basis *)
  leaf_of b path e v p n -> leaf_of b path e' v' p n' -> node_size n <> 0 -> node_size n' <> 0 ->
  exists z z', node_to_range p y = Some z /\ node_to_range p y' = Some z' /\ scalars z = scalars z'.
Proof.
  intros E X P els b path su g mp vi ref vid k types keys bary shape p OKS HD HG HI HF HT HC lay HM HK HV HS Hl Hd Hsh
    cf c e x s t e' x' s' t' y y' v n v' n' He He' Hc Hs Hs' SL V V' Lf Lf' NZ NZ'.
  set (l := lagrange_leaf g mp vi ref vid k keys) in *.
  apply (C63_functions_follow_basis_functions b path els su OKS cf e x y v n e' x' y' v' n' p l); auto.
  intros k0 g0 Hk0. rewrite Hd in Hk0. assert (k0 = 0) by lia. subst k0.
  assert (Q : forall e0 v0 n0 x0, els e0 -> leaf_of b path e0 v0 p n0 -> node_size n0 <> 0 ->
    node_size n0 = length (keys e0) /\ forall i, shape_of su e0 p x0 i 0 = nth i (shape e0 x0) 0%R).
  { intros e0 v0 n0 x0 H0 L0 N0. destruct (so_shape _ _ _ _ OKS e0 v0 p n0 x0 H0 L0) as [A _]. rewrite (Hsh e0 x0 H0), map_length in A.
    split; [rewrite <- A; apply (sh_size _ _ _ _ _ _ _ HS); auto|]. intros i. unfold shape_of. rewrite (Hsh e0 x0 H0).
    destruct (Nat.lt_ge_cases i (length (shape e0 x0))) as [Li|Li].
    - rewrite (nth_indep _ [] [0%R]) by (rewrite map_length; lia). now rewrite (map_nth (fun r => [r]) (shape e0 x0) 0%R i).
    - rewrite (nth_overflow (shape e0 x0)) by lia. rewrite (nth_overflow (map (fun r => [r]) (shape e0 x0))) by (rewrite map_length; lia). reflexivity. }
  destruct (Q e v n x He Lf NZ) as [S1 F1]. destruct (Q e' v' n' x' He' Lf' NZ') as [S2 F2].
  assert (BV : forall sz idx (f1 f2 : nat -> R), (forall i, f1 i = f2 i) -> basis_value sz idx f1 g0 = basis_value sz idx f2 g0).
  { intros sz idx f1 f2 Hf. apply rsum_ext. intros a _. destruct (nth_error idx a); auto. destruct (_ =? _); auto. }
  rewrite (BV _ _ _ _ F1), (BV _ _ _ _ F2), S1, S2.
  apply (C63_basis_functions_single_valued E X P els g mp vi ref vid k types keys bary shape HD HG HI HF HT HC HM HK HV HS c e x s t e' x' s' t' g0); auto.
Qed.
Print Assumptions C63_continuous.

(** * The hypotheses are met *)

(** A vector valued function on a triangle and a quadrilateral that share an edge, each
    component of third order. *)
Definition ex63_ref (e : bool) : refelem := if e then square2 else triangle2.
Definition ex63_bary (e : bool) (x : R * R) (v : nat) : R :=
  nth v (if e then [(1 - fst x) * (1 - snd x); fst x * (1 - snd x); (1 - fst x) * snd x; fst x * snd x]
         else [1 - fst x - snd x; fst x; snd x])%R 0%R.
Definition ex63_W (e : bool) (key : localkey) (v : nat) : nat :=
  let '(s, c, i) := key in
  if c =? 2 then if in_dec Nat.eq_dec v [s] then 9 else 0 else 3 * weight (re_subs (ex63_ref e) s c 2) [2 - i; i + 1] v.
Definition ex63_coordinate (e : bool) (key : localkey) (S : list nat) : nat :=
  let '(s, c, i) := key in
  if 0 <? c then list_sum (map (ex63_W e key) S) / 3
  else if e then (match S with [0; 2] => 2 - i mod 2 | [1; 3] => i mod 2 + 1 | [0; 1] => 2 - i / 2 | _ => i / 2 + 1 end) else 1.
Definition ex63_sides (e : bool) := sides_of (ex63_ref e).
Definition ex63_shape : bool -> R * R -> list R := lagrange_shapes 3 ex_keysL ex63_bary ex63_sides ex63_coordinate.

Example C63_ids_ok : ids_ok all_els ex_gridL ex63_ref ex_vid.
Proof.
  constructor.
  - intros [] _; reflexivity.
  - intros e _ _. constructor; try (intros; discriminate).
    + destruct e; reflexivity.
    + destruct e; vm_compute; lia.
    + intros i H. destruct e; vm_compute in H; do 4 (destruct i as [|i]; [try (exfalso; lia); do 2 eexists; reflexivity|]); exfalso; lia.
  - intros e s c _ Hc Hs. change (g_dim ex_gridL) with 2 in Hc. assert (c = 1) by lia. subst c.
    destruct e; vm_compute in Hs; do 4 (destruct s as [|s]; [try (exfalso; lia); vm_compute; repeat constructor; cbn; lia|]); exfalso; lia.
  - intros e s c e' s' _ _ Hc Hs Hs' Q. change (g_dim ex_gridL) with 2 in Hc. assert (c = 1) by lia. subst c.
    assert (Sw : forall a b, same_face [a; b] [b; a]).
    { intros a b. split; [reflexivity|]. split; [cbn; tauto|]. intros x y. rewrite !face_edge_2. tauto. }
    destruct e, e'; vm_compute in Hs, Hs';
      do 4 (destruct s as [|s]; [try (exfalso; lia);
        do 4 (destruct s' as [|s']; [try (exfalso; lia); vm_compute in Q; try discriminate Q; first [apply same_face_refl|apply Sw]|]); exfalso; lia|]); exfalso; lia.
Qed.
Definition ex63_V (e : bool) (s c : nat) := vertices ex_gridL ex63_ref e s c.
Definition ex63_part (e : bool) (s1 c1 s c : nat) : bool := (c <=? c1) && incl_check (ex63_V e s1 c1) (ex63_V e s c).
Definition ex63_closed : bool :=
  forallb (fun a => let '(e, s, c, _) := a in forallb (fun a' => let '(e', s', c', _) := a' in forallb (fun a1 => let '(e1, s1, c1, _) := a1 in
    negb ((0 <? c) && (c =? c') && Bool.eqb e e1 && (g_sub ex_gridL e s c =? g_sub ex_gridL e' s' c) && ex63_part e s1 c1 s c) ||
    existsb (fun a2 => let '(e2, s2, c2, _) := a2 in
      Bool.eqb e' e2 && (c1 =? c2) && (g_sub ex_gridL e s1 c1 =? g_sub ex_gridL e' s2 c1) && ex63_part e' s2 c1 s' c) ex_table) ex_table) ex_table) ex_table.
Lemma ex63_table_sub e s c t : In (e, s, c, t) ex_table -> subtype ex_gridL e s c t.
Proof. intros H. cbn [ex_table In] in H. repeat (destruct H as [H|H]; [injection H as <- <- <- <-; reflexivity|]). destruct H. Qed.
Example C63_faces_ok : faces_ok all_els ex_gridL ex63_ref ex_vid.
Proof.
  constructor.
  - intros e s c t e' s' t' s1 c1 t1 _ _ Hc Hs Hs' Q Hs1 [P1 P2].
    assert (CL : ex63_closed = true) by (vm_compute; reflexivity). unfold ex63_closed in CL. rewrite forallb_forall in CL.
    specialize (CL _ (ex_subtypesL _ _ _ _ Hs)). cbn beta iota in CL. rewrite forallb_forall in CL.
    specialize (CL _ (ex_subtypesL _ _ _ _ Hs')). cbn beta iota in CL. rewrite forallb_forall in CL.
    specialize (CL _ (ex_subtypesL _ _ _ _ Hs1)). cbn beta iota in CL.
    rewrite (proj2 (Nat.ltb_lt 0 c) Hc), Nat.eqb_refl, Bool.eqb_reflx in CL. unfold ex63_part at 1, ex63_V at 1 2 in CL.
    rewrite (proj2 (Nat.leb_le _ _) P1), (proj2 (incl_check_ok _ _) P2), (proj2 (Nat.eqb_eq _ _) Q) in CL. cbn [andb negb orb] in CL.
    apply existsb_exists in CL as ([[[e2 s2] c2] t2] & I & H).
    apply andb_true_iff in H as [H H4]. apply andb_true_iff in H as [H H3]. apply andb_true_iff in H as [H1 H2].
    apply eqb_prop in H1. apply Nat.eqb_eq in H2, H3. subst. apply andb_true_iff in H4 as [H4 H5].
    exists s2, t2. split; [now apply ex63_table_sub|]. split; auto. split; [now apply Nat.leb_le|now apply incl_check_ok].
  - intros e s t _ _. destruct e; reflexivity.
  - intros e s t e' s' t' _ _ _ _ Q. unfold ex_vid. change (g_sub ex_gridL) with ex_subL in Q. change (g_dim ex_gridL) with 2 in Q. now rewrite Q.
Qed.
Example C63_bary_ok : bary_ok all_els ex_gridL ex63_ref ex63_bary.
Proof. intros e x _. destruct e; unfold sum, ex63_bary; cbn; ring. Qed.
Example C63_coordinates_ok : coordinates_ok all_els ex_gridL ex63_ref 3 ex_keysL ex63_sides ex63_coordinate.
Proof.
  intros e s c i S _ I HS. split.
  - intros W Hc KW. unfold ex63_coordinate. rewrite (proj2 (Nat.ltb_lt 0 c) Hc). f_equal. f_equal. apply map_ext. intros v. unfold ex63_W.
    destruct KW as [[-> KW]|[C (w & Dw & KW)]].
    + change (g_dim ex_gridL) with 2 in *. rewrite Nat.eqb_refl, KW. unfold vertices. change (g_dim ex_gridL) with 2.
      replace (re_subs (ex63_ref e) s 2 2) with [s] by (destruct e; reflexivity). reflexivity.
    + change (g_dim ex_gridL) with 2 in *. assert (c = 1) by lia. subst c. rewrite KW. cbn [Nat.eqb]. unfold vertices in *. change (g_dim ex_gridL) with 2 in *.
      apply C28_keys_ok in I as (t & Ht & Hi); [|exact Logic.I]. apply ex_subtypesL in Ht; cbn [ex_table In] in Ht.
      repeat (destruct Ht as [Ht|Ht]; [try discriminate Ht; injection Ht as <- <- <-; cbn in Dw; destruct Dw as [L ->];
        replace (3 - 1 - i) with (2 - i) by lia; reflexivity|]). destruct Ht.
  - intros ->. cbn [ex63_coordinate Nat.ltb Nat.leb]. apply C28_keys_ok in I as (t & Ht & Hi); [|exact Logic.I].
    destruct e; [|cbn; lia]. apply ex_subtypesL in Ht; cbn [ex_table In] in Ht.
    assert (i < 4).
    { repeat (destruct Ht as [Ht|Ht]; [try discriminate Ht; injection Ht as <- <-; exact Hi|]). destruct Ht. }
    do 4 (destruct i as [|i]; [cbn in HS; repeat (destruct HS as [HS|HS]; [rewrite <- HS; vm_compute; lia|]); destruct HS|]). lia.
Qed.
Example C63_shapes_ok : shapes_ok all_els ex_gridL ex63_ref 3 ex_keysL ex63_bary ex63_shape.
Proof.
  apply (C63_shape_functions bool nat (R * R) all_els ex_gridL ex63_ref ex_vid 3 ex_keysL ex63_bary ex63_coordinate); auto.
  - cbn. lia.
  - cbn. lia.
  - exact C28_grid_ok.
  - exact C63_ids_ok.
  - exact C28_keys_ok.
  - intros [] _; cbn; auto.
  - exact C63_bary_ok.
  - exact C63_coordinates_ok.
Qed.
(** A displacement with two components. *)
Definition ex63_leaf : leaf bool := lagrange_leaf ex_gridL ex_mpL (fun x => x) ex63_ref ex_vid 3 ex_keysL.
Definition ex63_b : bexpr bool := BPower true 2 BlockedInterleaved (BLeaf ex63_leaf).
Definition ex63_su : setup bool (R * R) := SU (subspace_of_root (build ex63_b) []) 1 (fun _ => 1) 2 2
  (fun e _ x => map (fun r => [r]) (ex63_shape e x))
  (fun e _ _ => repeat [0; 0]%R (length (ex_keysL e)))
  (fun _ _ _ _ => 0%R)
  (CBlk [CVal 0; CVal 0])%R (fun _ => FScalar)
  (CBlk [CBlk [CVal 0; CVal 0]; CBlk [CVal 0; CVal 0]])%R (fun _ => FVec (Some 2) FScalar).
Lemma ex63_leaf_ok : leaf_ok all_els ex63_leaf.
Proof.
  apply (C28_lagrange_indices bool nat all_els ex_gridL ex_mpL (fun x => x) ex63_ref ex_vid 3 [[true; true]; [false; false]] ex_keysL);
    [cbn; lia|exact C28_grid_ok|exact C63_ids_ok|exact C28_types_ok|reflexivity|exact C28_mapper_ok|exact C28_keys_ok|discriminate].
Qed.
Lemma ex63_leaves e v p n : leaf_of ex63_b [] e v p n -> (p = [0] \/ p = [1]) /\ node_size n = length (ex_keysL e).
Proof.
  intros (H1 & H2 & H3).
  assert (W : wf all_els ex63_b) by (cbn; split; [lia|]; split; [exact ex63_leaf_ok|]; intros _; repeat constructor; discriminate).
  rewrite (bind_new_ok all_els _ _ e (build_ok ex63_b all_els W) I) in H1. injection H1 as <-. cbn [lv_tree app] in H2.
  destruct p as [|[|[|i]] p]; cbn in H2.
  - injection H2 as <-. discriminate.
  - destruct p; cbn in H2; [|destruct n0; discriminate]. injection H2 as <-. cbn. auto.
  - destruct p; cbn in H2; [|destruct n0; discriminate]. injection H2 as <-. cbn. auto.
  - destruct i; discriminate.
Qed.

Example C63_setup_ok : setup_ok ex63_b [] all_els ex63_su.
Proof.
  constructor.
  - cbn. split; [lia|]; split; [exact ex63_leaf_ok|]; intros _; repeat constructor; discriminate.
  - cbn. eauto.
  - reflexivity.
  - intros e v p n x He L. destruct (ex63_leaves e v p n L) as [_ ->]. cbn [ex63_su su_shape su_vdim].
    split; [rewrite map_length; unfold ex63_shape, lagrange_shapes; apply map_length|]. apply Forall_forall. intros z Hz.
    apply in_map_iff in Hz as (r & <- & _). reflexivity.
  - intros e v p n x He L. destruct (ex63_leaves e v p n L) as [_ ->]. cbn [ex63_su su_jac su_vdim su_ldim].
    split; [apply repeat_length|]. apply Forall_forall. intros z Hz. apply repeat_spec in Hz. now subst.
  - intros e v p n He L. destruct (ex63_leaves e v p n L) as [[ -> | -> ] _]; (split; [|right; cbn; eauto]); eexists; repeat split; reflexivity.
  - intros e v p n He L. destruct (ex63_leaves e v p n L) as [[ -> | -> ] _]; (split; [|right; cbn; eauto]);
      eexists; (split; [reflexivity|]); repeat split; repeat constructor.
Qed.
(** The point at t of the shared edge, which runs in opposite directions in the two elements. *)
Example C63_same_location : forall r, same_location ex_gridL ex63_ref ex_vid ex63_bary 1 false (1 - r, r)%R 2 true (0, 1 - r)%R 0.
Proof.
  intros r. split; [reflexivity|]. split; [|split].
  - intros v Hv. destruct v as [|[|[|v]]]; cbn in Hv |- *; try tauto; [ring|destruct v; reflexivity].
  - intros v Hv. destruct v as [|[|[|[|v]]]]; cbn in Hv |- *; try tauto; [ring|ring|destruct v; reflexivity].
  - intros v v' Hv Hv' Q. cbn in Hv, Hv'. destruct Hv as [<-|[<-|[]]], Hv' as [<-|[<-|[]]]; cbn in Q; try discriminate; cbn; ring.
Qed.
Example C63_example : forall coefficients r y y' v n v' n' i, i < 2 ->
  is_value ex63_b [] ex63_su false coefficients (1 - r, r)%R y -> is_value ex63_b [] ex63_su true coefficients (0, 1 - r)%R y' ->
  leaf_of ex63_b [] false v [i] n -> leaf_of ex63_b [] true v' [i] n' ->
  exists z z', node_to_range [i] y = Some z /\ node_to_range [i] y' = Some z' /\ scalars z = scalars z'.
Proof.
  intros cf r y y' v n v' n' i Hi V V' L L'.
  apply (C63_continuous bool nat (R * R) all_els ex63_b [] ex63_su ex_gridL ex_mpL (fun x => x) ex63_ref ex_vid 3 [[true; true]; [false; false]]
    ex_keysL ex63_bary ex63_shape [i]) with (coefficients := cf) (c := 1) (e := false) (x := (1 - r, r)%R) (s := 2) (t := [false])
      (e' := true) (x' := (0, 1 - r)%R) (s' := 0) (t' := [true]) (v := v) (n := n) (v' := v') (n' := n'); try exact I; auto.
  - exact C63_setup_ok.
  - cbn; lia.
  - exact C28_grid_ok.
  - exact C63_ids_ok.
  - exact C63_faces_ok.
  - exact C28_types_ok.
  - exact C28_mapper_ok.
  - exact C28_keys_ok.
  - discriminate.
  - exact C63_shapes_ok.
  - cbn. destruct (Nat.leb_spec i 1); [reflexivity|lia].
  - reflexivity.
  - reflexivity.
  - apply C63_same_location.
  - rewrite (proj2 (ex63_leaves _ _ _ _ L)). discriminate.
  - rewrite (proj2 (ex63_leaves _ _ _ _ L')). discriminate.
Qed.
