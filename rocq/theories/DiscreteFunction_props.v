(** Discrete functions (C26). *)
From Coq Require Import List Arith Bool Reals Lia Lra.
From Verif Require Import Lib Basis_model Basis_spec Basis_proofs Basis_ok Basis_view Basis_props
  Container_model Container_spec Container_proofs Container_desc Container_props FlatVector_model FlatVector_props
  Interpolate_model Interpolate_props DiscreteFunction_model DiscreteFunction_spec DiscreteFunction_proofs.
Import ListNotations.
#[local] Arguments Nat.ltb : simpl never.

Section Eval.
Context {E X : Type}.
Variables (b : bexpr E) (path : list nat) (els : E -> Prop) (su : setup E X).
Hypothesis OKS : setup_ok b path els su.
Notation coefs := (mi -> option (list R)).

Lemma zero_shape (c : cont R) : shape (zero_all c) = shape c.
Proof. induction c as [x|l IH] using cont_ind'; cbn; auto. f_equal. rewrite map_map. apply map_ext_in. now apply Forall_forall. Qed.
Lemma zero_scalars (c : cont R) r : In r (scalars (zero_all c)) -> r = 0%R.
Proof.
  induction c as [x|l IH] using cont_ind'; cbn; [intros [<-|[]]; auto|]. intros H. apply in_flat_map in H as (c & Hc & Hr).
  apply in_map_iff in Hc as (c0 & <- & H0). rewrite Forall_forall in IH. eauto.
Qed.
Lemma zero_path (c : cont R) p : at_path (zero_all c) p = option_map zero_all (at_path c p).
Proof.
  revert c. induction p as [|i p IH]; intros c; [reflexivity|]. destruct c as [x|l]; [reflexivity|]. cbn.
  rewrite nth_error_map_eq. destruct (nth_error l i); cbn; auto.
Qed.
Lemma zero_ntr p (c : cont R) : node_to_range p (zero_all c) = option_map zero_all (node_to_range p c).
Proof.
  destruct c as [x|l]; [reflexivity|]. change (zero_all (CBlk l)) with (CBlk (map zero_all l)).
  rewrite !C50_component_is_path. change (CBlk (map zero_all l)) with (zero_all (CBlk l)). apply zero_path.
Qed.

Lemma eval_gen f e c (body : list nat * node E -> cont R -> option (cont R)) (sv : list nat -> list (list R)) dim odim (post : list nat -> list R -> list R)
  range rty :
  vinv b els (lf_view f) -> lf_context f = Some e -> coefs_ok b els su c -> cached path f c ->
  (forall v p n, leaf_of b path e v p n -> range_fits su range rty odim p) ->
  (forall v p n, leaf_of b path e v p n -> length (sv p) = node_size n /\ Forall (fun s => length s = dim p) (sv p)) ->
  (forall p a, length a = dim p -> length (post p a) = odim p) ->
  (forall p n y, node_size n = 0 -> body (p, n) y = Some y) ->
  (forall p mx g fe y, let n := NLeaf mx g fe (Some e) in node_size n <> 0 -> node_size n = fe e -> body (p, n) y =
     (vals <- combine_leaf su f n (node_size n) (dim p) (sv p) ;; assign_entry (rty p) p y (concat (map (post p) vals)))) ->
  exists tree y, sv_tree (su_basis su) (lf_view f) = Some tree /\
    each_leaf body (for_each_leaf tree) (zero_all range) = Some y /\ shape y = shape range /\
    forall v p n, leaf_of b path e v p n ->
      exists entry, node_to_range p y = Some entry /\
        (node_size n = 0 -> forall r, In r (scalars entry) -> r = 0%R) /\
        (node_size n <> 0 -> exists vals, scalars entry = concat (map (post p) vals) /\ length vals = su_cdim su /\
           Forall (fun w => length w = dim p) vals /\
           forall j k, j < su_cdim su -> k < dim p ->
             nth k (nth j vals []) 0%R = rsum (node_size n) (fun i => (coef_of c v n i j * nth k (nth i (sv p) []) 0)%R)).
Proof.
  intros HV He Hc Hca Hrf Hsv Hpost Hb0 Hb1.
  unfold sv_tree. rewrite (so_basis _ _ _ _ OKS). cbn [ss_path subspace_of_root].
  destruct (vinv_tree b path els su OKS _ e HV He) as [tr Htr]. exists tr. rewrite Htr.
  destruct (vinv_fresh b path els su OKS _ e HV He) as (v1 & W1 & W2 & W3).
  destruct (vinv_good b els _ e HV He) as [Hg Ho].
  destruct (desc_range path _ tr Hg Htr) as (Gt & _ & Hr). rewrite Ho in Hr. cbn in Hr.
  pose proof (vinv_size b path els su OKS _ e HV He) as Hsz.
  (* leaves of the tree and of the fresh view correspond *)
  assert (HA : forall p n, In (p, n) (leaf_nodes tr) -> exists n1, leaf_of b path e v1 p n1 /\ node_size n1 = node_size n /\ node_offset n1 = node_offset n).
  { intros p n Hn. apply leaf_nodes_descendant in Hn as [Hd Hl].
    assert (Hd' : descendant (lv_tree (lf_view f)) (path ++ p) = Some n) by (rewrite descendant_app', Htr; exact Hd).
    pose proof (W3 (path ++ p)) as Q. rewrite Hd' in Q. destruct (descendant (lv_tree v1) (path ++ p)) as [n1|] eqn:En1; [|contradiction].
    destruct Q as (Q1 & Q2 & _ & _ & Q3 & _). exists n1. split; [split; [exact W1|split; [exact En1|congruence]]|auto]. }
  assert (HB : forall v p n1, leaf_of b path e v p n1 -> v = v1 /\ exists n, In (p, n) (leaf_nodes tr) /\ node_size n1 = node_size n /\ node_offset n1 = node_offset n).
  { intros v p n1 (A1 & A2 & A3). assert (v = v1) as -> by congruence. split; auto.
    pose proof (W3 (path ++ p)) as Q. rewrite A2 in Q. destruct (descendant (lv_tree (lf_view f)) (path ++ p)) as [n|] eqn:En; [|contradiction].
    destruct Q as (Q1 & Q2 & _ & _ & Q3 & _). rewrite descendant_app', Htr in En. exists n.
    split; [apply leaf_nodes_descendant; split; [exact En|congruence]|auto]. }
  (* the coefficients of a leaf *)
  assert (HD : forall p n n1 i, In (p, n) (leaf_nodes tr) -> node_size n1 = node_size n -> node_offset n1 = node_offset n -> i < node_size n ->
    exists k l, local_index n i = Some k /\ nth_error (lf_dofs f) k = Some l /\ length l = su_cdim su /\
      forall j, coef_of c v1 n1 i j = nth j l 0%R).
  { intros p n n1 i Hn E1 E2 Hi. apply leaf_nodes_descendant in Hn as [Hd Hl].
    destruct (desc_range p tr n Gt Hd) as (_ & R1 & R2).
    exists (node_offset n + i).
    assert (Hk : local_index n i = Some (node_offset n + i)) by (apply local_index_Some; auto).
    destruct (nth_error_lt_Some (lv_indices (lf_view f)) (node_offset n + i)) as [m Hm]; [lia|].
    destruct (Hc m) as (l & Hl1 & Hl2); [eapply (vinv_global b path els su OKS); eauto|].
    exists l. split; auto. split; [|split; auto].
    - rewrite <- Hl1. eapply (Hca tr (node_offset n + i - node_offset tr)); eauto. apply local_index_Some. lia.
    - intros j. unfold coef_of. assert (Hk1 : local_index n1 i = Some (node_offset n + i)) by (apply local_index_Some; split; [lia|lia]).
      rewrite Hk1. unfold lv_index. rewrite W2, Hm, Hl1. reflexivity. }
  pose (valsof := fun (pn : list nat * node E) => match combine_leaf su f (snd pn) (node_size (snd pn)) (dim (fst pn)) (sv (fst pn)) with Some w => w | None => [] end).
  assert (HC : forall p n, In (p, n) (leaf_nodes tr) -> combine_leaf su f n (node_size n) (dim p) (sv p) = Some (valsof (p, n)) /\
     length (valsof (p, n)) = su_cdim su /\ Forall (fun w => length w = dim p) (valsof (p, n)) /\
     forall n1 j k, node_size n1 = node_size n -> node_offset n1 = node_offset n -> j < su_cdim su -> k < dim p ->
        nth k (nth j (valsof (p, n)) []) 0%R = rsum (node_size n) (fun i => (coef_of c v1 n1 i j * nth k (nth i (sv p) []) 0)%R)).
  { intros p n Hn. destruct (HA p n Hn) as (n1 & L1 & S1 & O1). destruct (Hsv v1 p n1 L1) as [V1 V2].
    destruct (combine_ok su f n (node_size n) (dim p) (sv p)) as (vals & C1 & C2 & C3 & C4); [|congruence|exact V2|].
    - intros i Hi. destruct (HD p n n1 i Hn S1 O1 Hi) as (k & l & A & B & C & _). eauto.
    - unfold valsof. cbn [fst snd]. rewrite C1. split; auto. split; auto. split; auto.
      intros n2 j k S2 O2 Hj Hk. rewrite C4 by auto. apply rsum_ext. intros i Hi. f_equal.
      destruct (HD p n n2 i Hn S2 O2 Hi) as (q & l & A & B & _ & D). rewrite A, (nth_error_nth _ _ [] B), D. reflexivity. }
  assert (HLen : forall p n, In (p, n) (leaf_nodes tr) -> length (concat (map (post p) (valsof (p, n)))) = su_cdim su * odim p).
  { intros p n Hn. destruct (HC p n Hn) as (_ & C2 & C3 & _). rewrite Forall_forall in C3. rewrite (concat_len _ (odim p)), map_length, C2; auto.
    apply Forall_forall. intros w Hw. apply in_map_iff in Hw as (a & <- & Ha). apply Hpost. auto. }
  destruct (each_leaf_ok tr body (fun pn => if node_size (snd pn) =? 0 then None else Some (concat (map (post (fst pn)) (valsof pn)))) (zero_all range))
    with (l := leaf_nodes tr) (y := zero_all range) as (y & Y1 & Y2 & Y3 & _); auto.
  { intros [p n] Hn. cbn [fst snd]. destruct (HA p n Hn) as (n1 & L1 & S1 & O1). destruct (Hrf v1 p n1 L1) as [(c0 & R1 & R2 & R3 & R4) RB]. split.
    - destruct RB as [->|[l ->]]; [now left|right; cbn; eauto].
    - intros y Hy. destruct (Nat.eqb_spec (node_size n) 0) as [Hz|Hnz]; [now apply Hb0|].
      exists (rty p), (zero_all c0).
      assert (HI : In (path ++ p, n) (leaf_nodes (lv_tree (lf_view f)))).
      { apply leaf_nodes_descendant. apply leaf_nodes_descendant in Hn as [Hd Hl]. split; auto. rewrite descendant_app', Htr. exact Hd. }
      destruct HV as [_ HV]. destruct (HV e He) as (_ & _ & n0 & _ & Ht). rewrite Ht in HI.
      destruct (bound_leaf e n0 0 (path ++ p) n HI Hnz) as (mx & g & fe & -> & Hfe).
      split; [|split; [|split; [|split]]]; auto.
      + rewrite Hb1; auto. destruct (HC p _ Hn) as (-> & _). reflexivity.
      + rewrite zero_ntr, R1. reflexivity.
      + apply (has_fty_shape (rty p) c0); auto. symmetry. apply zero_shape.
      + rewrite (HLen p _ Hn), <- R4. apply scalars_shape. apply zero_shape. }
  { apply leaf_nodes_paths_NoDup. }
  exists y. split; auto. rewrite for_each_leaf_eq. split; auto. split; [rewrite Y2; apply zero_shape|].
  intros v p n1 L1. destruct (HB v p n1 L1) as (-> & n & Hn & S1 & O1).
  destruct (Y3 (p, n) Hn) as (entry & HY). cbn [fst snd] in HY.
  destruct (HA p n Hn) as (n2 & L2 & S2 & O2). destruct (Hrf v1 p n2 L2) as [(c0 & R1 & R2 & R3 & R4) RB].
  destruct HY as [[Z1 Z2]|[Z1 Z2]].
  - exists entry. split; auto. rewrite S1. split.
    + intros Hz. rewrite Hz in Z2. cbn in Z2. rewrite zero_ntr, R1 in Z2. injection Z2 as <-. intros r. apply zero_scalars.
    + intros Hnz. destruct (Nat.eqb_spec (node_size n) 0); [lia|]. exists (valsof (p, n)). split; auto.
      destruct (HC p n Hn) as (_ & C2 & C3 & C4). split; [exact C2|]. split; [exact C3|]. intros j k Hj Hk. apply (C4 n1 j k); auto.
  - exfalso. destruct (Nat.eqb_spec (node_size n) 0) as [Hz|]; [|discriminate].
    (* an empty leaf still has its entry *)
    assert (HP : plain p range) by (destruct RB as [->|HR]; [now left|now right]).
    destruct (plain_ntr p range HP) as [F1 _]. destruct (plain_ntr p y) as [F2 _].
    { apply (plain_shape p range y); auto. rewrite Y2. symmetry. apply zero_shape. }
    pose proof (shape_path y p) as A. rewrite Y2, zero_shape, shape_path, <- F1, R1, <- F2, Z2 in A. discriminate.
Qed.

Lemma value_ok f e c x : lf_deriv f = false -> vinv b els (lf_view f) -> lf_context f = Some e -> coefs_ok b els su c -> cached path f c ->
  exists y, lf_eval su f x = Some y /\ is_value b path su e c x y.
Proof.
  intros Hd HV He Hc Hca. pose proof HV as [_ Hi]. destruct (Hi e He) as (Hels & _).
  destruct (eval_gen f e c (eval_leaf su f x) (fun p => su_shape su e p x) (su_vdim su) (su_vdim su)
              (fun p a => a) (su_range su) (su_rty su)) as (tree & y & T1 & T2 & T3 & T4); auto.
  - intros v p n L. eapply (so_range _ _ _ _ OKS); eauto.
  - intros v p n L. eapply (so_shape _ _ _ _ OKS); eauto.
  - intros p n y Hz. cbn [eval_leaf]. now rewrite Hz.
  - intros p mx g fe y n Hnz Hfe. unfold eval_leaf, n. fold n. destruct (Nat.eqb_spec (node_size n) 0); [lia|].
    rewrite <- Hfe. destruct (combine_leaf su f n (node_size n) (su_vdim su p) (su_shape su e p x)) as [vals|] eqn:Ec; [|reflexivity].
    cbn [obind]. now rewrite map_id.
  - exists y. unfold lf_eval. rewrite T1. cbn [obind]. rewrite Hd. split; auto. split; auto.
    intros v p n L. destruct (T4 v p n L) as (entry & E1 & E2 & E3). exists entry. split; auto. split; auto.
    intros Hnz. destruct (E3 Hnz) as (vals & S1 & S2 & S3 & S4).
    rewrite map_id in S1. rewrite S1. split; [rewrite (concat_len _ _ S3); lia|].
    intros j k Hj Hk. rewrite (concat_nth _ _ S3 j k) by lia.
    assert (HL : length (nth j vals []) = su_vdim su p).
    { rewrite Forall_forall in S3. apply S3. apply nth_In. lia. }
    rewrite (nth_nth_error _ _ 0%R) by lia. f_equal. apply S4; auto.
Qed.

Lemma deriv_ok f e c x : lf_deriv f = true -> lf_geo f = Some e -> vinv b els (lf_view f) -> lf_context f = Some e ->
  coefs_ok b els su c -> cached path f c ->
  exists y, lf_eval su f x = Some y /\ is_derivative b path su e c x y.
Proof.
  intros Hd Hgeo HV He Hc Hca. pose proof HV as [_ Hi]. destruct (Hi e He) as (Hels & _).
  destruct (eval_gen f e c (deriv_leaf su f e x) (fun p => su_jac su e p x) (fun p => su_vdim su p * su_ldim su) (fun p => su_vdim su p * su_gdim su)
              (fun p a => mat_times (su_vdim su p) (su_ldim su) (su_gdim su) a (su_jinv su e x)) (su_drange su) (su_drty su))
    as (tree & y & T1 & T2 & T3 & T4); auto.
  - intros v p n L. eapply (so_drange _ _ _ _ OKS); eauto.
  - intros v p n L. eapply (so_jac _ _ _ _ OKS); eauto.
  - intros p a _. apply mat_times_len.
  - intros p n y Hz. cbn [deriv_leaf]. now rewrite Hz.
  - intros p mx g fe y n Hnz Hfe. unfold deriv_leaf, n. fold n. destruct (Nat.eqb_spec (node_size n) 0); [lia|].
    rewrite <- Hfe. reflexivity.
  - exists y. unfold lf_eval. rewrite T1. cbn [obind]. rewrite Hd, Hgeo. cbn [obind]. split; auto. split; auto.
    intros v p n L. destruct (T4 v p n L) as (entry & E1 & E2 & E3). exists entry. split; auto. split; auto.
    intros Hnz. destruct (E3 Hnz) as (vals & S1 & S2 & S3 & S4).
    set (F := fun a => mat_times (su_vdim su p) (su_ldim su) (su_gdim su) a (su_jinv su e x)) in *.
    assert (HF : Forall (fun w => length w = su_vdim su p * su_gdim su) (map F vals)).
    { apply Forall_forall. intros w Hw. apply in_map_iff in Hw as (a & <- & _). apply mat_times_len. }
    rewrite S1. split; [rewrite (concat_len _ _ HF), map_length; lia|].
    intros j r g Hj Hr Hgd. rewrite (concat_nth _ _ HF j) by (rewrite ?map_length; nia).
    assert (Hnj : nth j (map F vals) [] = F (nth j vals [])).
    { rewrite (nth_indep _ [] (F [])) by (rewrite map_length; lia). apply map_nth. }
    rewrite Hnj. unfold F. rewrite mat_times_nth by auto. f_equal.
    rewrite (rsum_ext _ _ (fun l => rsum (node_size n) (fun i => (coef_of c v n i j * jac_of su e p x i r l * su_jinv su e x l g)%R))).
    + rewrite rsum_swap. apply rsum_ext. intros i Hi2. rewrite <- rsum_scal. apply rsum_ext. intros l Hl. ring.
    + intros l Hl. rewrite S4 by nia. rewrite Rmult_comm, <- rsum_scal. apply rsum_ext. intros i Hi2. unfold jac_of. ring.
Qed.
End Eval.

Section Theorems.
Context {E X : Type}.
Variables (b : bexpr E) (path : list nat) (els : E -> Prop) (su : setup E X) (c0 : mi -> option (list R)) (h : list (lfop E)).
Hypothesis OKS : setup_ok b path els su.
Hypothesis Hc0 : coefs_ok b els su c0.
Hypothesis Hh : Forall (op_ok b els su) h.

Lemma run_from_start l c : sf_run ([], c0) h = Some (l, c) -> exists w, lf_run su (W [] c0) h = Some w /\ world_inv b path els su (l, c) w.
Proof.
  intros R. apply (run_inv b path els su OKS h ([], c0) (W [] c0) (l, c)); auto.
  split; [constructor|]. split; auto.
Qed.

(** Any sequence of valid operations works. *)
Theorem C26_histories_are_defined l c :
  sf_run ([], c0) h = Some (l, c) -> exists w, lf_run su (W [] c0) h = Some w /\ length (w_pool w) = length l.
Proof.
  intros R. destruct (run_from_start l c R) as (w & H1 & H2 & _). exists w. split; auto. symmetry. eapply Forall2_len; eauto.
Qed.

(** bound() and localContext(). *)
Theorem C26_bound_state l c w i sf f :
  sf_run ([], c0) h = Some (l, c) -> lf_run su (W [] c0) h = Some w ->
  nth_error l i = Some sf -> nth_error (w_pool w) i = Some f ->
  lf_context f = option_map fst (sf_state sf) /\ (lf_bound f = true <-> sf_state sf <> None).
Proof.
  intros R Rw Hi Hf. destruct (run_from_start l c R) as (w' & H1 & H2 & _). rewrite Rw in H1. injection H1 as <-.
  destruct (Forall2_nth_l _ _ _ _ _ H2 Hi) as (f' & Hf' & _ & _ & HS). rewrite Hf in Hf'. injection Hf' as <-.
  unfold lf_bound, lv_bound. unfold lf_context in *. destruct (sf_state sf) as [[e cc]|]; cbn.
  - destruct HS as (-> & _). split; auto. split; [discriminate|auto].
  - rewrite HS. split; auto. split; congruence.
Qed.

(** A bound local function evaluates to the sums of coefficients (those at the time of
    the bind) times shape functions. *)
Theorem C26_value_is_the_weighted_sum l c w i e cc f x :
  sf_run ([], c0) h = Some (l, c) -> lf_run su (W [] c0) h = Some w ->
  nth_error l i = Some (SF false (Some (e, cc))) -> nth_error (w_pool w) i = Some f ->
  exists y, lf_eval su f x = Some y /\ is_value b path su e cc x y.
Proof.
  intros R Rw Hi Hf. destruct (run_from_start l c R) as (w' & H1 & H2 & _). rewrite Rw in H1. injection H1 as <-.
  destruct (Forall2_nth_l _ _ _ _ _ H2 Hi) as (f' & Hf' & Hd & HV & HS). rewrite Hf in Hf'. injection Hf' as <-.
  cbn in HS. destruct HS as (A1 & A2 & A3 & A4). eapply value_ok; eauto.
Qed.
Theorem C26_derivative_is_the_weighted_sum l c w i e cc f x :
  sf_run ([], c0) h = Some (l, c) -> lf_run su (W [] c0) h = Some w ->
  nth_error l i = Some (SF true (Some (e, cc))) -> nth_error (w_pool w) i = Some f ->
  exists y, lf_eval su f x = Some y /\ is_derivative b path su e cc x y.
Proof.
  intros R Rw Hi Hf. destruct (run_from_start l c R) as (w' & H1 & H2 & _). rewrite Rw in H1. injection H1 as <-.
  destruct (Forall2_nth_l _ _ _ _ _ H2 Hi) as (f' & Hf' & Hd & HV & HS). rewrite Hf in Hf'. injection Hf' as <-.
  cbn in HS. destruct HS as (A1 & A2 & A3 & A4). eapply deriv_ok; eauto.
Qed.
End Theorems.

(** Linearity in the coefficient vector. *)
Theorem C26_linear_in_coefficients {E X : Type} (b : bexpr E) path els (su : setup E X) e x (s t : R) c1 c2 c y1 y2 y :
  setup_ok b path els su -> els e -> coefs_ok b els su c1 -> coefs_ok b els su c2 ->
  (forall m l1 l2, c1 m = Some l1 -> c2 m = Some l2 -> exists l, c m = Some l /\ forall j, nth j l 0%R = (s * nth j l1 0 + t * nth j l2 0)%R) ->
  is_value b path su e c1 x y1 -> is_value b path su e c2 x y2 -> is_value b path su e c x y ->
  forall v p n j k, leaf_of b path e v p n -> j < su_cdim su -> k < su_vdim su p -> node_size n <> 0 ->
  exists z1 z2 z r1 r2 r, node_to_range p y1 = Some z1 /\ node_to_range p y2 = Some z2 /\ node_to_range p y = Some z /\
    nth_error (scalars z1) (j * su_vdim su p + k) = Some r1 /\ nth_error (scalars z2) (j * su_vdim su p + k) = Some r2 /\
    nth_error (scalars z) (j * su_vdim su p + k) = Some r /\ r = (s * r1 + t * r2)%R.
Proof.
  intros OKS He Hc1 Hc2 HL (_ & H1) (_ & H2) (_ & H) v p n j k L Hj Hk Hnz.
  destruct (H1 v p n L) as (z1 & A1 & _ & B1). destruct (B1 Hnz) as [_ C1].
  destruct (H2 v p n L) as (z2 & A2 & _ & B2). destruct (B2 Hnz) as [_ C2].
  destruct (H v p n L) as (z & A3 & _ & B3). destruct (B3 Hnz) as [_ C3].
  do 6 eexists. split; [exact A1|]. split; [exact A2|]. split; [exact A3|].
  split; [apply C1; auto|]. split; [apply C2; auto|]. split; [apply C3; auto|].
  rewrite <- !rsum_scal, <- rsum_plus. apply rsum_ext. intros i Hi.
  assert (Hco : coef_of c v n i j = (s * coef_of c1 v n i j + t * coef_of c2 v n i j)%R); [|rewrite Hco; ring].
  destruct L as (L1 & L2 & L3). unfold coef_of.
  assert (Hk' : local_index n i = Some (node_offset n + i)) by (apply local_index_Some; auto). rewrite Hk'.
  destruct (vinv_bind b path els su OKS (lv_new (build b)) e (vinv_new b els) He) as (v' & Hv' & HV & Hve). rewrite L1 in Hv'. injection Hv' as <-.
  destruct (vinv_good b els v e HV Hve) as [Hg Ho]. destruct (desc_range (path ++ p) _ n Hg L2) as (_ & R1 & R2). rewrite Ho in R2. cbn in R2.
  destruct (nth_error_lt_Some (lv_indices v) (node_offset n + i)) as [m Hm]; [rewrite (vinv_size b path els su OKS v e HV Hve); lia|].
  unfold lv_index. rewrite Hm. pose proof (vinv_global b path els su OKS v e _ m HV Hve Hm) as HG.
  destruct (Hc1 m HG) as (l1 & E1 & _). destruct (Hc2 m HG) as (l2 & E2 & _). destruct (HL m l1 l2 E1 E2) as (l & E3 & HJ).
  rewrite E1, E2, E3. apply HJ.
Qed.

(** derivative() of a bound local function, and copies, are bound to the same element;
    a copy has the same coefficients, and so has the derivative unless the coefficient
    vector changed since the bind. *)
Theorem C26_copies_and_derivatives_agree {E X : Type} (b : bexpr E) path els (su : setup E X) c0 h l c w i sf :
  setup_ok b path els su -> coefs_ok b els su c0 -> Forall (op_ok b els su) h ->
  sf_run ([], c0) h = Some (l, c) -> lf_run su (W [] c0) h = Some w -> nth_error l i = Some sf ->
  (exists w', lf_run su (W [] c0) (h ++ [OpCopy i]) = Some w' /\
     sf_run ([], c0) (h ++ [OpCopy i]) = Some (l ++ [sf], c)) /\
  (sf_deriv sf = false ->
   exists w', lf_run su (W [] c0) (h ++ [OpDerivative i]) = Some w' /\
     sf_run ([], c0) (h ++ [OpDerivative i]) = Some (l ++ [SF true (option_map (fun ec => (fst ec, c)) (sf_state sf))], c)).
Proof.
  intros OKS Hc0 Hh R Rw Hi.
  assert (A : forall h1 h2 s, sf_run s (h1 ++ h2) = (w <- sf_run s h1 ;; @sf_run E w h2)).
  { induction h1 as [|o h1 IH]; intros h2 s0; [reflexivity|]. cbn. destruct (sf_step s0 o); cbn; auto. }
  split.
  - assert (R' : sf_run ([], c0) (h ++ [OpCopy i]) = Some (l ++ [sf], c)) by (rewrite A, R; cbn; now rewrite Hi).
    destruct (run_from_start b path els su c0 (h ++ [OpCopy i]) OKS Hc0) with (2 := R') as (w' & Hw & _); eauto.
    apply Forall_app. split; auto. repeat constructor.
  - intros Hd.
    assert (R' : sf_run ([], c0) (h ++ [OpDerivative i]) = Some (l ++ [SF true (option_map (fun ec => (fst ec, c)) (sf_state sf))], c))
      by (rewrite A, R; cbn; rewrite Hi; cbn; now rewrite Hd).
    destruct (run_from_start b path els su c0 (h ++ [OpDerivative i]) OKS Hc0) with (2 := R') as (w' & Hw & _); eauto.
    apply Forall_app. split; auto. repeat constructor.
Qed.

(** * The hypotheses are met *)

(** A velocity with two linear components and a constant pressure on two intervals. *)
Definition ex26_b : bexpr nat := BComposite CBlockedLexicographic [BPower true 2 BlockedInterleaved (BLeaf ex_p1); BLeaf ex_p0].
Definition ex26_su : setup nat R := SU (subspace_of_root (build ex26_b) []) 1 (fun _ => 1) 1 1
  (fun _ p x => match p with [1] => [[1]] | _ => [[1 - x]; [x]] end%R)
  (fun _ p _ => match p with [1] => [[0]] | _ => [[- (1)]; [1]] end%R)
  (fun _ _ _ _ => 2%R)
  (CBlk [CBlk [CVal 0; CVal 0]; CVal 0])%R (fun _ => FScalar)
  (CBlk [CBlk [CBlk [CVal 0]; CBlk [CVal 0]]; CBlk [CVal 0]])%R (fun _ => FVec (Some 1) FScalar).
Definition ex26_c (m : mi) : option (list R) := Some [INR (length m)].

Lemma ex26_leaf e v p n : leaf_of ex26_b [] e v p n ->
  (p = [0; 0] \/ p = [0; 1] \/ p = [1]) /\ node_size n = (if list_eq_dec Nat.eq_dec p [1] then 1 else 2).
Proof.
  intros (H1 & H2 & H3). injection H1 as <-. cbn [app] in H2.
  destruct p as [|[|[|i]] p]; cbn in H2.
  - injection H2 as <-. discriminate.
  - destruct p as [|[|[|j]] p]; cbn in H2; try discriminate.
    + injection H2 as <-. discriminate.
    + destruct p; cbn in H2; [|destruct n0; discriminate]. injection H2 as <-. cbn. auto.
    + destruct p; cbn in H2; [|destruct n0; discriminate]. injection H2 as <-. cbn. auto.
    + destruct j; discriminate.
  - destruct p; cbn in H2; [|destruct n0; discriminate]. injection H2 as <-. cbn. auto.
  - destruct i; discriminate.
Qed.
Example C26_hypotheses_met : setup_ok ex26_b [] ex_els ex26_su /\ coefs_ok ex26_b ex_els ex26_su ex26_c.
Proof.
  split; [constructor|].
  - cbn. split; [discriminate|]. split; [split; [lia|]; split; [apply ex_p1_ok|]|split; [apply ex_p0_ok|exact I]]. intros _. repeat constructor; discriminate.
  - cbn. eauto.
  - reflexivity.
  - intros e v p n x He L. destruct (ex26_leaf e v p n L) as [[ -> | [ -> | -> ]] ->]; cbn; repeat constructor.
  - intros e v p n x He L. destruct (ex26_leaf e v p n L) as [[ -> | [ -> | -> ]] ->]; cbn; repeat constructor.
  - intros e v p n He L. destruct (ex26_leaf e v p n L) as [[ -> | [ -> | -> ]] _]; (split; [|right; cbn; eauto]);
      eexists; repeat split; reflexivity.
  - intros e v p n He L. destruct (ex26_leaf e v p n L) as [[ -> | [ -> | -> ]] _]; (split; [|right; cbn; eauto]);
      eexists; (split; [reflexivity|]); repeat split; repeat constructor.
  - intros m _. eexists. split; reflexivity.
Qed.
Definition ex26_h : list (lfop nat) := [OpNew false; OpBind 0 1; OpDerivative 0; OpCopy 0; OpBind 0 0; OpAssign 2 0; OpUnbind 0].
Example C26_history_met : Forall (op_ok ex26_b ex_els ex26_su) ex26_h /\
  sf_run ([], ex26_c) ex26_h = Some ([SF false None; SF true (Some (1, ex26_c)); SF false (Some (0, ex26_c))], ex26_c).
Proof. split; [repeat constructor|reflexivity]. Qed.

Print Assumptions C26_histories_are_defined.
Print Assumptions C26_bound_state.
Print Assumptions C26_value_is_the_weighted_sum.
Print Assumptions C26_derivative_is_the_weighted_sum.
Print Assumptions C26_linear_in_coefficients.
Print Assumptions C26_copies_and_derivatives_agree.
