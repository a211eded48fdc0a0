(** Functions that can be interpolated into Lagrange bases, and the discrete functions that
    come out (C67). *)
From Coq Require Import List Arith Bool Reals Lia Lra Permutation.
From Verif Require Import Lib GeometryType_model Mapper_model Mapper_spec Lagrange_model Lagrange_spec Lagrange_proofs Lagrange_tables Lagrange_props
  Basis_model Basis_spec Basis_proofs Basis_ok Basis_view Basis_props Container_model Container_spec Container_props
  Interpolate_model Interpolate_props FlatVector_model DiscreteFunction_model DiscreteFunction_spec DiscreteFunction_proofs
  Projection_spec Conforming_spec Conforming_proofs Conforming_shapes LagrangeNodes_spec LagrangeNodes_props.
Import ListNotations.

Lemma sum_perm l l' : Permutation l l' -> sum l = sum l'.
Proof. unfold sum. induction 1; cbn; try lra; congruence. Qed.
Lemma sum_ids (f f' : nat -> nat) (F F' : nat -> R) vs vs' : NoDup (map f vs) -> NoDup (map f' vs') ->
  (forall i, In i (map f vs) <-> In i (map f' vs')) ->
  (forall v v', In v vs -> In v' vs' -> f v = f' v' -> F v = F' v') -> sum (map F vs) = sum (map F' vs').
Proof.
  intros N N' S H.
  assert (Q : Permutation (map (fun v => (f v, F v)) vs) (map (fun v => (f' v, F' v)) vs')).
  { apply NoDup_Permutation; auto using NoDup_pairs. intros [i r]. split; intros I.
    - apply in_map_iff in I as (v & [= <- <-] & I). assert (J : In (f v) (map f' vs')) by (apply S, in_map, I).
      apply in_map_iff in J as (v' & Q & J). apply in_map_iff. exists v'. split; auto. rewrite Q. f_equal. symmetry. auto.
    - apply in_map_iff in I as (v & [= <- <-] & I). assert (J : In (f' v) (map f vs)) by (apply S, in_map, I).
      apply in_map_iff in J as (v' & Q & J). apply in_map_iff. exists v'. split; auto. rewrite Q. f_equal. auto. }
  apply (Permutation_map snd), sum_perm in Q. now rewrite !map_map in Q.
Qed.
(** Entries outside of [L] vanish. *)
Lemma sum_part (F : nat -> R) (vs L : list nat) : NoDup vs -> NoDup L -> incl L vs -> (forall v, ~ In v L -> F v = 0%R) ->
  sum (map F vs) = sum (map F L).
Proof.
  intros N NL I Z.
  assert (P1 : Permutation vs (L ++ filter (fun v => if in_dec Nat.eq_dec v L then false else true) vs)).
  { apply NoDup_Permutation; auto.
    - apply NoDup_app_i; auto using NoDup_filter.
      intros v Hv Hw. apply filter_In in Hw as [_ Hw]. destruct (in_dec _ _ _); [discriminate|contradiction].
    - intros v. rewrite in_app_iff, filter_In. pose proof (I v). destruct (in_dec Nat.eq_dec v L) as [J|J]; intuition auto. }
  apply (Permutation_map F), sum_perm in P1. rewrite P1, map_app.
  assert (A : forall l l', sum (l ++ l') = (sum l + sum l')%R) by (unfold sum; induction l as [|r l IH]; intros l'; cbn; [lra|rewrite IH; lra]).
  rewrite A. assert (Z0 : forall l, (forall v, In v l -> ~ In v L) -> sum (map F l) = 0%R).
  { unfold sum. induction l as [|v l IH]; intros H; cbn; [reflexivity|]. rewrite IH by (intros w Hw; apply H; now right).
    rewrite Z; [lra|]. apply H. now left. }
  rewrite (Z0 (filter _ vs)); [lra|]. intros v Hv. apply filter_In in Hv as [_ Hv]. destruct (in_dec _ _ _); [discriminate|auto].
Qed.

(** Functions of the global coordinate have one value where elements meet. *)
Theorem C67_functions_of_the_position : forall (E X P V : Type) (els : E -> Prop) (g : grid E X) (ref : E -> refelem)
    (vid : E -> nat -> nat) (bary : E -> P -> nat -> R) (corner : nat -> nat -> R) (F : (nat -> R) -> V),
  conforming_grid els g ref vid -> corners_ok els g ref ->
  (forall x y, (forall i, x i = y i) -> F x = F y) ->
  single_valued els g ref vid bary (fun e x => F (position g ref vid bary corner e x)).
Proof.
  intros E X P V els g ref vid bary corner F [HD HG HI HF _ _] HC HFx c e x s t e' x' s' t' He He' Hc Hs Hs' (Q & O & O' & SL).
  apply HFx. intros i. unfold position.
  assert (CL : forall e0 s0 t0, els e0 -> subtype g e0 s0 c t0 -> c <= g_dim g /\ s0 < length (subtypes (g_type g e0) c)).
  { intros e0 s0 t0 H0 H1. split; [apply (codim_le els g 1 HD HG ltac:(lia) e0 s0 c t0); auto|].
    apply nth_error_Some. unfold subtype in H1. congruence. }
  destruct (CL e s t He Hs) as [C1 L1]. destruct (CL e' s' t' He' Hs') as [_ L1'].
  assert (N : NoDup (map (vid e) (vertices g ref e s c)) /\ NoDup (map (vid e') (vertices g ref e' s' c)) /\
    forall j, In j (map (vid e) (vertices g ref e s c)) <-> In j (map (vid e') (vertices g ref e' s' c))).
  { destruct (Nat.eq_dec c (g_dim g)) as [->|D].
    - rewrite (fo_vertex _ _ _ _ HF e s t He Hs), (fo_vertex _ _ _ _ HF e' s' t' He' Hs'). cbn.
      rewrite (fo_id _ _ _ _ HF e s t e' s' t' He He' Hs Hs' Q). repeat split; auto; repeat constructor; intros [].
    - split; [apply (io_distinct _ _ _ _ HI e s c He); auto; lia|]. split; [apply (io_distinct _ _ _ _ HI e' s' c He'); auto; lia|].
      apply (io_shared _ _ _ _ HI e s c e' s'); auto. lia. }
  destruct N as (N1 & N2 & N3).
  destruct (HC e He) as [M1 I1]. destruct (HC e' He') as [M1' I1'].
  rewrite (sum_part _ (vertices g ref e 0 0) (vertices g ref e s c)); eauto using NoDup_map_inv.
  2: { intros v Hv. rewrite (O v Hv). ring. }
  rewrite (sum_part _ (vertices g ref e' 0 0) (vertices g ref e' s' c)); eauto using NoDup_map_inv.
  2: { intros v Hv. rewrite (O' v Hv). ring. }
  apply (sum_ids (vid e) (vid e')); auto. intros v v' Hv Hv' QV. now rewrite (SL v v' Hv Hv' QV), QV.
Qed.
Print Assumptions C67_functions_of_the_position.

Lemma rsum_pick n (a : nat -> R) j : j < n -> rsum n (fun i => (a i * (if i =? j then 1 else 0))%R) = a j.
Proof.
  intros H. induction n as [|n IH]; [lia|]. rewrite rsum_S. destruct (Nat.eq_dec j n) as [->|D].
  - rewrite Nat.eqb_refl. rewrite (rsum_ext n _ (fun _ => (0 * 0)%R)).
    + rewrite rsum_scal. lra.
    + intros i Hi. destruct (Nat.eqb_spec i n); [lia|ring].
  - rewrite IH by lia. destruct (Nat.eqb_spec n j); [lia|lra].
Qed.

(** The discrete function with the interpolated coefficients agrees with the function in all
    Lagrange points. *)
Theorem C67_agrees_at_the_nodes : forall (E X P : Type) (els : E -> Prop) (g : grid E X) (ref : E -> refelem) (vid : E -> nat -> nat)
    (bary : E -> P -> nat -> R) (b : bexpr E) (path : list nat) (su : setup E P) (t : cty) (interp : E -> list nat -> list R)
    (node : list nat -> E -> nat -> P) (f : list nat -> E -> P -> R) c es c',
  conforming_grid els g ref vid -> nodal_interpolation els g ref vid bary b path interp node f ->
  setup_ok b path els su -> su_cdim su = 1 -> (forall p, su_vdim su p = 1) ->
  (forall p l, leaf_at b (path ++ p) = Some l -> kronecker els (lf_fe l) (fun e x i => shape_of su e p x i 0) (node p)) ->
  call_ok b els path t interp c es ->
  interpolate t (fun _ => true) interp 0%R (subspace_of_root (build b) path) es c = Done c' ->
  forall e v p n j y, In e es -> leaf_of b path e v p n -> j < node_size n ->
  is_value b path su e (contents t c') (node p e j) y ->
  exists z, node_to_range p y = Some z /\ scalars z = [f p e (node p e j)].
Proof.
  intros E X P els g ref vid bary b path su t interp node f c es c' HG HN OKS Hcd Hvd HK HC HI e v p n j y He Lf Hj [_ Hy].
  pose proof (call_elements _ _ _ _ _ _ _ HC e He) as Hel. pose proof (call_basis _ _ _ _ _ _ _ HC) as Hwf.
  destruct (Hy v p n Lf) as (z & Hz & _ & Hs). exists z. split; auto.
  destruct (Hs ltac:(lia)) as [Ls Vs]. rewrite Hcd, Hvd in Ls, Vs. specialize (Vs 0 0 Nat.lt_0_1 Nat.lt_0_1). cbn [Nat.mul Nat.add] in Vs.
  pose proof Lf as (L1 & L2 & L3). pose proof L1 as L1'. rewrite (bind_new_ok els _ _ e (build_ok b els Hwf) Hel) in L1'. injection L1' as L1'.
  assert (HL : forall i, i < node_size n -> exists l k m, leaf_at b (path ++ p) = Some l /\ i < lf_fe l e /\ local_index n i = Some k /\ lv_index v k = Some m).
  { intros i Hi. pose proof L2 as D. rewrite <- L1' in D. cbn [lv_tree] in D.
    assert (LI : local_index n i = Some (node_offset n + i)) by (apply local_index_Some; auto).
    destruct (key_at b els e _ (path ++ p) n i _ Hwf Hel (new_skel _) D L3 LI) as (l & d & A & B & C).
    exists l. eexists. eexists. split; [exact A|]. split; [|split; [exact LI|rewrite <- L1'; unfold lv_index; cbn [lv_indices]; rewrite nth_error_map_eq, C; reflexivity]].
    destruct (HN p l A) as [(mp & vi & k0 & types & keys & HT & HCt & HM & HKk & HV & _ & Hl) _].
    destruct (C28_lagrange_indices E X els g mp vi ref vid k0 types keys (cg_dim _ _ _ _ HG) (cg_grid _ _ _ _ HG) (cg_ids _ _ _ _ HG) HT HCt HM HKk HV) as (LK & _ & _).
    rewrite <- Hl in LK. rewrite <- (lok_size _ _ LK e Hel). apply nth_error_Some. congruence. }
  rewrite (rsum_ext _ _ (fun i => (f p e (node p e i) * (if i =? j then 1 else 0))%R)) in Vs.
  - rewrite rsum_pick in Vs by auto. destruct (scalars z) as [|r [|? ?]]; cbn in Ls, Vs; congruence.
  - intros i Hi. destruct (HL i Hi) as (l & k & m & A & B & C & D). destruct (HL j Hj) as (l' & k' & m' & A' & B' & _).
    rewrite A in A'. injection A' as <-. rewrite (HK p l A e i j Hel B B'). f_equal.
    unfold coef_of. rewrite C, D. unfold contents.
    rewrite (C67_interpolation_is_nodal els g ref vid bary b path t (fun _ => true) interp 0%R node f c es c' HG HN HC HI e v p n i k m); auto.
Qed.
Print Assumptions C67_agrees_at_the_nodes.

(** * The shape functions of simplices, cubes and prisms have the Lagrange property *)
Lemma factor_one k a : 0 < k -> factor k a (INR a / INR k) = 1%R.
Proof.
  intros Hk. unfold factor. assert (Hk' : INR k <> 0%R) by (apply not_0_INR; lia).
  assert (G : forall l, (forall j, In j l -> j < a) -> product (map (fun j => ((INR k * (INR a / INR k) - INR j) / (INR a - INR j))%R) l) = 1%R).
  { induction l as [|j l IH]; intros H; [reflexivity|]. cbn [map product fold_right].
    change (fold_right Rmult 1%R) with product. rewrite IH by (intros q Hq; apply H; now right).
    assert (INR j < INR a)%R by (apply lt_INR, H; now left). field. split; lra. }
  apply G. intros j Hj. apply in_seq in Hj. lia.
Qed.
Lemma product_zero l : In 0%R l -> product l = 0%R.
Proof.
  induction l as [|r l IH]; intros H; [destruct H|]. cbn [product fold_right]. change (fold_right Rmult 1%R) with product.
  destruct H as [->|H]; [ring|]. rewrite (IH H). ring.
Qed.
Lemma factor_zero k a q : 0 < k -> q < a -> factor k a (INR q / INR k) = 0%R.
Proof.
  intros Hk Hq. unfold factor. apply product_zero. apply in_map_iff. exists q. split; [|apply in_seq; lia].
  assert (Hk' : INR k <> 0%R) by (apply not_0_INR; lia). assert (INR q < INR a)%R by (apply lt_INR; lia). field. split; lra.
Qed.
(** [A]: the coordinates of the shape function's own point in units of 1/k, [B]: those of a
    point; both add up to the same number, for example to k for a simplex. *)
Theorem C67_shape_functions_are_nodal : forall (k : nat) (sides : list (list nat)) (A B : list nat -> nat) (mu : nat -> R),
  0 < k -> list_sum (map A sides) = list_sum (map B sides) -> (forall S, In S sides -> sum (map mu S) = (INR (B S) / INR k)%R) ->
  ((forall S, In S sides -> A S = B S) -> shape_function k sides A mu = 1%R) /\
  ((exists S, In S sides /\ A S <> B S) -> shape_function k sides A mu = 0%R).
Proof.
  intros k sides A B mu Hk HS HB. unfold shape_function. split.
  - intros HA. clear HS. induction sides as [|S l IH]; [reflexivity|]. cbn [map product fold_right]. change (fold_right Rmult 1%R) with product.
    rewrite IH by (intros; try apply HB; try apply HA; now right). rewrite (HB S (or_introl eq_refl)), (HA S (or_introl eq_refl)).
    rewrite factor_one by auto. ring.
  - intros HE. assert (L : exists S, In S sides /\ B S < A S).
    { clear HB. revert HS HE. assert (G : forall l, (forall S, In S l -> A S <= B S) -> list_sum (map A l) <= list_sum (map B l) /\
        ((exists S, In S l /\ A S <> B S) -> list_sum (map A l) < list_sum (map B l))).
      { induction l as [|S l IH]; intros H; cbn; [split; [auto|intros (? & [] & _)]|].
        destruct (IH (fun S0 H0 => H S0 (or_intror H0))) as [I1 I2]. pose proof (H S (or_introl eq_refl)). split; [unfold list_sum in *; lia|].
        intros (S0 & [<-|J] & N); [unfold list_sum in *; lia|]. specialize (I2 (ex_intro _ S0 (conj J N))). unfold list_sum in *; lia. }
      intros HS HE. destruct (Exists_dec (fun S => B S < A S) sides (fun S => lt_dec (B S) (A S))) as [X|X].
      - apply Exists_exists in X. exact X.
      - exfalso. destruct (G sides) as [_ G2]; [|specialize (G2 HE); lia]. intros S HI. apply Nat.nlt_ge. intros Hlt. apply X, Exists_exists. eauto. }
    destruct L as (S & HI & HL). apply product_zero, in_map_iff. exists S. split; auto. rewrite (HB S HI). now apply factor_zero.
Qed.
Print Assumptions C67_shape_functions_are_nodal.
