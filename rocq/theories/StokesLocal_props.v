(** C103: the local assembler of the Stokes example, with the global assembly of C100. *)
From Coq Require Import List Arith Lia Bool Reals Lra.
From Verif Require Import Lib Basis_model Basis_spec Basis_ok Basis_view Basis_proofs Basis_props DiscreteFunction_model DiscreteFunction_proofs
  Assembly_model Assembly_spec Assembly_proofs Assembly_props Stokes_model Stokes_spec Stokes_proofs Stokes_props
  LocalAssembler_model LocalAssembler_spec LocalAssembler_props StokesLocal_model StokesLocal_spec.
Import ListNotations.

Definition bil (n : nat) (w u : nat -> R) (M : nat -> nat -> R) : R := rsum n (fun r => rsum n (fun c => (w r * M r c * u c)%R)).
Lemma dense_add_bil n a c x M : a < n -> c < n -> exists M', dense_add n a c x M = Some M' /\ forall w u, bil n w u M' = (bil n w u M + w a * x * u c)%R.
Proof.
  intros Ha Hc. unfold dense_add. rewrite (proj2 (Nat.ltb_lt _ _) Ha), (proj2 (Nat.ltb_lt _ _) Hc). cbn [andb]. eexists. split; [reflexivity|]. intros w u. unfold bil.
  rewrite <- (rsum_pick1 n a (fun r => (w r * x * u c)%R) Ha), <- rsum_plus. apply rsum_ext. intros r _.
  destruct (Nat.eqb_spec r a) as [->|]; cbn [andb]; [|rewrite Rplus_0_r; reflexivity].
  rewrite <- (rsum_pick1 n c (fun c => (w a * x * u c)%R) Hc), <- rsum_plus. apply rsum_ext. intros c' _. destruct (c' =? c); lra.
Qed.
Lemma forl_bil N n (body : nat -> (nat -> nat -> R) -> option (nat -> nat -> R)) (t : (nat -> R) -> (nat -> R) -> nat -> R) :
  (forall i M, i < n -> exists M', body i M = Some M' /\ forall w u, bil N w u M' = (bil N w u M + t w u i)%R) ->
  forall M, exists M', forl n 0 body M = Some M' /\ forall w u, bil N w u M' = (bil N w u M + rsum n (t w u))%R.
Proof.
  intros H M. destruct (forl_inv (fun k M' => forall w u, bil N w u M' = (bil N w u M + rsum k (t w u))%R) n 0 body M) as (M' & Q & P).
  - intros w u. rewrite rsum_0. lra.
  - intros i M1 Hi A. destruct (H i M1 ltac:(lia)) as (M2 & Q & B). exists M2. split; [exact Q|]. intros w u. rewrite B, A, Nat.add_1_r, rsum_S. lra.
  - exists M'. split; [exact Q|exact P].
Qed.

Section Proofs.
Context {E X : Type}.
Variables (dim : nat) (v p : leaf E) (els : E -> Prop) (quad : E -> list (X * R)).
Variables (refj jinv : E -> X -> nat -> nat -> R) (ie : E -> X -> R) (psi : E -> X -> nat -> R).
Notation b := (stokes_basis dim v p).
Hypotheses (Hdim : 0 < dim) (Hv : leaf_ok els v) (Hp : leaf_ok els p).
Notation jac := (jacobian dim refj jinv).

Lemma go_leaves (fe : E -> nat) (e : E) cs : (forall c, In c cs -> skel c = NLeaf mx0 [] fe None) -> forall o, exists cs',
  bind_children e o cs = (o + length cs * fe e, cs') /\
  forall k, k < length cs -> exists t, nth_error cs' k = Some (NLeaf (MX (o + k * fe e) (fe e) t) [] fe (Some e)).
Proof.
  induction cs as [|c cs IH]; intros H o.
  - exists []. split; [cbn; f_equal; lia|]. cbn. lia.
  - destruct (skel_leaf _ _ _ (H c (or_introl eq_refl))) as (m & el & ->). cbn [bind_children bind_tree forallb node_size node_mixin mx_size].
    destruct (IH (fun c Hc => H c (or_intror Hc)) (o + fe e)) as (cs' & Q & P). cbn zeta. cbn [node_size node_mixin mx_size]. rewrite Q.
    eexists. split; [f_equal; cbn; lia|]. intros [|k] Hk; cbn [nth_error length] in *.
    + eexists. do 3 f_equal. lia.
    + destruct (P k ltac:(lia)) as (t & Pt). exists t. rewrite Pt. do 3 f_equal. lia.
Qed.
Lemma bound_children w w' e : freshs dim v p w -> lv_bind (build b) w e = Some w' ->
  lv_size w' = dim * lf_fe v e + lf_fe p e /\
  (forall k, k < dim -> exists c, descendant (lv_tree w') [0; k] = Some c /\ node_offset c = k * lf_fe v e /\ node_size c = lf_fe v e) /\
  (exists c, descendant (lv_tree w') [1] = Some c /\ node_offset c = dim * lf_fe v e /\ node_size c = lf_fe p e).
Proof.
  intros F B. assert (T : lv_tree w' = bind_tree e 0 (lv_tree w)).
  { unfold lv_bind in B. destruct (pb_indices _ _ _ _) as [[b' ?]|]; [|discriminate]. injection B as <-. reflexivity. }
  unfold lv_size. rewrite T. unfold freshs in F. cbn in F. rewrite map_repeat_eq in F.
  apply skel_inner in F as (m & cs & -> & Hcs). destruct cs as [|c0 [|c1 [|]]]; try discriminate. injection Hcs as H0 H1.
  apply skel_inner in H0 as (m0 & cs0 & -> & H0). apply map_repeat_in in H0 as [L0 H0]. apply skel_leaf in H1 as (m1 & el & ->).
  destruct (go_leaves (lf_fe v) e cs0 H0 0) as (cs' & Q & P). rewrite bind_inner. cbn [forallb bind_children]. rewrite bind_inner. cbn [forallb]. rewrite Q. cbn. rewrite L0 in *. rewrite ?Nat.sub_0_r.
  split; [lia|]. split.
  - intros k Hk. destruct (P k Hk) as (t & Pt). eexists. unfold child. cbn. rewrite Pt. split; [reflexivity|]. cbn. lia.
  - eexists. split; [reflexivity|]. cbn. lia.
Qed.

Section Bound.
Variables (w w' : lview E) (e : E).
Hypotheses (F : freshs dim v p w) (B : lv_bind (build b) w e = Some w').
Notation nv := (lf_fe v e).
Notation np := (lf_fe p e).
Lemma at_velocity k i : k < dim -> i < nv -> at_child w' [0; k] i = Some (k * nv + i) /\ k * nv + i < lv_size w'.
Proof.
  intros Hk Hi. destruct (bound_children w w' e F B) as (S & C & _). destruct (C k Hk) as (c & D & O & Z). unfold at_child. rewrite D. cbn [obind]. unfold local_index.
  rewrite Z, (proj2 (Nat.ltb_lt _ _) Hi), O. split; [reflexivity|]. rewrite S. nia.
Qed.
Lemma at_pressure j : j < np -> at_child w' [1] j = Some (dim * nv + j) /\ dim * nv + j < lv_size w'.
Proof.
  intros Hj. destruct (bound_children w w' e F B) as (S & _ & (c & D & O & Z)). unfold at_child. rewrite D. cbn [obind]. unfold local_index.
  rewrite Z, (proj2 (Nat.ltb_lt _ _) Hj), O. split; [reflexivity|]. lia.
Qed.
Definition vv (q : X * R) (t u : nat -> R) : R := rsum nv (fun i => rsum nv (fun j => rsum dim (fun k =>
  (t (k * nv + i)%nat * (row_times_row dim (jac e (fst q) i) (jac e (fst q) j) * snd q * ie e (fst q)) * u (k * nv + j)%nat)%R))).
Definition vp (q : X * R) (t u : nat -> R) : R := rsum nv (fun i => rsum np (fun j => rsum dim (fun k =>
  (t (k * nv + i)%nat * (- (jac e (fst q) i k * psi e (fst q) j * snd q * ie e (fst q))) * u (dim * nv + j)%nat +
   t (dim * nv + j)%nat * (- (jac e (fst q) i k * psi e (fst q) j * snd q * ie e (fst q))) * u (k * nv + i)%nat)%R))).
Lemma couple_velocity_ok q M : exists M', couple_velocity dim refj jinv ie w' e q nv M = Some M' /\
  forall t u, bil (lv_size w') t u M' = (bil (lv_size w') t u M + vv q t u)%R.
Proof.
  unfold couple_velocity, vv. refine (forl_bil _ _ _ (fun t u i => rsum nv (fun j => rsum dim (fun k => (t (k * nv + i)%nat * (row_times_row dim (jac e (fst q) i) (jac e (fst q) j) * snd q * ie e (fst q)) * u (k * nv + j)%nat)%R))) _ M). intros i M1 Hi.
  refine (forl_bil _ _ _ (fun t u j => rsum dim (fun k => (t (k * nv + i)%nat * (row_times_row dim (jac e (fst q) i) (jac e (fst q) j) * snd q * ie e (fst q)) * u (k * nv + j)%nat)%R)) _ M1). intros j M2 Hj.
  refine (forl_bil _ _ _ (fun t u k => (t (k * nv + i)%nat * (row_times_row dim (jac e (fst q) i) (jac e (fst q) j) * snd q * ie e (fst q)) * u (k * nv + j)%nat)%R) _ M2). intros k M3 Hk.
  destruct (at_velocity k i Hk Hi) as [-> L1]. destruct (at_velocity k j Hk Hj) as [-> L2]. cbn [obind]. now apply dense_add_bil.
Qed.
Lemma couple_pressure_ok q M : exists M', couple_pressure dim refj jinv ie psi w' e q nv np M = Some M' /\
  forall t u, bil (lv_size w') t u M' = (bil (lv_size w') t u M + vp q t u)%R.
Proof.
  unfold couple_pressure, vp. refine (forl_bil _ _ _ (fun t u i => rsum np (fun j => rsum dim (fun k => (t (k * nv + i)%nat * (- (jac e (fst q) i k * psi e (fst q) j * snd q * ie e (fst q))) * u (dim * nv + j)%nat + t (dim * nv + j)%nat * (- (jac e (fst q) i k * psi e (fst q) j * snd q * ie e (fst q))) * u (k * nv + i)%nat)%R))) _ M). intros i M1 Hi.
  refine (forl_bil _ _ _ (fun t u j => rsum dim (fun k => (t (k * nv + i)%nat * (- (jac e (fst q) i k * psi e (fst q) j * snd q * ie e (fst q))) * u (dim * nv + j)%nat + t (dim * nv + j)%nat * (- (jac e (fst q) i k * psi e (fst q) j * snd q * ie e (fst q))) * u (k * nv + i)%nat)%R)) _ M1). intros j M2 Hj.
  refine (forl_bil _ _ _ (fun t u k => (t (k * nv + i)%nat * (- (jac e (fst q) i k * psi e (fst q) j * snd q * ie e (fst q))) * u (dim * nv + j)%nat + t (dim * nv + j)%nat * (- (jac e (fst q) i k * psi e (fst q) j * snd q * ie e (fst q))) * u (k * nv + i)%nat)%R) _ M2). intros k M3 Hk.
  destruct (at_velocity k i Hk Hi) as [-> L1]. destruct (at_pressure j Hj) as [-> L2]. cbn [obind].
  match goal with |- context[dense_add _ _ _ ?x M3] => destruct (dense_add_bil _ _ _ x M3 L1 L2) as (M4 & -> & P4); destruct (dense_add_bil _ _ _ x M4 L2 L1) as (M5 & Q5 & P5) end.
  cbn [obind]. exists M5. split; [exact Q5|]. intros t u. rewrite P5, P4. ring.
Qed.
Lemma stokes_points_ok qs : forall M, exists M', stokes_points dim refj jinv ie psi w' e nv np qs M = Some M' /\
  forall t u, bil (lv_size w') t u M' = (bil (lv_size w') t u M + fold_right Rplus 0 (map (fun q => vv q t u + vp q t u) qs))%R.
Proof.
  induction qs as [|q qs IH]; intros M; cbn [stokes_points map fold_right].
  - exists M. split; [reflexivity|]. intros. lra.
  - destruct (couple_velocity_ok q M) as (M1 & -> & P1). cbn [obind]. destruct (couple_pressure_ok q M1) as (M2 & -> & P2). cbn [obind].
    destruct (IH M2) as (M3 & -> & P3). exists M3. split; [reflexivity|]. intros t u. rewrite P3, P2, P1. lra.
Qed.
Lemma local_ok : exists M, stokes_local_matrix dim quad refj jinv ie psi w' e = Some M /\
  forall t u, bil (lv_size w') t u M = fold_right Rplus 0%R (map (fun q => (vv q t u + vp q t u)%R) (quad e)).
Proof.
  unfold stokes_local_matrix, fe_size. destruct (bound_children w w' e F B) as (_ & C & (c1 & D1 & _ & S1)). destruct (C 0 Hdim) as (c0 & D0 & _ & S0). rewrite D0, D1. cbn [obind]. rewrite S0, S1.
  destruct (stokes_points_ok (quad e) (fun _ _ => 0%R)) as (M & -> & P). exists M. split; [reflexivity|]. intros t u. rewrite P.
  assert (Z : bil (lv_size w') t u (fun _ _ => 0%R) = 0%R) by (apply rsum_zeros; intros; apply rsum_zeros; intros; ring). rewrite Z. lra.
Qed.
End Bound.

(** * The indices of an element *)
Lemma stokes_indices e : els e -> indices b e = flat_map (fun k => map (fun g => [0; g; k]) (lf_indices v e)) (seq 0 dim) ++ map (fun g => [1; g]) (lf_indices p e).
Proof.
  intros He. pose proof (build_ok b els (stokes_wf dim v p els Hdim Hv Hp)) as OK. unfold indices. rewrite (bind_new_ok els _ _ e OK He).
  set (l := map (sp_glob (meaning b)) (sp_keys (meaning b) e)).
  assert (S : lv_size (LV (Some e) (bind_tree e 0 (fst (init_tree 0 (pb_node (build b))))) l) = length l).
  { unfold l. rewrite map_length. apply (ok_nsize _ _ _ OK _ e 0 He (new_skel _)). }
  rewrite S. unfold lv_index. cbn [lv_indices].
  transitivity l.
  - clear S. clearbody l. apply (nth_ext _ _ [] []); rewrite map_length, seq_length; [reflexivity|]. intros i Hi. set (f := fun i : nat => _).
    rewrite (nth_indep _ [] (f 0)) by (rewrite map_length, seq_length; exact Hi). rewrite map_nth, seq_nth by exact Hi. unfold f. cbn [Nat.add].
    rewrite (nth_error_nth' l [] Hi). reflexivity.
  - unfold l. cbn. rewrite app_nil_r, map_app. f_equal.
    + rewrite map_map. induction (seq 0 dim) as [|k ks IH]; [reflexivity|]. cbn [flat_map]. rewrite map_app, IH. f_equal. rewrite !map_map. reflexivity.
    + rewrite !map_map. reflexivity.
Qed.
Lemma nth_flat_map_const {A} n (f : nat -> list A) d : (forall k, length (f k) = n) -> forall m s k i, k < m -> i < n -> nth (k * n + i) (flat_map f (seq s m)) d = nth i (f (s + k)) d.
Proof.
  intros H. induction m as [|m IH]; intros s k i Hk Hi; [lia|]. cbn [seq flat_map]. destruct k as [|k].
  - rewrite app_nth1 by (rewrite H; lia). cbn. now rewrite Nat.add_0_r.
  - rewrite app_nth2 by (rewrite H; nia). rewrite H. replace (S k * n + i - n) with (k * n + i) by nia. rewrite IH by lia. f_equal. f_equal. lia.
Qed.
Lemma index_velocity e k i : els e -> k < dim -> i < lf_fe v e -> index_at b e (k * lf_fe v e + i) = [0; nth i (lf_indices v e) 0; k].
Proof.
  intros He Hk Hi. unfold index_at. rewrite stokes_indices by auto. pose proof (lok_size _ _ Hv e He) as L.
  assert (LF : length (flat_map (fun k => map (fun g => [0; g; k]) (lf_indices v e)) (seq 0 dim)) = dim * lf_fe v e).
  { rewrite (flat_map_const_length _ (lf_fe v e)); [now rewrite seq_length|]. intros. now rewrite map_length. }
  rewrite app_nth1 by (rewrite LF; nia). rewrite (nth_flat_map_const (lf_fe v e)) by (auto; intros; now rewrite map_length).
  rewrite (nth_indep _ [] [0; 0; k]) by (rewrite map_length; lia). cbn [Nat.add]. now rewrite (map_nth (fun g => [0; g; k])).
Qed.
Lemma index_pressure e j : els e -> j < lf_fe p e -> index_at b e (dim * lf_fe v e + j) = [1; nth j (lf_indices p e) 0].
Proof.
  intros He Hj. unfold index_at. rewrite stokes_indices by auto. pose proof (lok_size _ _ Hv e He) as L. pose proof (lok_size _ _ Hp e He) as L'.
  assert (LF : length (flat_map (fun k => map (fun g => [0; g; k]) (lf_indices v e)) (seq 0 dim)) = dim * lf_fe v e).
  { rewrite (flat_map_const_length _ (lf_fe v e)); [now rewrite seq_length|]. intros. now rewrite map_length. }
  rewrite app_nth2 by (rewrite LF; lia). rewrite LF, Nat.add_comm, Nat.add_sub.
  rewrite (nth_indep _ [] [1; 0]) by (rewrite map_length; lia). now rewrite (map_nth (fun g => [1; g])).
Qed.

(** * Sums *)
Lemma rsum_prod n m (f g : nat -> R) : (rsum n f * rsum m g)%R = rsum n (fun i => rsum m (fun j => (f i * g j)%R)).
Proof. rewrite Rmult_comm, <- rsum_scal. apply rsum_ext. intros i _. rewrite Rmult_comm, <- rsum_scal. reflexivity. Qed.
Lemma vv_algebra n (a c : nat -> nat -> R) (g : nat -> nat -> R) (s : R) :
  rsum n (fun i => rsum n (fun j => rsum dim (fun k => (a k i * (rsum dim (fun l => (g i l * g j l)%R) * s) * c k j)%R))) =
  (rsum dim (fun k => rsum dim (fun l => (rsum n (fun i => a k i * g i l) * rsum n (fun j => c k j * g j l))%R)) * s)%R.
Proof.
  transitivity (rsum dim (fun k => rsum dim (fun l => rsum n (fun i => rsum n (fun j => (s * (a k i * g i l * (c k j * g j l)))%R))))).
  - transitivity (rsum n (fun i => rsum dim (fun k => rsum n (fun j => rsum dim (fun l => (s * (a k i * g i l * (c k j * g j l)))%R))))).
    + apply rsum_ext. intros i _. rewrite rsum_swap. apply rsum_ext. intros k _. apply rsum_ext. intros j _.
      rewrite (rsum_ext dim (fun l => (s * (a k i * g i l * (c k j * g j l)))%R) (fun l => (s * a k i * c k j * (g i l * g j l))%R)) by (intros; ring). rewrite rsum_scal. ring.
    + rewrite rsum_swap. apply rsum_ext. intros k _. rewrite <- (rsum_swap n dim). apply rsum_ext. intros i _. apply rsum_swap.
  - rewrite Rmult_comm, <- rsum_scal. apply rsum_ext. intros k _. rewrite <- rsum_scal. apply rsum_ext. intros l _. rewrite rsum_prod, <- rsum_scal. apply rsum_ext. intros i _. now rewrite rsum_scal.
Qed.
Lemma vp_algebra n m (a : nat -> nat -> R) (c g' : nat -> R) (g : nat -> nat -> R) (s : R) :
  rsum n (fun i => rsum m (fun j => rsum dim (fun k => (a k i * g i k * (c j * g' j) * s)%R))) =
  (rsum m (fun j => c j * g' j) * rsum dim (fun k => rsum n (fun i => a k i * g i k)) * s)%R.
Proof.
  rewrite (rsum_swap dim n). rewrite (Rmult_comm (rsum m _)), rsum_prod, Rmult_comm, <- rsum_scal. apply rsum_ext. intros i _. rewrite <- rsum_scal. apply rsum_ext. intros j _.
  rewrite (rsum_ext dim _ (fun k => (c j * g' j * s * (a k i * g i k))%R)) by (intros; ring). rewrite rsum_scal. ring.
Qed.

(** The element matrix of a view bound to [e], also if it was bound before: no access is out of bounds, and the bilinear form on the local
    coefficients is the quadrature of the weak form of the Stokes equations. *)
Theorem C103_element_matrix w e : els e -> skel (lv_tree w) = skel (pb_node (build b)) ->
  exists w' M, lv_bind (build b) w e = Some w' /\ stokes_local_matrix dim quad refj jinv ie psi w' e = Some M /\
    lv_size w' = length (indices b e) /\
    forall t u, rsum (lv_size w') (fun i => rsum (lv_size w') (fun j => (t (index_at b e i) * M i j * u (index_at b e j))%R)) =
      integral ie quad (stokes_integrand dim v p refj jinv psi t u) e.
Proof.
  intros He F. destruct (rebinds dim v p els Hdim Hv Hp w e F He) as (w' & B & _ & S & _).
  destruct (local_ok w w' e F B) as (M & K & P). exists w', M. split; [exact B|]. split; [exact K|]. split; [exact S|].
  intros t u. specialize (P (fun i => t (index_at b e i)) (fun i => u (index_at b e i))). unfold bil in P. rewrite P. unfold integral. apply sum_ext. intros q _.
  unfold stokes_integrand, vv, vp, divergence, pressure.
  rewrite (rsum_ext _ _ (fun i => rsum (lf_fe v e) (fun j => rsum dim (fun k => (t [0; nth i (lf_indices v e) 0; k]%nat *
    (rsum dim (fun l => (jac e (fst q) i l * jac e (fst q) j l)%R) * (snd q * ie e (fst q))) * u [0; nth j (lf_indices v e) 0; k]%nat)%R)))).
  2:{ intros i Hi. apply rsum_ext. intros j Hj. apply rsum_ext. intros k Hk. rewrite !index_velocity by auto. unfold row_times_row. ring. }
  rewrite (vv_algebra _ (fun k i => t [0; nth i (lf_indices v e) 0; k]) (fun k i => u [0; nth i (lf_indices v e) 0; k])).
  rewrite (rsum_ext _ (fun i => rsum (lf_fe p e) _) (fun i => (rsum (lf_fe p e) (fun j => rsum dim (fun k => (t [0; nth i (lf_indices v e) 0; k]%nat * jac e (fst q) i k * (u [1; nth j (lf_indices p e) 0]%nat * psi e (fst q) j) * - (snd q * ie e (fst q)))%R)) +
    rsum (lf_fe p e) (fun j => rsum dim (fun k => (u [0; nth i (lf_indices v e) 0; k]%nat * jac e (fst q) i k * (t [1; nth j (lf_indices p e) 0]%nat * psi e (fst q) j) * - (snd q * ie e (fst q)))%R)))%R)).
  2:{ intros i Hi. rewrite <- rsum_plus. apply rsum_ext. intros j Hj. rewrite <- rsum_plus. apply rsum_ext. intros k Hk. rewrite !index_velocity, !index_pressure by auto. ring. }
  rewrite rsum_plus.
  rewrite (vp_algebra _ _ (fun k i => t [0; nth i (lf_indices v e) 0; k]) (fun j => u [1; nth j (lf_indices p e) 0])).
  rewrite (vp_algebra _ _ (fun k i => u [0; nth i (lf_indices v e) 0; k]) (fun j => t [1; nth j (lf_indices p e) 0])).
  unfold velocity_derivative, jacobian. ring.
Qed.
End Proofs.

Section Global.
Context {E X : Type}.
Variables (dim : nat) (v p : leaf E) (es : list E) (quad : E -> list (X * R)).
Variables (refj jinv : E -> X -> nat -> nat -> R) (ie : E -> X -> R) (psi : E -> X -> nat -> R).
Notation b := (stokes_basis dim v p).
Notation unknown := (global_index (fun e => In e es) b).
Hypotheses (Hdim : 0 < dim) (Hv : leaf_ok (fun e => In e es) v) (Hp : leaf_ok (fun e => In e es) p).

(** The element matrices of the assembler. *)
Definition stokes_element (e : E) (i j : nat) : R :=
  match lv_bind (build b) (lv_new (build b)) e with
  | Some w => match stokes_local_matrix dim quad refj jinv ie psi w e with Some M => M i j | None => 0%R end
  | None => 0%R
  end.

Definition dbl (L : list mi) (t u : mi -> R) (f : mi -> mi -> R) : R :=
  fold_right Rplus 0%R (map (fun r => fold_right Rplus 0%R (map (fun c => (t r * f r c * u c)%R) L)) L).
Lemma sum_add {A} (f g : A -> R) l : fold_right Rplus 0%R (map (fun x => (f x + g x)%R) l) = (fold_right Rplus 0 (map f l) + fold_right Rplus 0 (map g l))%R.
Proof. induction l as [|x l IH]; cbn; [lra|]. rewrite IH. lra. Qed.
Lemma sum_zero {A} (f : A -> R) l : (forall x, In x l -> f x = 0%R) -> fold_right Rplus 0%R (map f l) = 0%R.
Proof. induction l as [|x l IH]; intros H; cbn; [reflexivity|]. rewrite H, IH; [lra|intros; apply H; now right|now left]. Qed.
Lemma dbl_add L t u f g : dbl L t u (fun r c => (f r c + g r c)%R) = (dbl L t u f + dbl L t u g)%R.
Proof. unfold dbl. rewrite <- sum_add. apply sum_ext. intros r _. rewrite <- sum_add. apply sum_ext. intros c _. ring. Qed.
Lemma dbl_ext L t u f g : (forall r c, In r L -> In c L -> f r c = g r c) -> dbl L t u f = dbl L t u g.
Proof. intros H. apply sum_ext. intros r Hr. apply sum_ext. intros c Hc. now rewrite H. Qed.
Lemma dbl_zero L t u : dbl L t u (fun _ _ => 0%R) = 0%R.
Proof. apply sum_zero. intros r _. apply sum_zero. intros c _. ring. Qed.
Lemma dbl_rsum L t u n (f : nat -> mi -> mi -> R) : dbl L t u (fun r c => rsum n (fun i => f i r c)) = rsum n (fun i => dbl L t u (f i)).
Proof.
  induction n as [|n IH].
  - rewrite rsum_0, <- (dbl_zero L t u). apply dbl_ext. intros. apply rsum_0.
  - rewrite rsum_S, <- IH, <- dbl_add. apply dbl_ext. intros. apply rsum_S.
Qed.
Lemma sum_pick L (a : mi) (f : mi -> R) : NoDup L -> In a L -> fold_right Rplus 0%R (map (fun m => if addr_eqb a m then f m else 0%R) L) = f a.
Proof.
  induction L as [|m L IH]; intros ND H; [destruct H|]. inversion ND as [|? ? N1 N2]; subst. cbn [map fold_right]. destruct (addr_eqb_spec a m) as [->|N].
  - rewrite sum_zero; [lra|]. intros x Hx. destruct (addr_eqb_spec m x) as [->|]; [contradiction|reflexivity].
  - destruct H as [->|H]; [congruence|]. rewrite IH by auto. lra.
Qed.
Lemma dbl_point L t u a c x : NoDup L -> In a L -> In c L -> dbl L t u (fun r c' => if addr_eqb a r && addr_eqb c c' then x else 0%R) = (t a * x * u c)%R.
Proof.
  intros ND Ha Hc. unfold dbl. rewrite <- (sum_pick L a (fun r => (t r * x * u c)%R) ND Ha). apply sum_ext. intros r _. destruct (addr_eqb a r); cbn [andb].
  - rewrite <- (sum_pick L c (fun c => (t r * x * u c)%R) ND Hc). apply sum_ext. intros c' _. destruct (addr_eqb c c'); ring.
  - apply sum_zero. intros. ring.
Qed.

(** The assembled matrix is the weak form of the Stokes equations, for all pairs of functions. *)
Theorem C103_stokes L : NoDup L -> (forall m, In m L <-> unknown m) ->
  exists M, assemble_stokes stokes_element dim (build b) es = Some M /\
    (forall t u, fold_right Rplus 0%R (map (fun r => fold_right Rplus 0%R (map (fun c => (t r * entry dim M r c * u c)%R) L)) L) =
      stokes_form dim v p quad refj jinv ie psi t u es) /\
    (forall row col, unknown row -> unknown col -> entry dim M row col = entry dim M col row).
Proof.
  intros ND HL. destruct (C100_stokes_matrix dim v p es stokes_element Hdim Hv Hp) as (M & K & P). exists M. split; [exact K|].
  assert (Fm : forall t u, fold_right Rplus 0%R (map (fun r => fold_right Rplus 0%R (map (fun c => (t r * entry dim M r c * u c)%R) L)) L) = stokes_form dim v p quad refj jinv ie psi t u es).
  { intros t u. change (dbl L t u (entry dim M) = stokes_form dim v p quad refj jinv ie psi t u es).
    rewrite (dbl_ext L t u (entry dim M) (fun r c => total b stokes_element r c es)) by (intros r c Hr Hc; apply P; now apply HL).
    assert (G : forall l, (forall e, In e l -> In e es) -> dbl L t u (fun r c => total b stokes_element r c l) = stokes_form dim v p quad refj jinv ie psi t u l); [|now apply G].
    induction l as [|e l IH]; intros Hl; unfold total, stokes_form, on_elements; cbn [map fold_right].
    - apply dbl_zero.
    - rewrite dbl_add. specialize (IH (fun e He => Hl e (or_intror He))). unfold total, stokes_form, on_elements in IH. rewrite IH. apply (f_equal (fun z => (z + _)%R)).
      destruct (C103_element_matrix dim v p (fun e => In e es) quad refj jinv ie psi Hdim Hv Hp (lv_new (build b)) e (Hl e (or_introl eq_refl)) (new_skel _)) as (w & Me & B & Q & S & Fe).
      rewrite <- Fe, S. unfold contribution. rewrite dbl_rsum. apply rsum_ext. intros i Hi. rewrite dbl_rsum. apply rsum_ext. intros j Hj.
      assert (IL : forall i, i < length (indices b e) -> In (index_at b e i) L).
      { intros n Hn. apply HL. exists e, n. split; [apply Hl; now left|]. destruct (rebinds dim v p _ Hdim Hv Hp (lv_new (build b)) e (new_skel _) (Hl e (or_introl eq_refl))) as (w2 & B2 & _ & S2 & I2).
        exists w2. split; [exact B2|]. split; [apply I2; exact Hn|lia]. }
      rewrite dbl_point by auto. unfold stokes_element. rewrite B, Q. reflexivity. }
  split; [exact Fm|]. intros row col Hr Hc.
  assert (EN : forall r c, unknown r -> unknown c -> entry dim M r c = stokes_form dim v p quad refj jinv ie psi (fun m => if addr_eqb r m then 1%R else 0%R) (fun m => if addr_eqb c m then 1%R else 0%R) es).
  { intros r c H1 H2. rewrite <- Fm. apply HL in H1, H2.
    rewrite (sum_ext _ (fun m => if addr_eqb r m then entry dim M m c else 0%R) L); [now rewrite sum_pick|]. intros m _. destruct (addr_eqb r m).
    - rewrite <- (sum_pick L c (fun c => entry dim M m c) ND H2). apply sum_ext. intros c' _. destruct (addr_eqb c c'); ring.
    - apply sum_zero. intros. ring. }
  rewrite !EN by auto. unfold stokes_form, on_elements. apply sum_ext. intros e _. unfold integral. apply sum_ext. intros q _. f_equal. f_equal. unfold stokes_integrand.
  match goal with |- (?a - _ - _ = ?c - _ - _)%R => replace c with a; [ring|] end. apply rsum_ext. intros k _. apply rsum_ext. intros l _. ring.
Qed.
End Global.

(** * A case: two elements of length 1/2 in a strip, shape functions that do not depend on the second coordinate, the midpoint rule *)
Definition ex103_quad (_ : nat) : list (R * R) := [((1/2)%R, 1%R)].
Definition ex103_refj (_ : nat) (_ : R) (i l : nat) : R := if l =? 0 then (if i =? 0 then (-1)%R else 1%R) else 0%R.
Definition ex103_jinv (_ : nat) (_ : R) (m l : nat) : R := if m =? l then 2%R else 0%R.
Definition ex103_ie (_ : nat) (_ : R) : R := (1/2)%R.
Definition ex103_psi (_ : nat) (x : R) (i : nat) : R := if i =? 0 then (1 - x)%R else x.
Example C103_hypotheses_met : exists L, NoDup L /\ (forall m, In m L <-> global_index (fun e => In e [1; 0]) (stokes_basis 2 ex_p1 ex_p1) m) /\
  exists M, assemble_stokes (stokes_element 2 ex_p1 ex_p1 ex103_quad ex103_refj ex103_jinv ex103_ie ex103_psi) 2 (build (stokes_basis 2 ex_p1 ex_p1)) [1; 0] = Some M /\
    forall t u, fold_right Rplus 0%R (map (fun r => fold_right Rplus 0%R (map (fun c => (t r * entry 2 M r c * u c)%R) L)) L) =
      stokes_form 2 ex_p1 ex_p1 ex103_quad ex103_refj ex103_jinv ex103_ie ex103_psi t u [1; 0].
Proof.
  destruct C100_hypotheses_met as (H1 & H2 & (L & L1 & _ & L2) & _). exists L. split; [exact L1|]. split; [exact L2|].
  destruct (C103_stokes 2 ex_p1 ex_p1 [1; 0] ex103_quad ex103_refj ex103_jinv ex103_ie ex103_psi H1 H2 H2 L L1 L2) as (M & K & P & _). exists M. split; [exact K|exact P].
Qed.
(** The form is not trivial: the first velocity at the middle node with itself, and with the first pressure. *)
Example C103_values :
  let one m m' := if addr_eqb m m' then 1%R else 0%R in
  let form := stokes_form 2 ex_p1 ex_p1 ex103_quad ex103_refj ex103_jinv ex103_ie ex103_psi in
  form (one [0; 1; 0]) (one [0; 1; 0]) [1; 0] = 4%R /\ form (one [0; 1; 0]) (one [1; 0]) [1; 0] = (-1/2)%R /\
  form (one [0; 1; 0]) (one [0; 1; 1]) [1; 0] = 0%R.
Proof.
  unfold stokes_form, on_elements, integral, stokes_integrand, divergence, pressure, velocity_derivative, ex103_quad, ex103_refj, ex103_jinv, ex103_ie, ex103_psi, rsum. cbn.
  repeat split; lra.
Qed.

Print Assumptions C103_element_matrix.
Print Assumptions C103_stokes.
