(** Proofs about the face DOF permutation tables. *)
From Coq Require Import List Arith Lia Bool NArith.
From Verif Require Import Lib Basis_model GeometryType_model GeometryType_props.
From Verif Require Import Mapper_model Lagrange_model Lagrange_spec Lagrange_proofs.
Import ListNotations.
#[local] Arguments Nat.ltb : simpl never.
#[local] Arguments Nat.testbit : simpl never.

(** * Rows of the triangle *)

Definition rows (m y : nat) : nat := list_sum (map (fun r => m - r) (seq 0 y)).
Lemma rows_S m y : rows m (S y) = rows m y + (m - y).
Proof. unfold rows. rewrite seq_S, map_app, list_sum_app. cbn. lia. Qed.
Lemma rows_closed m y : y <= m -> 2 * rows m y + y * (y - 1) = 2 * (m * y).
Proof.
  induction y as [|y IH]; intros H; [cbn; lia|]. rewrite rows_S. specialize (IH ltac:(lia)). nia.
Qed.
Lemma rows_mono m y y' : y <= y' -> rows m y <= rows m y'.
Proof. intros H. induction H as [|y' H IH]; [lia|]. rewrite rows_S. lia. Qed.
Lemma rows_full m : rows m m = m * (m + 1) / 2.
Proof. symmetry. apply half_mul. pose proof (rows_closed m m (le_n m)). nia. Qed.
Lemma rows_in m x y : x + y < m -> x + rows m y < m * (m + 1) / 2.
Proof.
  intros H. rewrite <- rows_full. pose proof (rows_mono m (S y) m ltac:(lia)) as R. rewrite rows_S in R. lia.
Qed.
Lemma rows_inj m x y x' y' : x + y < m -> x' + y' < m -> x + rows m y = x' + rows m y' -> x = x' /\ y = y'.
Proof.
  intros H H' E.
  assert (y = y').
  { destruct (lt_eq_lt_dec y y') as [[L|L]|L]; [|exact L|].
    - pose proof (rows_mono m (S y) y' L) as R. rewrite rows_S in R. lia.
    - pose proof (rows_mono m (S y') y L) as R. rewrite rows_S in R. lia. }
  subst y'. lia.
Qed.
Lemma flat_rows m b0 x y : y <= m -> barycentricToFlat m (b0, x, y) = x + rows m y.
Proof.
  intros H. unfold barycentricToFlat. pose proof (rows_closed m y H) as R.
  assert (D : y * (y - 1) = 2 * (y * (y - 1) / 2)).
  { destruct y as [|y]; [reflexivity|]. rewrite Nat.sub_succ, Nat.sub_0_r.
    pose proof (binomial_2 y) as B. rewrite <- B. rewrite (Nat.mul_comm 2 (binomial _ _)) at 2. rewrite Nat.div_mul by lia. lia. }
  rewrite D in R. lia.
Qed.

Lemma nth_flat_map {A} (f : nat -> list A) n y x :
  y < n -> x < length (f y) ->
  nth_error (flat_map f (seq 0 n)) (x + list_sum (map (fun r => length (f r)) (seq 0 y))) = nth_error (f y) x.
Proof.
  enough (H : forall n s, y < n -> x < length (f (s + y)) ->
    nth_error (flat_map f (seq s n)) (x + list_sum (map (fun r => length (f r)) (seq s y))) = nth_error (f (s + y)) x) by exact (H n 0).
  clear n. induction y as [|y IH]; intros n s Hn Hx; (destruct n as [|n]; [lia|]).
  - rewrite Nat.add_0_r in *. cbn [seq flat_map map]. change (list_sum []) with 0. rewrite Nat.add_0_r, nth_error_app1 by exact Hx. reflexivity.
  - cbn [seq flat_map map]. rewrite list_sum_cons, nth_error_app2 by lia.
    replace (x + (length (f s) + list_sum (map (fun r => length (f r)) (seq (S s) y))) - length (f s))
      with (x + list_sum (map (fun r => length (f r)) (seq (S s) y))) by lia.
    replace (s + S y) with (S s + y) in * by lia. apply IH; [lia|exact Hx].
Qed.

Lemma bary_nth m x y : x + y < m ->
  nth_error (barycentricIndices m) (x + rows m y) = Some (m - 1 - (y + x), x, y).
Proof.
  intros H. unfold barycentricIndices.
  assert (R : rows m y = list_sum (map (fun r => length (map (fun j => (m - 1 - (r + j), j, r)) (seq 0 (m - r)))) (seq 0 y))).
  { unfold rows. f_equal. apply map_ext. intros r. rewrite map_length, seq_length. reflexivity. }
  rewrite R, (nth_flat_map (fun r => map (fun j => (m - 1 - (r + j), j, r)) (seq 0 (m - r)))).
  - rewrite nth_error_map_eq, nth_error_seq. destruct (Nat.ltb_spec x (m - y)); [|lia]. reflexivity.
  - lia.
  - rewrite map_length, seq_length. lia.
Qed.

(** * Table entries *)

Lemma tri_weights_eq k x y x' y' : x + y + 2 < k -> x' + y' + 2 < k ->
  dof_weights 3 k (x' + rows (k - 2) y') [k - (x' + 1) - (y' + 1); x' + 1; y' + 1].
Proof.
  intros H H'. cbn [dof_weights]. exists x', y'. split; [exact H'|]. split; reflexivity.
Qed.

Lemma triangle_entry k o i w : legal 3 o -> dof_weights 3 k i w ->
  exists j, triangleEntry k o i = Some j /\ dof_weights 3 k j (view 3 o w) /\ j < (k - 2) * (k - 2 + 1) / 2.
Proof.
  intros Ho (x & y & H & -> & ->). fold (rows (k - 2) y).
  unfold triangleEntry. destruct (Nat.ltb_spec k 3) as [L|L]; [lia|].
  pose proof (rows_in (k - 2) x y ltac:(lia)) as Hi.
  destruct (Nat.ltb_spec (x + rows (k - 2) y) ((k - 2) * (k - 2 + 1) / 2)) as [L'|L']; [|lia].
  rewrite bary_nth by lia. cbn [obind]. set (z := k - 2 - 1 - (y + x)).
  assert (Hz : x + y + z + 3 = k) by (unfold z; lia). clearbody z.
  assert (Fin : forall b0 x' y' w', x' + y' + 2 < k -> w' = [k - (x' + 1) - (y' + 1); x' + 1; y' + 1] ->
    exists j, Some (barycentricToFlat (k - 2) (b0, x', y')) = Some j /\ dof_weights 3 k j w' /\ j < (k - 2) * (k - 2 + 1) / 2).
  { intros b0 x' y' w' Hx ->. rewrite flat_rows by lia. eexists. split; [reflexivity|].
    split; [apply tri_weights_eq with (x := x) (y := y); lia|]. apply rows_in. lia. }
  assert (Leq : forall a b c a' b' c' : nat, a = a' -> b = b' -> c = c' -> [a; b; c] = [a'; b'; c']) by (intros; subst; reflexivity).
  cbn [legal In] in Ho. destruct Ho as [<-|[<-|[<-|[<-|[<-|[<-|[]]]]]]];
    repeat match goal with |- context [Nat.testbit ?a 2] => let r := eval vm_compute in (Nat.testbit a 2) in change (Nat.testbit a 2) with r end;
    repeat match goal with |- context [?a mod 4] => let r := eval vm_compute in (a mod 4) in change (a mod 4) with r end;
    cbn [Nat.eqb view swap01 swap02 swap12];
    (apply Fin; [lia|apply Leq; lia]).
Qed.

Lemma quad_entry k o i w : 8 <= o < 16 -> dof_weights 4 k i w ->
  exists j, quadrilateralEntry k (o - 8) i = Some j /\ dof_weights 4 k j (view 4 o w) /\ j < (k - 1) * (k - 1).
Proof.
  intros Ho (x & y & Hx & Hy & -> & ->).
  unfold quadrilateralEntry. destruct (Nat.ltb_spec k 2) as [L|L]; [lia|].
  destruct (Nat.ltb_spec (x + (k - 1) * y) ((k - 1) * (k - 1))) as [L'|L']; [|nia].
  assert (EM : (x + (k - 1) * y) mod (k - 1) = x) by (rewrite (Nat.mul_comm (k - 1) y), Nat.mod_add, Nat.mod_small; lia).
  assert (ED : (x + (k - 1) * y) / (k - 1) = y) by (rewrite (Nat.mul_comm (k - 1) y), Nat.div_add, Nat.div_small; lia).
  rewrite EM, ED. clear EM ED.
  assert (Fin : forall x' y' w', x' + 1 < k -> y' + 1 < k ->
    w' = [(k - (x' + 1)) * (k - (y' + 1)); (x' + 1) * (k - (y' + 1)); (k - (x' + 1)) * (y' + 1); (x' + 1) * (y' + 1)] ->
    exists j, Some (x' + (k - 1) * y') = Some j /\ dof_weights 4 k j w' /\ j < (k - 1) * (k - 1)).
  { intros x' y' w' Hx' Hy' ->. eexists. split; [reflexivity|]. split; [|nia].
    exists x', y'. auto. }
  set (X := x + 1) in *. set (Y := y + 1) in *. 
  assert (EX : k - 1 - 1 - x + 1 = k - X) by lia. assert (EY : k - 1 - 1 - y + 1 = k - Y) by lia.
  assert (EX' : k - (k - X) = X) by lia. assert (EY' : k - (k - Y) = Y) by lia.
  assert (o = 8 \/ o = 9 \/ o = 10 \/ o = 11 \/ o = 12 \/ o = 13 \/ o = 14 \/ o = 15) as C by lia.
  destruct C as [->|[->|[->|[->|[->|[->|[->| ->]]]]]]];
    match goal with |- context [?a - 8] => let r := eval vm_compute in (a - 8) in change (a - 8) with r end;
    match goal with |- context [Nat.testbit ?a 2] => let r := eval vm_compute in (Nat.testbit a 2) in change (Nat.testbit a 2) with r end;
    match goal with |- context [?a mod 4] => let r := eval vm_compute in (a mod 4) in change (a mod 4) with r end;
    cbn [Nat.eqb fst snd view];
    (apply Fin; [lia|lia|]); fold X Y; rewrite ?EX, ?EY, ?EX', ?EY'; repeat (f_equal; try apply Nat.mul_comm).
Qed.

Lemma table_entry k o i w n : k <= 17 -> (n = 3 /\ legal 3 o) \/ (n = 4 /\ legal 4 o) -> dof_weights n k i w ->
  exists j, facetFlipTable k o i = Some j /\ dof_weights n k j (view n o w).
Proof.
  intros Hk [[-> Ho]|[-> Ho]] Hw; unfold facetFlipTable.
  - destruct (triangle_entry k o i w Ho Hw) as (j & Hj & Wj & Lj).
    assert (Li : i < (k - 2) * (k - 2 + 1) / 2).
    { destruct Hw as (x & y & H & -> & _). apply rows_in. lia. }
    assert (K : (k - 2) * (k - 2 + 1) / 2 <= (k - 1) * (k - 1)).
    { apply Nat.div_le_upper_bound; [lia|]. nia. }
    assert (K2 : (k - 1) * (k - 1) <= 256) by nia.
    assert (o < 8) by (cbn [legal In] in Ho; lia).
    destruct (Nat.ltb_spec o 16); [|lia]. destruct (Nat.ltb_spec i ((k - 1) * (k - 1))); [|lia].
    destruct (Nat.ltb_spec o 8); [|lia]. cbn [andb]. rewrite Hj. exists j. split; [|exact Wj].
    f_equal. apply Nat.mod_small. lia.
  - cbn [legal] in Ho. destruct (quad_entry k o i w Ho Hw) as (j & Hj & Wj & Lj).
    assert (Li : i < (k - 1) * (k - 1)).
    { destruct Hw as (x & y & Hx & Hy & -> & _). nia. }
    assert (K2 : (k - 1) * (k - 1) <= 256) by nia.
    destruct (Nat.ltb_spec o 16); [|lia]. destruct (Nat.ltb_spec i ((k - 1) * (k - 1))); [|lia].
    destruct (Nat.ltb_spec o 8); [lia|]. cbn [andb]. rewrite Hj. exists j. split; [|exact Wj].
    f_equal. apply Nat.mod_small. lia.
Qed.

(** * Weights *)

Lemma view_same_point v w o : face_size v -> length w = length v -> legal (length v) o ->
  same_point v w (view (length v) o v) (view (length v) o w).
Proof.
  intros S L Ho id. unfold weight.
  destruct v as [|a [|b [|c [|d [|]]]]]; unfold face_size in S; cbn [length] in *; try lia;
  destruct w as [|wa [|wb [|wc [|wd [|]]]]]; cbn [length] in *; try lia.
  - destruct Ho as [-> | ->]; cbn; lia.
  - cbn [legal In] in Ho. destruct Ho as [<-|[<-|[<-|[<-|[<-|[<-|[]]]]]]]; cbn; lia.
  - cbn [legal] in Ho.
    assert (o = 8 \/ o = 9 \/ o = 10 \/ o = 11 \/ o = 12 \/ o = 13 \/ o = 14 \/ o = 15) as C by lia.
    destruct C as [->|[->|[->|[->|[->|[->|[->| ->]]]]]]]; cbn; lia.
Qed.

Lemma dof_weights_length n k i w : dof_weights n k i w -> length w = n.
Proof.
  destruct n as [|[|[|[|[|n]]]]]; cbn [dof_weights]; try tauto.
  - intros [_ ->]. reflexivity.
  - intros (x & y & _ & _ & ->). reflexivity.
  - intros (x & y & _ & _ & _ & ->). reflexivity.
Qed.
Lemma dof_weights_fun n k i w w' : dof_weights n k i w -> dof_weights n k i w' -> w = w'.
Proof.
  destruct n as [|[|[|[|[|n]]]]]; cbn [dof_weights]; try tauto.
  - intros [_ ->] [_ ->]. reflexivity.
  - intros (x & y & H & -> & ->) (x' & y' & H' & E & ->).
    destruct (rows_inj (k - 2) x y x' y' ltac:(lia) ltac:(lia) E) as [-> ->]. reflexivity.
  - intros (x & y & Hx & Hy & -> & ->) (x' & y' & Hx' & Hy' & E & ->).
    assert (y = y').
    { rewrite !(Nat.mul_comm (k - 1)) in E. pose proof (f_equal (fun z => z / (k - 1)) E) as D. cbn beta in D.
      rewrite !Nat.div_add, !Nat.div_small in D by lia. lia. }
    subst y'. assert (x = x') by lia. subst x'. reflexivity.
Qed.
Lemma dof_weights_inj n k i i' w : dof_weights n k i w -> dof_weights n k i' w -> i = i'.
Proof.
  destruct n as [|[|[|[|[|n]]]]]; cbn [dof_weights]; try tauto.
  - intros [_ ->] [_ E]. injection E. lia.
  - intros (x & y & H & -> & ->) (x' & y' & H' & -> & E). injection E as _ E1 E2.
    assert (x = x') by lia. assert (y = y') by lia. subst. reflexivity.
  - intros (x & y & Hx & Hy & -> & ->) (x' & y' & Hx' & Hy' & -> & E). injection E as E0 E1 E2 E3.
    assert (x = x').
    { assert (A : (x + 1) * k = (x' + 1) * k).
      { transitivity ((x + 1) * (k - (y + 1)) + (x + 1) * (y + 1)); [rewrite <- Nat.mul_add_distr_l; f_equal; lia|].
        rewrite E1, E3, <- Nat.mul_add_distr_l. f_equal. lia. }
      apply Nat.mul_cancel_r in A; lia. }
    subst x'. assert (y = y').
    { apply Nat.mul_cancel_l in E3; lia. }
    subst y'. reflexivity.
Qed.

Lemma weight_notin v w x : ~ In x v -> weight v w x = 0.
Proof.
  revert w; induction v as [|a v IH]; intros w H; [reflexivity|]. destruct w as [|b w]; [reflexivity|].
  unfold weight in *. cbn [combine map fst snd]. rewrite list_sum_cons, IH by (intros I; apply H; right; exact I).
  destruct (Nat.eqb_spec a x) as [->|]; [exfalso; apply H; left; reflexivity|reflexivity].
Qed.
Lemma weight_nodup u w w' : NoDup u -> length w = length u -> length w' = length u -> same_point u w u w' -> w = w'.
Proof.
  revert w w'; induction u as [|a u IH]; intros w w' N L L' H.
  - destruct w; [|discriminate L]. destruct w'; [reflexivity|discriminate L'].
  - destruct w as [|b w]; [discriminate L|]. destruct w' as [|b' w']; [discriminate L'|].
    inversion N as [|? ? Na Nu]; subst. cbn [length] in L, L'.
    assert (b = b').
    { specialize (H a). unfold weight in H. cbn [combine map fst snd] in H. rewrite !list_sum_cons, !Nat.eqb_refl in H.
      fold (weight u w a) (weight u w' a) in H. rewrite !weight_notin in H by exact Na. lia. }
    subst b'. f_equal. apply IH; trivial; try lia. intros x. specialize (H x). unfold weight in *. cbn [combine map fst snd] in H.
    rewrite !list_sum_cons in H. lia.
Qed.
Lemma same_point_sym v w v' w' : same_point v w v' w' -> same_point v' w' v w.
Proof. intros H x. symmetry. apply H. Qed.
Lemma same_point_trans v w v' w' v'' w'' : same_point v w v' w' -> same_point v' w' v'' w'' -> same_point v w v'' w''.
Proof. intros H H' x. rewrite H. apply H'. Qed.

(** * Permuted DOFs in the canonical numbering *)

Lemma facet_cases re f : refelem_ok 3 re -> f < re_size re 1 ->
  (exists a b c, re_subs re f 1 3 = [a; b; c]) \/ (exists a b c d, re_subs re f 1 3 = [a; b; c; d]).
Proof.
  intros Hre Hf. destruct (nth_error_lt_Some (subtypes (re_type re) 1) f Hf) as (t & Ht).
  destruct (tri_or_quad t (facet_dim2 re f t (ro_dim _ _ Hre) Ht)) as [[T Q]|[T Q]].
  - left. destruct (ro_triangle _ _ Hre f t eq_refl Ht T) as (a & b & c & e0 & e1 & e2 & Hv & _). eauto.
  - right. destruct (ro_quadrilateral _ _ Hre f t eq_refl Ht Q) as (a & b & c & d & e0 & e1 & e2 & e3 & Hv & _). eauto 6.
Qed.

Lemma face_code_canonical re ids f : refelem_ok 3 re -> f < re_size re 1 ->
  let v := faceVertexIds 3 re ids f 1 in NoDup v ->
  (length v = 3 \/ length v = 4) /\ legal (length v) (facet_code re ids f) /\
  global_orientation v (view (length v) (facet_code re ids f) v).
Proof.
  intros Hre Hf v N. unfold v, faceVertexIds, facet_code in *.
  destruct (facet_cases re f Hre Hf) as [(a & b & c & E)|(a & b & c & d & E)]; rewrite E in *; cbn [map length] in *.
  - destruct (tri_canonical _ _ _ N). auto.
  - destruct (quad_canonical _ _ _ _ N). auto.
Qed.

Lemma edge_code_canonical dim re ids e : refelem_ok dim re -> e < re_size re (dim - 1) ->
  let v := faceVertexIds dim re ids e (dim - 1) in NoDup v ->
  length v = 2 /\ legal 2 (Nat.b2n (edge_bit dim re ids e)) /\
  global_orientation v (view 2 (Nat.b2n (edge_bit dim re ids e)) v).
Proof.
  intros Hre He v N. unfold v, faceVertexIds, edge_bit in *.
  destruct (ro_edge _ _ Hre e He) as (a & b & E). rewrite E in *. cbn [map length] in *.
  split; [reflexivity|]. split; [destruct (ids b <? ids a); cbn; auto|].
  apply edge_canonical. inversion N as [|? ? A _]; subst. cbn in A. intros Q. apply A. auto.
Qed.

Lemma edge_flip k o i w : legal 2 o -> dof_weights 2 k i w ->
  dof_weights 2 k (if o =? 0 then i else k - 2 - i) (view 2 o w).
Proof.
  intros [-> | ->] [H ->]; cbn [Nat.eqb view dof_weights].
  - auto.
  - split; [lia|]. f_equal; [lia|]. f_equal. lia.
Qed.

Lemma permute_canonical dim k re ids s c i w o :
  refelem_ok dim re -> dim = 2 \/ (dim = 3 /\ k <= 17) -> 1 <= c < dim -> s < re_size re c ->
  let v := faceVertexIds dim re ids s c in
  NoDup v -> dof_weights (length v) k i w -> computeFaceOrientations dim k re ids = Some o ->
  face_size v /\
  exists u j wu, global_orientation v u /\ permuteFaceDOF dim k s c i o = Some j /\
    dof_weights (length v) k j wu /\ same_point v w u wu.
Proof.
  intros Hre Hd Hc Hs v N Hw Ho.
  (* edges *)
  destruct (Nat.eq_dec c (dim - 1)) as [->|Nc].
  { destruct (edge_code_canonical dim re ids s Hre Hs N) as (L & Lg & G). fold v in L, G.
    split; [left; exact L|]. rewrite L in *.
    exists (view 2 (Nat.b2n (edge_bit dim re ids s)) v).
    assert (SP := view_same_point v w (Nat.b2n (edge_bit dim re ids s)) (or_introl L)).
    rewrite L in SP. specialize (SP (dof_weights_length _ _ _ _ Hw) Lg).
    destruct (le_lt_dec k 2) as [K|K].
    - (* order at most 2: a single DOF *)
      exists i, w. split; [exact G|]. split.
      { unfold permuteFaceDOF. destruct Hd as [-> |[-> _]]; cbn [Nat.eqb]; destruct (Nat.ltb_spec 2 k); try lia; reflexivity. }
      split; [exact Hw|]. destruct Hw as [Hi ->]. replace (k - 1 - i) with 1 in * by lia. replace (i + 1) with 1 in * by lia.
      destruct Lg as [E|E]; rewrite E in *; exact SP.
    - exists (if Nat.b2n (edge_bit dim re ids s) =? 0 then i else k - 2 - i), (view 2 (Nat.b2n (edge_bit dim re ids s)) w).
      split; [exact G|]. split; [|split; [apply edge_flip; assumption|exact SP]].
      unfold computeFaceOrientations in Ho. destruct (Nat.ltb_spec k 3); [lia|].
      destruct Hd as [-> |[-> K17]]; cbn [Nat.eqb orb] in Ho.
      + assert (isTetrahedron (re_type re) = false) as T.
        { unfold isTetrahedron. rewrite (ro_dim _ _ Hre). reflexivity. }
        rewrite T, andb_false_r in Ho.
        destruct (orientations_2d re ids [2; 1] Hre ltac:(cbn; auto)) as (d & Hd & He). rewrite Hd in Ho. injection Ho as <-.
        unfold permuteFaceDOF. cbn [Nat.eqb]. destruct (Nat.ltb_spec 2 k); [|lia]. cbn [Nat.sub Nat.eqb andb].
        rewrite He by exact Hs. destruct (edge_bit 2 re ids s); reflexivity.
      + assert (exists d, faceOrientations 3 re ids (if (k =? 3) && isTetrahedron (re_type re) then [2] else [2; 1]) = Some d /\
          faceOrientationIndex 3 d s 2 = Nat.b2n (edge_bit 3 re ids s)) as (d & Hd & He).
        { destruct (orientations_3d re ids (if (k =? 3) && isTetrahedron (re_type re) then [2] else [2; 1]) Hre) as (d & Hd & He & _).
          - left. destruct (_ && _); cbn; auto.
          - exists d. split; [exact Hd|]. apply He. exact Hs. }
        assert (o = d) as -> by (destruct (_ && _); congruence).
        unfold permuteFaceDOF. cbn [Nat.eqb]. destruct (Nat.ltb_spec 2 k); [|lia]. cbn [Nat.sub Nat.eqb andb].
        rewrite He. destruct (edge_bit 3 re ids s); reflexivity. }
  (* facets of a 3d element *)
  destruct Hd as [-> |[-> K17]]; [lia|]. assert (c = 1) by lia. subst c. clear Nc Hc.
  destruct (face_code_canonical re ids s Hre Hs N) as (L & Lg & G). fold v in L, Lg, G.
  split; [right; exact L|].
  exists (view (length v) (facet_code re ids s) v).
  assert (SP := view_same_point v w (facet_code re ids s) (or_intror L) (dof_weights_length _ _ _ _ Hw) Lg).
  assert (Single : (forall w', w' = view (length v) (facet_code re ids s) w -> w' = w) -> permuteFaceDOF 3 k s 1 i o = Some i ->
     exists j wu, global_orientation v (view (length v) (facet_code re ids s) v) /\ permuteFaceDOF 3 k s 1 i o = Some j /\
       dof_weights (length v) k j wu /\ same_point v w (view (length v) (facet_code re ids s) v) wu).
  { intros E P. exists i, w. split; [exact G|]. split; [exact P|]. split; [exact Hw|].
    rewrite (E _ eq_refl) in SP. exact SP. }
  destruct (le_lt_dec k 2) as [K|K].
  { (* order at most 2: quadrilaterals have a single DOF, triangles none *)
    apply Single.
    - intros w' ->. destruct L as [L|L]; rewrite L in *.
      + destruct Hw as (x & y & H & _). lia.
      + destruct Hw as (x & y & Hx & Hy & _ & ->).
        assert (x = 0) by lia. assert (y = 0) by lia. subst x y. assert (k = 2) by lia. subst k.
        cbn [legal] in Lg. cbn [Nat.sub Nat.add Nat.mul].
        assert (C : forall o, 8 <= o < 16 -> view 4 o [1; 1; 1; 1] = [1; 1; 1; 1]).
        { intros q Hq. do 16 (destruct q as [|q]; [try lia; reflexivity|]). lia. }
        apply C, Lg.
    - unfold permuteFaceDOF. cbn [Nat.eqb]. destruct (Nat.ltb_spec 2 k); [lia|reflexivity]. }
  unfold computeFaceOrientations in Ho. destruct (Nat.ltb_spec k 3); [lia|]. cbn [Nat.eqb orb] in Ho.
  destruct ((k =? 3) && isTetrahedron (re_type re)) eqn:T3.
  - (* tetrahedra of order 3: no orientation is computed, triangles have a single DOF *)
    apply andb_true_iff in T3 as [K3 T]. apply Nat.eqb_eq in K3. subst k.
    destruct (orientations_3d re ids [2] Hre ltac:(cbn; auto)) as (d & Hd & _ & _ & H0). rewrite Hd in Ho. injection Ho as <-.
    assert (HF : faceOrientationIndex 3 d s 1 = 0) by (apply H0; [cbn; intuition discriminate|exact Hs]).
    assert (L3 : length v = 3).
    { destruct L as [L|L]; [exact L|exfalso].
      destruct (nth_error_lt_Some (subtypes (re_type re) 1) s Hs) as (t & Ht).
      destruct (tri_or_quad t (facet_dim2 re s t (ro_dim _ _ Hre) Ht)) as [[TT Q]|[TT Q]].
      - destruct (ro_triangle _ _ Hre s t eq_refl Ht TT) as (a & b & cc & e0 & e1 & e2 & Hv & _).
        unfold v, faceVertexIds in L. rewrite Hv in L. discriminate L.
      - destruct (re_type re) as [|p [|q [|r [|]]]] eqn:ET; try discriminate T.
        destruct p; [discriminate T|]. destruct q; [discriminate T|].
        apply nth_error_In in Ht. destruct r; vm_compute in Ht; intuition (subst; discriminate). }
    rewrite L3 in *. destruct Hw as (x & y & Hxy & -> & ->). assert (x = 0) by lia. assert (y = 0) by lia. subst x y.
    apply Single.
    + intros w' ->. cbn [Nat.sub Nat.add]. cbn [legal In] in Lg.
      destruct Lg as [<-|[<-|[<-|[<-|[<-|[<-|[]]]]]]]; reflexivity.
    + unfold permuteFaceDOF. cbn [Nat.eqb andb Nat.add]. change (2 <? 3) with true. cbn [andb]. rewrite HF. reflexivity.
  - destruct (orientations_3d re ids [2; 1] Hre ltac:(cbn; auto)) as (d & Hd & _ & H1 & _). rewrite Hd in Ho. injection Ho as <-.
    specialize (H1 ltac:(cbn; auto) s Hs).
    destruct (table_entry k (facet_code re ids s) i w (length v) K17) as (j & Hj & Wj); [|exact Hw|].
    { destruct L as [L|L]; rewrite L in *; auto. }
    exists j, (view (length v) (facet_code re ids s) w). split; [exact G|]. split; [|split; [exact Wj|exact SP]].
    unfold permuteFaceDOF. cbn [Nat.eqb andb]. destruct (Nat.ltb_spec 2 k); [|lia]. rewrite H1. exact Hj.
Qed.
