(** C48: Piola transforms. *)
From Coq Require Import Reals List Arith Bool Lia Lra.
From Verif Require Import Lib Basis_model DiscreteFunction_model DiscreteFunction_proofs
  MonomialSet_spec Orientation_model Piola_model Piola_spec.
Import ListNotations.
Local Open Scope R_scope.

#[local] Arguments Nat.eqb : simpl never.

(** * Sums *)
Lemma rsum_zero n f : (forall i, (i < n)%nat -> f i = 0) -> rsum n f = 0.
Proof.
  intros H. rewrite (rsum_ext n f (fun _ => 0 * 0)) by (intros; rewrite H; auto; ring).
  rewrite rsum_scal. ring.
Qed.
Lemma rsum_delta n c x : rsum n (fun i => if Nat.eqb i c then x i else 0) = if Nat.ltb c n then x c else 0.
Proof.
  induction n; [reflexivity|]. rewrite rsum_S, IHn.
  destruct (Nat.ltb_spec c n), (Nat.ltb_spec c (S n)), (Nat.eqb_spec n c); subst; try lia; ring.
Qed.
Lemma rsum_delta_l n c x : (c < n)%nat -> rsum n (fun i => delta i c * x i) = x c.
Proof.
  intros H. rewrite (rsum_ext n _ (fun i => if Nat.eqb i c then x i else 0)).
  - rewrite rsum_delta. destruct (Nat.ltb_spec c n); [auto|lia].
  - intros i _. unfold delta. destruct (Nat.eqb i c); ring.
Qed.
Lemma rsum_scal_r n a f : rsum n (fun i => f i * a) = rsum n f * a.
Proof. rewrite (rsum_ext n _ (fun i => a * f i)) by (intros; ring). rewrite rsum_scal. ring. Qed.

Lemma at_map n (f : nat -> R) i : (i < n)%nat -> at_ (map f (seq 0 n)) i = f i.
Proof.
  intros H. unfold at_. rewrite (nth_indep _ 0 (f 0%nat)) by now rewrite map_length, seq_length.
  now rewrite (map_nth f), seq_nth.
Qed.
Lemma at_map1 (f : R -> R) v i : (i < length v)%nat -> at_ (map f v) i = f (at_ v i).
Proof.
  intros H. unfold at_. rewrite (nth_indep _ 0 (f 0)) by now rewrite map_length. apply map_nth.
Qed.
Lemma vec_ext (a b : list R) n : length a = n -> length b = n -> (forall i, (i < n)%nat -> at_ a i = at_ b i) -> a = b.
Proof. intros La Lb H. apply (nth_ext a b 0 0); [congruence|]. intros i Hi. apply H. congruence. Qed.

Section Props.
Variables (n : nat) (G : geo).
Notation dot := (dot n).

Lemma mv_len a x : length (mv n a x) = n. Proof. unfold mv. now rewrite map_length, seq_length. Qed.
Lemma mtv_len a x : length (mtv n a x) = n. Proof. unfold mtv. now rewrite map_length, seq_length. Qed.
Lemma mv_at a x i : (i < n)%nat -> at_ (mv n a x) i = rsum n (fun j => a i j * at_ x j).
Proof. intros. unfold mv. now rewrite at_map. Qed.
Lemma mtv_at a x i : (i < n)%nat -> at_ (mtv n a x) i = rsum n (fun j => a j i * at_ x j).
Proof. intros. unfold mtv. now rewrite at_map. Qed.
Lemma contra_at xi v i : (i < n)%nat -> at_ (contra_value n G xi v) i = rsum n (fun j => g_JT G xi j i * at_ v j) / g_ie G xi.
Proof. intros. unfold contra_value. rewrite at_map1 by (rewrite mtv_len; auto). now rewrite mtv_at. Qed.

(** Sum over a matrix and its inverse. *)
Lemma inverse_apply a b (x : list R) i :
  (forall i j, (i < n)%nat -> (j < n)%nat -> rsum n (fun k => a i k * b k j) = delta i j) -> (i < n)%nat ->
  rsum n (fun k => a i k * rsum n (fun j => b k j * at_ x j)) = at_ x i.
Proof.
  intros H Hi. rewrite (rsum_ext n _ (fun k => rsum n (fun j => a i k * b k j * at_ x j))).
  2:{ intros k _. rewrite <- rsum_scal. apply rsum_ext. intros; ring. }
  rewrite rsum_swap, (rsum_ext n _ (fun j => delta j i * at_ x j)).
  - now rewrite rsum_delta_l.
  - intros j Hj. rewrite rsum_scal_r, H by auto. unfold delta. rewrite Nat.eqb_sym. reflexivity.
Qed.

Theorem C48_contravariant_round_trip xi v : geo_ok n G xi -> length v = n ->
  contra_local n G (fun xi => contra_value n G xi v) xi = v /\
  contra_value n G xi (contra_local n G (fun _ => v) xi) = v.
Proof.
  intros [Hl Hr Hie] Lv. split.
  - apply (vec_ext _ _ n); auto; [unfold contra_local; now rewrite map_length, mtv_len|].
    intros i Hi. unfold contra_local. rewrite at_map1 by (rewrite mtv_len; auto). rewrite mtv_at by auto.
    rewrite (rsum_ext n _ (fun j => g_JIT G xi j i * rsum n (fun k => g_JT G xi k j * at_ v k) * / g_ie G xi)).
    2:{ intros j Hj. rewrite contra_at by auto. unfold Rdiv. ring. }
    rewrite rsum_scal_r, (inverse_apply (fun i j => g_JIT G xi j i) (fun i j => g_JT G xi j i)); [now field| |auto].
    intros a b Ha Hb. rewrite (rsum_ext n _ (fun k => g_JT G xi b k * g_JIT G xi k a)) by (intros; ring).
    rewrite Hl by auto. unfold delta. now rewrite Nat.eqb_sym.
  - apply (vec_ext _ _ n); auto; [unfold contra_value; now rewrite map_length, mtv_len|].
    intros i Hi. rewrite contra_at by auto.
    rewrite (rsum_ext n _ (fun j => g_JT G xi j i * rsum n (fun k => g_JIT G xi k j * at_ v k) * g_ie G xi)).
    2:{ intros j Hj. unfold contra_local. rewrite at_map1 by (rewrite mtv_len; auto). rewrite mtv_at by auto. ring. }
    rewrite rsum_scal_r, (inverse_apply (fun i j => g_JT G xi j i) (fun i j => g_JIT G xi j i)); [now field| |auto].
    intros a b Ha Hb. rewrite (rsum_ext n _ (fun k => g_JIT G xi b k * g_JT G xi k a)) by (intros; ring).
    rewrite Hr by auto. unfold delta. now rewrite Nat.eqb_sym.
Qed.

Theorem C48_covariant_round_trip xi v : geo_ok n G xi -> length v = n ->
  co_local n G (fun xi => co_value n G xi v) xi = v /\
  co_value n G xi (co_local n G (fun _ => v) xi) = v.
Proof.
  intros [Hl Hr Hie] Lv. split.
  - apply (vec_ext _ _ n); auto; [apply mv_len|]. intros i Hi. unfold co_local, co_value. rewrite mv_at by auto.
    rewrite (rsum_ext n _ (fun j => g_JT G xi i j * rsum n (fun k => g_JIT G xi j k * at_ v k))).
    2:{ intros j Hj. now rewrite mv_at. }
    now apply inverse_apply.
  - apply (vec_ext _ _ n); auto; [apply mv_len|]. intros i Hi. unfold co_local, co_value. rewrite mv_at by auto.
    rewrite (rsum_ext n _ (fun j => g_JIT G xi i j * rsum n (fun k => g_JT G xi j k * at_ v k))).
    2:{ intros j Hj. now rewrite mv_at. }
    now apply inverse_apply.
Qed.

(** Fluxes through facets are preserved by the contravariant transform. *)
Theorem C48_flux xi v nu N : geo_ok n G xi -> length v = n -> image_area_vector n G xi nu N ->
  dot (contra_value n G xi v) N = dot v nu.
Proof.
  intros [_ _ Hie] Lv H.
  assert (E : dot (contra_value n G xi v) N = dot N (push n G xi v) / g_ie G xi).
  { unfold Piola_spec.dot. unfold Rdiv. rewrite <- rsum_scal_r. apply rsum_ext. intros i Hi.
    rewrite contra_at by auto. unfold push. rewrite at_map by auto. unfold Rdiv. ring. }
  rewrite E, (H v Lv). unfold Piola_spec.dot.
  rewrite (rsum_ext n (fun i => at_ v i * at_ nu i) (fun i => at_ nu i * at_ v i)) by (intros; ring). now field.
Qed.
(** Tangential components along images of edge vectors are preserved by the
    covariant transform. *)
Theorem C48_tangential xi v t : geo_ok n G xi -> length v = n -> length t = n ->
  dot (co_value n G xi v) (push n G xi t) = dot v t.
Proof.
  intros [Hl Hr Hie] Lv Lt. unfold Piola_spec.dot, co_value.
  rewrite (rsum_ext n _ (fun i => rsum n (fun j => at_ t j * (g_JT G xi j i * rsum n (fun k => g_JIT G xi i k * at_ v k))))).
  2:{ intros i Hi. rewrite mv_at by auto. unfold push. rewrite at_map by auto.
      rewrite <- rsum_scal. apply rsum_ext. intros; ring. }
  rewrite rsum_swap. apply rsum_ext. intros j Hj. rewrite rsum_scal, (inverse_apply _ _ v); auto. ring.
Qed.
End Props.

(** Two elements on both sides of a facet: if the reference fluxes are opposite with
    respect to the two outer area vectors, the normal components of the transformed
    functions agree. *)
Theorem C48_normal_trace_continuous n G G' xi xi' v v' nu nu' N :
  geo_ok n G xi -> geo_ok n G' xi' -> length v = n -> length v' = n ->
  image_area_vector n G xi nu N -> image_area_vector n G' xi' nu' (map Ropp N) ->
  length N = n -> dot n v nu = - dot n v' nu' ->
  dot n (contra_value n G xi v) N = dot n (contra_value n G' xi' v') N.
Proof.
  intros Hg Hg' Lv Lv' H H' LN E.
  rewrite (C48_flux n G xi v nu N) by auto. rewrite E, <- (C48_flux n G' xi' v' nu' (map Ropp N)) by auto.
  unfold dot. replace (- rsum n (fun i => at_ (contra_value n G' xi' v') i * at_ (map Ropp N) i))
    with ((-1) * rsum n (fun i => at_ (contra_value n G' xi' v') i * at_ (map Ropp N) i)) by ring.
  rewrite <- rsum_scal. apply rsum_ext. intros i Hi. rewrite at_map1 by (rewrite LN; auto). ring.
Qed.

(** * Gradients *)
Section Gradients.
Variables (n : nat) (G : geo).
Notation entry := Piola_spec.entry.

Lemma get_entry m i j : square n m -> (i < n)%nat -> (j < n)%nat -> get m i j = Some (entry m i j).
Proof.
  intros (L & Hr) Hi Hj. unfold get, Piola_spec.entry, at_.
  rewrite (nth_error_nth' m []) by lia. cbn [obind]. apply nth_error_nth'.
  rewrite Hr; auto. apply nth_In. lia.
Qed.
Lemma entry_get m i j x : get m i j = Some x -> entry m i j = x.
Proof.
  unfold get, Piola_spec.entry, at_. intros H. apply obind_Some in H as (r & Hr & H).
  rewrite (nth_error_nth _ _ [] Hr). now apply nth_error_nth.
Qed.
Lemma square_zero : square n (mzero n).
Proof.
  split; [unfold mzero; apply repeat_length|]. intros r Hr. apply repeat_spec in Hr as ->. apply repeat_length.
Qed.
Lemma nth_repeat0 k i : nth i (repeat 0 k) 0 = 0.
Proof. revert i; induction k; intros [|i]; cbn; auto. Qed.
Lemma entry_zero a b : entry (mzero n) a b = 0.
Proof.
  unfold Piola_spec.entry, at_, mzero. destruct (Nat.lt_ge_cases a n).
  - rewrite (nth_indep _ [] (repeat 0 n)) by now rewrite repeat_length. rewrite nth_repeat. apply nth_repeat0.
  - rewrite (nth_overflow (repeat (repeat 0 n) n)) by now rewrite repeat_length. now destruct b.
Qed.

Lemma add_to_ok m j k d : square n m -> (j < n)%nat -> (k < n)%nat ->
  exists m', add_to j k d m = Some m' /\ square n m' /\
  forall a b, (a < n)%nat -> (b < n)%nat -> entry m' a b = entry m a b + (if (Nat.eqb a j && Nat.eqb b k)%bool then d else 0).
Proof.
  intros Sq Hj Hk. pose proof Sq as (L & Hr). unfold add_to.
  rewrite (nth_error_nth' m []) by lia. cbn [obind]. set (r := nth j m []).
  assert (Lr : length r = n) by (apply Hr; apply nth_In; lia).
  rewrite (nth_error_nth' r 0) by lia. cbn [obind].
  destruct (upd_Some r k (nth k r 0 + d)) as (r' & U); [lia|]. rewrite U. cbn [obind].
  destruct (upd_Some m j r') as (m' & U'); [lia|]. exists m'. split; auto.
  assert (Lr' : length r' = n) by (rewrite (upd_length _ _ _ _ U); auto).
  assert (Sq' : square n m').
  { split; [now rewrite (upd_length _ _ _ _ U')|]. intros s Hs. apply In_nth_error in Hs as (i & Hi).
    rewrite (upd_nth_error _ _ _ _ i U') in Hi. destruct (Nat.eqb_spec i j); [congruence|].
    apply Hr. eapply nth_error_In; eauto. }
  split; auto. intros a b Ha Hb.
  apply entry_get. unfold get. rewrite (upd_nth_error _ _ _ _ a U').
  destruct (Nat.eqb_spec a j) as [->|ne]; cbn [andb obind].
  - rewrite (upd_nth_error _ _ _ _ b U). destruct (Nat.eqb_spec b k) as [->|]; [reflexivity|].
    rewrite (nth_error_nth' r 0) by lia. rewrite Rplus_0_r. reflexivity.
  - rewrite Rplus_0_r. now apply get_entry.
Qed.

(** Contravariant. *)
Lemma contra_inner xi tmp l k : square n tmp -> (l < n)%nat -> (k < n)%nat -> forall cs m, NoDup cs ->
  (forall j, In j cs -> (j < n)%nat) -> square n m ->
  exists m', foreach cs (fun j m => t <- get tmp l k ;; add_to j k (g_JT G xi l j * t) m) m = Some m' /\ square n m' /\
  forall a b, (a < n)%nat -> (b < n)%nat -> entry m' a b = entry m a b +
    (if Nat.eqb b k then if in_dec Nat.eq_dec a cs then g_JT G xi l a * entry tmp l k else 0 else 0).
Proof.
  intros St Hl Hk. induction cs as [|c cs IH]; intros m Nd Hc Sq; cbn [foreach].
  - exists m. split; auto. split; auto. intros a b _ _. cbn. destruct (Nat.eqb b k); ring.
  - rewrite (get_entry tmp l k) by auto. cbn [obind].
    destruct (add_to_ok m c k (g_JT G xi l c * entry tmp l k) Sq) as (m1 & -> & Sq1 & E1); auto; [apply Hc; now left|].
    cbn [obind]. inversion Nd as [|? ? Hn Nd']; subst.
    destruct (IH m1 Nd') as (m2 & F & Sq2 & E2); auto; [intros; apply Hc; now right|].
    rewrite (get_entry tmp l k) in F by auto. cbn [obind] in F.
    exists m2. split; auto. split; auto. intros a b Ha Hb. rewrite E2, E1 by auto.
    destruct (Nat.eqb_spec b k) as [->|nb]; [|rewrite andb_false_r; ring]. rewrite andb_true_r.
    destruct (in_dec Nat.eq_dec a cs) as [i|i], (in_dec Nat.eq_dec a (c :: cs)) as [i'|i'], (Nat.eqb_spec a c) as [->|ne];
      try contradiction; try ring;
      exfalso; cbn in i'; intuition congruence.
Qed.
Lemma contra_row xi tmp k : square n tmp -> (k < n)%nat -> stored n (g_JT G xi) (g_JT_cols G) -> forall m, square n m ->
  exists m', forl (length tmp) 0 (fun l =>
     foreach (g_JT_cols G l) (fun j m => t <- get tmp l k ;; add_to j k (g_JT G xi l j * t) m)) m = Some m' /\ square n m' /\
  forall a b, (a < n)%nat -> (b < n)%nat -> entry m' a b = entry m a b +
    (if Nat.eqb b k then rsum n (fun l => g_JT G xi l a * entry tmp l k) else 0).
Proof.
  intros St Hk Sto m Sq. pose proof St as (Lt & _). rewrite Lt.
  apply (forl_inv (fun i m' => square n m' /\ forall a b, (a < n)%nat -> (b < n)%nat ->
    entry m' a b = entry m a b + (if Nat.eqb b k then rsum i (fun l => g_JT G xi l a * entry tmp l k) else 0)) n 0).
  - split; auto. intros a b _ _. rewrite rsum_0. destruct (Nat.eqb b k); ring.
  - intros l m1 Hl (Sq1 & E1). destruct (Sto l) as (Nd & Rg & Z); [lia|].
    destruct (contra_inner xi tmp l k) with (cs := g_JT_cols G l) (m := m1) as (m2 & F & Sq2 & E2); auto; [lia|].
    exists m2. split; auto. split; auto. intros a b Ha Hb. rewrite E2, E1, Nat.add_1_r, rsum_S by auto.
    destruct (Nat.eqb b k); [|ring]. destruct (in_dec Nat.eq_dec a (g_JT_cols G l)) as [i|i]; [ring|].
    rewrite (Z a) by auto. ring.
Qed.
Lemma contra_gradient_ok xi tmp : square n tmp -> stored n (g_JT G xi) (g_JT_cols G) ->
  exists m, contra_gradient n G xi tmp = Some m /\ square n m /\
  forall a b, (a < n)%nat -> (b < n)%nat -> entry m a b = rsum n (fun l => g_JT G xi l a * entry tmp l b) / g_ie G xi.
Proof.
  intros St Sto. unfold contra_gradient.
  destruct (forl_inv (fun i m' => square n m' /\ forall a b, (a < n)%nat -> (b < n)%nat ->
    entry m' a b = if Nat.ltb b i then rsum n (fun l => g_JT G xi l a * entry tmp l b) else 0) n 0 (fun k =>
         forl (length tmp) 0 (fun l =>
           foreach (g_JT_cols G l) (fun j m => t <- get tmp l k ;; add_to j k (g_JT G xi l j * t) m))) (mzero n))
    as (m & -> & Sq & E).
  - split; [apply square_zero|]. intros a b _ _. now rewrite entry_zero.
  - intros k m1 Hk (Sq1 & E1). destruct (contra_row xi tmp k St) with (m := m1) as (m2 & F & Sq2 & E2); auto; [lia|].
    exists m2. split; auto. split; auto. intros a b Ha Hb. rewrite E2, E1 by auto.
    destruct (Nat.ltb_spec b k), (Nat.ltb_spec b (k + 1)), (Nat.eqb_spec b k) as [eb|ne]; try lia; try rewrite eb; ring.
  - cbn [obind]. eexists. split; [reflexivity|]. destruct Sq as (L & Hr). split.
    + split; [now rewrite map_length|]. intros r H. apply in_map_iff in H as (r0 & <- & H). rewrite map_length. auto.
    + intros a b Ha Hb. unfold Piola_spec.entry.
      rewrite (nth_indep _ [] (map (fun v => v / g_ie G xi) [])) by (rewrite map_length; lia).
      rewrite (map_nth (map (fun v => v / g_ie G xi))).
      rewrite at_map1 by (rewrite Hr; auto; apply nth_In; lia). fold (entry m a b). rewrite E by auto.
      cbn [Nat.add]. destruct (Nat.ltb_spec b n); [auto|lia].
Qed.

(** Covariant. *)
Fixpoint lsum (l : list nat) (f : nat -> R) : R := match l with [] => 0 | c :: r => f c + lsum r f end.
Lemma lsum_rsum cs f : NoDup cs -> (forall j, In j cs -> (j < n)%nat) ->
  lsum cs f = rsum n (fun i => if in_dec Nat.eq_dec i cs then f i else 0).
Proof.
  induction cs as [|c cs IH]; intros Nd Hc; cbn [lsum].
  - symmetry. now apply rsum_zero.
  - inversion Nd as [|? ? Hn Nd']; subst. rewrite IH; auto; [|intros; apply Hc; now right].
    rewrite (rsum_ext n (fun i => if in_dec Nat.eq_dec i (c :: cs) then f i else 0)
      (fun i => (if Nat.eqb i c then f i else 0) + (if in_dec Nat.eq_dec i cs then f i else 0))).
    + rewrite rsum_plus, rsum_delta. destruct (Nat.ltb_spec c n) as [|H]; [ring|].
      specialize (Hc c (or_introl eq_refl)). lia.
    + intros i _.
      destruct (in_dec Nat.eq_dec i cs) as [a|a], (in_dec Nat.eq_dec i (c :: cs)) as [a'|a'], (Nat.eqb_spec i c) as [->|ne];
        try contradiction; try ring; exfalso; cbn in a'; intuition congruence.
Qed.
Lemma co_inner xi tmp j k : square n tmp -> (j < n)%nat -> (k < n)%nat -> forall cs m, (forall l, In l cs -> (l < n)%nat) -> square n m ->
  exists m', foreach cs (fun l m => t <- get tmp l k ;; add_to j k (g_JIT G xi j l * t) m) m = Some m' /\ square n m' /\
  forall a b, (a < n)%nat -> (b < n)%nat -> entry m' a b = entry m a b +
    (if (Nat.eqb a j && Nat.eqb b k)%bool then lsum cs (fun l => g_JIT G xi j l * entry tmp l k) else 0).
Proof.
  intros St Hj Hk. induction cs as [|c cs IH]; intros m Hc Sq; cbn [foreach lsum].
  - exists m. split; auto. split; auto. intros a b _ _. destruct (Nat.eqb a j && Nat.eqb b k)%bool; ring.
  - rewrite (get_entry tmp c k) by (auto; apply Hc; now left). cbn [obind].
    destruct (add_to_ok m j k (g_JIT G xi j c * entry tmp c k) Sq Hj Hk) as (m1 & -> & Sq1 & E1). cbn [obind].
    destruct (IH m1) as (m2 & F & Sq2 & E2); auto; [intros; apply Hc; now right|].
    exists m2. split; auto. split; auto. intros a b Ha Hb. rewrite E2, E1 by auto.
    destruct (Nat.eqb a j && Nat.eqb b k)%bool; ring.
Qed.
Lemma co_gradient_ok xi tmp : square n tmp -> stored n (g_JIT G xi) (g_JIT_cols G) ->
  exists m, co_gradient n G xi tmp = Some m /\ square n m /\
  forall a b, (a < n)%nat -> (b < n)%nat -> entry m a b = rsum n (fun l => g_JIT G xi a l * entry tmp l b).
Proof.
  intros St Sto. unfold co_gradient.
  set (val := fun a b => rsum n (fun l => g_JIT G xi a l * entry tmp l b)).
  destruct (forl_inv (fun i m' => square n m' /\ forall a b, (a < n)%nat -> (b < n)%nat ->
    entry m' a b = if Nat.ltb a i then val a b else 0) n 0 (fun j => forl n 0 (fun k =>
    foreach (g_JIT_cols G j) (fun l m => t <- get tmp l k ;; add_to j k (g_JIT G xi j l * t) m))) (mzero n))
    as (m & F & Sq & E).
  - split; [apply square_zero|]. intros a b _ _. now rewrite entry_zero.
  - intros j m1 Hj (Sq1 & E1).
    destruct (forl_inv (fun i m' => square n m' /\ forall a b, (a < n)%nat -> (b < n)%nat ->
      entry m' a b = entry m1 a b + if (Nat.eqb a j && Nat.ltb b i)%bool then val a b else 0) n 0 (fun k =>
      foreach (g_JIT_cols G j) (fun l m => t <- get tmp l k ;; add_to j k (g_JIT G xi j l * t) m)) m1)
      as (m2 & F2 & Sq2 & E2).
    + split; auto. intros a b _ _. rewrite andb_false_r. ring.
    + intros k m3 Hk (Sq3 & E3). destruct (Sto j) as (Nd & Rg & Z); [lia|].
      destruct (co_inner xi tmp j k) with (cs := g_JIT_cols G j) (m := m3) as (m4 & F4 & Sq4 & E4); auto; try lia.
      exists m4. split; auto. split; auto. intros a b Ha Hb. rewrite E4, E3 by auto.
      rewrite lsum_rsum by auto.
      assert (V : rsum n (fun i => if in_dec Nat.eq_dec i (g_JIT_cols G j) then g_JIT G xi j i * entry tmp i k else 0) = val j k).
      { apply rsum_ext. intros i Hi. destruct (in_dec Nat.eq_dec i (g_JIT_cols G j)) as [x|x]; auto.
        rewrite (Z i) by auto. ring. }
      rewrite V. destruct (Nat.eqb_spec a j) as [->|]; cbn [andb]; [|ring].
      destruct (Nat.ltb_spec b k), (Nat.ltb_spec b (k + 1)), (Nat.eqb_spec b k) as [eb|ne]; try lia; try rewrite eb; ring.
    + exists m2. split; auto. split; auto. intros a b Ha Hb. rewrite E2, E1 by auto. cbn [Nat.add].
      destruct (Nat.ltb_spec b n); [|lia]. rewrite andb_true_r.
      destruct (Nat.ltb_spec a j), (Nat.ltb_spec a (j + 1)), (Nat.eqb_spec a j) as [eb|ne]; try lia; try rewrite eb; ring.
  - exists m. split; auto. split; auto. intros a b Ha Hb. rewrite E by auto. cbn [Nat.add].
    destruct (Nat.ltb_spec a n); [auto|lia].
Qed.

(** * Derivatives *)
Lemma dlim_rsum k : forall (f : nat -> R -> R) (d : nat -> R) x,
  (forall i, (i < k)%nat -> derivable_pt_lim (f i) x (d i)) ->
  derivable_pt_lim (fun t => rsum k (fun i => f i t)) x (rsum k d).
Proof.
  induction k as [|k IH]; intros f d x H.
  - rewrite rsum_0. apply derivable_pt_lim_const.
  - rewrite rsum_S. intros eps He.
    destruct (derivable_pt_lim_plus _ _ _ _ _ (IH f d x (fun i Hi => H i (Nat.lt_lt_succ_r _ _ Hi))) (H k (Nat.lt_succ_diag_r k)) eps He)
      as (del & P). exists del. intros h h0 hd. specialize (P h h0 hd). unfold plus_fct in P. now rewrite !rsum_S.
Qed.
Lemma dlim_scal a f x d : derivable_pt_lim f x d -> derivable_pt_lim (fun t => a * f t) x (a * d).
Proof. intros H. exact (derivable_pt_lim_scal f a x d H). Qed.
Lemma dlim_ext' f h x d : (forall t, f t = h t) -> derivable_pt_lim f x d -> derivable_pt_lim h x d.
Proof.
  intros E H eps He. destruct (H eps He) as (del & P). exists del. intros t t0 td. rewrite <- !E. now apply P.
Qed.


Theorem C48_jacobian_contravariant phi x D : rows_ok n G -> affine G -> square n D ->
  has_jacobian n phi x D ->
  exists D', contra_gradient n G x D = Some D' /\ square n D' /\
             has_jacobian n (fun y => contra_value n G y (phi y)) x D'.
Proof.
  intros Ro Af Sq H. destruct (contra_gradient_ok x D Sq (proj1 (Ro x))) as (D' & F & Sq' & E).
  exists D'. split; auto. split; auto. intros j k Hj Hk. unfold partial. rewrite E by auto.
  apply (dlim_ext' (fun t => (/ g_ie G x) * rsum n (fun l => g_JT G x l j * at_ (phi (with_coord x k t)) l))).
  - intros t. rewrite contra_at by auto. destruct (Af x (with_coord x k t)) as (A & _ & I). rewrite I.
    unfold Rdiv. rewrite Rmult_comm. f_equal. apply rsum_ext. intros l _. now rewrite A.
  - unfold Rdiv. rewrite Rmult_comm. apply dlim_scal.
    apply (dlim_rsum n (fun l t => g_JT G x l j * at_ (phi (with_coord x k t)) l) (fun l => g_JT G x l j * entry D l k)).
    intros l Hl. apply dlim_scal. now apply (H l k).
Qed.
Theorem C48_jacobian_covariant phi x D : rows_ok n G -> affine G -> square n D ->
  has_jacobian n phi x D ->
  exists D', co_gradient n G x D = Some D' /\ square n D' /\
             has_jacobian n (fun y => co_value n G y (phi y)) x D'.
Proof.
  intros Ro Af Sq H. destruct (co_gradient_ok x D Sq (proj2 (Ro x))) as (D' & F & Sq' & E).
  exists D'. split; auto. split; auto. intros j k Hj Hk. unfold partial. rewrite E by auto.
  apply (dlim_ext' (fun t => rsum n (fun l => g_JIT G x j l * at_ (phi (with_coord x k t)) l))).
  - intros t. unfold co_value. rewrite mv_at by auto. destruct (Af x (with_coord x k t)) as (_ & A & _).
    apply rsum_ext. intros l _. now rewrite A.
  - apply (dlim_rsum n (fun l t => g_JIT G x j l * at_ (phi (with_coord x k t)) l) (fun l => g_JIT G x j l * entry D l k)).
    intros l Hl. apply dlim_scal. now apply (H l k).
Qed.

(** * partial() *)
Lemma map_o_ok {A B} (f : A -> option B) l : (forall a, In a l -> exists b, f a = Some b) ->
  exists bs, map_o f l = Some bs /\ length bs = length l /\
  forall i a, nth_error l i = Some a -> nth_error bs i = f a.
Proof.
  induction l as [|a l IH]; intros H; cbn [map_o].
  - exists []. repeat split. intros [|i] a; discriminate.
  - destruct (H a (or_introl eq_refl)) as (b & Hb). rewrite Hb. cbn [obind].
    destruct IH as (bs & -> & L & P); [intros; apply H; now right|]. cbn [obind].
    exists (b :: bs). split; auto. split; [cbn; now rewrite L|].
    intros [|i] a'; cbn; [intros [= <-]; now rewrite Hb|apply P].
Qed.
(** For any transformator whose gradients are square matrices. *)
Lemma unit_sum_find order k m : length order = m -> (k < m)%nat ->
  (forall i, (i < m)%nat -> nth i order 0%nat = if Nat.eqb i k then 1%nat else 0%nat) ->
  fold_right Nat.add 0%nat order = 1%nat /\ find1 order = k.
Proof.
  revert k m. induction order as [|a r IH]; intros k m L Hk H; cbn in L; [lia|].
  pose proof (H 0%nat ltac:(lia)) as H0. cbn in H0. destruct k as [|k].
  - rewrite (Nat.eqb_refl 0) in H0. subst a. cbn. split; auto.
    assert (Z : forall i, nth i r 0%nat = 0%nat).
    { intros i. destruct (Nat.lt_ge_cases i (length r)).
      - exact (H (S i) ltac:(lia)).
      - now apply nth_overflow. }
    clear - Z. assert (fold_right Nat.add 0%nat r = 0%nat); [|lia].
    induction r as [|b r IHr]; cbn; auto. rewrite (Z 0%nat : b = 0%nat), IHr; auto. intros i. apply (Z (S i)).
  - change (Nat.eqb 0 (S k)) with false in H0. cbn in H0. subst a.
    destruct (IH k (length r)) as (S1 & F); auto; [lia| |].
    + intros i Hi. exact (H (S i) ltac:(lia)).
    + cbn. split; [exact S1|]. now rewrite F.
Qed.

Theorem C48_partial T b x : 
  (forall m, square n m -> exists m', t_gradient T x m = Some m' /\ square n m') ->
  length (lb_jac b x) = lb_size b -> (forall m, In m (lb_jac b x) -> square n m) ->
  gv_partial n T b (repeat 0%nat n) x = Some (gv_eval T b x) /\
  (forall order k, is_unit n order k -> exists js out, gv_jac T b x = Some js /\ gv_partial n T b order x = Some out /\
     length out = lb_size b /\
     forall i, (i < lb_size b)%nat -> exists m, nth_error js i = Some m /\
       nth_error out i = Some (map (fun j => entry m j k) (seq 0 n))) /\
  (forall order, (fold_right Nat.add 0%nat order > 1)%nat -> gv_partial n T b order x = None).
Proof.
  intros HT L Sq. split; [|split].
  - unfold gv_partial. replace (fold_right Nat.add 0%nat (repeat 0%nat n)) with 0%nat; auto.
    clear. induction n; cbn; auto.
  - intros order k (Lo & Hk & Hu). destruct (unit_sum_find order k n Lo Hk Hu) as (S1 & F1).
    unfold gv_partial, gv_jac. rewrite S1, F1.
    destruct (map_o_ok (t_gradient T x) (lb_jac b x)) as (js & E & Lj & Pj).
    { intros m Hm. destruct (HT m (Sq m Hm)) as (m' & E & _). eauto. }
    rewrite E. cbn [obind].
    assert (J : forall i, (i < lb_size b)%nat -> exists m, nth_error js i = Some m /\ square n m).
    { intros i Hi. destruct (nth_error (lb_jac b x) i) as [m0|] eqn:Em; [|apply nth_error_None in Em; lia].
      destruct (HT m0 (Sq m0 (nth_error_In _ _ Em))) as (m' & E' & S'). exists m'. split; auto.
      rewrite (Pj i m0 Em); auto. }
    assert (C : forall m, square n m -> map_o (fun j => get m j k) (seq 0 n) = Some (map (fun j => entry m j k) (seq 0 n))).
    { intros m Sm. assert (X : forall l, (forall j, In j l -> (j < n)%nat) ->
        map_o (fun j => get m j k) l = Some (map (fun j => entry m j k) l)).
      { induction l as [|j l IHl]; intros Hl; cbn; auto. rewrite get_entry by (auto; apply Hl; now left).
        cbn. rewrite IHl; auto. intros; apply Hl; now right. }
      apply X. intros j Hj. apply in_seq in Hj. lia. }
    set (f := fun i => m <- nth_error js i ;; map_o (fun j => get m j k) (seq 0 n)).
    destruct (map_o_ok f (seq 0 (lb_size b))) as (out & E2 & Lo2 & P2).
    { intros i Hi. apply in_seq in Hi. destruct (J i) as (m & Em & Sm); [lia|]. unfold f. rewrite Em. cbn [obind].
      rewrite C; eauto. }
    exists js, out. split; auto. split; auto. split; [now rewrite Lo2, seq_length|].
    intros i Hi. destruct (J i Hi) as (m & Em & Sm). exists m. split; auto.
    rewrite (P2 i i).
    + unfold f. rewrite Em. cbn [obind]. now apply C.
    + rewrite nth_error_seq. destruct (Nat.ltb_spec i (lb_size b)); [reflexivity|lia].
  - intros order H. unfold gv_partial. destruct (fold_right Nat.add 0%nat order) as [|[|s]]; try lia. reflexivity.
Qed.
Theorem C48_partial_hypotheses x m : rows_ok n G -> square n m ->
  (exists m', t_gradient (contravariant n G) x m = Some m' /\ square n m') /\
  (exists m', t_gradient (covariant n G) x m = Some m' /\ square n m').
Proof.
  intros Ro Sq. split.
  - destruct (contra_gradient_ok x m Sq (proj1 (Ro x))) as (m' & E & S' & _). eauto.
  - destruct (co_gradient_ok x m Sq (proj2 (Ro x))) as (m' & E & S' & _). eauto.
Qed.

(** * Interpolation *)
(** Interpolating the transformed function u is interpolating u on the reference
    element, for every local interpolation that only looks at values; in particular
    the transformed shape functions are dual to the transformed degrees of freedom. *)
Theorem C48_interpolation {C} (interp : (pt -> list R) -> C) (u : pt -> list R) :
  (forall xi, geo_ok n G xi) -> (forall xi, length (u xi) = n) ->
  (forall f h, (forall xi, f xi = h xi) -> interp f = interp h) ->
  gv_interpolate (contravariant n G) interp (fun xi => contra_value n G xi (u xi)) = interp u /\
  gv_interpolate (covariant n G) interp (fun xi => co_value n G xi (u xi)) = interp u.
Proof.
  intros Hg Lu Ext. split; apply Ext; intros xi.
  - exact (proj1 (C48_contravariant_round_trip n G xi (u xi) (Hg xi) (Lu xi))).
  - exact (proj1 (C48_covariant_round_trip n G xi (u xi) (Hg xi) (Lu xi))).
Qed.
End Gradients.

(** * Non-affine geometries: evaluateJacobian is not the derivative of the values.
    1-D, geometry x + x^2/2 with Jacobian 1 + x; shape function 1. *)
Definition curved : geo :=
  Geo (fun x _ _ => 1 + at_ x 0) (fun _ => [0%nat]) (fun x _ _ => / (1 + at_ x 0)) (fun _ => [0%nat]) (fun x => 1 + at_ x 0).
Theorem C48_nonaffine_jacobian_refuted :
  rows_ok 1 curved /\ (forall x, 0 <= at_ x 0 -> geo_ok 1 curved x) /\
  has_jacobian 1 (fun _ => [1]) [0] [[0]] /\
  exists D', co_gradient 1 curved [0] [[0]] = Some D' /\
    ~ has_jacobian 1 (fun y => co_value 1 curved y [1]) [0] D'.
Proof.
  assert (Ro : rows_ok 1 curved).
  { intros xi. split; intros i Hi; (split; [|split]).
    all: try (cbn; constructor; [intros []|constructor]).
    all: try (cbn; intros j [<-|[]]; lia).
    all: intros j Hj Hn; exfalso; apply Hn; cbn; left; lia. }
  split; [exact Ro|]. split; [|split].
  - intros x Hx. constructor.
    + intros i j Hi Hj. unfold rsum. cbn. unfold delta. replace i with 0%nat by lia. replace j with 0%nat by lia.
      rewrite Nat.eqb_refl. field. lra.
    + intros i j Hi Hj. unfold rsum. cbn. unfold delta. replace i with 0%nat by lia. replace j with 0%nat by lia.
      rewrite Nat.eqb_refl. field. lra.
    + cbn. lra.
  - intros l k Hl Hk. unfold partial. replace l with 0%nat by lia. replace k with 0%nat by lia. cbn.
    apply derivable_pt_lim_const.
  - destruct (co_gradient_ok 1 curved [0] [[0]]) as (D' & F & Sq & E).
    { split; auto. intros r [<-|[]]. reflexivity. }
    { apply Ro. }
    exists D'. split; auto. intros H. specialize (H 0%nat 0%nat ltac:(lia) ltac:(lia)). unfold partial in H.
    rewrite E in H by lia.
    assert (V : rsum 1 (fun l => g_JIT curved [0] 0 l * entry [[0]] l 0) = 0) by (unfold rsum; cbn; ring).
    rewrite V in H.
    assert (H2 : derivable_pt_lim (fun t => / (1 + t)) 0 (-1)).
    { replace (-1) with ((0 * (1 + 0) - (0 + 1) * 1) / Rsqr (1 + 0)) by (unfold Rsqr; field).
      apply (dlim_ext' (fun t => (fct_cte 1 / (fct_cte 1 + id)) t)%F).
      - intros t. unfold div_fct, fct_cte, plus_fct, id. unfold Rdiv; ring.
      - apply (derivable_pt_lim_div (fct_cte 1) (fct_cte 1 + id)%F 0 0 (0 + 1)).
        + apply derivable_pt_lim_const.
        + apply derivable_pt_lim_plus; [apply derivable_pt_lim_const|apply derivable_pt_lim_id].
        + unfold plus_fct, fct_cte, id. lra. }
    assert (H3 : derivable_pt_lim (fun t => / (1 + t)) 0 0).
    { refine (dlim_ext' _ _ _ _ _ H). intros t. unfold co_value, mv. cbn. unfold at_. cbn. unfold rsum; cbn. unfold at_; cbn. ring. }
    pose proof (uniqueness_limite _ _ _ _ H2 H3). lra.
Qed.

(** * Examples *)
(** The triangle (1,0), (4,1), (2,2) in 2-D: J = [[3,1],[1,2]], det 5. *)
Definition ex_geo : geo :=
  Geo (fun _ l j => nth j (nth l [[3; 1]; [1; 2]] []) 0) (fun _ => [0%nat; 1%nat])
      (fun _ j l => nth l (nth j [[2/5; -1/5]; [-1/5; 3/5]] []) 0) (fun _ => [0%nat; 1%nat]) (fun _ => 5).
Ltac two i H := destruct i as [|[|i]]; [| |exfalso; clear - H; lia].
Example C48_ex_geo xi : geo_ok 2 ex_geo xi /\ rows_ok 2 ex_geo /\ affine ex_geo.
Proof.
  split; [|split].
  - constructor.
    + intros i j Hi Hj. two i Hi; two j Hj; unfold rsum; cbn; unfold delta; cbv [Nat.eqb]; field.
    + intros i j Hi Hj. two i Hi; two j Hj; unfold rsum; cbn; unfold delta; cbv [Nat.eqb]; field.
    + cbn. lra.
  - intros x. split; intros i Hi; (split; [|split]).
    all: try (cbn; constructor; [intros [|[]]; discriminate|constructor; [intros []|constructor]]).
    all: try (cbn; intros j [<-|[<-|[]]]; lia).
    all: intros j Hj Hn; exfalso; apply Hn; cbn; lia.
  - intros a b. repeat split.
Qed.
(** The facet of the reference triangle with area vector (1,1) has the image (1,2)
    rotated: from (4,1) to (2,2), area vector (1,2). *)
Example C48_ex_area xi : image_area_vector 2 ex_geo xi [1; 1] [1; 2].
Proof.
  intros w Lw. destruct w as [|a [|b [|c w]]]; try discriminate. unfold dot, push, rsum, at_. cbn. unfold rsum, at_; cbn. ring.
Qed.
Example C48_ex_value xi : contra_value 2 ex_geo xi [1; 0] = [3 / 5; 1 / 5].
Proof. unfold contra_value, mtv, rsum, at_. cbn. repeat f_equal; field. Qed.
Example C48_ex_unit : is_unit 2 [0%nat; 1%nat] 1.
Proof. split; auto. split; auto. intros i Hi. two i Hi; reflexivity. Qed.

Print Assumptions C48_contravariant_round_trip.
Print Assumptions C48_covariant_round_trip.
Print Assumptions C48_flux.
Print Assumptions C48_tangential.
Print Assumptions C48_normal_trace_continuous.
Print Assumptions C48_jacobian_contravariant.
Print Assumptions C48_jacobian_covariant.
Print Assumptions C48_partial.
Print Assumptions C48_partial_hypotheses.
Print Assumptions C48_interpolation.
Print Assumptions C48_nonaffine_jacobian_refuted.
