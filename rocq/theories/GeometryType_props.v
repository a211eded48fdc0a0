(** C29: the Lagrange DOF layout counts exactly the Lagrange points. *)
From Coq Require Import List Arith Lia Bool.
From Verif Require Import Lib GeometryType_model GeometryType_spec.
From Verif Require MonomialSet_model.
Import ListNotations.
Notation binomial := MonomialSet_model.binomial.

(** * Sums over all subentities *)

Lemma list_sum_app l l' : list_sum (l ++ l') = list_sum l + list_sum l'.
Proof. induction l; cbn; [reflexivity|]. unfold list_sum in *. cbn. lia. Qed.
Lemma list_sum_cons a l : list_sum (a :: l) = a + list_sum l.
Proof. reflexivity. Qed.

Definition subsum (lay : gt -> nat) (t : gt) (c : nat) : nat := list_sum (map lay (subtypes t c)).
Fixpoint sumto (n : nat) (f : nat -> nat) : nat :=
  match n with 0 => 0 | S n => f 0 + sumto n (fun c => f (S c)) end.
Lemma sumto_ext n f g : (forall c, c < n -> f c = g c) -> sumto n f = sumto n g.
Proof.
  revert f g; induction n as [|n IH]; intros f g H; cbn; [reflexivity|].
  rewrite H by lia. f_equal. apply IH. intros c L. apply H. lia.
Qed.
Lemma sumto_plus n f g : sumto n (fun c => f c + g c) = sumto n f + sumto n g.
Proof. revert f g; induction n as [|n IH]; intros f g; cbn; [reflexivity|]. rewrite IH. lia. Qed.
Lemma sumto_last n f : sumto (S n) f = sumto n f + f n.
Proof.
  revert f; induction n as [|n IH]; intros f; [cbn; lia|].
  change (sumto (S (S n)) f) with (f 0 + sumto (S n) (fun c => f (S c))). rewrite IH. cbn. lia.
Qed.
Lemma sumto_mul n a f : sumto n (fun c => a * f c) = a * sumto n f.
Proof. revert f; induction n as [|n IH]; intros f; cbn; [lia|]. rewrite IH. lia. Qed.

Lemma layout_total_sum lay t : layout_total lay t = sumto (gt_dim t + 1) (subsum lay t).
Proof.
  unfold layout_total.
  enough (H : forall n s, list_sum (flat_map (fun c => map lay (subtypes t c)) (seq s n)) = sumto n (fun c => subsum lay t (s + c))).
  { rewrite H. reflexivity. }
  induction n as [|n IH]; intros s; [reflexivity|].
  cbn [seq flat_map sumto]. rewrite list_sum_app, IH, Nat.add_0_r. unfold subsum at 2. f_equal.
  apply sumto_ext. intros c _. f_equal. lia.
Qed.

Lemma subtypes_0 t : subtypes t 0 = [t]. Proof. destruct t; reflexivity. Qed.
Lemma subtypes_big t c : length t < c -> subtypes t c = [].
Proof.
  revert c; induction t as [|b r IH]; intros c H; cbn [subtypes length] in *.
  - destruct c; [lia|reflexivity].
  - destruct c as [|c]; [lia|]. rewrite (IH (S c)), (IH c) by lia.
    destruct b; [reflexivity|]. cbn [map app].
    destruct (Nat.ltb_spec (S c) (S (length r))); [lia|]. destruct (Nat.eqb_spec (S c) (S (length r))); [lia|reflexivity].
Qed.

Lemma total_nil lay : layout_total lay [] = lay [].
Proof. rewrite layout_total_sum. cbn. unfold subsum. cbn. lia. Qed.

Lemma total_prism lay r :
  layout_total lay (true :: r) = layout_total (fun s => lay (true :: s)) r + 2 * layout_total lay r.
Proof.
  rewrite !layout_total_sum. unfold gt_dim. cbn [length]. rewrite !Nat.add_1_r.
  change (sumto (S (S (length r))) (subsum lay (true :: r))) with
    (subsum lay (true :: r) 0 + sumto (S (length r)) (fun c => subsum lay (true :: r) (S c))).
  rewrite (sumto_ext (S (length r)) (fun c => subsum lay (true :: r) (S c))
    (fun c => subsum (fun s => lay (true :: s)) r (S c) + (subsum lay r c + subsum lay r c))).
  2:{ intros c _. unfold subsum. cbn [subtypes]. rewrite !map_app, !list_sum_app, map_map. reflexivity. }
  rewrite !sumto_plus.
  assert (E : subsum lay (true :: r) 0 = subsum (fun s => lay (true :: s)) r 0).
  { unfold subsum. rewrite !subtypes_0. reflexivity. }
  rewrite E.
  pose proof (sumto_last (S (length r)) (subsum (fun s => lay (true :: s)) r)) as L.
  unfold subsum at 3 in L. rewrite subtypes_big in L by lia.
  change (sumto (S (S (length r))) (subsum (fun s => lay (true :: s)) r)) with
    (subsum (fun s => lay (true :: s)) r 0 + sumto (S (length r)) (fun c => subsum (fun s => lay (true :: s)) r (S c))) in L.
  cbn [map list_sum fold_right] in L. lia.
Qed.

Lemma total_cone lay r :
  layout_total lay (false :: r) = layout_total lay r + layout_total (fun s => lay (false :: s)) r + lay [].
Proof.
  rewrite !layout_total_sum. unfold gt_dim. cbn [length]. rewrite !Nat.add_1_r.
  change (sumto (S (S (length r))) (subsum lay (false :: r))) with
    (subsum lay (false :: r) 0 + sumto (S (length r)) (fun c => subsum lay (false :: r) (S c))).
  rewrite (sumto_ext (S (length r)) (fun c => subsum lay (false :: r) (S c))
    (fun c => subsum lay r c + (subsum (fun s => lay (false :: s)) r (S c) + (if c =? length r then lay [] else 0)))).
  2:{ intros c Hc. unfold subsum. cbn [subtypes]. rewrite !map_app, !list_sum_app. f_equal. cbn [length].
      destruct (Nat.ltb_spec (S c) (S (length r))) as [L|L].
      - rewrite map_map. destruct (Nat.eqb_spec c (length r)); [lia|]. rewrite Nat.add_0_r. reflexivity.
      - destruct (Nat.eqb_spec (S c) (S (length r))); [|lia]. destruct (Nat.eqb_spec c (length r)); [|lia].
        rewrite subtypes_big by lia. cbn. lia. }
  rewrite !sumto_plus.
  rewrite (sumto_last (length r) (fun c => if c =? length r then lay [] else 0)), Nat.eqb_refl.
  rewrite (sumto_ext (length r) (fun c => if c =? length r then lay [] else 0) (fun c => 0 * c)).
  2:{ intros c Hc. destruct (Nat.eqb_spec c (length r)); lia. }
  rewrite sumto_mul.
  assert (E : subsum lay (false :: r) 0 = subsum (fun s => lay (false :: s)) r 0).
  { unfold subsum. rewrite !subtypes_0. reflexivity. }
  rewrite E.
  pose proof (sumto_last (S (length r)) (subsum (fun s => lay (false :: s)) r)) as L.
  unfold subsum at 3 in L. rewrite subtypes_big in L by lia.
  change (sumto (S (S (length r))) (subsum (fun s => lay (false :: s)) r)) with
    (subsum (fun s => lay (false :: s)) r 0 + sumto (S (length r)) (fun c => subsum (fun s => lay (false :: s)) r (S c))) in L.
  cbn [map list_sum fold_right] in L. lia.
Qed.

Lemma total_ext lay lay' t : (forall s, subentity t s -> lay s = lay' s) -> layout_total lay t = layout_total lay' t.
Proof.
  intros H. unfold layout_total. f_equal.
  enough (E : forall l, flat_map (fun c => map lay (subtypes t c)) l = flat_map (fun c => map lay' (subtypes t c)) l) by apply E.
  induction l as [|c l IH]; [reflexivity|]. cbn [flat_map]. f_equal; [|exact IH].
  apply map_ext_in. intros s I. apply H. exists c. exact I.
Qed.

(** * Which types occur as subentities *)

Lemma subentity_nil s : subentity [] s -> s = [].
Proof. intros (c & I). cbn [subtypes] in I. destruct (c =? 0); cbn in I; [destruct I as [I|[]]; auto|destruct I]. Qed.
Lemma subentity_cone r s : subentity (false :: r) s ->
  s = false :: r \/ subentity r s \/ (exists s', subentity r s' /\ s = false :: s') \/ s = [].
Proof.
  intros (c & I). cbn [subtypes] in I. destruct c as [|c]; [destruct I as [I|[]]; auto|].
  apply in_app_iff in I as [I|I]; [right; left; exists c; exact I|].
  destruct (_ <? _); [|destruct (_ =? _); [|destruct I]].
  - apply in_map_iff in I as (s' & <- & I). right; right; left. exists s'. split; [exists (S c); exact I|reflexivity].
  - destruct I as [I|[]]; auto.
Qed.
Lemma subentity_prism r s : subentity (true :: r) s ->
  s = true :: r \/ subentity r s \/ exists s', subentity r s' /\ s = true :: s'.
Proof.
  intros (c & I). cbn [subtypes] in I. destruct c as [|c]; [destruct I as [I|[]]; auto|].
  apply in_app_iff in I as [I|I].
  - apply in_map_iff in I as (s' & <- & I). right; right. exists s'. split; [exists (S c); exact I|reflexivity].
  - apply in_app_iff in I as [I|I]; right; left; exists c; exact I.
Qed.

Lemma isSimplex_cons b r : isSimplex (b :: r) = match r with [] => true | _ => negb b && isSimplex r end.
Proof. unfold isSimplex. destruct r; reflexivity. Qed.
Lemma isCube_cons b r : isCube (b :: r) = match r with [] => true | _ => b && isCube r end.
Proof. unfold isCube. destruct r; reflexivity. Qed.

Lemma simplex_subentity t s : isSimplex t = true -> subentity t s -> isSimplex s = true.
Proof.
  revert s; induction t as [|b r IH]; intros s Ht Hs; [apply subentity_nil in Hs; subst; reflexivity|].
  rewrite isSimplex_cons in Ht. destruct r as [|b' r'].
  - destruct b; [apply subentity_prism in Hs as [->|[Hs|(s' & Hs & ->)]]|apply subentity_cone in Hs as [->|[Hs|[(s' & Hs & ->)| ->]]]];
      try reflexivity; apply subentity_nil in Hs; subst; reflexivity.
  - apply andb_true_iff in Ht as [Hb Hr]. destruct b; [discriminate|]. clear Hb.
    apply subentity_cone in Hs as [->|[Hs|[(s' & Hs & ->)| ->]]].
    + rewrite isSimplex_cons. exact Hr.
    + exact (IH s Hr Hs).
    + rewrite isSimplex_cons. destruct s'; [reflexivity|]. exact (IH _ Hr Hs).
    + reflexivity.
Qed.
Lemma cube_subentity t s : isCube t = true -> subentity t s -> isCube s = true.
Proof.
  revert s; induction t as [|b r IH]; intros s Ht Hs; [apply subentity_nil in Hs; subst; reflexivity|].
  rewrite isCube_cons in Ht. destruct r as [|b' r'].
  - destruct b; [apply subentity_prism in Hs as [->|[Hs|(s' & Hs & ->)]]|apply subentity_cone in Hs as [->|[Hs|[(s' & Hs & ->)| ->]]]];
      try reflexivity; apply subentity_nil in Hs; subst; reflexivity.
  - apply andb_true_iff in Ht as [Hb Hr]. destruct b; [|discriminate]. clear Hb.
    apply subentity_prism in Hs as [->|[Hs|(s' & Hs & ->)]].
    + rewrite isCube_cons. exact Hr.
    + exact (IH s Hr Hs).
    + rewrite isCube_cons. destruct s'; [reflexivity|]. exact (IH _ Hr Hs).
Qed.
Lemma simplex_cube_dim1 t : isSimplex t = true -> isCube t = true -> gt_dim t <= 1.
Proof.
  destruct t as [|b [|b' r]]; cbn [gt_dim length]; try lia.
  rewrite isSimplex_cons, isCube_cons. destruct b; discriminate.
Qed.

(** * Binomials *)

Lemma binomial_0 n : binomial n 0 = 1. Proof. destruct n; reflexivity. Qed.
Lemma binomial_S n k : binomial (S n) (S k) = binomial n k + binomial n (S k). Proof. reflexivity. Qed.
Lemma binomial_1 n : binomial n 1 = n.
Proof. induction n as [|n IH]; [reflexivity|]. rewrite binomial_S, binomial_0, IH. lia. Qed.
Lemma binomial_2 n : 2 * binomial (S n) 2 = S n * n.
Proof. induction n as [|n IH]; [reflexivity|]. rewrite binomial_S, binomial_1. lia. Qed.
Lemma binomial_3 n : 6 * binomial (S (S n)) 3 = S (S n) * S n * n.
Proof.
  induction n as [|n IH]; [reflexivity|]. rewrite (binomial_S (S (S n)) 2).
  pose proof (binomial_2 (S n)). nia.
Qed.
Lemma half_mul a b : 2 * a = b -> b / 2 = a.
Proof. intros <-. rewrite Nat.mul_comm. apply Nat.div_mul. lia. Qed.
Lemma sixth_mul a b : 6 * a = b -> b / 6 = a.
Proof. intros <-. rewrite Nat.mul_comm. apply Nat.div_mul. lia. Qed.

(** Hockey stick *)
Lemma hockey n r : sumto (S n) (fun z => binomial (n - z + r) r) = binomial (n + S r) (S r).
Proof.
  induction n as [|n IH].
  - cbn [sumto Nat.sub Nat.add]. rewrite Nat.add_0_r.
    assert (H : forall k, binomial k (S k) = 0 /\ binomial k k = 1).
    { clear. assert (Z : forall n k, n < k -> binomial n k = 0).
      { induction n; intros [|k] L; try lia; [reflexivity|]. rewrite binomial_S, !IHn by lia. reflexivity. }
      intros k. split; [apply Z; lia|]. induction k; [reflexivity|]. rewrite binomial_S, IHk, Z by lia. lia. }
    rewrite binomial_S. destruct (H r) as [-> ->]. reflexivity.
  - change (sumto (S (S n)) (fun z => binomial (S n - z + r) r)) with
      (binomial (S n + r) r + sumto (S n) (fun z => binomial (n - z + r) r)).
    rewrite IH. change (S n + S r) with (S (n + S r)). rewrite (binomial_S (n + S r) r).
    replace (n + S r) with (S n + r) at 2 by lia. replace (S n + r) with (n + S r) by lia. reflexivity.
Qed.
Lemma hockey_interior n r : sumto n (fun z => binomial (n - S z) r) = binomial n (S r).
Proof.
  induction n as [|n IH]; [reflexivity|].
  cbn [sumto]. rewrite binomial_S, Nat.sub_succ, Nat.sub_0_r. f_equal. rewrite <- IH. apply sumto_ext. intros c H. f_equal.
Qed.

(** * Lattice sizes *)

Lemma flat_length {A B} (f : nat -> A -> B) (g : nat -> list A) n s :
  length (flat_map (fun z => map (f z) (g z)) (seq s n)) = sumto n (fun z => length (g (s + z))).
Proof.
  revert s; induction n as [|n IH]; intros s; [reflexivity|].
  cbn [seq flat_map sumto]. rewrite app_length, map_length, IH, Nat.add_0_r. f_equal.
  apply sumto_ext. intros c _. do 2 f_equal. lia.
Qed.
Lemma lattice_cons k b r : length (lattice k (b :: r)) = sumto (S k) (fun z => length (lattice (if b then k else k - z) r)).
Proof. cbn [lattice]. rewrite (flat_length cons (fun z => lattice (if b then k else k - z) r)), Nat.add_1_r. reflexivity. Qed.
Lemma interior_cons k b r :
  length (interior_lattice k (b :: r)) = sumto (k - 1) (fun z => length (interior_lattice (if b then k else k - S z) r)).
Proof. cbn [interior_lattice]. rewrite (flat_length cons (fun z => interior_lattice (if b then k else k - z) r)). reflexivity. Qed.

Lemma sumto_const n a : sumto n (fun _ => a) = n * a.
Proof. induction n as [|n IH]; cbn; [reflexivity|]. rewrite IH. reflexivity. Qed.

Lemma lattice_simplex t k : isSimplex t = true -> length (lattice k t) = binomial (k + gt_dim t) (gt_dim t).
Proof.
  revert k; induction t as [|b r IH]; intros k H; [rewrite binomial_0; reflexivity|].
  rewrite lattice_cons. change (gt_dim (b :: r)) with (S (gt_dim r)). rewrite isSimplex_cons in H.
  rewrite <- hockey. apply sumto_ext. intros z Hz. destruct r as [|b' r'].
  - cbn. rewrite binomial_0. reflexivity.
  - apply andb_true_iff in H as [Hb H]. destruct b; [discriminate|]. apply IH, H.
Qed.
Lemma interior_simplex t k : isSimplex t = true -> 0 < k -> length (interior_lattice k t) = binomial (k - 1) (gt_dim t).
Proof.
  revert k; induction t as [|b r IH]; intros k H Hk; [rewrite binomial_0; reflexivity|].
  rewrite interior_cons. change (gt_dim (b :: r)) with (S (gt_dim r)). rewrite isSimplex_cons in H.
  rewrite <- hockey_interior. apply sumto_ext. intros z Hz. destruct r as [|b' r'].
  - cbn. rewrite binomial_0. reflexivity.
  - apply andb_true_iff in H as [Hb H]. destruct b; [discriminate|]. rewrite IH by (trivial; lia). f_equal. lia.
Qed.
Lemma lattice_cube t k : isCube t = true -> length (lattice k t) = (k + 1) ^ gt_dim t.
Proof.
  induction t as [|b r IH]; intros H; [reflexivity|].
  rewrite lattice_cons. change (gt_dim (b :: r)) with (S (gt_dim r)). rewrite isCube_cons in H.
  rewrite (sumto_ext _ _ (fun _ => (k + 1) ^ gt_dim r)); [rewrite sumto_const, Nat.pow_succ_r'; f_equal; lia|].
  intros z Hz. destruct r as [|b' r']; [reflexivity|].
  apply andb_true_iff in H as [Hb H]. destruct b; [|discriminate]. apply IH, H.
Qed.
Lemma interior_cube t k : isCube t = true -> length (interior_lattice k t) = (k - 1) ^ gt_dim t.
Proof.
  induction t as [|b r IH]; intros H; [reflexivity|].
  rewrite interior_cons. change (gt_dim (b :: r)) with (S (gt_dim r)). rewrite isCube_cons in H.
  rewrite (sumto_ext _ _ (fun _ => (k - 1) ^ gt_dim r)); [rewrite sumto_const, Nat.pow_succ_r'; reflexivity|].
  intros z Hz. destruct r as [|b' r']; [reflexivity|].
  apply andb_true_iff in H as [Hb H]. destruct b; [|discriminate]. apply IH, H.
Qed.

(** * Layout sums *)

Lemma simplex_total t n m :
  isSimplex t = true ->
  layout_total (fun s => binomial n (gt_dim s + m)) t + match m with 0 => 0 | S m' => binomial n m' end
  = binomial (n + gt_dim t + 1) (gt_dim t + m).
Proof.
  revert m; induction t as [|b r IH]; intros m H.
  - rewrite total_nil. cbn [gt_dim length Nat.add]. rewrite Nat.add_0_r, Nat.add_1_r.
    destruct m; [rewrite !binomial_0; reflexivity|]. rewrite binomial_S. lia.
  - rewrite isSimplex_cons in H.
    assert (C : layout_total (fun s => binomial n (gt_dim s + m)) (b :: r) =
                layout_total (fun s => binomial n (gt_dim s + m)) r + layout_total (fun s => binomial n (gt_dim s + S m)) r + binomial n m).
    { assert (C : layout_total (fun s => binomial n (gt_dim s + m)) (false :: r) =
                layout_total (fun s => binomial n (gt_dim s + m)) r + layout_total (fun s => binomial n (gt_dim s + S m)) r + binomial n m).
      { rewrite total_cone. cbn [gt_dim length Nat.add]. f_equal. f_equal. apply total_ext. intros s _.
        unfold gt_dim. cbn [length]. f_equal. lia. }
      destruct b; [|exact C]. destruct r as [|b' r']; [|discriminate H].
      rewrite total_prism, !total_nil. cbn. lia. }
    rewrite C. change (gt_dim (b :: r)) with (S (gt_dim r)).
    assert (Hr : isSimplex r = true).
    { destruct r; [reflexivity|]. apply andb_true_iff in H. tauto. }
    pose proof (IH m Hr) as I1. pose proof (IH (S m) Hr) as I2.
    replace (n + S (gt_dim r) + 1) with (S (n + gt_dim r + 1)) by lia.
    change (S (gt_dim r) + m) with (S (gt_dim r + m)). rewrite binomial_S.
    replace (gt_dim r + S m) with (S (gt_dim r + m)) in I2 by lia. lia.
Qed.

Lemma cube_total t n : isCube t = true -> layout_total (fun s => n ^ gt_dim s) t = (n + 2) ^ gt_dim t.
Proof.
  induction t as [|b r IH]; intros H; [rewrite total_nil; reflexivity|].
  rewrite isCube_cons in H.
  assert (Hr : isCube r = true).
  { destruct r; [reflexivity|]. apply andb_true_iff in H. tauto. }
  assert (C : layout_total (fun s => n ^ gt_dim s) (b :: r) = n * layout_total (fun s => n ^ gt_dim s) r + 2 * layout_total (fun s => n ^ gt_dim s) r).
  { assert (C : layout_total (fun s => n ^ gt_dim s) (true :: r) = n * layout_total (fun s => n ^ gt_dim s) r + 2 * layout_total (fun s => n ^ gt_dim s) r).
    { rewrite total_prism. f_equal. rewrite !layout_total_sum, <- sumto_mul. apply sumto_ext. intros c _.
      unfold subsum. induction (subtypes r c) as [|s l IHl]; [cbn; lia|]. cbn [map]. rewrite !list_sum_cons, IHl.
      unfold gt_dim. cbn [length]. rewrite Nat.pow_succ_r'. lia. }
    destruct b; [exact C|]. destruct r as [|b' r']; [|discriminate H].
    rewrite total_cone, !total_nil. cbn. lia. }
  rewrite C, (IH Hr). change (gt_dim (b :: r)) with (S (gt_dim r)). rewrite Nat.pow_succ_r'. lia.
Qed.

Lemma order0_total t : layout_total (fun s => lagrange_layout 0 s (gt_dim t)) t = 1.
Proof.
  unfold lagrange_layout. cbn [Nat.eqb].
  enough (H : forall D, gt_dim t <= D -> layout_total (fun s => if gt_dim s =? D then 1 else 0) t = if gt_dim t =? D then 1 else 0).
  { rewrite H, Nat.eqb_refl; [reflexivity|lia]. }
  induction t as [|b r IH]; intros D HD; [rewrite total_nil; reflexivity|].
  change (gt_dim (b :: r)) with (S (gt_dim r)) in *.
  destruct D as [|D]; [lia|].
  assert (E : layout_total (fun s => if gt_dim (b :: s) =? S D then 1 else 0) r = if gt_dim r =? D then 1 else 0).
  { rewrite <- IH by lia. reflexivity. }
  assert (E0 : layout_total (fun s => if gt_dim s =? S D then 1 else 0) r = 0).
  { rewrite IH by lia. destruct (Nat.eqb_spec (gt_dim r) (S D)); [lia|reflexivity]. }
  destruct b; [rewrite total_prism|rewrite total_cone]; rewrite E, E0; cbn [gt_dim length Nat.eqb]; destruct (gt_dim r =? D); reflexivity.
Qed.

Lemma layout_simplex k s D : 0 < k -> isSimplex s = true -> lagrange_layout k s D = binomial (k - 1) (gt_dim s).
Proof. intros Hk H. unfold lagrange_layout. destruct k; [lia|]. rewrite H. reflexivity. Qed.
Lemma layout_cube k s D : 0 < k -> isCube s = true -> lagrange_layout k s D = (k - 1) ^ gt_dim s.
Proof.
  intros Hk H. unfold lagrange_layout. destruct k; [lia|]. cbn [Nat.eqb]. rewrite H.
  destruct (isSimplex s) eqn:E; [|reflexivity].
  destruct (Nat.eq_dec (gt_dim s) 0) as [Z|Z].
  - rewrite Z, binomial_0. reflexivity.
  - pose proof (simplex_cube_dim1 s E H). replace (gt_dim s) with 1 by lia. rewrite binomial_1, Nat.pow_1_r. reflexivity.
Qed.

(** * C29 *)

Definition supported (k : nat) (t : gt) : Prop :=
  simplex_type t \/ cube_type t \/ prism_type t \/ (pyramid_type t /\ k <= 2).

Lemma prism_shape t : isPrism t = true -> exists x, t = [true; false; x].
Proof.
  destruct t as [|[] [|[] [|x [|]]]]; cbn; try discriminate. eauto.
Qed.
Lemma pyramid_shape t : isPyramid t = true -> exists x, t = [false; true; x].
Proof.
  destruct t as [|[] [|[] [|x [|]]]]; cbn; try discriminate. eauto.
Qed.

Lemma lattice_0 t : length (lattice 0 t) = 1.
Proof.
  induction t as [|b r IH]; [reflexivity|]. rewrite lattice_cons. cbn [sumto Nat.sub].
  destruct b; rewrite IH; reflexivity.
Qed.

Lemma prism_interior_count n : S n * S n * n / 2 = S n * binomial (S n) 2.
Proof. apply half_mul. pose proof (binomial_2 n). nia. Qed.

Lemma prism_lattice k x : length (lattice k [true; false; x]) = (k + 1) * binomial (k + 2) 2.
Proof.
  rewrite lattice_cons, sumto_const, (lattice_simplex [false; x]) by reflexivity. cbn [gt_dim length]. lia.
Qed.

Theorem C29_layout_matches_shape_functions : forall k t,
  supported k t ->
  layout_total (fun s => lagrange_layout k s (gt_dim t)) t = length (lattice k t).
Proof.
  intros k t H. destruct (Nat.eq_dec k 0) as [->|Hk]; [rewrite lattice_0; apply order0_total|].
  destruct H as [H|[H|[H|[H L]]]].
  - rewrite (total_ext _ (fun s => binomial (k - 1) (gt_dim s + 0))).
    + pose proof (simplex_total t (k - 1) 0 H) as T. rewrite (lattice_simplex t k H).
      rewrite !Nat.add_0_r in T. rewrite T. f_equal. lia.
    + intros s Hs. rewrite Nat.add_0_r. apply layout_simplex; [lia|]. apply (simplex_subentity t s H Hs).
  - rewrite (total_ext _ (fun s => (k - 1) ^ gt_dim s)).
    + rewrite (cube_total t (k - 1) H), (lattice_cube t k H). f_equal. lia.
    + intros s Hs. apply layout_cube; [lia|]. apply (cube_subentity t s H Hs).
  - destruct (prism_shape t H) as (x & ->). rewrite prism_lattice.
    rewrite total_prism, total_cone, total_cone.
    destruct k as [|n]; [lia|].
    assert (Lin : forall b, lagrange_layout (S n) [b] 3 = n).
    { intros b. unfold lagrange_layout. cbn [Nat.eqb isSimplex removelast forallb gt_dim length]. rewrite binomial_1. lia. }
    assert (Lq : forall b, lagrange_layout (S n) [true; b] 3 = n * n).
    { intros b. rewrite layout_cube by (try lia; reflexivity). cbn [gt_dim length]. rewrite Nat.sub_succ, Nat.sub_0_r. cbn. lia. }
    assert (Lt : forall b, lagrange_layout (S n) [false; b] 3 = binomial n 2).
    { intros b. rewrite layout_simplex by (try lia; reflexivity). cbn [gt_dim length]. f_equal. lia. }
    assert (Lv : lagrange_layout (S n) [] 3 = 1).
    { rewrite layout_simplex by (try lia; reflexivity). apply binomial_0. }
    assert (Lp : forall b, lagrange_layout (S n) [true; false; b] 3 = n * binomial n 2).
    { intros b. unfold lagrange_layout. cbn [Nat.eqb isSimplex isCube removelast forallb negb andb isPyramid isPrism].
      destruct n as [|n]; [reflexivity|]. change (1 <? S (S n)) with true. cbn [andb].
      rewrite !Nat.sub_succ, !Nat.sub_0_r. replace (S (S n) - 2) with n by lia. apply prism_interior_count. }
    change (gt_dim [true; false; x]) with 3.
    destruct x.
    + rewrite !total_prism, !total_nil. rewrite ?Lin, ?Lq, ?Lt, ?Lv, ?Lp.
      destruct n as [|n]; [reflexivity|]. pose proof (binomial_2 n). pose proof (binomial_2 (S (S n))) as B.
      replace (S (S n) + 2) with (S (S (S (S n)))) by lia. rewrite (binomial_S (S (S (S n)))), binomial_1. nia.
    + rewrite !total_cone, !total_nil. rewrite ?Lin, ?Lq, ?Lt, ?Lv, ?Lp.
      destruct n as [|n]; [reflexivity|]. pose proof (binomial_2 n). pose proof (binomial_2 (S (S n))) as B.
      replace (S (S n) + 2) with (S (S (S (S n)))) by lia. rewrite (binomial_S (S (S (S n)))), binomial_1. nia.
  - destruct (pyramid_shape t H) as (x & ->).
    destruct k as [|[|[|k]]]; try lia; destruct x; reflexivity.
Qed.
Print Assumptions C29_layout_matches_shape_functions.

(** The DOFs of one subentity are the lattice points in its interior. *)
Theorem C29_layout_counts_interior_points : forall k D s,
  0 < k -> supported k s ->
  lagrange_layout k s D = length (interior_lattice k s).
Proof.
  intros k D s Hk [H|[H|[H|[H L]]]].
  - rewrite (interior_simplex s k H Hk). apply layout_simplex; trivial.
  - rewrite (interior_cube s k H). apply layout_cube; trivial.
  - destruct (prism_shape s H) as (x & ->). rewrite interior_cons, sumto_const, (interior_simplex [false; x]) by (trivial; reflexivity).
    unfold lagrange_layout. destruct k as [|n]; [lia|].
    cbn [Nat.eqb isSimplex isCube removelast forallb negb andb isPyramid isPrism gt_dim length].
    rewrite !Nat.sub_succ, !Nat.sub_0_r. destruct n as [|n]; [reflexivity|].
    change (1 <? S (S n)) with true. cbn [andb]. replace (S n - 1) with n by lia. apply prism_interior_count.
  - destruct (pyramid_shape s H) as (x & ->).
    destruct k as [|[|[|k]]]; try lia; destruct x; reflexivity.
Qed.
Print Assumptions C29_layout_counts_interior_points.

Lemma sumto_le n f g : (forall c, c < n -> f c <= g c) -> sumto n f <= sumto n g.
Proof.
  revert f g; induction n as [|n IH]; intros f g H; cbn; [lia|].
  pose proof (H 0 ltac:(lia)). specialize (IH (fun c => f (S c)) (fun c => g (S c)) ltac:(intros c L; apply H; lia)). lia.
Qed.

Theorem C29_maxnode_bounds : forall k t,
  length (lattice k t) <= lagrange_maxnode k (gt_dim t).
Proof.
  intros k t. unfold lagrange_maxnode. revert k; induction t as [|b r IH]; intros k; [cbn; lia|].
  rewrite lattice_cons. change (gt_dim (b :: r)) with (S (gt_dim r)).
  etransitivity; [apply sumto_le with (g := fun _ => (k + 1) ^ gt_dim r)|].
  - intros z Hz. etransitivity; [apply IH|]. apply Nat.pow_le_mono_l. destruct b; lia.
  - rewrite sumto_const, Nat.pow_succ_r'. apply Nat.eq_le_incl. f_equal. lia.
Qed.
Print Assumptions C29_maxnode_bounds.

(** Why the pre-basis constructor rejects pyramids for order > 2
    (lagrangebasis.hh:786-787): the layout misses the interior points. *)
Theorem C29_pyramid_order_above_2 : forall k x,
  2 < k ->
  layout_total (fun s => lagrange_layout k s 3) [false; true; x] < length (lattice k [false; true; x]).
Proof.
  intros k x Hk. destruct k as [|[|[|n]]]; try lia. clear Hk.
  assert (Hlat : length (lattice (S (S (S n))) [false; true; x]) = sumto (S (S (S (S n)))) (fun z => (S (S (S n)) - z + 1) * (S (S (S n)) - z + 1))).
  { rewrite lattice_cons. apply sumto_ext. intros z _. rewrite (lattice_cube [true; x]) by reflexivity. cbn [gt_dim length Nat.pow]. lia. }
  assert (Sq : forall k, 6 * sumto (S k) (fun z => (k - z + 1) * (k - z + 1)) = (k + 1) * (k + 2) * (2 * k + 3)).
  { induction k as [|k IH]; [reflexivity|].
    change (sumto (S (S k)) (fun z => (S k - z + 1) * (S k - z + 1))) with ((S k - 0 + 1) * (S k - 0 + 1) + sumto (S k) (fun z => (k - z + 1) * (k - z + 1))).
    rewrite Nat.mul_add_distr_l, IH. nia. }
  rewrite Hlat. specialize (Sq (S (S (S n)))).
  assert (Ltot : layout_total (fun s => lagrange_layout (S (S (S n))) s 3) [false; true; x] =
    5 + 8 * S (S n) + 4 * binomial (S (S n)) 2 + S (S n) * S (S n)).
  { rewrite total_cone, !total_prism. destruct x.
    - rewrite !total_prism, !total_nil. unfold lagrange_layout.
      cbn [Nat.eqb isSimplex isCube isPyramid removelast forallb negb andb gt_dim length].
      rewrite !Nat.sub_succ, !Nat.sub_0_r, ?binomial_0, ?binomial_1. cbn [Nat.pow]. lia.
    - rewrite !total_cone, !total_nil. unfold lagrange_layout.
      cbn [Nat.eqb isSimplex isCube isPyramid removelast forallb negb andb gt_dim length].
      rewrite !Nat.sub_succ, !Nat.sub_0_r, ?binomial_0, ?binomial_1. cbn [Nat.pow]. lia. }
  rewrite Ltot. pose proof (binomial_2 (S n)). nia.
Qed.
Print Assumptions C29_pyramid_order_above_2.

(** Cases: tetrahedra of order 4, hexahedra of order 3, prisms of order 5. *)
Example C29_case_tet : layout_total (fun s => lagrange_layout 4 s 3) [false; false; false] = 35 /\ length (lattice 4 [false; false; false]) = 35.
Proof. split; reflexivity. Qed.
Example C29_case_hex : layout_total (fun s => lagrange_layout 3 s 3) [true; true; true] = 64 /\ length (lattice 3 [true; true; true]) = 64.
Proof. split; reflexivity. Qed.
Example C29_case_prism : layout_total (fun s => lagrange_layout 5 s 3) [true; false; false] = 126 /\ supported 5 [true; false; false].
Proof. split; [reflexivity|right; right; left; reflexivity]. Qed.
Example C29_subentities_hex : map (fun c => length (subtypes [true; true; true] c)) [0;1;2;3] = [1; 6; 12; 8].
Proof. reflexivity. Qed.
Example C29_subentities_prism : map (fun c => length (subtypes [true; false; false] c)) [0;1;2;3] = [1; 5; 9; 6].
Proof. reflexivity. Qed.
