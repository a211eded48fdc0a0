(** Tensor products of B-splines. *)
From Coq Require Import List Arith Lia Reals Lra Bool.
From Verif Require Import Lib Basis_model Basis_spec BSpline_model BSpline_spec BSpline_numbering BSpline_oned MonomialSet_spec.
Import ListNotations.
Local Open Scope R_scope.
#[local] Arguments Nat.ltb : simpl never.
#[local] Arguments Nat.eqb : simpl never.

(** * The counter *)
Lemma counter_inc_getIJK limits i : Forall (fun n => 1 <= n)%nat limits ->
  counter_inc limits (getIJK i limits) = getIJK (i + 1) limits.
Proof.
  intros F. revert i; induction F as [|n ns H F IH]; intros i; [reflexivity|]. cbn [getIJK counter_inc].
  pose proof (Nat.div_mod i n ltac:(lia)) as D. pose proof (Nat.mod_upper_bound i n ltac:(lia)) as B.
  destruct (Nat.ltb_spec (S (i mod n)) n) as [C|C].
  - assert (E : ((i + 1) / n = i / n)%nat) by (symmetry; apply (Nat.div_unique _ _ _ (S (i mod n))); lia).
    assert (E' : ((i + 1) mod n = S (i mod n))%nat) by (symmetry; apply (Nat.mod_unique _ _ (i / n)); lia).
    rewrite E, E'. reflexivity.
  - assert (E : ((i + 1) / n = i / n + 1)%nat) by (symmetry; apply (Nat.div_unique _ _ _ 0); lia).
    assert (E' : ((i + 1) mod n = 0)%nat) by (symmetry; apply (Nat.mod_unique _ _ (i / n + 1)); lia).
    rewrite E, E', IH. reflexivity.
Qed.
Lemma tensor_loop_map {A} n limits i (f : list nat -> A) : Forall (fun n => 1 <= n)%nat limits ->
  tensor_loop n limits (getIJK i limits) f = map (fun k => f (getIJK k limits)) (seq i n).
Proof.
  intros F. revert i; induction n as [|n IH]; intros i; [reflexivity|]. cbn [tensor_loop seq map].
  rewrite counter_inc_getIJK by exact F. rewrite IH. replace (S i) with (i + 1)%nat by lia. reflexivity.
Qed.
Lemma getIJK_0 limits : Forall (fun n => 1 <= n)%nat limits -> getIJK 0 limits = counter_start limits.
Proof.
  induction 1 as [|n ns H F IH]; [reflexivity|]. cbn [getIJK counter_start map].
  rewrite Nat.mod_0_l, Nat.div_0_l by lia. rewrite IH. reflexivity.
Qed.
Lemma tensor_map {A} limits (f : list nat -> A) :
  tensor limits f = map (fun k => f (getIJK k limits)) (seq 0 (prod limits)).
Proof.
  unfold tensor. destruct (prod limits) as [|m] eqn:E; [reflexivity|]. rewrite <- E.
  assert (F : Forall (fun n => 1 <= n)%nat limits).
  { clear f. revert m E. induction limits as [|n ns IH]; intros m E; [constructor|]. rewrite prod_cons in E.
    constructor; [nia|]. destruct (prod ns) as [|q] eqn:E'; [lia|]. apply (IH q). reflexivity. }
  rewrite <- getIJK_0 by exact F. apply tensor_loop_map, F.
Qed.

(** * Products *)
Definition FN (o : nat) (d : dir) (s i : nat) (x : R) : R :=
  match o with
  | 0%nat => NN d s (d_order d) (s - d_order d + i) x
  | 1%nat => DN d s (d_order d) (s - d_order d + i) x
  | _ => DDN d s (d_order d) (s - d_order d + i) x
  end.
Fixpoint lists (o : nat -> nat) (k : nat) (ds : list (dir * nat)) (xs : list R) : list (list R) :=
  match ds, xs with
  | (d, s) :: ds', x :: xs' => map (fun i => FN (o k) d s i x) (seq 0 (fe_size d s)) :: lists o (S k) ds' xs'
  | _, _ => []
  end.
Fixpoint tens (o : nat -> nat) (k : nat) (ds : list (dir * nat)) (c : list nat) (xs : list R) : R :=
  match ds, c, xs with
  | (d, s) :: ds', i :: c', x :: xs' => FN (o k) d s i x * tens o (S k) ds' c' xs'
  | _, _, _ => 1
  end.

Lemma entry_cons v vs i is : entry (v :: vs) (i :: is) = nth i v 0 * entry vs is.
Proof.
  unfold entry. cbn [combine fold_left fst snd].
  enough (H : forall l a b, fold_left (fun acc vi => acc * nth (snd vi) (fst vi) 0) l (a * b) =
     a * fold_left (fun acc vi => acc * nth (snd vi) (fst vi) 0) l b).
  { rewrite Rmult_1_l. rewrite <- (Rmult_1_r (nth i v 0)) at 1. apply H. }
  clear. induction l as [|q l IH]; intros a b; cbn [fold_left]; [reflexivity|]. rewrite Rmult_assoc. apply IH.
Qed.
Lemma entry_lists o k ds xs c : length xs = length ds -> Forall2 (fun ds0 i => i < fe_size (fst ds0) (snd ds0))%nat ds c ->
  entry (lists o k ds xs) c = tens o k ds c xs.
Proof.
  intros L F. revert k xs L. induction F as [|[d s] i ds c H F IH]; intros k xs L; [reflexivity|].
  destruct xs as [|x xs]; [discriminate|]. cbn [lists tens]. rewrite entry_cons, IH by (cbn [length] in L; lia).
  rewrite nth_map_seq. cbn [fst snd] in H. destruct (Nat.ltb_spec i (fe_size d s)); [|lia]. reflexivity.
Qed.
Lemma lists_nth o k ds xs j : length xs = length ds ->
  nth j (lists o k ds xs) [] =
  match nth_error ds j, nth_error xs j with
  | Some (d, s), Some x => map (fun i => FN (o (k + j)%nat) d s i x) (seq 0 (fe_size d s))
  | _, _ => []
  end.
Proof.
  revert k xs j; induction ds as [|[d s] ds IH]; intros k xs j L; (destruct xs as [|x xs]; try discriminate).
  - destruct j; reflexivity.
  - cbn [lists]. destruct j as [|j]; cbn [nth nth_error]; [rewrite Nat.add_0_r; reflexivity|].
    rewrite IH by (cbn [length] in L; lia). replace (S k + j)%nat with (k + S j)%nat by lia. reflexivity.
Qed.
Lemma lists_length o k ds xs : length xs = length ds -> length (lists o k ds xs) = length ds.
Proof.
  revert k xs; induction ds as [|[d s] ds IH]; intros k xs L; (destruct xs as [|x xs]; try discriminate); [reflexivity|].
  cbn [lists length]. rewrite IH by (cbn [length] in L; lia). reflexivity.
Qed.
(** selecting per direction *)
Lemma choose_lists dirs ds xs f o : length dirs = length ds -> length xs = length ds ->
  (forall k, (k < length ds)%nat -> exists o', f k = lists o' 0 ds xs /\ o' k = o k) ->
  choose dirs f = lists o 0 ds xs.
Proof.
  intros L L' H. apply nth_error_ext. intros i. unfold choose. rewrite nth_error_map_eq, nth_error_seq, L.
  destruct (Nat.ltb_spec i (length ds)) as [Hi|Hi]; cbn [option_map Nat.add].
  - rewrite (nth_error_nth' _ []) by (rewrite lists_length by exact L'; exact Hi). f_equal.
    destruct (H i Hi) as (o' & -> & E). rewrite !lists_nth by exact L'. cbn [Nat.add]. rewrite E. reflexivity.
  - symmetry. apply nth_error_None. rewrite lists_length by exact L'. exact Hi.
Qed.

(** * Partial derivatives *)
Definition raise (o : nat -> nat) (j : nat) (k : nat) : nat := if (j =? k)%nat then S (o k) else o k.
Lemma tens_ext o o' k ds c xs : (forall i, (k <= i)%nat -> o i = o' i) -> tens o k ds c xs = tens o' k ds c xs.
Proof.
  revert k c xs; induction ds as [|[d s] ds IH]; intros k c xs H; [reflexivity|]. destruct c as [|i c], xs as [|x xs]; try reflexivity.
  cbn [tens]. rewrite (H k) by lia. f_equal. apply IH. intros i' Hi'. apply H. lia.
Qed.
Lemma with_coord_0 x xs t : with_coord (x :: xs) 0 t = t :: xs.
Proof. reflexivity. Qed.
Lemma with_coord_S x xs j t : with_coord (x :: xs) (S j) t = x :: with_coord xs j t.
Proof. reflexivity. Qed.

Definition dir_good (ds : dir * nat) : Prop :=
  knots_sorted (fst ds) /\ nonempty_span (d_knots (fst ds)) (snd ds) /\ (d_order (fst ds) + 2 <= length (d_knots (fst ds)))%nat.

Lemma FN_derivative o d s i x : (o <= 1)%nat -> dir_good (d, s) -> (i < fe_size d s)%nat ->
  derivable_pt_lim (FN o d s i) x (FN (S o) d s i x).
Proof.
  intros Ho (G1 & G2 & G3) Hi. cbn [fst snd] in *. pose proof (sub_fe d s G2 i G3 Hi).
  destruct o as [|[|o]]; [| |lia].
  - apply (NN_derivative d s G1 G2). assumption.
  - apply (DN_derivative d s G1 G2). assumption.
Qed.
Lemma tens_derivative o k ds c xs j : length xs = length ds -> Forall dir_good ds ->
  Forall2 (fun ds0 i => i < fe_size (fst ds0) (snd ds0))%nat ds c -> (j < length ds)%nat -> (o (k + j)%nat <= 1)%nat ->
  partial (tens o k ds c) j xs (tens (raise o (k + j)) k ds c xs).
Proof.
  intros L G F. revert k xs j L. induction F as [|[d s] i ds c H F IH]; intros k xs j L Hj Ho; [cbn in Hj; lia|].
  destruct xs as [|x xs]; [discriminate|]. cbn [length] in L. inversion G as [|? ? G1 G2]; subst. cbn [fst snd] in H. destruct j as [|j].
  - rewrite Nat.add_0_r in *. unfold partial. cbn [nth].
    assert (D : derivable_pt_lim (mult_real_fct (tens o (S k) ds c xs) (FN (o k) d s i)) x (tens o (S k) ds c xs * FN (S (o k)) d s i x)).
    { apply derivable_pt_lim_scal. apply FN_derivative; assumption. }
    assert (E : tens (raise o k) k ((d, s) :: ds) (i :: c) (x :: xs) = tens o (S k) ds c xs * FN (S (o k)) d s i x).
    { cbn [tens]. unfold raise at 1. rewrite Nat.eqb_refl. rewrite Rmult_comm. f_equal. apply tens_ext.
      intros i' Hi'. unfold raise. destruct (Nat.eqb_spec k i'); [lia|reflexivity]. }
    rewrite E. eapply dlim_eq; [|exact D]. intros y. rewrite with_coord_0. cbn [tens]. unfold mult_real_fct. ring.
  - unfold partial. cbn [nth].
    specialize (IH G2 (S k) xs j ltac:(lia) ltac:(cbn [length] in Hj; lia)).
    replace (S k + j)%nat with (k + S j)%nat in IH by lia. specialize (IH Ho). unfold partial in IH.
    assert (D := derivable_pt_lim_scal _ (FN (o k) d s i x) _ _ IH).
    assert (E : tens (raise o (k + S j)) k ((d, s) :: ds) (i :: c) (x :: xs) = FN (o k) d s i x * tens (raise o (k + S j)) (S k) ds c xs).
    { cbn [tens]. unfold raise at 1. destruct (Nat.eqb_spec (k + S j) k); [lia|]. reflexivity. }
    rewrite E. eapply dlim_eq; [|exact D]. intros y. rewrite with_coord_S. reflexivity.
Qed.

(** * The lists of the code *)
Section Code.
Variable dirs : list dir.
Variable spans : list nat.
Hypothesis HL : length dirs = length spans.
Let ds := combine dirs spans.
Hypothesis HG : Forall dir_good ds.

Lemma ds_length : length ds = length dirs.
Proof. unfold ds. rewrite combine_length. lia. Qed.


Lemma values_lists xs : length xs = length dirs -> values dirs spans xs = lists (fun _ => 0%nat) 0 ds xs.
Proof.
  intros L. unfold values, dsx. fold ds. rewrite <- ds_length in L. remember (fun _ : nat => 0%nat) as o eqn:Eo. assert (Ho : forall k, o k = 0%nat) by (intros; rewrite Eo; reflexivity). clear Eo. generalize 0%nat as k.
  revert xs L. clear HL. induction HG as [|[d s] l G1 G2 IH]; intros xs L k; (destruct xs as [|x xs]; try discriminate); [reflexivity|].
  cbn [combine map lists]. rewrite Ho, (IH G2 xs ltac:(cbn [length] in L; lia) (S k)). f_equal.
  destruct G1 as (A & B & C). cbn [fst snd] in *. unfold eval1. apply map_ext_in. intros i Hi. apply in_seq in Hi.
  apply (table_NN d s A B). apply (sub_fe d s B); [exact C|lia].
Qed.
Lemma jacs_lists xs : length xs = length dirs -> jacs dirs spans xs = Some (lists (fun _ => 1%nat) 0 ds xs).
Proof.
  intros L. unfold jacs, dsx. fold ds. rewrite <- ds_length in L. remember (fun _ : nat => 1%nat) as o eqn:Eo. assert (Ho : forall k, o k = 1%nat) by (intros; rewrite Eo; reflexivity). clear Eo. generalize 0%nat as k.
  revert xs L. clear HL. induction HG as [|[d s] l G1 G2 IH]; intros xs L k; (destruct xs as [|x xs]; try discriminate); [reflexivity|].
  cbn [combine map_opt lists]. rewrite Ho, (IH G2 xs ltac:(cbn [length] in L; lia) (S k)).
  destruct G1 as (A & B & C). cbn [fst snd] in *. rewrite (jac1_DN d s A B x C). reflexivity.
Qed.
Lemma hesss_lists xs : length xs = length dirs -> hesss dirs spans xs = Some (lists (fun _ => 2%nat) 0 ds xs).
Proof.
  intros L. unfold hesss, dsx. fold ds. rewrite <- ds_length in L. remember (fun _ : nat => 2%nat) as o eqn:Eo. assert (Ho : forall k, o k = 2%nat) by (intros; rewrite Eo; reflexivity). clear Eo. generalize 0%nat as k.
  revert xs L. clear HL. induction HG as [|[d s] l G1 G2 IH]; intros xs L k; (destruct xs as [|x xs]; try discriminate); [reflexivity|].
  cbn [combine map_opt lists]. rewrite Ho, (IH G2 xs ltac:(cbn [length] in L; lia) (S k)).
  destruct G1 as (A & B & C). cbn [fst snd] in *. rewrite (hess1_DDN d s A B x C). reflexivity.
Qed.
Lemma lists_sizes o k xs l : length xs = length l -> map (@length R) (lists o k l xs) = map (fun q => fe_size (fst q) (snd q)) l.
Proof.
  revert k xs; induction l as [|[d s] l IH]; intros k xs L; (destruct xs as [|x xs]; try discriminate); [reflexivity|].
  cbn [lists map fst snd]. rewrite map_length, seq_length, IH by (cbn [length] in L; lia). reflexivity.
Qed.

(** tuple of local function [i] *)
Definition loc (i : nat) : list nat := getIJK i (node_sizes dirs spans).
Lemma loc_bound i : (i < node_size dirs spans)%nat -> Forall2 (fun q i => i < fe_size (fst q) (snd q))%nat ds (loc i).
Proof.
  intros H. destruct (lexi_getIJK _ _ H) as [_ F]. unfold node_sizes in F. fold ds in F.
  apply (proj1 (Forall2_combine_map (fun n i => i < n)%nat _ _ _)) in F. exact F.
Qed.

Lemma tensor_nth (f : list nat -> R) i : (i < node_size dirs spans)%nat -> nth i (tensor (node_sizes dirs spans) f) 0 = f (loc i).
Proof.
  intros H. rewrite tensor_map. rewrite (nth_map_seq (fun k => f (getIJK k (node_sizes dirs spans)))).
  unfold node_size in H. destruct (Nat.ltb_spec i (prod (node_sizes dirs spans))); [|lia]. reflexivity.
Qed.
Lemma tensor_length {A} (f : list nat -> A) : length (tensor (node_sizes dirs spans) f) = node_size dirs spans.
Proof. rewrite tensor_map, map_length, seq_length. reflexivity. Qed.

Lemma evalF_form xs : length xs = length dirs -> evaluateFunction dirs spans xs = tensor (node_sizes dirs spans) (entry (lists (fun _ => 0%nat) 0 ds xs)).
Proof.
  intros L. unfold evaluateFunction. rewrite values_lists by exact L.
  rewrite lists_sizes by (rewrite ds_length; exact L). reflexivity.
Qed.
Lemma evalF_length xs : length xs = length dirs -> length (evaluateFunction dirs spans xs) = node_size dirs spans.
Proof. intros L. rewrite evalF_form by exact L. apply tensor_length. Qed.
Lemma evalF_nth xs i : length xs = length dirs -> (i < node_size dirs spans)%nat ->
  nth i (evaluateFunction dirs spans xs) 0 = tens (fun _ => 0%nat) 0 ds (loc i) xs.
Proof.
  intros L H. rewrite evalF_form, tensor_nth by assumption. apply entry_lists; [rewrite ds_length; exact L|apply loc_bound, H].
Qed.

Lemma eval1_form dir0 xs : length xs = length dirs ->
  evaluate_1 dirs spans dir0 xs = Some (tensor (node_sizes dirs spans) (entry (lists (raise (fun _ => 0%nat) dir0) 0 ds xs))).
Proof.
  intros L. unfold evaluate_1. rewrite jacs_lists by exact L. cbn [obind]. do 3 f_equal.
  apply choose_lists; [rewrite ds_length; reflexivity|rewrite ds_length; exact L|]. intros k Hk. unfold raise.
  destruct (dir0 =? k)%nat; eexists; (split; [|reflexivity]); [reflexivity|apply (values_lists xs L)].
Qed.
Lemma eval1_nth' dir0 xs i : length xs = length dirs -> (i < node_size dirs spans)%nat -> exists out,
  evaluate_1 dirs spans dir0 xs = Some out /\ length out = node_size dirs spans /\ nth i out 0 = tens (raise (fun _ => 0%nat) dir0) 0 ds (loc i) xs.
Proof.
  intros L H. rewrite eval1_form by exact L. eexists. split; [reflexivity|]. split; [apply tensor_length|].
  rewrite tensor_nth by exact H. apply entry_lists; [rewrite ds_length; exact L|apply loc_bound, H].
Qed.
Lemma eval2_form dir0 dir1 xs : length xs = length dirs ->
  evaluate_2 dirs spans dir0 dir1 xs = Some (tensor (node_sizes dirs spans) (entry (lists (raise (raise (fun _ => 0%nat) dir0) dir1) 0 ds xs))).
Proof.
  intros L. unfold evaluate_2. rewrite jacs_lists, hesss_lists by exact L. cbn [obind]. do 3 f_equal.
  apply choose_lists; [rewrite ds_length; reflexivity|rewrite ds_length; exact L|]. intros k Hk. unfold raise.
  destruct (Nat.eqb_spec dir0 dir1) as [->|N]; cbn [negb].
  - destruct (dir1 =? k)%nat; eexists; (split; [|reflexivity]); [reflexivity|apply (values_lists xs L)].
  - destruct (Nat.eqb_spec dir0 k), (Nat.eqb_spec dir1 k); cbn [orb]; try lia; eexists; (split; [|reflexivity]); try reflexivity; apply (values_lists xs L).
Qed.
Lemma eval2_nth dir0 dir1 xs i : length xs = length dirs -> (i < node_size dirs spans)%nat -> exists out,
  evaluate_2 dirs spans dir0 dir1 xs = Some out /\ length out = node_size dirs spans /\
  nth i out 0 = tens (raise (raise (fun _ => 0%nat) dir0) dir1) 0 ds (loc i) xs.
Proof.
  intros L H. rewrite eval2_form by exact L. eexists. split; [reflexivity|]. split; [apply tensor_length|].
  rewrite tensor_nth by exact H. apply entry_lists; [rewrite ds_length; exact L|apply loc_bound, H].
Qed.
Lemma evalJ_nth xs : length xs = length dirs -> exists out,
  evaluateJacobian dirs spans xs = Some out /\ length out = node_size dirs spans /\
  forall i, (i < node_size dirs spans)%nat -> exists row, nth_error out i = Some row /\ length row = length dirs /\
    forall j, (j < length dirs)%nat -> nth j row 0 = tens (raise (fun _ => 0%nat) j) 0 ds (loc i) xs.
Proof.
  intros L. unfold evaluateJacobian. rewrite jacs_lists by exact L. cbn [obind]. eexists. split; [reflexivity|]. split; [apply tensor_length|].
  intros i H. rewrite tensor_map, nth_error_map_eq, nth_error_seq. unfold node_size in H.
  destruct (Nat.ltb_spec i (prod (node_sizes dirs spans))); [|lia]. cbn [option_map Nat.add]. fold (loc i).
  eexists. split; [reflexivity|]. split; [rewrite map_length, seq_length; reflexivity|]. intros j Hj.
  rewrite nth_map_seq. destruct (Nat.ltb_spec j (length dirs)); [|lia].
  rewrite (choose_lists dirs ds xs _ (raise (fun _ => 0%nat) j)).
  - apply entry_lists; [rewrite ds_length; exact L|apply loc_bound, H].
  - rewrite ds_length. reflexivity.
  - rewrite ds_length. exact L.
  - intros k Hk. unfold raise. destruct (j =? k)%nat; eexists; (split; [|reflexivity]); [reflexivity|apply (values_lists xs L)].
Qed.

(** * Local coordinates *)
Lemma globalIn_point xs : globalIn dirs spans xs = global_point dirs spans xs.
Proof.
  unfold globalIn, offsets, scalings. clear HG ds. revert spans xs HL.
  induction dirs as [|d l IH]; intros sp xs H; (destruct sp as [|s sp]; try discriminate); [reflexivity|].
  destruct xs as [|x xs]; [cbn; reflexivity|]. cbn [combine map fst snd global_point]. rewrite IH by (cbn [length] in H; lia). reflexivity.
Qed.
Lemma global_point_length xs : length xs = length dirs -> length (global_point dirs spans xs) = length dirs.
Proof.
  clear HG ds. revert spans xs HL.
  induction dirs as [|d l IH]; intros sp xs H L; (destruct sp as [|s sp]; try discriminate); [reflexivity|].
  destruct xs as [|x xs]; [discriminate|]. cbn [length global_point]. rewrite IH by (cbn [length] in *; lia). reflexivity.
Qed.
Definition scale (j : nat) : R := nth j (scalings dirs spans) 0.
Lemma global_with_coord xs j : length xs = length dirs -> (j < length dirs)%nat -> exists o,
  (forall h, global_point dirs spans (with_coord xs j h) = with_coord (global_point dirs spans xs) j (o + scale j * h)) /\
  nth j (global_point dirs spans xs) 0 = o + scale j * nth j xs 0.
Proof.
  unfold scale, scalings. clear HG ds. revert spans xs j HL.
  induction dirs as [|d l IH]; intros sp xs j H L Hj; (destruct sp as [|s sp]; try discriminate); [cbn in Hj; lia|].
  destruct xs as [|x xs]; [discriminate|]. cbn [length] in *. destruct j as [|j].
  - exists (knot d s). split; [|reflexivity]. intros h. reflexivity.
  - destruct (IH sp xs j ltac:(lia) ltac:(lia) ltac:(lia)) as (o & E1 & E2). exists o. split; [|exact E2].
    intros h. rewrite with_coord_S. cbn [global_point]. rewrite E1, with_coord_S. reflexivity.
Qed.
Lemma with_coord_length (xs : list R) j h : (j < length xs)%nat -> length (with_coord xs j h) = length xs.
Proof. intros H. unfold with_coord. rewrite app_length, firstn_length. cbn [length]. rewrite skipn_length. lia. Qed.

(** chain rule *)
Lemma partial_local f g j xs v : length xs = length dirs -> (j < length dirs)%nat ->
  (forall ys, length ys = length dirs -> g ys = f (global_point dirs spans ys)) ->
  partial f j (global_point dirs spans xs) v -> partial g j xs (v * scale j).
Proof.
  intros L Hj E P. destruct (global_with_coord xs j L Hj) as (o & E1 & E2). unfold partial in *.
  assert (D : derivable_pt_lim (comp (fun t => f (with_coord (global_point dirs spans xs) j t)) (fun h => scale j * h + o)) (nth j xs 0) (v * scale j)).
  { apply derivable_pt_lim_comp; [apply dlim_lin|]. rewrite Rplus_comm, <- E2. exact P. }
  eapply dlim_eq; [|exact D]. intros h. unfold comp. rewrite E by (rewrite with_coord_length; lia). rewrite E1. do 2 f_equal. ring.
Qed.
End Code.
