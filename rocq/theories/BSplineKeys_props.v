(** C36: local keys of B-spline finite elements. *)
From Coq Require Import List Arith Bool Lia.
From Verif Require Import Lib BSpline_model BSpline_spec BSpline_numbering BSplineKeys_model BSplineKeys_spec.
Import ListNotations.
Local Open Scope nat_scope.
#[local] Arguments Nat.ltb : simpl never.
#[local] Arguments Nat.eqb : simpl never.

Definition row (a b c n : nat) : list nat := [a] ++ repeat b (n - 2) ++ [c].
Lemma row_length a b c n : 2 <= n -> length (row a b c n) = n.
Proof. intros H. unfold row. rewrite !app_length, repeat_length. cbn. lia. Qed.
Lemma row_nth a b c n i : 2 <= n -> i < n ->
  nth i (row a b c n) 0 = match pos_of n i with Low => a | Mid => b | High => c end.
Proof.
  intros H Hi. unfold row, pos_of. destruct i as [|i]; [reflexivity|]. cbn [app nth].
  destruct (Nat.eqb_spec (S i) 0); [lia|]. destruct (Nat.eqb_spec (S i) (n - 1)) as [E|E].
  - rewrite app_nth2; rewrite repeat_length; [|lia]. replace (i - (n - 2)) with 0 by lia. reflexivity.
  - rewrite app_nth1 by (rewrite repeat_length; lia).
    rewrite (nth_indep _ 0 b) by (rewrite repeat_length; lia). apply nth_repeat.
Qed.
Lemma nth_concat_rows (rows : list (list nat)) n i0 i1 : Forall (fun r => length r = n) rows -> i0 < n ->
  nth (i0 + n * i1) (concat rows) 0 = nth i0 (nth i1 rows []) 0.
Proof.
  intros F H. revert i1; induction F as [|r rows E F IH]; intros i1.
  - cbn [concat]. destruct i1; destruct i0; cbn; try reflexivity; destruct (n * _); reflexivity.
  - cbn [concat]. destruct i1 as [|i1].
    + rewrite app_nth1 by lia. cbn [nth]. f_equal. lia.
    + rewrite app_nth2 by nia. cbn [nth]. rewrite <- IH. f_equal. nia.
Qed.

Lemma pos_codim n i : 2 <= n -> i < n -> (if (i =? 0) || (i =? n - 1) then 1 else 0) = match pos_of n i with Mid => 0 | _ => 1 end.
Proof. intros H Hi. unfold pos_of. destruct (i =? 0); [reflexivity|]. destruct (i =? n - 1); reflexivity. Qed.
Lemma pos_inner n i : 2 <= n -> i < n -> (0 <? i) && (i <? n - 1) = match pos_of n i with Mid => true | _ => false end.
Proof.
  intros H Hi. unfold pos_of. destruct (Nat.eqb_spec i 0), (Nat.eqb_spec i (n - 1)), (Nat.ltb_spec 0 i), (Nat.ltb_spec i (n - 1)); trivial; lia.
Qed.
Lemma pos_spec n i : 2 <= n -> i < n ->
  match pos_of n i with Low => i = 0 | High => i = n - 1 | Mid => 0 < i < n - 1 end.
Proof. intros H Hi. unfold pos_of. destruct (Nat.eqb_spec i 0), (Nat.eqb_spec i (n - 1)); lia. Qed.
Lemma pos_at n i : 2 <= n -> i < n -> pos_of n 0 = Low /\ pos_of n (n - 1) = High /\ (0 < i < n - 1 -> pos_of n i = Mid).
Proof.
  intros H Hi. unfold pos_of. split; [reflexivity|]. split.
  - destruct (Nat.eqb_spec (n - 1) 0); [lia|]. rewrite Nat.eqb_refl. reflexivity.
  - intros M. destruct (Nat.eqb_spec i 0); [lia|]. destruct (Nat.eqb_spec i (n - 1)); [lia|]. reflexivity.
Qed.

(** * One dimension *)
Lemma init_1d n : 2 <= n -> exists keys, lc_init [n] = Some keys /\ length keys = n /\
  forall i, i < n -> nth_error keys i =
    Some (line_entity (pos_of n i), match pos_of n i with Mid => i - 1 | _ => 0 end).
Proof.
  intros H. unfold lc_init, lc_subEntity. rewrite prod_cons. change (prod []) with 1. rewrite Nat.mul_1_r.
  destruct (Nat.ltb_spec 0 n); [|lia]. unfold setup1d. destruct (Nat.eqb_spec n 1); [lia|].
  change ([0] ++ repeat 0 (n - 2) ++ [1]) with (row 0 0 1 n). rewrite row_length, Nat.eqb_refl by lia. cbn [obind].
  eexists. split; [reflexivity|]. split; [rewrite map_length, seq_length; reflexivity|].
  intros i Hi. rewrite nth_error_map_eq, nth_error_seq. destruct (Nat.ltb_spec i n); [|lia]. cbn [option_map Nat.add].
  cbn [getIJK lc_codim lc_index]. rewrite Nat.mod_small by lia. rewrite row_nth, pos_codim, pos_inner by lia.
  f_equal. destruct (pos_of n i); unfold line_entity; rewrite ?Nat.mul_0_r; reflexivity.
Qed.

Theorem C36_line : forall n, 1 <= n -> exists keys, lc_init [n] = Some keys /\ length keys = n /\
  unique_keys keys /\ consecutive_keys keys /\
  (2 <= n -> forall i, i < n -> exists k, nth_error keys i = Some (line_entity (pos_of n i), k)).
Proof.
  intros n H. destruct (Nat.eq_dec n 1) as [->|N].
  { exists [(0, 1, 0)]. split; [reflexivity|]. split; [reflexivity|]. split; [constructor; [intros []|constructor]|]. split; [|lia].
    intros s c k [E|[]]. injection E as <- <- <-. lia. }
  destruct (init_1d n ltac:(lia)) as (keys & E & L & K). exists keys. split; [exact E|]. split; [exact L|].
  split; [|split; [|intros _ i Hi; rewrite K by lia; eauto]].
  - apply NoDup_nth_error. intros i j Hi Hij. rewrite L in Hi.
    assert (Hj : j < n) by (rewrite <- L; apply nth_error_Some; rewrite <- Hij; apply nth_error_Some; lia).
    rewrite !K in Hij by lia. pose proof (pos_spec n i ltac:(lia) Hi). pose proof (pos_spec n j ltac:(lia) Hj).
    destruct (pos_of n i), (pos_of n j); cbn in Hij; try discriminate Hij; try lia; injection Hij; lia.
  - intros s c k I k' Hk. apply In_nth_error in I as (i & Hi).
    assert (Li : i < n) by (rewrite <- L; apply nth_error_Some; congruence). rewrite K in Hi by lia.
    pose proof (pos_spec n i ltac:(lia) Li) as P. destruct (pos_of n i) eqn:Ep; cbn in Hi; injection Hi as <- <- <-; try lia.
    apply nth_error_In with (n := k' + 1). rewrite K by lia.
    rewrite (proj2 (proj2 (pos_at n (k' + 1) ltac:(lia) ltac:(lia)))) by lia. cbn [line_entity]. do 2 f_equal. lia.
Qed.

(** * Two dimensions *)
Lemma concat_uniform_length {A} (rows : list (list A)) n : Forall (fun r => length r = n) rows -> length (concat rows) = n * length rows.
Proof. induction 1 as [|r rows E F IH]; cbn [concat length]; [lia|]. rewrite app_length, E, IH. lia. Qed.
Lemma setup2d_rows n0 n1 : 2 <= n0 -> 2 <= n1 ->
  exists rows, setup2d n0 n1 = concat rows /\ length rows = n1 /\ Forall (fun r => length r = n0) rows /\
    forall i1, i1 < n1 -> nth i1 rows [] = match pos_of n1 i1 with Low => row 0 2 1 n0 | Mid => row 0 0 1 n0 | High => row 2 3 3 n0 end.
Proof.
  intros H0 H1. exists ([row 0 2 1 n0] ++ repeat (row 0 0 1 n0) (n1 - 2) ++ [row 2 3 3 n0]). split; [|split; [|split]].
  - unfold setup2d. rewrite !concat_app. cbn [concat]. rewrite !app_nil_r. reflexivity.
  - rewrite !app_length, repeat_length. cbn [length]. lia.
  - apply Forall_app. split; [constructor; [apply row_length, H0|constructor]|]. apply Forall_app.
    split; [|constructor; [apply row_length, H0|constructor]]. apply Forall_forall. intros r Hr. apply repeat_spec in Hr. subst r. apply row_length, H0.
  - intros i1 Hi. unfold pos_of. destruct i1 as [|i1]; [reflexivity|]. cbn [app nth].
    destruct (Nat.eqb_spec (S i1) 0); [lia|]. destruct (Nat.eqb_spec (S i1) (n1 - 1)).
    + rewrite app_nth2; rewrite repeat_length; [|lia]. replace (i1 - (n1 - 2)) with 0 by lia. reflexivity.
    + rewrite app_nth1 by (rewrite repeat_length; lia). rewrite (nth_indep _ [] (row 0 0 1 n0)) by (rewrite repeat_length; lia). apply nth_repeat.
Qed.

Definition index_2d (n0 i0 i1 : nat) (a b : pos) : nat :=
  match a, b with
  | Mid, Mid => (n0 - 1) * (i1 - 1) + (i0 - 1)
  | Mid, _ => i0 - 1
  | _, Mid => i1 - 1
  | _, _ => 0
  end.
Lemma init_2d n0 n1 : 2 <= n0 -> 2 <= n1 -> exists keys, lc_init [n0; n1] = Some keys /\ length keys = n0 * n1 /\
  forall i0 i1, i0 < n0 -> i1 < n1 -> nth_error keys (i0 + n0 * i1) =
    Some (square_entity (pos_of n0 i0) (pos_of n1 i1), index_2d n0 i0 i1 (pos_of n0 i0) (pos_of n1 i1)).
Proof.
  intros H0 H1. destruct (setup2d_rows n0 n1 H0 H1) as (rows & ER & LR & FR & NR).
  assert (EP : prod [n0; n1] = n0 * n1) by (rewrite !prod_cons; change (prod []) with 1; lia).
  assert (PP : 0 < n0 * n1) by nia.
  unfold lc_init, lc_subEntity. rewrite EP.
  destruct (Nat.ltb_spec 0 (n0 * n1)); [|lia]. destruct (Nat.ltb_spec 1 n0); [|lia]. destruct (Nat.ltb_spec 1 n1); [|lia]. cbn [andb].
  assert (LS : length (setup2d n0 n1) = n0 * n1) by (rewrite ER, (concat_uniform_length rows n0 FR), LR; reflexivity).
  rewrite LS, Nat.eqb_refl. cbn [obind]. eexists. split; [reflexivity|]. split; [rewrite map_length, seq_length; reflexivity|].
  intros i0 i1 Hi0 Hi1. rewrite nth_error_map_eq, nth_error_seq. destruct (Nat.ltb_spec (i0 + n0 * i1) (n0 * n1)); [|nia].
  cbn [option_map Nat.add].
  assert (EG : getIJK (i0 + n0 * i1) [n0; n1] = [i0; i1]).
  { pose proof (getIJK_lexi [n0; n1] [i0; i1] ltac:(repeat constructor; lia)) as Q. cbn [lexi] in Q. rewrite Nat.mul_0_r, Nat.add_0_r in Q. exact Q. }
  rewrite EG. cbn [lc_codim lc_index].
  rewrite ER, (nth_concat_rows rows n0 i0 i1 FR Hi0), NR, !pos_codim, !pos_inner by lia.
  assert (RN : nth i0 match pos_of n1 i1 with Low => row 0 2 1 n0 | Mid => row 0 0 1 n0 | High => row 2 3 3 n0 end 0 =
    match pos_of n1 i1 with
    | Low => match pos_of n0 i0 with Low => 0 | Mid => 2 | High => 1 end
    | Mid => match pos_of n0 i0 with Low => 0 | Mid => 0 | High => 1 end
    | High => match pos_of n0 i0 with Low => 2 | Mid => 3 | High => 3 end
    end) by (destruct (pos_of n1 i1); apply row_nth; lia).
  rewrite RN. f_equal. destruct (pos_of n0 i0), (pos_of n1 i1); unfold square_entity, index_2d; rewrite ?Nat.mul_0_r; reflexivity.
Qed.

Lemma split_index n0 n1 i : i < n0 * n1 -> exists i0 i1, i0 < n0 /\ i1 < n1 /\ i = i0 + n0 * i1.
Proof.
  intros H. assert (n0 <> 0) by nia. exists (i mod n0), (i / n0). split; [apply Nat.mod_upper_bound; lia|].
  split; [apply Nat.div_lt_upper_bound; lia|]. pose proof (Nat.div_mod i n0 ltac:(lia)). lia.
Qed.

(** On an element with at least two functions per direction the keys are distinct and
    lie on the proper subentities of the square; the keys of vertices and edges are
    consecutive, and those of the interior are if and only if there is at most one
    interior row or column of one. *)
Theorem C36_square_partial : forall n0 n1, 2 <= n0 -> 2 <= n1 -> exists keys,
  lc_init [n0; n1] = Some keys /\ length keys = n0 * n1 /\
  unique_keys keys /\
  (forall i0 i1, i0 < n0 -> i1 < n1 -> exists k,
     nth_error keys (i0 + n0 * i1) = Some (square_entity (pos_of n0 i0) (pos_of n1 i1), k)) /\
  consecutive_codim keys 2 /\ consecutive_codim keys 1 /\
  (consecutive_codim keys 0 <-> n0 = 2 \/ n1 <= 3).
Proof.
  intros n0 n1 H0 H1. destruct (init_2d n0 n1 H0 H1) as (keys & E & L & K). exists keys. split; [exact E|]. split; [exact L|].
  assert (IN : forall q, In q keys -> exists i0 i1, i0 < n0 /\ i1 < n1 /\
     q = (square_entity (pos_of n0 i0) (pos_of n1 i1), index_2d n0 i0 i1 (pos_of n0 i0) (pos_of n1 i1)) /\ nth_error keys (i0 + n0 * i1) = Some q).
  { intros q I. apply In_nth_error in I as (i & Hi). assert (Li : i < n0 * n1) by (rewrite <- L; apply nth_error_Some; congruence).
    destruct (split_index n0 n1 i Li) as (i0 & i1 & A & B & ->). exists i0, i1. split; [exact A|]. split; [exact B|].
    split; [|exact Hi]. rewrite K in Hi by lia. congruence. }
  split; [|split; [|split; [|split; [|split]]]].
  - apply NoDup_nth_error. intros i j Hi Hij. rewrite L in Hi.
    assert (Hj : j < n0 * n1) by (rewrite <- L; apply nth_error_Some; rewrite <- Hij; apply nth_error_Some; lia).
    destruct (split_index n0 n1 i Hi) as (i0 & i1 & A & B & ->). destruct (split_index n0 n1 j Hj) as (j0 & j1 & A' & B' & ->).
    rewrite !K in Hij by lia. pose proof (pos_spec n0 i0 H0 A). pose proof (pos_spec n1 i1 H1 B).
    pose proof (pos_spec n0 j0 H0 A'). pose proof (pos_spec n1 j1 H1 B'). unfold index_2d in Hij.
    destruct (pos_of n0 i0), (pos_of n1 i1), (pos_of n0 j0), (pos_of n1 j1); cbn in Hij; try discriminate Hij;
      try injection Hij as Hij; try (replace i0 with j0 by lia; replace i1 with j1 by lia; reflexivity).
    destruct (Nat.div_mod_unique (n0 - 1) (i1 - 1) (j1 - 1) (i0 - 1) (j0 - 1) ltac:(lia) ltac:(lia) Hij).
    replace i0 with j0 by lia. replace i1 with j1 by lia. reflexivity.
  - intros i0 i1 A B. rewrite K by lia. eauto.
  - intros s k I k' Hk. destruct (IN _ I) as (i0 & i1 & A & B & Q & _). destruct (pos_of n0 i0), (pos_of n1 i1); cbn in Q; injection Q; intros; lia.
  - intros s k I k' Hk. destruct (IN _ I) as (i0 & i1 & A & B & Q & _).
    pose proof (pos_spec n0 i0 H0 A) as P0. pose proof (pos_spec n1 i1 H1 B) as P1.
    destruct (pos_of n0 i0) eqn:E0, (pos_of n1 i1) eqn:E1; cbn in Q; try discriminate Q; injection Q as -> ->; try lia.
    + apply nth_error_In with (n := i0 + n0 * (k' + 1)). rewrite K by lia. rewrite E0.
      rewrite (proj2 (proj2 (pos_at n1 (k' + 1) H1 ltac:(lia)))) by lia. cbn [line_entity square_entity index_2d]. do 2 f_equal. lia.
    + apply nth_error_In with (n := (k' + 1) + n0 * i1). rewrite K by lia. rewrite E1.
      rewrite (proj2 (proj2 (pos_at n0 (k' + 1) H0 ltac:(lia)))) by lia. cbn [line_entity square_entity index_2d]. do 2 f_equal. lia.
    + apply nth_error_In with (n := (k' + 1) + n0 * i1). rewrite K by lia. rewrite E1.
      rewrite (proj2 (proj2 (pos_at n0 (k' + 1) H0 ltac:(lia)))) by lia. cbn [line_entity square_entity index_2d]. do 2 f_equal. lia.
    + apply nth_error_In with (n := i0 + n0 * (k' + 1)). rewrite K by lia. rewrite E0.
      rewrite (proj2 (proj2 (pos_at n1 (k' + 1) H1 ltac:(lia)))) by lia. cbn [line_entity square_entity index_2d]. do 2 f_equal. lia.
  - intros C. destruct (Nat.eq_dec n0 2) as [|N0]; [left; assumption|]. right.
    destruct (Nat.le_gt_cases n1 3) as [|N1]; [assumption|]. exfalso.
    (* the DOF (1,2) has index n0-1, but nothing has index n0-2 *)
    assert (I : In (0, 0, n0 - 1) keys).
    { apply nth_error_In with (n := 1 + n0 * 2). rewrite K by lia.
      rewrite (proj2 (proj2 (pos_at n0 1 H0 ltac:(lia)))) by lia. rewrite (proj2 (proj2 (pos_at n1 2 H1 ltac:(lia)))) by lia.
      cbn [line_entity square_entity index_2d]. do 2 f_equal. lia. }
    destruct (IN _ (C 0 (n0 - 1) I (n0 - 2) ltac:(lia))) as (i0 & i1 & A & B & Q & _).
    pose proof (pos_spec n0 i0 H0 A) as P0. pose proof (pos_spec n1 i1 H1 B) as P1.
    destruct (pos_of n0 i0) eqn:E0, (pos_of n1 i1) eqn:E1; cbn in Q; try discriminate Q. injection Q as Q.
    destruct (Nat.eq_dec i1 1) as [->|]; [lia|]. nia.
  - intros C s k I k' Hk. destruct (IN _ I) as (i0 & i1 & A & B & Q & _).
    pose proof (pos_spec n0 i0 H0 A) as P0. pose proof (pos_spec n1 i1 H1 B) as P1.
    destruct (pos_of n0 i0) eqn:E0, (pos_of n1 i1) eqn:E1; cbn in Q; try discriminate Q. injection Q as -> ->.
    assert (n1 = 3) by lia. subst n1. replace i1 with 1 in * by lia.
    apply nth_error_In with (n := (k' + 1) + n0 * 1). rewrite K by lia. rewrite E1.
    rewrite (proj2 (proj2 (pos_at n0 (k' + 1) H0 ltac:(lia)))) by lia. cbn [line_entity square_entity index_2d]. do 2 f_equal. lia.
Qed.

(** The key indices of the interior are not consecutive: on the square they have gaps
    as soon as there are two interior rows (order 3 and more). *)
Theorem C36_consecutive_refuted : forall n0 n1, 3 <= n0 -> 4 <= n1 -> forall keys,
  lc_init [n0; n1] = Some keys -> ~ consecutive_keys keys.
Proof.
  intros n0 n1 H0 H1 keys E C. destruct (C36_square_partial n0 n1 ltac:(lia) ltac:(lia)) as (keys' & E' & _ & _ & _ & _ & _ & Q).
  rewrite E in E'. injection E' as <-. assert (n0 = 2 \/ n1 <= 3); [|lia]. apply Q. intros s k. apply C.
Qed.

(** With a single function in the first direction and several in the second, two DOFs have the same key. *)
Theorem C36_unique_refuted : forall n1, 2 <= n1 -> exists keys,
  lc_init [1; n1] = Some keys /\ ~ unique_keys keys.
Proof.
  intros n1 H1. assert (EP : prod [1; n1] = n1) by (rewrite !prod_cons; change (prod []) with 1; lia).
  unfold lc_init, lc_subEntity. rewrite EP. destruct (Nat.ltb_spec 0 n1); [|lia]. change (1 <? 1) with false. cbn [andb].
  rewrite repeat_length, Nat.eqb_refl. cbn [obind]. eexists. split; [reflexivity|]. intros N.
  assert (A : 0 = n1 - 1); [|lia]. apply (proj1 (NoDup_nth_error _) N); [rewrite map_length, seq_length; lia|].
  rewrite !nth_error_map_eq, !nth_error_seq. destruct (Nat.ltb_spec 0 n1); [|lia]. destruct (Nat.ltb_spec (n1 - 1) n1); [|lia].
  cbn [option_map Nat.add]. rewrite !nth_repeat.
  assert (G : forall i, i < n1 -> getIJK i [1; n1] = [0; i]).
  { intros i Hi. cbn [getIJK]. rewrite Nat.mod_1_r, Nat.div_1_r, Nat.mod_small by lia. reflexivity. }
  rewrite !G by lia. cbn [lc_codim lc_index]. rewrite !Nat.eqb_refl, !orb_true_r, !Nat.ltb_irrefl, !andb_false_r. cbn [orb andb]. reflexivity.
Qed.

Lemma lc_corner (b : bool) sizes : Forall (fun n => 2 <= n) sizes ->
  let m := map (fun n => if b then n - 1 else 0) sizes in
  lc_codim sizes m = length sizes /\ lc_index sizes m = 0 /\ Forall2 (fun n i => i < n) sizes m.
Proof.
  intros F m. unfold m. clear m. induction F as [|n ns H F [IH1 [IH2 IH3]]]; [repeat split; constructor|].
  cbn [map lc_codim lc_index length]. rewrite IH1, IH2. split; [|split].
  - destruct b; [rewrite Nat.eqb_refl, orb_true_r|]; reflexivity.
  - destruct b; [rewrite Nat.ltb_irrefl, andb_false_r|]; reflexivity.
  - constructor; [destruct b; lia|exact IH3].
Qed.
(** In three and more dimensions (documented as not implemented) opposite corners share a key. *)
Theorem C36_dim3_refuted : forall sizes, 3 <= length sizes -> Forall (fun n => 2 <= n) sizes -> exists keys,
  lc_init sizes = Some keys /\ ~ unique_keys keys.
Proof.
  intros sizes L F.
  assert (SE : lc_subEntity sizes = Some (repeat 0 (prod sizes))).
  { unfold lc_subEntity. destruct sizes as [|a [|b [|c r]]]; try (cbn in L; lia).
    destruct (Nat.ltb_spec 0 (prod (a :: b :: c :: r))) as [P|P].
    - rewrite repeat_length, Nat.eqb_refl. reflexivity.
    - assert (E : prod (a :: b :: c :: r) = 0) by lia. rewrite E. reflexivity. }
  unfold lc_init. rewrite SE. cbn [obind]. eexists. split; [reflexivity|]. intros N.
  destruct (lc_corner false sizes F) as (C0 & I0 & B0). destruct (lc_corner true sizes F) as (C1 & I1 & B1).
  cbn [negb] in *. set (m0 := map (fun n => if false then n - 1 else 0) sizes) in *.
  set (m1 := map (fun n => if true then n - 1 else 0) sizes) in *.
  pose proof (lexi_bound _ _ B0) as P0. pose proof (lexi_bound _ _ B1) as P1.
  assert (A : lexi sizes m0 = lexi sizes m1).
  { apply (proj1 (NoDup_nth_error _) N); [rewrite map_length, seq_length; exact P0|].
    rewrite !nth_error_map_eq, !nth_error_seq. destruct (Nat.ltb_spec (lexi sizes m0) (prod sizes)); [|lia].
    destruct (Nat.ltb_spec (lexi sizes m1) (prod sizes)); [|lia]. cbn [option_map Nat.add].
    rewrite !nth_repeat, !getIJK_lexi by assumption. rewrite C0, C1, I0, I1. reflexivity. }
  apply lexi_inj in A; trivial. destruct sizes as [|a r]; [cbn in L; lia|]. unfold m0, m1 in A. cbn [map] in A. injection A as A _.
  inversion F; subst. lia.
Qed.

(** order 2 on the square: nine DOFs *)
Example C36_ex : exists keys, lc_init [3; 3] = Some keys /\ consecutive_codim keys 0 /\
  keys = [(0,2,0); (2,1,0); (1,2,0); (0,1,0); (0,0,0); (1,1,0); (2,2,0); (3,1,0); (3,2,0)].
Proof.
  destruct (C36_square_partial 3 3 ltac:(lia) ltac:(lia)) as (keys & E & _ & _ & _ & _ & _ & C).
  exists keys. split; [exact E|]. split; [apply C; lia|]. cbv in E. injection E as <-. reflexivity.
Qed.
(** order 3: interior indices 0, 1, 3, 4 *)
Example C36_gap : exists keys, lc_init [4; 4] = Some keys /\ In (0, 0, 3) keys /\ ~ In (0, 0, 2) keys.
Proof. eexists. split; [reflexivity|]. split; cbn; [tauto|]. intros H. repeat (destruct H as [H|H]; [discriminate H|]). exact H. Qed.

Print Assumptions C36_line.
Print Assumptions C36_square_partial.
Print Assumptions C36_consecutive_refuted.
Print Assumptions C36_unique_refuted.
Print Assumptions C36_dim3_refuted.
