From Coq Require Import List Arith Lia Bool.
From Verif Require Import Lib OverflowArray_model OverflowArray_spec ReservedDeque_proofs.
Import ListNotations.

Lemma oa_read_flat {T} (a : oarray T) i : oa_read a i = nth_error (oa_base a ++ oa_over a) i.
Proof. unfold oa_read. now rewrite nth_error_app_eq. Qed.

Lemma oa_get_flat {T} (a : oarray T) i :
  oa_get a i = if i <? oa_size a then nth_error (oa_base a ++ oa_over a) i else None.
Proof. unfold oa_get. rewrite nth_error_app_eq. reflexivity. Qed.

Lemma oa_write_flat {T} (a : oarray T) i t :
  i < oa_capacity a ->
  exists a', oa_write a i t = Some a' /\
    length (oa_base a') = length (oa_base a) /\ length (oa_over a') = length (oa_over a) /\
    oa_size a' = oa_size a /\
    upd (oa_base a ++ oa_over a) i t = Some (oa_base a' ++ oa_over a').
Proof.
  intros H. unfold oa_write, oa_capacity in *.
  assert (U : forall l1 l2 i, upd (l1 ++ l2) i t =
     if i <? length l1 then option_map (fun b => b ++ l2) (upd l1 i t)
     else option_map (fun o => l1 ++ o) (upd l2 (i - length l1) t)).
  { clear. induction l1 as [|x l1 IH]; intros l2 i; simpl.
    - rewrite Nat.sub_0_r. destruct (upd l2 i t); reflexivity.
    - destruct i; simpl; [reflexivity|]. rewrite IH.
      destruct (Nat.ltb_spec i (length l1)), (Nat.ltb_spec (S i) (S (length l1))); try lia.
      + destruct (upd l1 i t); reflexivity.
      + destruct (upd l2 (i - length l1) t); reflexivity. }
  rewrite U. destruct (Nat.ltb_spec i (length (oa_base a))) as [L|L].
  - destruct (upd_Some (oa_base a) i t L) as [b E]. rewrite E. simpl.
    eexists; split; [reflexivity|]. simpl. rewrite (upd_length _ _ _ _ E). auto.
  - destruct (upd_Some (oa_over a) (i - length (oa_base a)) t) as [o E]; [lia|].
    rewrite E. simpl. eexists; split; [reflexivity|]. simpl.
    rewrite (upd_length _ _ _ _ E). auto.
Qed.

Definition oinv {T} (nb no : nat) (a : oarray T) (q : list (option T)) : Prop :=
  length (oa_base a) = nb /\ length (oa_over a) = no /\ oa_size a = length q /\
  length q <= nb + no /\
  forall i x, nth_error q i = Some (Some x) -> nth_error (oa_base a ++ oa_over a) i = Some x.

Lemma oa_set_inv {T} nb no (a : oarray T) q i t q' :
  oinv nb no a q -> upd q i (Some t) = Some q' ->
  exists a', oa_set a i t = Some a' /\ oinv nb no a' q'.
Proof.
  intros (Hb & Ho & Hs & Hq & Hc) Hu. pose proof (upd_lt _ _ _ _ Hu) as Hi.
  unfold oa_set. destruct (Nat.ltb_spec i (oa_size a)); [|lia].
  destruct (oa_write_flat a i t) as (a' & E & E1 & E2 & E3 & E4); [unfold oa_capacity; lia|].
  rewrite E. exists a'; split; auto.
  repeat split; try lia.
  - rewrite (upd_length _ _ _ _ Hu); lia.
  - rewrite (upd_length _ _ _ _ Hu); lia.
  - intros j x Hj. rewrite (upd_nth_error _ _ _ _ _ E4).
    rewrite (upd_nth_error _ _ _ _ _ Hu) in Hj.
    destruct (Nat.eqb_spec j i); [congruence|auto].
Qed.

Lemma ostep_inv {T} nb no (a : oarray T) q o q' :
  oinv nb no a q -> sq_step (nb + no) q o = Some q' ->
  exists a', oa_step a o = Some a' /\ oinv nb no a' q'.
Proof.
  intros (Hb & Ho & Hs & Hq & Hc) Hstep.
  destruct o as [t| |n| |i t]; simpl in *.
  - destruct (Nat.ltb_spec (length q) (nb + no)) as [L|L]; [|discriminate].
    injection Hstep as <-. unfold oa_push_back, oa_capacity.
    rewrite Hb, Ho, Hs. destruct (Nat.ltb_spec (length q) (nb + no)); [|lia].
    apply (oa_set_inv nb no _ (q ++ [None])).
    + repeat split; simpl; auto; rewrite ?app_length; simpl; try lia.
      intros i x Hi. apply Hc. rewrite nth_error_app_eq in Hi.
      destruct (Nat.ltb_spec i (length q)); auto.
      destruct (i - length q) as [|[|?]]; discriminate.
    + clear. induction q; simpl; auto. now rewrite IHq.
  - destruct q as [|x0 q]; [discriminate|]. injection Hstep as <-.
    unfold oa_pop_back. rewrite Hs. simpl.
    eexists; split; [reflexivity|].
    assert (HL : length (removelast (x0 :: q)) = length q)
      by (rewrite length_removelast; simpl; lia).
    repeat split; simpl; auto.
    + rewrite Nat.sub_0_r. symmetry; exact HL.
    + rewrite length_removelast in HL. simpl in *. 
      change (length (removelast (x0 :: q)) <= nb + no). rewrite length_removelast. simpl. lia.
    + intros i x Hi. apply Hc. now apply nth_error_removelast.
  - destruct (Nat.leb_spec n (nb + no)) as [L|L]; [|discriminate].
    injection Hstep as <-. unfold oa_resize, oa_capacity. rewrite Hb, Ho.
    destruct (Nat.leb_spec n (nb + no)); [|lia]. eexists; split; [reflexivity|].
    assert (Hlen : length (firstn n q ++ repeat None (n - length q)) = n).
    { rewrite app_length, firstn_length, repeat_length. lia. }
    repeat split; simpl; auto; try lia.
    intros i x Hi. rewrite nth_error_app_eq in Hi.
    destruct (Nat.ltb_spec i (length (firstn n q))) as [L1|L1].
    + apply Hc. rewrite nth_error_firstn_eq in Hi. destruct (i <? n); [auto|discriminate].
    + rewrite nth_error_repeat_eq in Hi. destruct (_ <? _); discriminate.
  - injection Hstep as <-. eexists; split; [reflexivity|].
    repeat split; simpl; auto; try lia. intros [|i] x Hi; discriminate.
  - eapply oa_set_inv; eauto. repeat split; auto.
Qed.

Lemma orun_inv {T} nb no (h : list (oaop T)) : forall a q q',
  oinv nb no a q -> sq_run (nb + no) q h = Some q' ->
  exists a', oa_run a h = Some a' /\ oinv nb no a' q'.
Proof.
  induction h as [|o h IH]; intros a q q' Hi Hr; simpl in *.
  - injection Hr as <-; eauto.
  - destruct (sq_step (nb + no) q o) as [q1|] eqn:E; [|discriminate]. simpl in Hr.
    destruct (ostep_inv _ _ _ _ _ _ Hi E) as (a1 & E1 & I1). rewrite E1. simpl. eauto.
Qed.

Lemma oinv_agrees {T} nb no (a : oarray T) q :
  oinv nb no a q -> oa_agrees a q /\ base_is_prefix a q.
Proof.
  intros (Hb & Ho & Hs & Hq & Hc).
  assert (G : forall i x, nth_error q i = Some (Some x) -> oa_get a i = Some x).
  { intros i x Hi. rewrite oa_get_flat. pose proof (nth_error_Some_lt _ _ _ Hi).
    destruct (Nat.ltb_spec i (oa_size a)); [auto|lia]. }
  split.
  - repeat split; auto.
    + intros i Hi. rewrite oa_get_flat. destruct (Nat.ltb_spec i (oa_size a)); [lia|auto].
    + intros x q' ->. apply G. reflexivity.
    + intros x q' ->. unfold oa_back. rewrite Hs, app_length. simpl.
      destruct (Nat.ltb_spec 0 (length q' + 1)); [|lia]. apply G.
      replace (length q' + 1 - 1) with (length q') by lia.
      rewrite nth_error_app2, Nat.sub_diag by lia. reflexivity.
    + unfold oa_iterate. rewrite map_length, seq_length. auto.
    + intros i x Hi. unfold oa_iterate. rewrite nth_error_map_eq, nth_error_seq.
      pose proof (nth_error_Some_lt _ _ _ Hi).
      destruct (Nat.ltb_spec i (oa_size a)); [|lia]. simpl. f_equal. auto.
  - intros i x Hi Hx. specialize (Hc _ _ Hx). now rewrite nth_error_app1 in Hc.
Qed.

Lemma default_oinv {T} (jb jo : list T) :
  oinv (length jb) (length jo) (oa_default jb jo) [].
Proof. repeat split; simpl; auto; try lia. intros [|i] x Hi; discriminate. Qed.

Lemma oa_eq_loop_spec {T} (eqb : T -> T -> bool) (a b : oarray T) :
  (forall x y, eqb x y = true <-> x = y) ->
  forall k i (qa qb : list T),
  (forall j x, nth_error qa j = Some x -> oa_get a (i + j) = Some x) ->
  (forall j x, nth_error qb j = Some x -> oa_get b (i + j) = Some x) ->
  length qa = k -> length qb = k ->
  exists r, oa_eq_loop eqb a b i k = Some r /\ (r = true <-> qa = qb).
Proof.
  intros Heq. induction k as [|k IH]; intros i qa qb Ha Hb La Lb.
  - destruct qa, qb; simpl in *; try discriminate. exists true; split; [reflexivity|tauto].
  - destruct qa as [|x qa], qb as [|y qb]; simpl in La, Lb; try discriminate.
    simpl. pose proof (Ha 0 x eq_refl) as Hx. pose proof (Hb 0 y eq_refl) as Hy.
    rewrite Nat.add_0_r in Hx, Hy. rewrite Hx, Hy. simpl.
    destruct (eqb x y) eqn:E.
    + apply Heq in E as ->.
      destruct (IH (S i) qa qb) as (r & Er & Hr); try lia.
      * intros j z Hj. replace (S i + j) with (i + S j) by lia. now apply Ha.
      * intros j z Hj. replace (S i + j) with (i + S j) by lia. now apply Hb.
      * exists r; split; auto. rewrite Hr. split; congruence.
    + exists false; split; auto. split; [discriminate|].
      intros H. injection H as -> _. 
      assert (eqb y y = true) by (apply Heq; reflexivity). congruence.
Qed.

Lemma oa_eq_spec {T} (eqb : T -> T -> bool) nb no nb' no' (a b : oarray T) (qa qb : list T) :
  (forall x y, eqb x y = true <-> x = y) ->
  oinv nb no a (map Some qa) -> oinv nb' no' b (map Some qb) ->
  exists r, oa_eq eqb a b = Some r /\ (r = true <-> qa = qb).
Proof.
  intros Heq Ia Ib.
  pose proof (proj1 (oinv_agrees _ _ _ _ Ia)) as (Sa & Ga & _).
  pose proof (proj1 (oinv_agrees _ _ _ _ Ib)) as (Sb & Gb & _).
  rewrite map_length in Sa, Sb.
  unfold oa_eq. destruct (Nat.eqb_spec (oa_size a) (oa_size b)) as [E|N].
  - apply oa_eq_loop_spec; auto; try lia.
    + intros j x Hj. apply Ga. change (0 + j) with j. rewrite nth_error_map_eq, Hj. reflexivity.
    + intros j x Hj. apply Gb. change (0 + j) with j. rewrite nth_error_map_eq, Hj. reflexivity.
  - exists false; split; auto. split; [discriminate|]. intros ->. lia.
Qed.

(** push_front, asserts enabled: never succeeds. *)
Lemma push_front_asserts {T} (a : oarray T) (t : T) : oa_push_front true a t = None.
Proof.
  unfold oa_push_front. simpl.
  destruct (oa_size a <? oa_capacity a); simpl; auto.
  assert (G : forall k i (b : oarray T), 0 < k -> i + k = oa_size b ->
     oa_shift_loop true b i k = None).
  { clear. induction k as [|k IH]; intros i b Hk Hi; [lia|]. simpl.
    destruct (oa_get b i) as [x|] eqn:E; simpl; auto.
    unfold oa_set. destruct (Nat.ltb_spec (i + 1) (oa_size b)); simpl; auto.
    destruct (oa_write b (i+1) x) as [b'|] eqn:W; simpl; auto.
    apply IH; [lia|].
    assert (oa_size b' = oa_size b).
    { unfold oa_write in W. destruct (_ <? _) in W; apply obind_Some in W as (? & ? & W);
        injection W as <-; reflexivity. }
    lia. }
  destruct (oa_size a) as [|n] eqn:E.
  - simpl. unfold oa_set. rewrite E. reflexivity.
  - rewrite <- E. rewrite G by lia. reflexivity.
Qed.

(** push_front, asserts disabled: the loop overwrites everything with element 0. *)
Lemma oa_write_size {T} (a a' : oarray T) i t :
  oa_write a i t = Some a' -> oa_size a' = oa_size a.
Proof.
  unfold oa_write. destruct (_ <? _); intros W; apply obind_Some in W as (? & ? & W);
    injection W as <-; reflexivity.
Qed.

Lemma shift_loop_smear {T} : forall k i (a : oarray T) x,
  i + k < oa_capacity a -> nth_error (oa_base a ++ oa_over a) i = Some x ->
  exists a', oa_shift_loop false a i k = Some a' /\
    oa_size a' = oa_size a /\ length (oa_base a') = length (oa_base a) /\
    length (oa_over a') = length (oa_over a) /\
    forall j, nth_error (oa_base a' ++ oa_over a') j =
       if (i <=? j) && (j <=? i + k) then Some x else nth_error (oa_base a ++ oa_over a) j.
Proof.
  induction k as [|k IH]; intros i a x Hc Hx; simpl.
  - exists a. repeat split; auto. intros j.
    destruct (Nat.leb_spec i j), (Nat.leb_spec j (i+0)); simpl; auto.
    replace j with i by lia. auto.
  - rewrite oa_read_flat, Hx. simpl.
    destruct (oa_write_flat a (i+1) x) as (a1 & E & E1 & E2 & E3 & E4); [lia|].
    rewrite E. simpl.
    destruct (IH (i+1) a1 x) as (a' & W & W1 & W2 & W3 & W4).
    + unfold oa_capacity in *. lia.
    + rewrite (upd_nth_error _ _ _ _ _ E4), Nat.eqb_refl. reflexivity.
    + exists a'. repeat split; try congruence. intros j. rewrite W4.
      rewrite (upd_nth_error _ _ _ _ _ E4).
      destruct (Nat.leb_spec (i+1) j), (Nat.leb_spec j (i+1+k)), (Nat.leb_spec i j),
        (Nat.leb_spec j (i + S k)), (Nat.eqb_spec j (i+1)); simpl; auto; try lia.
      replace j with i by lia. auto.
Qed.

Lemma push_front_release {T} nb no (a : oarray T) x (q : list T) (t : T) :
  oinv nb no a (map Some (x :: q)) -> S (length q) < nb + no ->
  exists a', oa_push_front false a t = Some a' /\
             oinv nb no a' (map Some (t :: repeat x (length q))).
Proof.
  intros (Hb & Ho & Hs & Hq & Hc) Hcap. unfold oa_push_front. cbn [andb negb].
  rewrite map_length in Hs, Hq. simpl length in Hs, Hq.
  pose proof (Hc 0 x eq_refl) as Hx.
  destruct (shift_loop_smear (oa_size a) 0 a x) as (a1 & E & E1 & E2 & E3 & E4); auto.
  { unfold oa_capacity; lia. }
  rewrite E. simpl.
  destruct (oa_write_flat a1 0 t) as (a2 & W & W1 & W2 & W3 & W4); [unfold oa_capacity; lia|].
  rewrite W. eexists; split; [reflexivity|].
  repeat split; rewrite ?map_length; simpl; rewrite ?map_length, ?repeat_length; try lia.
  intros i y Hi. rewrite (upd_nth_error _ _ _ _ _ W4), E4.
  destruct i as [|i]; [cbn in Hi |- *; congruence|].
  change (nth_error (map Some (repeat x (length q))) i = Some (Some y)) in Hi.
  rewrite nth_error_map_eq, nth_error_repeat_eq in Hi.
  destruct (Nat.ltb_spec i (length q)); [|discriminate]. simpl in Hi.
  change (S i =? 0) with false. change (0 <=? S i) with true.
  destruct (Nat.leb_spec (S i) (0 + oa_size a)); [|lia]. simpl. congruence.
Qed.

Lemma copy_n_inv {T} nb no (l : list T) : forall (a : oarray T) q0,
  length q0 + length l <= nb + no ->
  oinv nb no a (map Some q0 ++ repeat None (length l)) ->
  exists a', oa_copy_n a (length q0) l = Some a' /\ oinv nb no a' (map Some (q0 ++ l)).
Proof.
  induction l as [|x l IH]; intros a q0 Hl Hi; simpl in *.
  - exists a; split; auto. now rewrite app_nil_r in *.
  - destruct (oa_set_inv nb no a _ (length q0) x
                (map Some q0 ++ Some x :: repeat None (length l)) Hi) as (a1 & E & I1).
    { clear. induction q0; simpl; auto. now rewrite IHq0. }
    rewrite E. simpl.
    destruct (IH a1 (q0 ++ [x])) as (a2 & E2 & I2).
    + rewrite app_length. simpl. lia.
    + rewrite map_app. simpl. rewrite <- app_assoc. exact I1.
    + rewrite app_length in E2. simpl in E2. exists a2. split; auto.
      rewrite <- app_assoc in I2. exact I2.
Qed.

Lemma init_list_oinv {T} (jb jo l : list T) :
  length l <= length jb + length jo ->
  exists a, oa_init_list jb jo l = Some a /\
            oinv (length jb) (length jo) a (map Some l).
Proof.
  intros H. unfold oa_init_list, oa_capacity. simpl.
  destruct (Nat.leb_spec (length l) (length jb + length jo)); [|lia].
  apply (copy_n_inv (length jb) (length jo) l (OA jb jo (length l)) []); simpl; auto.
  repeat split; simpl; rewrite ?repeat_length; auto.
  intros i x Hi. rewrite nth_error_repeat_eq in Hi. destruct (_ <? _); discriminate.
Qed.
