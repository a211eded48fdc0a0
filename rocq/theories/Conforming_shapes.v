(** Lagrange shape functions of simplices, cubes and prisms satisfy the contract of C63. *)
From Coq Require Import List Arith Lia Bool Reals Lra Permutation.
From Verif Require Import Lib GeometryType_model Mapper_model Mapper_spec Lagrange_model Lagrange_spec Lagrange_tables
  DiscreteFunction_model Conforming_spec Conforming_proofs.
Import ListNotations.
#[local] Arguments Nat.ltb : simpl never.

(** * Factors *)
Lemma factor_0 k t : factor k 0 t = 1%R. Proof. reflexivity. Qed.
Lemma factor_zero k a : 0 < a -> factor k a 0 = 0%R.
Proof. intros H. unfold factor. destruct a; [lia|]. cbn [seq map product fold_right]. change (INR 0) with 0%R. unfold Rdiv. rewrite Rmult_0_r, Rminus_0_r, !Rmult_0_l. reflexivity. Qed.
Lemma product_cons x l : product (x :: l) = (x * product l)%R. Proof. reflexivity. Qed.
Lemma sum_cons x l : sum (x :: l) = (x + sum l)%R. Proof. reflexivity. Qed.
Lemma product_ones l : (forall x, In x l -> x = 1%R) -> product l = 1%R.
Proof. intros H. induction l as [|x l IH]; [reflexivity|]. rewrite product_cons, (H x), IH; [lra| |now left]. intros; apply H; now right. Qed.
Lemma factor_one k : factor k k 1 = 1%R.
Proof.
  unfold factor. apply product_ones. intros x I. apply in_map_iff in I as (j & <- & J). apply in_seq in J.
  assert (INR j < INR k)%R by (apply lt_INR; lia). field. lra.
Qed.
Lemma product_zero l : In 0%R l -> product l = 0%R.
Proof. induction l as [|x l IH]; [intros []|]. rewrite product_cons. intros [->|H]; [lra|]. rewrite IH; auto. lra. Qed.

(** * Sums over subsets *)
Lemma memb_In v M : memb v M = true <-> In v M.
Proof. unfold memb. rewrite existsb_exists. split; [intros (y & J & E); apply Nat.eqb_eq in E; now subst|exists v; rewrite Nat.eqb_refl; auto]. Qed.
Lemma meet_In v F S : In v (meet F S) <-> In v F /\ In v S.
Proof. unfold meet. rewrite filter_In, memb_In. tauto. Qed.
Lemma NoDup_app_i {A} (a b : list A) : NoDup a -> NoDup b -> (forall x, In x a -> ~ In x b) -> NoDup (a ++ b).
Proof.
  intros Na Nb H. induction Na as [|x a Hx Na IH]; cbn; auto. constructor; [rewrite in_app_iff; intros [J|J]; [auto|apply (H x); cbn; auto]|].
  apply IH. intros y Hy. apply H. now right.
Qed.
Lemma split_list (L M : list nat) : NoDup L -> NoDup M -> incl M L -> exists r, Permutation L (M ++ r) /\ forall v, In v r -> In v L /\ ~ In v M.
Proof.
  intros NL NM I. exists (filter (fun v => negb (memb v M)) L).
  assert (J : forall v, In v (filter (fun v => negb (memb v M)) L) <-> In v L /\ ~ In v M).
  { intros v. rewrite filter_In, negb_true_iff, <- (memb_In v M). destruct (memb v M); intuition congruence. }
  split; [|intros v Hv; now apply J].
  apply NoDup_Permutation; auto.
  - apply NoDup_app_i; auto; [now apply NoDup_filter|]. intros v Hv Hw. now apply J in Hw.
  - intros v. rewrite in_app_iff, J. split; [|intros [H|[H _]]; auto]. intros H. destruct (in_dec Nat.eq_dec v M); auto.
Qed.
Lemma sum_perm l l' : Permutation l l' -> sum l = sum l'.
Proof. unfold sum. induction 1; cbn; try lra; congruence. Qed.
Lemma sum_app l l' : sum (l ++ l') = (sum l + sum l')%R.
Proof. unfold sum. induction l; cbn; [lra|rewrite IHl; lra]. Qed.
Lemma sum_zero {A} (f : A -> R) l : (forall v, In v l -> f v = 0%R) -> sum (map f l) = 0%R.
Proof. intros H. induction l as [|x l IH]; [reflexivity|]. cbn [map]. rewrite sum_cons, (H x), IH; [lra| |now left]. intros; apply H; now right. Qed.
Lemma sum_sub (f : nat -> R) L M : NoDup L -> NoDup M -> incl M L -> (forall v, In v L -> ~ In v M -> f v = 0%R) -> sum (map f L) = sum (map f M).
Proof.
  intros NL NM I Z. destruct (split_list L M NL NM I) as (r & Q & R0). rewrite (sum_perm _ _ (Permutation_map f Q)), map_app, sum_app.
  rewrite (sum_zero f r); [lra|]. intros v Hv. apply Z; now apply R0.
Qed.
Lemma list_sum_perm l l' : Permutation l l' -> list_sum l = list_sum l'.
Proof. unfold list_sum. induction 1; cbn; try lia; congruence. Qed.
Lemma nsum_zero {A} (f : A -> nat) l : (forall v, In v l -> f v = 0) -> list_sum (map f l) = 0.
Proof. intros H. induction l as [|x l IH]; [reflexivity|]. cbn. unfold list_sum in IH. rewrite (H x), IH; auto; [|now left]. intros; apply H; now right. Qed.
Lemma nsum_sub (f : nat -> nat) L M : NoDup L -> NoDup M -> incl M L -> (forall v, In v L -> ~ In v M -> f v = 0) -> list_sum (map f L) = list_sum (map f M).
Proof.
  intros NL NM I Z. destruct (split_list L M NL NM I) as (r & Q & R0). rewrite (list_sum_perm _ _ (Permutation_map f Q)), map_app, list_sum_app.
  rewrite (nsum_zero f r); [lia|]. intros v Hv. apply Z; now apply R0.
Qed.
Lemma nsum_pos (f : nat -> nat) L v : In v L -> 0 < f v -> f v <= list_sum (map f L).
Proof. intros I H. induction L as [|x L IH]; [destruct I|]. cbn. destruct I as [->|I]; [lia|]. unfold list_sum in IH. specialize (IH I). lia. Qed.

(** * Weights of Lagrange points *)
Lemma weight_sum L w : NoDup L -> length w = length L -> list_sum (map (weight L w) L) = list_sum w.
Proof.
  revert w. induction L as [|a L IH]; intros [|z w] N Q; try discriminate; [reflexivity|]. inversion N as [|? ? Ha NL]; subst.
  cbn [map list_sum fold_right]. fold (list_sum (map (weight (a :: L) (z :: w)) L)). fold (list_sum w).
  assert (E1 : weight (a :: L) (z :: w) a = z).
  { unfold weight. cbn. rewrite Nat.eqb_refl. enough (list_sum (map (fun p => if fst p =? a then snd p else 0) (combine L w)) = 0) by (unfold list_sum in *; lia).
    apply nsum_zero. intros [u y] J. cbn. apply in_combine_l in J. destruct (Nat.eqb_spec u a); congruence. }
  rewrite E1, <- (IH w NL ltac:(cbn in Q; lia)). f_equal. f_equal. apply map_ext_in. intros v Hv. unfold weight. cbn.
  destruct (Nat.eqb_spec a v); [congruence|reflexivity].
Qed.
Lemma weight_out L w v : ~ In v L -> weight L w v = 0.
Proof. intros H. unfold weight. apply nsum_zero. intros [u y] J. cbn. apply in_combine_l in J. destruct (Nat.eqb_spec u v); congruence. Qed.
Lemma weight_pos L w v : In v L -> length w = length L -> (forall y, In y w -> 0 < y) -> 0 < weight L w v.
Proof.
  revert w. induction L as [|a L IH]; intros [|z w] Hv Q H; try discriminate; [destruct Hv|]. unfold weight. cbn.
  destruct (Nat.eqb_spec a v) as [->|D]; [specialize (H z (or_introl eq_refl)); lia|]. destruct Hv as [->|Hv]; [congruence|].
  apply (IH w Hv); [cbn in Q; lia|]. intros; apply H; now right.
Qed.
Lemma dof_weights_sum n k i w : dof_weights n k i w -> (forall y, In y w -> 0 < y) /\ length w = n /\ list_sum w = if n =? 4 then k * k else k.
Proof.
  intros H. pose proof (dof_weights_length _ _ _ _ H) as L. split; [|split; auto].
  - destruct n as [|[|[|[|[|n]]]]]; cbn in H; try contradiction.
    + destruct H as [H ->]. cbn. intros y [<-|[<-|[]]]; lia.
    + destruct H as (x & z & H & _ & ->). cbn. intros y [<-|[<-|[<-|[]]]]; lia.
    + destruct H as (x & z & H & H' & _ & ->). cbn [In]. intros y [<-|[<-|[<-|[<-|[]]]]]; apply Nat.mul_pos_pos; lia.
  - destruct n as [|[|[|[|[|n]]]]]; cbn in H; try contradiction.
    + destruct H as [H ->]. cbn. lia.
    + destruct H as (x & z & H & _ & ->). cbn. lia.
    + destruct H as (x & z & H & H' & _ & ->). cbn [list_sum fold_right Nat.eqb].
      replace k with ((k - (x + 1)) + (x + 1)) at 5 by lia. replace k with ((k - (z + 1)) + (z + 1)) at 5 by lia. 
      nia.
Qed.

Section Shapes.
Context {E X P : Type}.
Variables (els : E -> Prop) (g : grid E X) (ref : E -> refelem) (k : nat) (keys : E -> list localkey).
Variable bary : E -> P -> nat -> R.
Variable sides : E -> list (list nat).
Variable coordinate : E -> localkey -> list nat -> nat.
Hypothesis Hk : 0 < k.
Hypothesis HD : forall e s c t, els e -> subtype g e s c t -> c <= g_dim g.
Hypothesis HK : keys_ok els g (fun t => lagrange_layout k t (g_dim g)) keys.
Hypothesis HS : forall e, els e -> sides_ok g ref sides e.
Hypothesis HB : bary_ok els g ref bary.
Hypothesis HC : coordinates_ok els g ref k keys sides coordinate.
Hypothesis HW : forall e s c i, els e -> In (s, c, i) (keys e) -> 0 < c -> exists W, key_weights g ref k e s c i W.
Hypothesis HV : forall e s t, els e -> subtype g e s (g_dim g) t -> vertices g ref e s (g_dim g) = [s].
#[local] Notation verts := (vertices g ref).

Lemma kw_props e s c t i W : els e -> 0 < c -> subtype g e s c t -> key_weights g ref k e s c i W ->
  (forall v, ~ In v (verts e s c) -> W v = 0) /\ (forall v, In v (verts e s c) -> k <= W v * k /\ 0 < W v) /\ list_sum (map W (verts e s c)) = k * k.
Proof.
  intros He Hc Ht [[-> KW]|[C (w & Dw & KW)]].
  - rewrite (HV e s t He Ht) in *. repeat split.
    + intros v Hv. rewrite KW. destruct (in_dec Nat.eq_dec v [s]); auto. contradiction.
    + rewrite KW. destruct (in_dec Nat.eq_dec v [s]); [nia|contradiction].
    + rewrite KW. destruct (in_dec Nat.eq_dec v [s]); [nia|contradiction].
    + cbn. rewrite KW. destruct (in_dec Nat.eq_dec s [s]) as [_|N]; [lia|exfalso; apply N; now left].
  - destruct (dof_weights_sum _ _ _ _ Dw) as (Pw & Lw & Sw). destruct (si_face _ _ _ _ (HS e He) s c t Hc Ht) as (N & _).
    assert (M : forall v, In v (vertices g ref e s c) -> 0 < W v).
    { intros v Hv. rewrite KW. pose proof (weight_pos _ w v Hv Lw Pw). destruct (_ =? 4); nia. }
    split; [|split].
    + intros v Hv. rewrite KW, weight_out by exact Hv. lia.
    + intros v Hv. specialize (M v Hv). nia.
    + rewrite (map_ext _ _ KW). pose proof (weight_sum _ w N Lw) as Q. rewrite Sw in Q.
      assert (SM : forall q l, list_sum (map (fun v => q * weight (vertices g ref e s c) w v) l) = q * list_sum (map (weight (vertices g ref e s c) w) l)).
      { intros q l. induction l as [|y l IH]; cbn; [lia|]. unfold list_sum in IH. rewrite IH. lia. }
      rewrite SM, Q. destruct (_ =? 4); nia.
Qed.
Lemma filter_len {A} (f : A -> bool) l : length (filter f l) <= length l.
Proof. induction l as [|a l IH]; cbn; [lia|]. destruct (f a); cbn; lia. Qed.
Lemma meet_all F S : length (meet F S) = length F -> meet F S = F.
Proof.
  unfold meet. intros H. induction F as [|a F IH]; [reflexivity|]. cbn in *. pose proof (filter_len (fun v => memb v S) F).
  destruct (memb a S); cbn in H; [f_equal; apply IH; lia|lia].
Qed.
Lemma product_filter {A} (p : A -> bool) (F : A -> R) l : (forall x, In x l -> p x = false -> F x = 1%R) -> product (map F l) = product (map F (filter p l)).
Proof.
  induction l as [|x l IH]; intros H; [reflexivity|]. cbn [map filter]. rewrite product_cons, IH by (intros; apply H; auto; now right).
  destruct (p x) eqn:Q; cbn [map]; [now rewrite product_cons|]. rewrite (H x (or_introl eq_refl) Q). lra.
Qed.
Lemma trace_ok e x s c t a s1 c1 i1 W : els e -> 0 < c -> subtype g e s c t -> on_face g ref bary e x s c ->
  nth_error (keys e) a = Some (s1, c1, i1) -> part_of g ref e s1 c1 s c -> key_weights g ref k e s1 c1 i1 W ->
  nth a (lagrange_shapes k keys bary sides coordinate e x) 0%R = face_shape k (verts e s c) W (bary e x).
Proof.
  intros He Hc Ht Ox Ka [C1 PI] KW. unfold lagrange_shapes.
  assert (Q : nth_error (map (fun key => shape_function k (sides e) (coordinate e key) (bary e x)) (keys e)) a =
              Some (shape_function k (sides e) (coordinate e (s1, c1, i1)) (bary e x))).
  { rewrite nth_error_map. unfold localkey in *. rewrite Ka. reflexivity. }
  rewrite (nth_error_nth _ _ _ Q). clear Q.
  pose proof (nth_error_In _ _ Ka) as I1. destruct (proj1 (proj2 (HK e He) s1 c1 i1) I1) as (t1 & Ht1 & _).
  destruct (kw_props e s1 c1 t1 i1 W He ltac:(lia) Ht1 KW) as (W0 & _ & WS).
  destruct (HS e He) as [(NV & NS) SF SPm _]. destruct (SF s c t Hc Ht) as (NF & IF & LF). destruct (SF s1 c1 t1 ltac:(lia) Ht1) as (N1 & _ & _).
  set (F := verts e s c) in *.
  set (mu := bary e x) in *.
  set (G := fun M : list nat => factor k (list_sum (map W M) / k) (sum (map mu M))).
  assert (S1 : sum (map mu F) = 1%R).
  { rewrite <- (sum_sub mu (verts e 0 0) F NV NF IF); [apply HB; auto|]. intros v _ Hv. apply Ox, Hv. }
  assert (W1 : list_sum (map W F) = k * k).
  { rewrite <- WS. apply nsum_sub; auto. }
  assert (GS : forall S, In S (sides e) -> factor k (coordinate e (s1, c1, i1) S) (sum (map mu S)) = G (meet F S)).
  { intros S HSd. destruct (NS S HSd) as [NdS IS]. rewrite (proj1 (HC e s1 c1 i1 S He I1 HSd) W ltac:(lia) KW). unfold G.
    assert (Nm : NoDup (meet F S)) by (apply NoDup_filter; auto). assert (Im : incl (meet F S) S) by (intros v Hv; now apply meet_In in Hv).
    rewrite (nsum_sub W S (meet F S)), (sum_sub mu S (meet F S)); auto; intros v Hv Hn.
    - apply Ox. intros Hf. apply Hn, meet_In. auto.
    - apply W0. intros Hf. apply Hn, meet_In. auto. }
  unfold shape_function. rewrite (map_ext_in _ _ (sides e) GS), <- (map_map (meet F) G).
  rewrite (product_filter (fun m => (0 <? length m) && (length m <? length F)) G).
  2: { intros M HMm Hp. apply in_map_iff in HMm as (S & <- & HSd). apply andb_false_iff in Hp as [Hp|Hp]; apply Nat.ltb_ge in Hp.
       - destruct (meet F S); [unfold G; cbn [map list_sum fold_right]; now rewrite Nat.div_0_l by lia|cbn in Hp; lia].
       - rewrite (meet_all F S). 2: { pose proof (filter_len (fun v => memb v S) F). unfold meet in *. lia. }
         unfold G. rewrite S1, W1, Nat.div_mul by lia. apply factor_one. }
  pose proof (product_perm _ _ (Permutation_map G (SPm s c t Hc Ht))) as PP. change (vertices g ref e s c) with F in PP. rewrite <- PP. clear PP.
  clearbody F. destruct F as [|v0 [|v1 [|v2 [|v3 [|z F]]]]]; cbn [length] in LF; try lia; cbn [parts_of_face face_shape map]; unfold G; cbn [map list_sum fold_right sum fst snd];
    rewrite ?Nat.add_0_r, ?Rplus_0_r; try reflexivity.
  cbn in W1, S1. rewrite Nat.add_0_r in W1. rewrite Rplus_0_r in S1. rewrite W1, S1, Nat.div_mul by lia. rewrite factor_one. unfold product; cbn; lra.
Qed.
Lemma part_weight e s c t i W S : els e -> 0 < c -> subtype g e s c t -> key_weights g ref k e s c i W -> In S (sides e) ->
  (exists v, In v (meet (verts e s c) S)) -> k <= list_sum (map W (meet (verts e s c) S)).
Proof.
  intros He Hc Ht KW HSd (v & Hv). destruct (kw_props e s c t i W He Hc Ht KW) as (W0 & Wp & WS).
  destruct KW as [[-> KW]|[C (w & Dw & KW)]].
  - pose proof Hv as Hv'. apply meet_In in Hv' as [Hv' _]. pose proof (proj1 (Wp v Hv')) as A. pose proof (proj2 (Wp v Hv')) as B.
    enough (k <= W v) by (pose proof (nsum_pos W _ v Hv B); lia). rewrite KW.  destruct (in_dec Nat.eq_dec v _); [nia|contradiction].
  - destruct (length (verts e s c) =? 4) eqn:L4.
    + apply Nat.eqb_eq in L4. destruct (Nat.eq_dec (length (meet (verts e s c) S)) 4) as [L|L].
      * rewrite meet_all, WS by lia. nia.
      * destruct (HS e He) as [_ SF SPm _]. destruct (SF s c t Hc Ht) as (NF & _).
        assert (I : In (meet (verts e s c) S) (parts_of_face (verts e s c))).
        { apply (Permutation_in _ (Permutation_sym (SPm s c t Hc Ht))). apply filter_In. split; [apply in_map_iff; exists S; auto|].
          pose proof (filter_len (fun v => memb v S) (verts e s c)). apply andb_true_iff. split; apply Nat.ltb_lt .
          - destruct (meet (vertices g ref e s c) S); [destruct Hv|cbn; lia].
          - unfold meet in *. lia. }
        destruct (verts e s c) as [|v0 [|v1 [|v2 [|v3 [|z F]]]]] eqn:EF; cbn in L4; try lia.
         cbn [length Nat.eqb] in KW, Dw.
        destruct Dw as (p & q & Hp & Hq & _ & ->). unfold weight in KW. cbn in KW.
        inversion NF as [|? ? D0 N0]; subst. inversion N0 as [|? ? D1 N1]; subst. inversion N1 as [|? ? D2 N2]; subst. cbn in D0, D1, D2.
        assert (E0 : v0 <> v1 /\ v0 <> v2 /\ v0 <> v3 /\ v1 <> v2 /\ v1 <> v3 /\ v2 <> v3) by (repeat split; intros ->; tauto).
        destruct E0 as (E01 & E02 & E03 & E12 & E13 & E23).
        assert (KW0 := KW v0). assert (KW1 := KW v1). assert (KW2 := KW v2). assert (KW3 := KW v3).
        repeat match goal with |- _ => progress rewrite Nat.eqb_refl in * end.
        repeat match goal with H : ?a <> ?b |- _ => rewrite (proj2 (Nat.eqb_neq a b) H), (proj2 (Nat.eqb_neq b a) (not_eq_sym H)) in *; clear H end.
        cbn [parts_of_face] in I. cbn in KW0, KW1, KW2, KW3.
        destruct I as [I|[I|[I|[I|[]]]]]; rewrite <- I; cbn [map list_sum fold_right]; rewrite ?KW0, ?KW1, ?KW2, ?KW3; clear - Hp Hq; nia.
    + pose proof Hv as Hv'. apply meet_In in Hv' as [Hv' _]. pose proof (proj2 (Wp v Hv')) as B.
      enough (k <= W v) by (pose proof (nsum_pos W _ v Hv B); lia). rewrite KW in B |- *. try rewrite L4 in B |- *. cbn iota in B |- *. assert (0 < weight (verts e s c) w v) by (destruct (weight (verts e s c) w v); [rewrite Nat.mul_0_r in B; lia|lia]). nia.
Qed.
Lemma zero_ok e x s c t a s1 c1 i1 : els e -> 0 < c -> subtype g e s c t -> on_face g ref bary e x s c ->
  nth_error (keys e) a = Some (s1, c1, i1) -> ~ part_of g ref e s1 c1 s c -> nth a (lagrange_shapes k keys bary sides coordinate e x) 0%R = 0%R.
Proof.
  intros He Hc Ht Ox Ka NP. unfold lagrange_shapes.
  assert (Q : nth_error (map (fun key => shape_function k (sides e) (coordinate e key) (bary e x)) (keys e)) a =
              Some (shape_function k (sides e) (coordinate e (s1, c1, i1)) (bary e x))).
  { rewrite nth_error_map. unfold localkey in *. rewrite Ka. reflexivity. }
  rewrite (nth_error_nth _ _ _ Q). clear Q.
  pose proof (nth_error_In _ _ Ka) as I1. destruct (proj1 (proj2 (HK e He) s1 c1 i1) I1) as (t1 & Ht1 & _).
  destruct (HS e He) as [(NV & NS) SF _ SPs]. destruct (SPs s c t s1 c1 t1 Hc Ht Ht1 NP) as (S & HSd & M0 & M1).
  apply product_zero, in_map_iff. exists S. split; auto.
  assert (Z : sum (map (bary e x) S) = 0%R).
  { apply sum_zero. intros v Hv. apply Ox. intros Hf. assert (J : In v (meet (vertices g ref e s c) S)) by (apply meet_In; auto). now rewrite M0 in J. }
  rewrite Z. apply factor_zero. destruct (Nat.eq_dec c1 0) as [C|C]; [apply (HC e s1 c1 i1 S He I1 HSd); auto|]. destruct M1 as [M1|M1]; [lia|].
  destruct (HW e s1 c1 i1 He I1 ltac:(lia)) as (W & KW). rewrite (proj1 (HC e s1 c1 i1 S He I1 HSd) W ltac:(lia) KW).
  destruct (kw_props e s1 c1 t1 i1 W He ltac:(lia) Ht1 KW) as (W0 & Wp & WS).
  assert (SF1 : exists v, In v (meet (verts e s1 c1) S)) by (destruct (meet (verts e s1 c1) S) as [|v ?]; [congruence|exists v; now left]).
  destruct (NS S HSd) as [NdS IS]. destruct (SF s1 c1 t1 ltac:(lia) Ht1) as (N1 & I1' & L1).
  assert (Nm : NoDup (meet (verts e s1 c1) S)) by (apply NoDup_filter; auto).
  rewrite (nsum_sub W S (meet (verts e s1 c1) S)); auto.
  2: { intros v Hv. now apply meet_In in Hv. }
  2: { intros v Hv Hn. apply W0. intros Hf. apply Hn, meet_In. auto. }
  enough (k <= list_sum (map W (meet (verts e s1 c1) S))) by (apply Nat.div_str_pos; lia).
  apply (part_weight e s1 c1 t1 i1 W S); auto. lia.
Qed.
End Shapes.
