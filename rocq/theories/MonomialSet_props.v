(** MonomialSet (C40). *)
From Coq Require Import Reals Arith List Bool Lra Lia.
From Verif Require Import Lib Basis_model DiscreteFunction_proofs MonomialSet_model MonomialSet_spec.
Import ListNotations.
Open Scope R_scope.
#[local] Arguments Nat.ltb : simpl never.
#[local] Arguments INR : simpl never.

(** * Powers *)
Lemma compute_powers_ok n size x : (n <= size)%nat ->
  exists p, compute_powers n size x = Some p /\ forall i, (i < n)%nat -> p @ i = Some (x ^ i).
Proof.
  intros Hn. unfold compute_powers. destruct n as [|m]; [eexists; split; [reflexivity|intros; lia]|].
  destruct size as [|size]; [lia|]. cbn [repeat upd]. unfold upd at 1. cbn [obind].
  destruct (forl_inv (fun k y => length y = S size /\ forall i, (i <= k)%nat -> y @ i = Some (x ^ i)) m 0
     (fun k y => yk <- nth_error y k ;; upd y (k + 1)%nat (yk * x)) (1 :: repeat 0 size)) as (p & Hr & Hl & Hp).
  - split; [cbn; now rewrite repeat_length|]. intros i Hi. assert (i = 0%nat) as -> by lia. reflexivity.
  - intros k y Hk (Hl & Hy). rewrite (Hy k) by lia. cbn [obind].
    destruct (upd y (k + 1) (x ^ k * x)) as [y'|] eqn:Eu; [|apply upd_None in Eu; lia].
    exists y'. split; auto. split; [rewrite (upd_length _ _ _ _ Eu); auto|]. intros i Hi. rewrite (upd_nth_error _ _ _ _ i Eu).
    destruct (Nat.eqb_spec i (k + 1)) as [->|]; [|apply Hy; lia]. f_equal. rewrite Nat.add_1_r. cbn. ring.
  - exists p. split; [exact Hr|]. intros i Hi. apply Hp. lia.
Qed.

(** * Loops *)
Fixpoint runs {A} (bs : list (A -> option A)) (st : list A * nat) : option (list A * nat) :=
  match bs with [] => Some st | b :: r => st' <- visit b st ;; runs r st' end.
Lemma runs_app {A} (b1 b2 : list (A -> option A)) st : runs (b1 ++ b2) st = (st' <- runs b1 st ;; runs b2 st').
Proof. revert st. induction b1 as [|b r IH]; intros st; [reflexivity|]. cbn. destruct (visit b st); cbn; auto. Qed.
Lemma forl_runs {A} (bs : nat -> list (A -> option A)) body n : forall s st,
  (forall i st, (s <= i < s + n)%nat -> body i st = runs (bs i) st) ->
  forl n s body st = runs (concat (map bs (seq s n))) st.
Proof.
  induction n as [|n IH]; intros s st H; [reflexivity|]. cbn [forl seq map concat]. rewrite runs_app, H by lia.
  destruct (runs (bs s) st); [cbn [obind]|reflexivity]. rewrite Nat.add_1_r. apply IH. intros; apply H; lia.
Qed.
Lemma forl_visit {A} (b : nat -> A -> option A) n s st : forl n s (fun i => visit (b i)) st = runs (map b (seq s n)) st.
Proof.
  rewrite (forl_runs (fun i => [b i])).
  - f_equal. induction (seq s n); cbn; congruence.
  - intros i st' _. cbn. destruct (visit (b i) st'); reflexivity.
Qed.
Lemma runs_ok {A I} (B : I -> A -> option A) (f : I -> A) (z : A) is : (forall i, In i is -> B i z = Some (f i)) ->
  forall pre, runs (map B is) (pre ++ repeat z (length is), length pre) = Some (pre ++ map f is, (length pre + length is)%nat).
Proof.
  induction is as [|i is IH]; intros H pre; [cbn; now rewrite Nat.add_0_r|].
  cbn [map runs repeat length]. unfold visit at 1. rewrite nth_error_app2, Nat.sub_diag by lia. cbn [nth_error obind].
  rewrite H by (cbn; auto). cbn [obind].
  destruct (upd (pre ++ z :: repeat z (length is)) (length pre) (f i)) as [y|] eqn:Eu.
  2:{ apply upd_None in Eu. rewrite app_length in Eu. cbn in Eu. lia. }
  assert (y = (pre ++ [f i]) ++ repeat z (length is)) as ->.
  { apply nth_error_ext. intros j. rewrite (upd_nth_error _ _ _ _ j Eu). rewrite <- app_assoc. cbn [app]. rewrite !nth_error_app_eq.
    destruct (Nat.eqb_spec j (length pre)) as [->|]; [rewrite Nat.ltb_irrefl, Nat.sub_diag; reflexivity|].
    destruct (Nat.ltb_spec j (length pre)); auto. destruct (j - length pre)%nat eqn:Ej; [lia|reflexivity]. }
  cbn [obind]. replace (length pre + 1)%nat with (length (pre ++ [f i])) by (rewrite app_length; reflexivity).
  rewrite IH by (intros; apply H; cbn; auto). rewrite app_length, <- app_assoc. cbn [length app]. do 2 f_equal. lia.
Qed.

Definition enum2 (max : nat) : list (nat * nat) :=
  concat (map (fun d => map (fun k => (d, k)) (seq 0 (d + 1))) (seq 0 (max + 1))).
Definition enum3 (max : nat) : list (nat * nat * nat) :=
  concat (map (fun d => concat (map (fun k => map (fun l => (d, k, l)) (seq 0 (d - k + 1))) (seq 0 (d + 1)))) (seq 0 (max + 1))).
Lemma map_concat {A B} (f : A -> B) l : map f (concat l) = concat (map (map f) l).
Proof. apply concat_map. Qed.
Lemma loop2_ok {A} max (body : nat -> nat -> A -> option A) (f : nat * nat -> A) z size :
  length (enum2 max) = size ->
  (forall d k, (d <= max)%nat -> (k <= d)%nat -> body d k z = Some (f (d, k))) ->
  loop2 max body (repeat z size) = Some (map f (enum2 max)).
Proof.
  intros <- H. unfold loop2.
  rewrite (forl_runs (fun d => map (body d) (seq 0 (d + 1)))) by (intros; apply forl_visit).
  assert (concat (map (fun d => map (body d) (seq 0 (d + 1))) (seq 0 (max + 1))) = map (fun p => body (fst p) (snd p)) (enum2 max)) as ->.
  { unfold enum2. rewrite map_concat, map_map. f_equal. apply map_ext. intros d. rewrite map_map. reflexivity. }
  pose proof (runs_ok (fun p => body (fst p) (snd p)) f z (enum2 max)) as Hr. specialize (Hr ltac:(
    intros [d k] Hi; unfold enum2 in Hi; apply in_concat in Hi; destruct Hi as (l & Hl & Hi); apply in_map_iff in Hl;
    destruct Hl as (d' & <- & Hd); apply in_seq in Hd; apply in_map_iff in Hi; destruct Hi as (k' & [= <- <-] & Hk); apply in_seq in Hk; cbn; apply H; lia) []).
  cbn [app length] in Hr. rewrite Hr. reflexivity.
Qed.
Lemma loop3_ok {A} max (body : nat -> nat -> nat -> A -> option A) (f : nat * nat * nat -> A) z size :
  length (enum3 max) = size ->
  (forall d k l, (d <= max)%nat -> (k + l <= d)%nat -> body d k l z = Some (f (d, k, l))) ->
  loop3 max body (repeat z size) = Some (map f (enum3 max)).
Proof.
  intros <- H. unfold loop3.
  rewrite (forl_runs (fun d => concat (map (fun k => map (body d k) (seq 0 (d - k + 1))) (seq 0 (d + 1))))).
  2:{ intros d st _. rewrite (forl_runs (fun k => map (body d k) (seq 0 (d - k + 1)))); auto. intros; apply forl_visit. }
  assert (concat (map (fun d => concat (map (fun k => map (body d k) (seq 0 (d - k + 1))) (seq 0 (d + 1)))) (seq 0 (max + 1)))
    = map (fun p => body (fst (fst p)) (snd (fst p)) (snd p)) (enum3 max)) as ->.
  { unfold enum3. rewrite map_concat, map_map. f_equal. apply map_ext. intros d. rewrite map_concat, map_map. f_equal. apply map_ext. intros k. rewrite map_map. reflexivity. }
  pose proof (runs_ok (fun p => body (fst (fst p)) (snd (fst p)) (snd p)) f z (enum3 max)) as Hr. specialize (Hr ltac:(
    intros [[d k] l] Hi; unfold enum3 in Hi; apply in_concat in Hi; destruct Hi as (l1 & Hl & Hi); apply in_map_iff in Hl;
    destruct Hl as (d' & <- & Hd); apply in_seq in Hd; apply in_concat in Hi; destruct Hi as (l2 & Hl & Hi); apply in_map_iff in Hl;
    destruct Hl as (k' & <- & Hk); apply in_seq in Hk; apply in_map_iff in Hi; destruct Hi as (l' & [= <- <- <-] & Hl'); apply in_seq in Hl'; cbn; apply H; lia) []).
  cbn [app length] in Hr. rewrite Hr. reflexivity.
Qed.

(** * Sizes *)
Lemma concat_length_sum {A} (l : list (list A)) : length (concat l) = fold_right Nat.add 0%nat (map (@length A) l).
Proof. induction l; cbn; [auto|]. rewrite app_length, IHl. reflexivity. Qed.
Lemma seq_snoc s n : seq s (n + 1) = seq s n ++ [(s + n)%nat].
Proof. rewrite seq_app. reflexivity. Qed.
Lemma enum2_length max : (2 * length (enum2 max) = (max + 1) * (max + 2))%nat.
Proof.
  unfold enum2. induction max as [|m IH]; [reflexivity|]. rewrite seq_snoc, map_app, concat_app, app_length.
  replace (S m) with (m + 1)%nat in * by lia. cbn [map concat app]. rewrite !app_nil_r, map_length, seq_length.
  rewrite Nat.mul_add_distr_l, IH. lia.
Qed.
Lemma enum2_size max : length (enum2 max) = size2 max.
Proof. unfold size2. rewrite <- enum2_length, Nat.mul_comm. now rewrite Nat.div_mul. Qed.
Lemma layer3_length d : (2 * length (concat (map (fun k => map (fun l => (d, k, l)) (seq 0 (d - k + 1))) (seq 0 (d + 1)))) = (d + 1) * (d + 2))%nat.
Proof.
  rewrite concat_length_sum, map_map.
  rewrite (map_ext _ (fun k => d - k + 1)%nat) by (intros; now rewrite map_length, seq_length).
  assert (H : forall n, (n <= d + 1)%nat -> (2 * fold_right Nat.add 0 (map (fun k => d - k + 1) (seq 0 n)) = n * (2 * d + 3 - n))%nat).
  { induction n as [|n IH]; intros Hn; [reflexivity|]. rewrite <- (Nat.add_1_r n) at 1. rewrite seq_snoc, map_app, fold_right_app. cbn [map fold_right].
    assert (F : forall l x, (fold_right Nat.add x l = fold_right Nat.add 0 l + x)%nat) by (clear; induction l; intros; cbn; [lia|rewrite IHl; lia]).
    rewrite F, Nat.mul_add_distr_l, IH by lia. cbn [Nat.add]. nia. }
  rewrite H by lia. nia.
Qed.
Lemma enum3_length max : (6 * length (enum3 max) = (max + 1) * (max + 2) * (max + 3))%nat.
Proof.
  unfold enum3. induction max as [|m IH]; [reflexivity|]. rewrite seq_snoc, map_app, concat_app, app_length.
  replace (S m) with (m + 1)%nat in * by lia. cbn [map concat]. rewrite !app_nil_r, Nat.add_0_l.
  pose proof (layer3_length (m + 1)) as L. rewrite Nat.mul_add_distr_l, IH. nia.
Qed.
Lemma binomial_0 n : binomial n 0 = 1%nat. Proof. destruct n; reflexivity. Qed.
Lemma binomial_fact n k : (binomial (n + k) k * fact k * fact n = fact (n + k))%nat.
Proof.
  assert (H : forall s n k, (n + k = s)%nat -> (binomial (n + k) k * fact k * fact n = fact (n + k))%nat /\ forall j, (n < j)%nat -> binomial n j = 0%nat).
  { induction s as [|s IH]; intros n' k' E.
    - assert (n' = 0 /\ k' = 0)%nat as [-> ->] by lia. split; [reflexivity|]. intros [|j] Hj; [lia|reflexivity].
    - split.
      + destruct n' as [|n'].
        * destruct k' as [|k']; [reflexivity|]. cbn [Nat.add]. destruct (IH 0%nat k' ltac:(lia)) as [A _]. cbn [Nat.add] in A.
          assert (B : binomial k' (S k') = 0%nat). { clear. assert (forall n j, (n < j)%nat -> binomial n j = 0%nat) as H; [|apply H; lia].
            induction n as [|n IH]; intros [|j] Hj; try lia; [reflexivity|]. cbn. rewrite !IH by lia. reflexivity. }
          cbn [binomial]. rewrite B, Nat.add_0_r. change (fact (S k')) with (S k' * fact k')%nat. nia.
        * destruct k' as [|k']; [rewrite binomial_0, Nat.add_0_r; cbn [fact]; lia|].
          destruct (IH (S n') k' ltac:(lia)) as [A _]. destruct (IH n' (S k') ltac:(lia)) as [B _].
          cbn [Nat.add binomial]. replace (n' + S k')%nat with (S n' + k')%nat in * by lia. 
          change (fact (S k')) with (S k' * fact k')%nat in *. change (fact (S n')) with (S n' * fact n')%nat in *.
          change (fact (S (S n' + k'))) with (S (S n' + k') * fact (S n' + k'))%nat.
          rewrite !Nat.mul_add_distr_r. 
          transitivity (S k' * fact (S n' + k') + S n' * fact (S n' + k'))%nat; [|lia].
          f_equal; [rewrite <- A; ring|rewrite <- B; ring].
      + clear. induction n' as [|n IH]; intros [|j] Hj; try lia; [reflexivity|]. cbn. rewrite !IH by lia. reflexivity. }
  apply (H (n + k)%nat n k eq_refl).
Qed.
Lemma fact3 m : fact (m + 3) = ((m + 1) * (m + 2) * (m + 3) * fact m)%nat.
Proof. replace (m + 3)%nat with (S (S (S m))) by lia. cbn [fact]. lia. Qed.
Lemma fact2 m : fact (m + 2) = ((m + 1) * (m + 2) * fact m)%nat.
Proof. replace (m + 2)%nat with (S (S m)) by lia. cbn [fact]. lia. Qed.
Lemma enum3_size max : length (enum3 max) = size3 max.
Proof.
  unfold size3. pose proof (enum3_length max) as H. pose proof (binomial_fact max 3) as B. rewrite fact3, <- H in B.
  change (fact 3) with 6%nat in B. pose proof (lt_O_fact max).
  apply Nat.mul_cancel_r with (p := fact max); [lia|]. nia.
Qed.

(** * Partial derivatives of products *)
Definition gen (fs : list (R -> R)) (x : list R) : R := fold_right Rmult 1 (map (fun p => fst p (snd p)) (combine fs x)).
Definition pw (n : nat) : R -> R := fun t => t ^ n.
Definition pd (n : nat) : R -> R := fun t => INR n * t ^ (n - 1).
Definition pd2 (n : nat) : R -> R := fun t => INR (n * (n - 1)) * t ^ (n - 2).
Lemma mono_gen e x : mono e x = gen (map pw e) x.
Proof. unfold mono, gen. revert x. induction e as [|n e IH]; intros [|a x]; cbn; auto. rewrite IH. reflexivity. Qed.
Lemma dlim_ext f g x l : (forall t, f t = g t) -> derivable_pt_lim g x l -> derivable_pt_lim f x l.
Proof. intros E H eps He. destruct (H eps He) as (d & Hd). exists d. intros h H1 H2. rewrite !E. auto. Qed.
Lemma gen_app f1 f2 x1 x2 : length f1 = length x1 -> gen (f1 ++ f2) (x1 ++ x2) = gen f1 x1 * gen f2 x2.
Proof.
  unfold gen. revert x1. induction f1 as [|f f1 IH]; intros [|a x1]; cbn; try discriminate; intros H; [ring|].
  rewrite IH by lia. ring.
Qed.
Lemma gen_partial f f' f1 f2 x1 x2 t : length f1 = length x1 -> derivable_pt_lim f t (f' t) ->
  partial (gen (f1 ++ f :: f2)) (length x1) (x1 ++ t :: x2) (gen (f1 ++ f' :: f2) (x1 ++ t :: x2)).
Proof.
  intros Hl Hd. unfold partial. rewrite nth_middle.
  apply dlim_ext with (g := fun s => (gen f1 x1 * gen f2 x2) * f s).
  - intros s. unfold with_coord. rewrite firstn_app, firstn_all, Nat.sub_diag. cbn [firstn]. rewrite app_nil_r.
    replace (skipn (S (length x1)) (x1 ++ t :: x2)) with x2.
    2:{ rewrite skipn_app. rewrite skipn_all2 by lia. replace (S (length x1) - length x1)%nat with 1%nat by lia. reflexivity. }
    rewrite gen_app by auto. unfold gen at 2. cbn. fold (gen f2 x2). ring.
  - rewrite gen_app by auto. unfold gen at 2. cbn. fold (gen f2 x2).
    replace (gen f1 x1 * (f' t * gen f2 x2)) with (gen f1 x1 * gen f2 x2 * f' t) by ring.
    now apply derivable_pt_lim_scal.
Qed.
Lemma pw_d n t : derivable_pt_lim (pw n) t (pd n t).
Proof. unfold pw, pd. rewrite Nat.sub_1_r. apply derivable_pt_lim_pow. Qed.
Lemma pd_d n t : derivable_pt_lim (pd n) t (pd2 n t).
Proof.
  unfold pd, pd2. rewrite mult_INR. replace (INR n * INR (n - 1) * t ^ (n - 2)) with (INR n * (INR (n - 1) * t ^ pred (n - 1))).
  2:{ replace (pred (n - 1)) with (n - 2)%nat by lia. ring. }
  apply derivable_pt_lim_scal with (f := fun t => t ^ (n - 1)). apply derivable_pt_lim_pow.
Qed.
Lemma pd_0 n t : (n <= 0)%nat -> pd n t = 0.
Proof. intros. assert (n = 0%nat) as -> by lia. unfold pd. change (INR 0) with 0. ring. Qed.
Lemma pd2_0 n t : (n <= 1)%nat -> pd2 n t = 0.
Proof. intros. unfold pd2. replace (n * (n - 1))%nat with 0%nat by nia. change (INR 0) with 0. ring. Qed.
Lemma partial_ext f g j x v : (forall z, length z = length x -> f z = g z) -> (j < length x)%nat -> partial g j x v -> partial f j x v.
Proof.
  intros H Hj. unfold partial. apply dlim_ext. intros t. apply H. unfold with_coord. rewrite app_length, firstn_length. cbn [length]. rewrite skipn_length. lia.
Qed.
(** All partial derivatives of a product, with the j-th factor replaced. *)
Lemma gen_partial_at fs fs' f f' j x : length fs = length x -> nth_error fs j = Some f -> upd fs j f' = Some fs' ->
  (forall t, derivable_pt_lim f t (f' t)) -> partial (gen fs) j x (gen fs' x).
Proof.
  intros Hl Hf Hu Hd. assert (Hj : (j < length fs)%nat) by (eapply nth_error_Some_lt; eauto).
  assert (Ef : fs = firstn j fs ++ f :: skipn (S j) fs).
  { clear -Hf. revert j Hf. induction fs as [|a fs IH]; intros [|j]; cbn; try discriminate; [intros [= ->]; reflexivity|]. intros H. f_equal. exact (IH j H). }
  destruct (nth_error_lt_Some x j) as [a Ha]; [lia|].
  assert (Ex : x = firstn j x ++ a :: skipn (S j) x).
  { clear -Ha. revert j Ha. induction x as [|b x IH]; intros [|j]; cbn; try discriminate; [intros [= ->]; reflexivity|]. intros H. f_equal. exact (IH j H). }
  assert (Ef' : fs' = firstn j fs ++ f' :: skipn (S j) fs).
  { apply nth_error_ext. intros i. rewrite (upd_nth_error _ _ _ _ i Hu), nth_error_app_eq, firstn_length, Nat.min_l by lia.
    destruct (Nat.eqb_spec i j) as [->|]; [rewrite Nat.ltb_irrefl, Nat.sub_diag; reflexivity|].
    destruct (Nat.ltb_spec i j); [rewrite nth_error_firstn_eq; destruct (Nat.ltb_spec i j); auto; lia|].
    destruct (i - j)%nat eqn:E; [lia|]. cbn [nth_error]. rewrite nth_error_skipn_eq. f_equal. lia. }
  pose proof (gen_partial f f' (firstn j fs) (skipn (S j) fs) (firstn j x) (skipn (S j) x) a) as H.
  rewrite <- Ef, <- Ex, <- Ef' in H. rewrite !firstn_length in H. rewrite (Nat.min_l j (length x)) in H by lia. apply H; [lia|apply Hd].
Qed.
Lemma mono_partial e j n x fs' : length e = length x -> nth_error e j = Some n -> upd (map pw e) j (pd n) = Some fs' ->
  partial (mono e) j x (gen fs' x).
Proof.
  intros Hl Hn Hu. eapply partial_ext; [intros z _; apply mono_gen|apply nth_error_Some_lt in Hn; lia|].
  eapply gen_partial_at; [now rewrite map_length|rewrite nth_error_map_eq, Hn; reflexivity|exact Hu|apply pw_d].
Qed.
Lemma mono_second e i j n f f' fs' fs'' x : length e = length x -> nth_error e i = Some n -> upd (map pw e) i (pd n) = Some fs' ->
  nth_error fs' j = Some f -> upd fs' j f' = Some fs'' -> (forall t, derivable_pt_lim f t (f' t)) ->
  second_partial (mono e) i j x (gen fs'' x).
Proof.
  intros Hl Hn Hu Hf Hu' Hd. exists (gen fs'). split.
  - intros z Hz. eapply mono_partial; eauto. now rewrite Hz.
  - eapply gen_partial_at; eauto. rewrite (upd_length _ _ _ _ Hu), map_length. auto.
Qed.

(** * The lists of exponents *)
Lemma exponents1_ok max : exponents1 max = Some (map (fun k => [k]) (seq 0 (size1 max))).
Proof.
  unfold exponents1. set (n := size1 max).
  destruct (forl_inv (fun k p => length p = n /\ forall i, (i < n)%nat -> p @ i = Some [if (i <? k)%nat then i else 0%nat]) n 0
    (fun k p => r <- p @ k ;; r' <- upd r 0 k ;; upd p k r') (repeat [0%nat] n)) as (p & Hr & Hl & Hp).
  - split; [apply repeat_length|]. intros i Hi. rewrite nth_error_repeat_eq. destruct (Nat.ltb_spec i n); [reflexivity|lia].
  - intros k p Hk (Hl & Hp). rewrite Hp by lia. cbn [obind upd]. unfold upd at 1. cbn [obind].
    destruct (upd p k [k]) as [p'|] eqn:Eu; [|apply upd_None in Eu; lia]. exists p'. split; auto.
    split; [rewrite (upd_length _ _ _ _ Eu); auto|]. intros i Hi. rewrite (upd_nth_error _ _ _ _ i Eu), Hp by auto.
    destruct (Nat.eqb_spec i k) as [->|]; [destruct (Nat.ltb_spec k (k + 1)); [reflexivity|lia]|].
    destruct (Nat.ltb_spec i k), (Nat.ltb_spec i (k + 1)); auto; lia.
  - rewrite Hr. f_equal. apply nth_error_ext. intros i. rewrite nth_error_map_eq, nth_error_seq.
    destruct (Nat.ltb_spec i n) as [Hi|Hi]; cbn [option_map]; [rewrite Hp by auto; destruct (Nat.ltb_spec i (0 + n)); [reflexivity|lia]|].
    apply nth_error_None. lia.
Qed.
Lemma exponents2_ok max : exponents2 max = Some (map (fun '(d, k) => [d - k; k]%nat) (enum2 max)).
Proof. apply loop2_ok; [apply enum2_size|]. reflexivity. Qed.
Lemma exponents3_ok max : exponents3 max = Some (map (fun '(d, k, l) => [d - k - l; l; k]%nat) (enum3 max)).
Proof. apply loop3_ok; [apply enum3_size|]. reflexivity. Qed.
Lemma in_enum2 max d k : In (d, k) (enum2 max) <-> (d <= max /\ k <= d)%nat.
Proof.
  unfold enum2. rewrite in_concat. split.
  - intros (l & Hl & Hi). apply in_map_iff in Hl. destruct Hl as (d' & <- & Hd). apply in_map_iff in Hi. destruct Hi as (k' & [= <- <-] & Hk).
    apply in_seq in Hd, Hk. lia.
  - intros H. eexists. split; [apply in_map_iff; exists d; split; [reflexivity|apply in_seq; lia]|]. apply in_map_iff. exists k. split; auto. apply in_seq; lia.
Qed.
Lemma in_enum3 max d k l : In (d, k, l) (enum3 max) <-> (d <= max /\ k + l <= d)%nat.
Proof.
  unfold enum3. rewrite in_concat. split.
  - intros (m & Hl & Hi). apply in_map_iff in Hl. destruct Hl as (d' & <- & Hd). apply in_concat in Hi. destruct Hi as (m & Hl & Hi).
    apply in_map_iff in Hl. destruct Hl as (k' & <- & Hk). apply in_map_iff in Hi. destruct Hi as (l' & [= <- <- <-] & Hl).
    apply in_seq in Hd, Hk, Hl. lia.
  - intros H. eexists. split; [apply in_map_iff; exists d; split; [reflexivity|apply in_seq; lia]|]. apply in_concat.
    eexists. split; [apply in_map_iff; exists k; split; [reflexivity|apply in_seq; lia]|]. apply in_map_iff. exists l. split; auto. apply in_seq; lia.
Qed.
Lemma NoDup_concat {A I} (key : A -> I) (f : I -> list A) is : NoDup is -> (forall i, In i is -> NoDup (f i)) ->
  (forall i a, In a (f i) -> key a = i) -> NoDup (concat (map f is)).
Proof.
  intros Hd Hf Hk. induction Hd as [|i is Hn Hd IH]; cbn; [constructor|].
  assert (forall l1 l2 : list A, NoDup l1 -> NoDup l2 -> (forall a, In a l1 -> ~ In a l2) -> NoDup (l1 ++ l2)) as NA.
  { clear. induction l1 as [|a l1 IH]; intros l2 H1 H2 H; cbn; auto. inversion H1; subst. constructor.
    - rewrite in_app_iff. intros [|]; [auto|]. eapply H; eauto. now left.
    - apply IH; auto. intros b Hb. apply H. now right. }
  apply NA; [apply Hf; now left|apply IH; intros; apply Hf; now right|].
  intros a Ha Hc. apply in_concat in Hc. destruct Hc as (l & Hl & Ha'). apply in_map_iff in Hl. destruct Hl as (i' & <- & Hi').
  apply Hk in Ha, Ha'. congruence.
Qed.
Lemma NoDup_map_inj {A B} (f : A -> B) l : NoDup l -> (forall a b, In a l -> In b l -> f a = f b -> a = b) -> NoDup (map f l).
Proof.
  induction 1 as [|a l Hn Hd IH]; cbn; constructor.
  - rewrite in_map_iff. intros (b & E & Hb). apply H in E; [congruence|now right|now left].
  - apply IH. intros. apply H; auto; now right.
Qed.
Lemma NoDup_enum2 max : NoDup (enum2 max).
Proof.
  unfold enum2. apply (NoDup_concat fst); [apply seq_NoDup| |].
  - intros d _. apply NoDup_map_inj; [apply seq_NoDup|]. congruence.
  - intros d a. rewrite in_map_iff. intros (k & <- & _). reflexivity.
Qed.
Lemma NoDup_enum3 max : NoDup (enum3 max).
Proof.
  unfold enum3. apply (NoDup_concat (fun p => fst (fst p))); [apply seq_NoDup| |].
  - intros d _. apply (NoDup_concat (fun p => snd (fst p))); [apply seq_NoDup| |].
    + intros k _. apply NoDup_map_inj; [apply seq_NoDup|]. congruence.
    + intros k a. rewrite in_map_iff. intros (l & <- & _). reflexivity.
  - intros d a Ha. apply in_concat in Ha. destruct Ha as (m & Hm & Ha). apply in_map_iff in Hm. destruct Hm as (k & <- & _).
    apply in_map_iff in Ha. destruct Ha as (l & <- & _). reflexivity.
Qed.
Definition ordered {A} (key : A -> nat) (l : list A) : Prop :=
  forall i j a b, (i < j)%nat -> nth_error l i = Some a -> nth_error l j = Some b -> (key a <= key b)%nat.
Lemma ordered_concat {A} (key : A -> nat) (f : nat -> list A) n : forall s,
  (forall i a, In a (f i) -> key a = i) -> ordered key (concat (map f (seq s n))).
Proof.
  intros s Hk. revert s. induction n as [|n IH]; intros s; cbn; [intros i j a b _ H; destruct i; discriminate|].
  intros i j a b Hij. rewrite !nth_error_app_eq. destruct (Nat.ltb_spec i (length (f s))), (Nat.ltb_spec j (length (f s))); try lia.
  - intros Ha Hb. apply nth_error_In, Hk in Ha. apply nth_error_In, Hk in Hb. lia.
  - intros Ha Hb. apply nth_error_In, Hk in Ha. apply nth_error_In in Hb. apply in_concat in Hb. destruct Hb as (l & Hl & Hb).
    apply in_map_iff in Hl. destruct Hl as (d & <- & Hd). apply in_seq in Hd. apply Hk in Hb. lia.
  - intros Ha Hb. eapply (IH (S s)); [|exact Ha|exact Hb]. lia.
Qed.

(** The listed exponents are those of total degree at most [max], each once, by degree;
    their number is the documented one. *)
Theorem C40_exponents1 max : exists es, exponents1 max = Some es /\ length es = size1 max /\ documented_size 1 max (size1 max) /\ lists_monomials 1 max es.
Proof.
  eexists. split; [apply exponents1_ok|]. split; [now rewrite map_length, seq_length|]. split.
  - unfold documented_size, size1. replace (max + 1)%nat with (S max) by lia. cbn [fact]. lia.
  - split; [apply NoDup_map_inj; [apply seq_NoDup|congruence]|]. split.
    + intros e. rewrite in_map_iff. split.
      * intros (k & <- & Hk). apply in_seq in Hk. unfold size1 in Hk. cbn. lia.
      * intros [Hl Hd]. destruct e as [|k [|]]; try discriminate. exists k. split; auto. apply in_seq. unfold size1. cbn in Hd. lia.
    + intros i j e f Hij. rewrite !nth_error_map_eq, !nth_error_seq. destruct (Nat.ltb i (size1 max)), (Nat.ltb j (size1 max)); cbn; try discriminate.
      intros [= <-] [= <-]. cbn. lia.
Qed.
Theorem C40_exponents2 max : exists es, exponents2 max = Some es /\ length es = size2 max /\ documented_size 2 max (size2 max) /\ lists_monomials 2 max es.
Proof.
  eexists. split; [apply exponents2_ok|]. split; [rewrite map_length; apply enum2_size|]. split.
  - unfold documented_size. rewrite fact2, <- enum2_length, <- enum2_size. cbn [fact]. lia.
  - split; [|split].
    + apply NoDup_map_inj; [apply NoDup_enum2|]. intros [d k] [d' k'] H1 H2 [= E1 E2]. apply in_enum2 in H1, H2. f_equal; lia.
    + intros e. rewrite in_map_iff. split.
      * intros ([d k] & <- & Hk). apply in_enum2 in Hk. cbn. lia.
      * intros [Hl Hd]. destruct e as [|a [|b [|]]]; try discriminate. cbn in Hd. exists (a + b, b)%nat.
        split; [repeat f_equal; lia|]. apply in_enum2. lia.
    + intros i j e f Hij. rewrite !nth_error_map_eq. destruct (nth_error (enum2 max) i) as [[d k]|] eqn:E1; [|discriminate].
      destruct (nth_error (enum2 max) j) as [[d' k']|] eqn:E2; [|discriminate]. cbn [option_map]. intros [= <-] [= <-].
      assert (H := ordered_concat fst (fun d => map (fun k => (d, k)) (seq 0 (d + 1))) (max + 1) 0
        ltac:(intros ? ? Hx; apply in_map_iff in Hx; destruct Hx as (? & <- & _); reflexivity) i j _ _ Hij E1 E2).
      apply nth_error_In, in_enum2 in E1. apply nth_error_In, in_enum2 in E2. cbn in *. lia.
Qed.
Theorem C40_exponents3 max : exists es, exponents3 max = Some es /\ length es = size3 max /\ documented_size 3 max (size3 max) /\ lists_monomials 3 max es.
Proof.
  eexists. split; [apply exponents3_ok|]. split; [rewrite map_length; apply enum3_size|]. split.
  - unfold documented_size. rewrite fact3, <- enum3_length, <- enum3_size. change (fact 3) with 6%nat. lia.
  - split; [|split].
    + apply NoDup_map_inj; [apply NoDup_enum3|]. intros [[d k] l] [[d' k'] l'] H1 H2 [= E1 E2 E3]. apply in_enum3 in H1, H2. repeat f_equal; lia.
    + intros e. rewrite in_map_iff. split.
      * intros ([[d k] l] & <- & Hk). apply in_enum3 in Hk. cbn. lia.
      * intros [Hl Hd]. destruct e as [|a [|b [|c [|]]]]; try discriminate. cbn in Hd. exists (a + b + c, c, b)%nat.
        split; [repeat f_equal; lia|]. apply in_enum3. lia.
    + intros i j e f Hij. rewrite !nth_error_map_eq. destruct (nth_error (enum3 max) i) as [[[d k] l]|] eqn:E1; [|discriminate].
      destruct (nth_error (enum3 max) j) as [[[d' k'] l']|] eqn:E2; [|discriminate]. cbn [option_map]. intros [= <-] [= <-].
      assert (H := ordered_concat (fun p => fst (fst p)) (fun d => concat (map (fun k => map (fun l => (d, k, l)) (seq 0 (d - k + 1))) (seq 0 (d + 1)))) (max + 1) 0
        ltac:(intros ? ? Hx; apply in_concat in Hx; destruct Hx as (? & Hm & Hx); apply in_map_iff in Hm; destruct Hm as (? & <- & _); apply in_map_iff in Hx; destruct Hx as (? & <- & _); reflexivity) i j _ _ Hij E1 E2).
      apply nth_error_In, in_enum3 in E1. apply nth_error_In, in_enum3 in E2. cbn in *. lia.
Qed.

(** * Values and derivatives *)
(** The i-th value is that of the i-th monomial. *)
Definition values_ok (eval : option (list R)) (es : list (list nat)) (x : list R) : Prop :=
  exists y, eval = Some y /\ length y = length es /\
    forall i e v, nth_error es i = Some e -> nth_error y i = Some v -> v = mono e x.
(** The i-th row is the gradient of the i-th monomial. *)
Definition gradients_ok (dim : nat) (deriv : option (list (list R))) (es : list (list nat)) (x : list R) : Prop :=
  exists y, deriv = Some y /\ length y = length es /\
    forall i e r, nth_error es i = Some e -> nth_error y i = Some r ->
      length r = dim /\ forall j v, nth_error r j = Some v -> partial (mono e) j x v.
(** The i-th matrix is the Hessian of the i-th monomial. *)
Definition hessians_ok (dim : nat) (hess : option (list (list (list R)))) (es : list (list nat)) (x : list R) : Prop :=
  exists y, hess = Some y /\ length y = length es /\
    forall i e h, nth_error es i = Some e -> nth_error y i = Some h ->
      length h = dim /\ forall j r, nth_error h j = Some r ->
        length r = dim /\ forall k v, nth_error r k = Some v -> second_partial (mono e) j k x v.

Lemma nth_case {A} (l : list A) j v : nth_error l j = Some v -> In (j, v) (combine (seq 0 (length l)) l).
Proof.
  assert (H : forall s (l : list A) j v, nth_error l j = Some v -> In ((s + j)%nat, v) (combine (seq s (length l)) l)).
  { clear. intros s l. revert s. induction l as [|a l IH]; intros s [|j] v; cbn; try discriminate.
    - intros [= ->]. left. f_equal. lia.
    - intros H. right. replace (s + S j)%nat with (S s + j)%nat by lia. auto. }
  apply (H 0%nat).
Qed.

Ltac look := repeat match goal with
  | H : forall i, (i < ?n)%nat -> ?p @ i = Some (?x ^ i) |- context [?p @ ?i] => rewrite (H i) by lia; cbn [obind]
  end.
Ltac leq := apply f_equal; repeat match goal with |- ?x = ?x => reflexivity | |- _ :: _ = _ :: _ => apply f_equal2 end; ring.
Ltac vals := unfold gen, pd, pd2, pw; cbn [map fold_right combine fst snd]; rewrite ?mult_INR; ring.

(** ** dim = 1 *)
Lemma row1 max x0 : values_ok (eval1 max [x0]) (map (fun k => [k]) (seq 0 (size1 max))) [x0].
Proof.
  unfold eval1. cbn [nth_error obind]. 
  assert (exists p, compute_powers (max + 1) (size1 max) x0 = Some p /\ length p = size1 max /\ forall i, (i < max + 1)%nat -> p @ i = Some (x0 ^ i)) as (p & Hp & Hl & Hi).
  { destruct (compute_powers_ok (max + 1) (size1 max) x0 (le_n _)) as (p & Hp & Hi). exists p. split; auto. split; auto.
    revert Hp. unfold compute_powers. rewrite Nat.add_1_r. destruct (upd _ 0 1) as [y|] eqn:Eu; [|discriminate]. cbn [obind].
    assert (length y = size1 max) as Hy by (rewrite (upd_length _ _ _ _ Eu); apply repeat_length).
    assert (HL : forall n s y p, length y = size1 max -> forl n s (fun k y => yk <- y @ k ;; upd y (k + 1)%nat (yk * x0)) y = Some p -> length p = size1 max).
    { clear. induction n as [|n IH]; intros s y p Hy; cbn [forl]; [intros [= <-]; auto|]. destruct (y @ s) as [a|]; [cbn [obind]|discriminate].
      destruct (upd y (s + 1) (a * x0)) as [y'|] eqn:Eu; [cbn [obind]|discriminate]. apply IH. rewrite (upd_length _ _ _ _ Eu). auto. }
    apply HL; auto. }
  exists p. split; auto. split; [now rewrite map_length, seq_length|]. intros i e v. rewrite nth_error_map_eq, nth_error_seq.
  destruct (Nat.ltb_spec i (size1 max)) as [Hlt|]; [|discriminate]. cbn. intros [= <-]. rewrite Hi by (unfold size1 in Hlt; lia). intros [= <-].
  unfold mono. cbn. ring.
Qed.
Lemma deriv1_ok max x0 : deriv1 max [x0] = Some (map (fun k => [pd k x0]) (seq 0 (size1 max))).
Proof.
  unfold deriv1. cbn [nth_error obind]. destruct (compute_powers_ok max (size1 max) x0) as (p & -> & Hp); [unfold size1; lia|]. cbn [obind].
  destruct (forl_inv (fun k y => length y = size1 max /\ forall i, (i < size1 max)%nat -> y @ i = Some [if (i <? k)%nat then pd i x0 else 0]) max 1
    (fun degree y => v <- p @ (degree - 1) ;; set2 y degree 0 (INR degree * v)) (zeros (size1 max) 1)) as (y & Hr & Hl & Hy).
  - split; [apply repeat_length|]. intros i Hi. unfold zeros. rewrite nth_error_repeat_eq. destruct (Nat.ltb_spec i (size1 max)); [|lia].
    destruct (Nat.ltb_spec i 1); [rewrite pd_0 by lia|]; reflexivity.
  - intros k y Hk (Hl & Hy). rewrite Hp by lia. cbn [obind]. unfold set2. rewrite Hy by (unfold size1; lia). cbn [obind upd]. unfold upd at 1. cbn [obind].
    destruct (upd y k [INR k * x0 ^ (k - 1)]) as [y'|] eqn:Eu; [|apply upd_None in Eu; unfold size1 in *; lia]. exists y'. split; auto.
    split; [rewrite (upd_length _ _ _ _ Eu); auto|]. intros i Hi. rewrite (upd_nth_error _ _ _ _ i Eu), Hy by auto.
    destruct (Nat.eqb_spec i k) as [->|]; [destruct (Nat.ltb_spec k (k + 1)); [reflexivity|lia]|].
    destruct (Nat.ltb_spec i k), (Nat.ltb_spec i (k + 1)); auto; lia.
  - rewrite Hr. f_equal. apply nth_error_ext. intros i. rewrite nth_error_map_eq, nth_error_seq.
    destruct (Nat.ltb_spec i (size1 max)) as [Hi|Hi]; cbn [option_map].
    + rewrite Hy by auto. destruct (Nat.ltb_spec i (1 + max)); [reflexivity|unfold size1 in Hi; lia].
    + apply nth_error_None. lia.
Qed.
Lemma hess1_ok max x0 : hess1 max [x0] = Some (map (fun k => [[pd2 k x0]]) (seq 0 (size1 max))).
Proof.
  unfold hess1. cbn [nth_error obind]. destruct (compute_powers_ok (max - 1) (max + 1) x0) as (p & -> & Hp); [lia|]. cbn [obind].
  match goal with |- forl ?n ?s ?b ?st = _ => destruct (forl_inv (fun k y => length y = size1 max /\ forall i, (i < size1 max)%nat -> y @ i = Some [[if (i <? k)%nat then pd2 i x0 else 0]]) n s b st) as (y & Hr & Hl & Hy) end.
  - split; [apply repeat_length|]. intros i Hi. rewrite nth_error_repeat_eq. destruct (Nat.ltb_spec i (size1 max)); [|lia].
    destruct (Nat.ltb_spec i 0); [lia|]; reflexivity.
  - intros k y Hk (Hl & Hy). destruct (Nat.ltb_spec 0 (k - 1)).
    + rewrite Hp by lia. cbn [obind]. rewrite Hy by (unfold size1; lia). cbn [obind]. unfold set2. cbn [nth_error obind]. unfold upd at 1. cbn [obind]. unfold upd at 1. cbn [obind].
      destruct (upd y k [[INR (k * (k - 1)) * x0 ^ (k - 2)]]) as [y'|] eqn:Eu; [|apply upd_None in Eu; unfold size1 in *; lia]. exists y'. split; auto.
      split; [rewrite (upd_length _ _ _ _ Eu); auto|]. intros i Hi. rewrite (upd_nth_error _ _ _ _ i Eu), Hy by auto.
      destruct (Nat.eqb_spec i k) as [->|]; [destruct (Nat.ltb_spec k (k + 1)); [reflexivity|lia]|].
      destruct (Nat.ltb_spec i k), (Nat.ltb_spec i (k + 1)); auto; lia.
    + exists y. split; auto. split; auto. intros i Hi. rewrite Hy by auto. destruct (Nat.ltb_spec i k), (Nat.ltb_spec i (k + 1)); auto; try lia.
      rewrite pd2_0 by lia. reflexivity.
  - rewrite Hr. f_equal. apply nth_error_ext. intros i. rewrite nth_error_map_eq, nth_error_seq.
    destruct (Nat.ltb_spec i (size1 max)) as [Hi|Hi]; cbn [option_map].
    + rewrite Hy by auto. destruct (Nat.ltb_spec i (0 + (max + 1))); [reflexivity|unfold size1 in Hi; lia].
    + apply nth_error_None. lia.
Qed.

(** ** dim = 2 *)
Lemma eval2_ok max x0 x1 : eval2 max [x0; x1] = Some (map (fun '(d, k) => x0 ^ (d - k) * x1 ^ k) (enum2 max)).
Proof.
  unfold eval2. cbn [nth_error obind]. assert (max + 1 <= size2 max)%nat as Hs by (rewrite <- enum2_size; pose proof (enum2_length max); nia).
  destruct (compute_powers_ok (max + 1) (size2 max) x0 Hs) as (p0 & -> & H0). cbn [obind].
  destruct (compute_powers_ok (max + 1) (size2 max) x1 Hs) as (p1 & -> & H1). cbn [obind].
  apply loop2_ok; [apply enum2_size|]. intros d k Hd Hk. look. reflexivity.
Qed.
Definition grad2 a b x0 x1 : list R := [pd a x0 * x1 ^ b; x0 ^ a * pd b x1].
Lemma deriv2_ok max x0 x1 : deriv2 max [x0; x1] = Some (map (fun '(d, k) => grad2 (d - k) k x0 x1) (enum2 max)).
Proof.
  unfold deriv2. cbn [nth_error obind]. assert (max <= size2 max)%nat as Hs by (rewrite <- enum2_size; pose proof (enum2_length max); nia).
  destruct (compute_powers_ok max (size2 max) x0 Hs) as (p0 & -> & H0). cbn [obind].
  destruct (compute_powers_ok max (size2 max) x1 Hs) as (p1 & -> & H1). cbn [obind].
  apply loop2_ok; [apply enum2_size|]. intros d k Hd Hk. unfold grad2. set (a := (d - k)%nat).
  match goal with |- (y <- ?e ;; _) = _ => assert (e = Some [pd a x0 * x1 ^ k; 0]) as -> end.
  { unfold if_then. destruct (Nat.ltb_spec 0 a); [look; reflexivity|]. rewrite pd_0 by lia. cbn. do 2 f_equal. ring. }
  cbn [obind]. unfold if_then. destruct (Nat.ltb_spec 0 k); [look; cbn; do 3 f_equal; unfold pd; ring|].
  rewrite (pd_0 k) by lia. do 3 f_equal. ring.
Qed.
Definition hessian2 a b x0 x1 : list (list R) :=
  [[pd2 a x0 * x1 ^ b; pd a x0 * pd b x1]; [pd a x0 * pd b x1; x0 ^ a * pd2 b x1]].
Lemma hess2_ok max x0 x1 : hess2 max [x0; x1] = Some (map (fun '(d, k) => hessian2 (d - k) k x0 x1) (enum2 max)).
Proof.
  unfold hess2. cbn [nth_error obind].
  destruct (compute_powers_ok (max - 1) (max + 1) x0) as (p0 & -> & H0); [lia|]. cbn [obind].
  destruct (compute_powers_ok (max - 1) (max + 1) x1) as (p1 & -> & H1); [lia|]. cbn [obind].
  apply loop2_ok; [apply enum2_size|]. intros d k Hd Hk. unfold hessian2. set (a := (d - k)%nat).
  match goal with |- (y <- ?e ;; _) = _ => assert (e = Some [[pd2 a x0 * x1 ^ k; 0]; [0; 0]]) as -> end.
  { unfold if_then. destruct (Nat.ltb_spec 1 a); [look; cbn; unfold pd2; rewrite !mult_INR; do 3 f_equal; ring|]. rewrite pd2_0 by lia. cbn. do 3 f_equal. ring. }
  cbn [obind].
  match goal with |- (y <- ?e ;; _) = _ => assert (e = Some [[pd2 a x0 * x1 ^ k; pd a x0 * pd k x1]; [pd a x0 * pd k x1; 0]]) as -> end.
  { unfold if_then. destruct (Nat.ltb_spec 0 k); cbn [andb].
    - destruct (Nat.ltb_spec 0 a); [look; cbn; unfold pd; rewrite !mult_INR; leq|]. rewrite (pd_0 a) by lia. leq.
    - rewrite (pd_0 k) by lia. leq. }
  cbn [obind]. unfold if_then. destruct (Nat.ltb_spec 1 k); [look; cbn; unfold pd2; leq|]. rewrite (pd2_0 k) by lia. leq.
Qed.

(** ** dim = 3 *)
Lemma eval3_ok max x0 x1 x2 : eval3 max [x0; x1; x2] = Some (map (fun '(d, k, l) => x0 ^ (d - k - l) * x1 ^ l * x2 ^ k) (enum3 max)).
Proof.
  unfold eval3. cbn [nth_error obind].
  destruct (compute_powers_ok (max + 1) (max + 1) x0 (le_n _)) as (p0 & -> & H0). cbn [obind].
  destruct (compute_powers_ok (max + 1) (max + 1) x1 (le_n _)) as (p1 & -> & H1). cbn [obind].
  destruct (compute_powers_ok (max + 1) (max + 1) x2 (le_n _)) as (p2 & -> & H2). cbn [obind].
  apply loop3_ok; [apply enum3_size|]. intros d k l Hd Hk. look. reflexivity.
Qed.
Definition grad3 a b c x0 x1 x2 : list R := [pd a x0 * x1 ^ b * x2 ^ c; x0 ^ a * pd b x1 * x2 ^ c; x0 ^ a * x1 ^ b * pd c x2].
Lemma deriv3_ok max x0 x1 x2 : deriv3 max [x0; x1; x2] = Some (map (fun '(d, k, l) => grad3 (d - k - l) l k x0 x1 x2) (enum3 max)).
Proof.
  unfold deriv3. cbn [nth_error obind].
  destruct (compute_powers_ok (max + 1) (max + 1) x0 (le_n _)) as (p0 & -> & H0). cbn [obind].
  destruct (compute_powers_ok (max + 1) (max + 1) x1 (le_n _)) as (p1 & -> & H1). cbn [obind].
  destruct (compute_powers_ok (max + 1) (max + 1) x2 (le_n _)) as (p2 & -> & H2). cbn [obind].
  apply loop3_ok; [apply enum3_size|]. intros d k l Hd Hk. unfold grad3. set (a := (d - k - l)%nat).
  match goal with |- (y <- ?e ;; _) = _ => assert (e = Some [pd a x0 * x1 ^ l * x2 ^ k; 0; 0]) as -> end.
  { unfold if_then. destruct (Nat.ltb_spec 0 a); [look; cbn; unfold pd; leq|]. rewrite (pd_0 a) by lia. cbn. leq. }
  cbn [obind].
  match goal with |- (y <- ?e ;; _) = _ => assert (e = Some [pd a x0 * x1 ^ l * x2 ^ k; x0 ^ a * pd l x1 * x2 ^ k; 0]) as -> end.
  { unfold if_then. destruct (Nat.ltb_spec 0 l); [look; cbn; unfold pd; leq|]. rewrite (pd_0 l) by lia. cbn. leq. }
  cbn [obind]. unfold if_then. destruct (Nat.ltb_spec 0 k); [look; cbn; unfold pd; leq|]. rewrite (pd_0 k) by lia. cbn. leq.
Qed.
Definition hessian3 a b c x0 x1 x2 : list (list R) :=
  [[pd2 a x0 * x1 ^ b * x2 ^ c; pd a x0 * pd b x1 * x2 ^ c; pd a x0 * x1 ^ b * pd c x2];
   [pd a x0 * pd b x1 * x2 ^ c; x0 ^ a * pd2 b x1 * x2 ^ c; x0 ^ a * pd b x1 * pd c x2];
   [pd a x0 * x1 ^ b * pd c x2; x0 ^ a * pd b x1 * pd c x2; x0 ^ a * x1 ^ b * pd2 c x2]].
Lemma hess3_ok max x0 x1 x2 : hess3 max [x0; x1; x2] = Some (map (fun '(d, k, l) => hessian3 (d - k - l) l k x0 x1 x2) (enum3 max)).
Proof.
  unfold hess3. cbn [nth_error obind].
  destruct (compute_powers_ok (max + 1) (max + 1) x0 (le_n _)) as (p0 & -> & H0). cbn [obind].
  destruct (compute_powers_ok (max + 1) (max + 1) x1 (le_n _)) as (p1 & -> & H1). cbn [obind].
  destruct (compute_powers_ok (max + 1) (max + 1) x2 (le_n _)) as (p2 & -> & H2). cbn [obind].
  apply loop3_ok; [apply enum3_size|]. intros d k l Hd Hk. set (a := (d - k - l)%nat).
  set (XX := pd2 a x0 * x1 ^ l * x2 ^ k). set (XY := pd a x0 * pd l x1 * x2 ^ k). set (XZ := pd a x0 * x1 ^ l * pd k x2).
  set (YY := x0 ^ a * pd2 l x1 * x2 ^ k). set (YZ := x0 ^ a * pd l x1 * pd k x2). set (ZZ := x0 ^ a * x1 ^ l * pd2 k x2).
  match goal with |- (y <- ?e ;; _) = _ => assert (e = Some [[XX; 0; 0]; [0; 0; 0]; [0; 0; 0]]) as -> end.
  { unfold if_then. destruct (Nat.ltb_spec 0 (a - 1)); [look; cbn; unfold XX, pd2; leq|]. unfold XX. rewrite (pd2_0 a) by lia. cbn. leq. }
  cbn [obind].
  match goal with |- (y <- ?e ;; _) = _ => assert (e = Some [[XX; XY; 0]; [XY; 0; 0]; [0; 0; 0]]) as -> end.
  { unfold if_then. destruct (Nat.ltb_spec 0 a); cbn [andb].
    - destruct (Nat.ltb_spec 0 l); [look; cbn; unfold XY, pd; rewrite !mult_INR; leq|]. unfold XY. rewrite (pd_0 l) by lia. leq.
    - unfold XY. rewrite (pd_0 a) by lia. leq. }
  cbn [obind].
  match goal with |- (y <- ?e ;; _) = _ => assert (e = Some [[XX; XY; 0]; [XY; YY; 0]; [0; 0; 0]]) as -> end.
  { unfold if_then. destruct (Nat.ltb_spec 0 (l - 1)); [look; cbn; unfold YY, pd2; leq|]. unfold YY. rewrite (pd2_0 l) by lia. cbn. leq. }
  cbn [obind].
  match goal with |- (y <- ?e ;; _) = _ => assert (e = Some [[XX; XY; XZ]; [XY; YY; 0]; [XZ; 0; 0]]) as -> end.
  { unfold if_then. destruct (Nat.ltb_spec 0 k); cbn [andb].
    - destruct (Nat.ltb_spec 0 a); [look; cbn; unfold XZ, pd; rewrite !mult_INR; leq|]. unfold XZ. rewrite (pd_0 a) by lia. leq.
    - unfold XZ. rewrite (pd_0 k) by lia. leq. }
  cbn [obind].
  match goal with |- (y <- ?e ;; _) = _ => assert (e = Some [[XX; XY; XZ]; [XY; YY; YZ]; [XZ; YZ; 0]]) as -> end.
  { unfold if_then. destruct (Nat.ltb_spec 0 l); cbn [andb].
    - destruct (Nat.ltb_spec 0 k); [look; cbn; unfold YZ, pd; rewrite !mult_INR; leq|]. unfold YZ. rewrite (pd_0 k) by lia. leq.
    - unfold YZ. rewrite (pd_0 l) by lia. leq. }
  cbn [obind]. change (hessian3 a l k x0 x1 x2) with [[XX; XY; XZ]; [XY; YY; YZ]; [XZ; YZ; ZZ]].
  unfold if_then. destruct (Nat.ltb_spec 0 (k - 1)); [look; cbn; unfold ZZ, pd2; rewrite ?mult_INR; leq|]. unfold ZZ. rewrite (pd2_0 k) by lia. cbn. leq.
Qed.

(** ** The theorems *)
Lemma partial_eq f j x v v' : partial f j x v' -> v = v' -> partial f j x v. Proof. intros H ->. exact H. Qed.
Lemma second_eq f i j x v v' : second_partial f i j x v' -> v = v' -> second_partial f i j x v. Proof. intros H ->. exact H. Qed.
Ltac one := eapply partial_eq; [eapply mono_partial; reflexivity|vals].
Ltac two := eapply second_eq; [eapply mono_second; [reflexivity|reflexivity|reflexivity|reflexivity|reflexivity|intros t; first [apply pd_d|apply pw_d]]|vals].

Theorem C40_dim1 max x es : length x = 1%nat -> exponents1 max = Some es ->
  values_ok (eval1 max x) es x /\ gradients_ok 1 (deriv1 max x) es x /\ hessians_ok 1 (hess1 max x) es x.
Proof.
  destruct x as [|x0 [|]]; try discriminate. intros _. rewrite exponents1_ok. intros [= <-]. split; [apply row1|]. split.
  - eexists. split; [apply deriv1_ok|]. split; [now rewrite !map_length|]. intros i e r. rewrite !nth_error_map_eq.
    destruct (nth_error (seq 0 (size1 max)) i) as [k|]; [|discriminate]. cbn [option_map]. intros [= <-] [= <-]. split; [reflexivity|].
    intros [|j] v; cbn [nth_error]; [intros [= <-]|destruct j; discriminate]. one.
  - eexists. split; [apply hess1_ok|]. split; [now rewrite !map_length|]. intros i e r. rewrite !nth_error_map_eq.
    destruct (nth_error (seq 0 (size1 max)) i) as [k|]; [|discriminate]. cbn [option_map]. intros [= <-] [= <-]. split; [reflexivity|].
    intros [|j] v; cbn [nth_error]; [intros [= <-]|destruct j; discriminate]. split; [reflexivity|].
    intros [|j] v; cbn [nth_error]; [intros [= <-]|destruct j; discriminate]. two.
Qed.
Theorem C40_dim2 max x es : length x = 2%nat -> exponents2 max = Some es ->
  values_ok (eval2 max x) es x /\ gradients_ok 2 (deriv2 max x) es x /\ hessians_ok 2 (hess2 max x) es x.
Proof.
  destruct x as [|x0 [|x1 [|]]]; try discriminate. intros _. rewrite exponents2_ok. intros [= <-]. split; [|split].
  - eexists. split; [apply eval2_ok|]. split; [now rewrite !map_length|]. intros i e r. rewrite !nth_error_map_eq.
    destruct (nth_error (enum2 max) i) as [[d k]|]; [|discriminate]. cbn [option_map]. intros [= <-] [= <-]. unfold mono. cbn. ring.
  - eexists. split; [apply deriv2_ok|]. split; [now rewrite !map_length|]. intros i e r. rewrite !nth_error_map_eq.
    destruct (nth_error (enum2 max) i) as [[d k]|]; [|discriminate]. cbn [option_map]. intros [= <-] [= <-]. split; [reflexivity|]. unfold grad2.
    intros [|[|j]] v; cbn [nth_error]; [intros [= <-]|intros [= <-]|destruct j; discriminate]; one.
  - eexists. split; [apply hess2_ok|]. split; [now rewrite !map_length|]. intros i e r. rewrite !nth_error_map_eq.
    destruct (nth_error (enum2 max) i) as [[d k]|]; [|discriminate]. cbn [option_map]. intros [= <-] [= <-]. split; [reflexivity|]. unfold hessian2.
    intros [|[|j]] v; cbn [nth_error]; [intros [= <-]|intros [= <-]|destruct j; discriminate]; (split; [reflexivity|]);
    intros [|[|j]] w; cbn [nth_error]; [intros [= <-]|intros [= <-]|destruct j; discriminate|intros [= <-]|intros [= <-]|destruct j; discriminate]; two.
Qed.
Theorem C40_dim3 max x es : length x = 3%nat -> exponents3 max = Some es ->
  values_ok (eval3 max x) es x /\ gradients_ok 3 (deriv3 max x) es x /\ hessians_ok 3 (hess3 max x) es x.
Proof.
  destruct x as [|x0 [|x1 [|x2 [|]]]]; try discriminate. intros _. rewrite exponents3_ok. intros [= <-]. split; [|split].
  - eexists. split; [apply eval3_ok|]. split; [now rewrite !map_length|]. intros i e r. rewrite !nth_error_map_eq.
    destruct (nth_error (enum3 max) i) as [[[d k] l]|]; [|discriminate]. cbn [option_map]. intros [= <-] [= <-]. unfold mono. cbn. ring.
  - eexists. split; [apply deriv3_ok|]. split; [now rewrite !map_length|]. intros i e r. rewrite !nth_error_map_eq.
    destruct (nth_error (enum3 max) i) as [[[d k] l]|]; [|discriminate]. cbn [option_map]. intros [= <-] [= <-]. split; [reflexivity|]. unfold grad3.
    intros [|[|[|j]]] v; cbn [nth_error]; [intros [= <-]|intros [= <-]|intros [= <-]|destruct j; discriminate]; one.
  - eexists. split; [apply hess3_ok|]. split; [now rewrite !map_length|]. intros i e r. rewrite !nth_error_map_eq.
    destruct (nth_error (enum3 max) i) as [[[d k] l]|]; [|discriminate]. cbn [option_map]. intros [= <-] [= <-]. split; [reflexivity|]. unfold hessian3.
    intros [|[|[|j]]] v; cbn [nth_error]; [intros [= <-]|intros [= <-]|intros [= <-]|destruct j; discriminate]; (split; [reflexivity|]);
    (intros [|[|[|j]]] w; cbn [nth_error]; [intros [= <-]; two|intros [= <-]; two|intros [= <-]; two|destruct j; discriminate]).
Qed.

(** * Examples *)
Example C40_exponents3_1 : exponents3 1 = Some [[0; 0; 0]; [1; 0; 0]; [0; 1; 0]; [0; 0; 1]]%nat.
Proof. reflexivity. Qed.
Example C40_exponents2_2 : exponents2 2 = Some [[0; 0]; [1; 0]; [0; 1]; [2; 0]; [1; 1]; [0; 2]]%nat.
Proof. reflexivity. Qed.
Example C40_hypotheses_met : exists es, length [1; 2; 3] = 3%nat /\ exponents3 4 = Some es /\ length es = 35%nat.
Proof. destruct (C40_exponents3 4) as (es & H & Hl & _). exists es. split; [reflexivity|]. split; [exact H|]. rewrite Hl. reflexivity. Qed.

Print Assumptions C40_exponents1.
Print Assumptions C40_exponents2.
Print Assumptions C40_exponents3.
Print Assumptions C40_dim1.
Print Assumptions C40_dim2.
Print Assumptions C40_dim3.
