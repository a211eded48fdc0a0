(** Polynomials: sums, products, composition with the affine map of a simplex, derivatives. *)
From Coq Require Import Reals Lra Lia List Arith.
From Verif Require Import Lib MonomialSet_spec MonomialSet_props Nodal_spec.
Import ListNotations.
Local Open Scope R_scope.
#[local] Arguments mono : simpl never.
#[local] Arguments degree : simpl never.
Lemma total_cons a l : total (a :: l) = a + total l. Proof. reflexivity. Qed.
#[local] Arguments total : simpl never.

Lemma cons_eq {A} (a b : A) l m : a = b -> l = m -> a :: l = b :: m.
Proof. now intros -> ->. Qed.
Lemma total_app a b : total (a ++ b) = total a + total b.
Proof. unfold total. induction a as [|x a IH]; cbn; [ring|]. cbn in IH. rewrite IH. ring. Qed.
Lemma total_scale c l : total (map (Rmult c) l) = c * total l.
Proof. unfold total. induction l as [|x l IH]; cbn; [ring|]. rewrite IH. ring. Qed.

Lemma poly_const d n c : polynomial d n (fun _ => c).
Proof.
  exists [(c, repeat 0%nat d)]. split.
  - constructor; [|constructor]. cbn [fst snd]. split; [apply repeat_length|].
    assert (E : degree (repeat 0%nat d) = 0%nat) by (unfold degree; induction d; cbn; auto). rewrite E. lia.
  - intros x Hx. unfold poly, total. cbn [map fold_right fst snd].
    assert (E : forall k y, mono (repeat 0%nat k) y = 1).
    { unfold mono. induction k; intros y; cbn; auto. destruct y; cbn; auto. rewrite IHk. ring. }
    rewrite E. ring.
Qed.
Lemma poly_le d n m u : (n <= m)%nat -> polynomial d n u -> polynomial d m u.
Proof.
  intros H (p & Hp & E). exists p. split; auto. eapply Forall_impl; [|exact Hp]. cbn. intros t [? ?]; split; auto; lia.
Qed.
Lemma poly_add d n u v : polynomial d n u -> polynomial d n v -> polynomial d n (fun x => u x + v x).
Proof.
  intros (p & Hp & E) (q & Hq & F). exists (p ++ q). split; [apply Forall_app; auto|].
  intros x Hx. rewrite E, F by auto. unfold poly. now rewrite map_app, total_app.
Qed.
Lemma poly_scal d n c u : polynomial d n u -> polynomial d n (fun x => c * u x).
Proof.
  intros (p & Hp & E). exists (map (fun t => (c * fst t, snd t)) p). split.
  - apply Forall_map. eapply Forall_impl; [|exact Hp]. auto.
  - intros x Hx. rewrite E by auto. unfold poly. rewrite map_map. cbn.
    rewrite <- total_scale, map_map. f_equal. apply map_ext. intros t. ring.
Qed.
Definition eadd (e f : list nat) : list nat := map (fun p => fst p + snd p)%nat (combine e f).
Lemma mono_mul e : forall f x, length e = length f -> mono e x * mono f x = mono (eadd e f) x.
Proof.
  unfold mono, eadd. induction e as [|a e IH]; intros [|b f] x H; try discriminate; [cbn; ring|].
  destruct x as [|y x]; [cbn; ring|]. cbn. rewrite <- IH by (cbn in H; lia). rewrite pow_add. ring.
Qed.
Lemma eadd_length e f : length e = length f -> length (eadd e f) = length e.
Proof. unfold eadd. rewrite map_length, combine_length. lia. Qed.
Lemma eadd_degree e : forall f, length e = length f -> degree (eadd e f) = (degree e + degree f)%nat.
Proof.
  unfold degree, eadd. induction e as [|a e IH]; intros [|b f] H; try discriminate; cbn; auto.
  rewrite IH by (cbn in H; lia). lia.
Qed.
Lemma poly_mul1 d n m c e q : length e = d -> (degree e <= n)%nat ->
  Forall (fun t => length (snd t) = d /\ (degree (snd t) <= m)%nat) q ->
  let r := map (fun t => (c * fst t, eadd e (snd t))) q in
  Forall (fun t => length (snd t) = d /\ (degree (snd t) <= n + m)%nat) r /\ forall x, poly r x = c * mono e x * poly q x.
Proof.
  intros He Hn Hq r. subst r. split.
  - apply Forall_map. eapply Forall_impl; [|exact Hq]. cbn. intros t [H1 H2].
    rewrite eadd_length, eadd_degree by congruence. split; auto; lia.
  - intros x. unfold poly. rewrite map_map. cbn. rewrite <- total_scale, map_map. f_equal. apply map_ext_in. intros t Ht.
    rewrite Forall_forall in Hq. destruct (Hq t Ht). rewrite <- mono_mul by congruence. ring.
Qed.
Lemma poly_mul d n m u v : polynomial d n u -> polynomial d m v -> polynomial d (n + m) (fun x => u x * v x).
Proof.
  intros (p & Hp & E) (q & Hq & F).
  assert (G : exists r, Forall (fun t => length (snd t) = d /\ (degree (snd t) <= n + m)%nat) r /\ forall x, poly r x = poly p x * poly q x).
  { clear E. induction Hp as [|[c e] p [H1 H2] Hp IH].
    - exists []. split; [constructor|]. intros x. unfold poly, total. cbn. ring.
    - destruct IH as (r & Hr & Er). destruct (poly_mul1 d n m c e q H1 H2 Hq) as [Hr' Er'].
      eexists (_ ++ r). split; [apply Forall_app; split; [exact Hr'|exact Hr]|].
      intros x. specialize (Er' x). specialize (Er x). unfold poly in *. rewrite map_app, total_app, Er', Er. cbn [map fst snd]. rewrite total_cons. ring. }
  destruct G as (r & Hr & Er). exists r. split; auto. intros x Hx. now rewrite E, F, Er.
Qed.
Lemma poly_pow d n k u : polynomial d n u -> polynomial d (k * n) (fun x => u x ^ k).
Proof.
  intros H. induction k as [|k IH]; cbn; [apply poly_const|]. now apply poly_mul.
Qed.
Lemma poly_ext d n u v : (forall x, is_vec d x -> u x = v x) -> polynomial d n v -> polynomial d n u.
Proof. intros H (p & Hp & E). exists p. split; auto. intros x Hx. now rewrite H, E. Qed.
Lemma nth_error_degree e : forall i v, nth_error e i = Some v -> (v <= degree e)%nat.
Proof.
  unfold degree. induction e as [|a e IH]; intros [|i] v H; cbn in *; try discriminate.
  - injection H as <-. lia.
  - specialize (IH i v H). lia.
Qed.
Lemma poly_coord d i : (i < d)%nat -> polynomial d 1 (fun x => nth i x 0).
Proof.
  intros Hi. exists [(1, repeat 0%nat i ++ 1%nat :: repeat 0%nat (d - i - 1))]. split.
  - constructor; [|constructor]. cbn [fst snd]. split.
    + rewrite app_length. cbn. rewrite !repeat_length. lia.
    + assert (E : forall k l, degree (repeat 0%nat k ++ l) = degree l) by (unfold degree; induction k; intros l; cbn; auto).
      rewrite E. unfold degree. cbn. assert (F : forall k, fold_right Nat.add 0%nat (repeat 0%nat k) = 0%nat) by (induction k; cbn; auto). rewrite F. lia.
  - intros x Hx. unfold is_vec in Hx. unfold poly, total. cbn [map fold_right fst snd]. rewrite Rplus_0_r, Rmult_1_l.
    assert (G : forall k y, mono (repeat 0%nat k) y = 1).
    { unfold mono. induction k; intros y; cbn; auto. destruct y; cbn; auto. rewrite IHk. ring. }
    assert (K : forall i x, (i < length x)%nat -> forall k, mono (repeat 0%nat i ++ 1%nat :: repeat 0%nat k) x = nth i x 0).
    { clear - G. induction i as [|i IH]; intros [|y x] H k; cbn in H; try lia.
      - unfold mono in *. cbn. rewrite G. ring.
      - unfold mono in *. cbn. rewrite IH by lia. ring. }
    symmetry. apply K. lia.
Qed.
(** a product of affine functions of the coordinates *)
Lemma poly_mono d e : forall F, length e = length F ->
  (forall i, (i < length F)%nat -> polynomial d 1 (fun x => nth i F (fun _ => 0) x)) ->
  polynomial d (degree e) (fun x => mono e (map (fun f => f x) F)).
Proof.
  induction e as [|a e IH]; intros [|f F] HL HF; try discriminate.
  - apply (poly_const d 0 1).
  - cbn in HL. eapply poly_ext with (v := fun x => f x ^ a * mono e (map (fun f => f x) F)).
    + intros x _. unfold mono. now cbn.
    + change (degree (a :: e)) with (a + degree e)%nat. apply poly_mul.
      * replace a with (a * 1)%nat at 1 by lia. apply poly_pow. apply (HF 0%nat). cbn. lia.
      * apply IH; [lia|]. intros i Hi. apply (HF (S i)). cbn. lia.
Qed.
Lemma poly_comp d n u F : polynomial d n u -> length F = d ->
  (forall i, (i < d)%nat -> polynomial d 1 (fun x => nth i F (fun _ => 0) x)) ->
  polynomial d n (fun x => u (map (fun f => f x) F)).
Proof.
  intros (p & Hp & E) HL HF.
  eapply poly_ext with (v := fun x => poly p (map (fun f => f x) F)).
  { intros x Hx. apply E. unfold is_vec. now rewrite map_length. }
  clear E. induction Hp as [|[c e] p [H1 H2] Hp IH].
  - apply (poly_const d n 0).
  - cbn in H1, H2. eapply poly_ext with (v := fun x => c * mono e (map (fun f => f x) F) + poly p (map (fun f => f x) F)); [now intros|].
    apply poly_add; auto. apply poly_scal. apply (poly_le d (degree e)); auto. apply poly_mono; [congruence|]. intros i Hi. apply HF. lia.
Qed.

(** * The affine map of a simplex *)
Ltac vec_cases := repeat match goal with
  | H : is_vec _ ?x |- _ => unfold is_vec in H
  | H : length ?x = _ |- _ => first [is_var x]; destruct x; cbn [length] in H; try discriminate H
  | H : Forall _ (_ :: _) |- _ => inversion H; subst; clear H
  | H : S _ = S _ |- _ => apply Nat.succ_inj in H
  end.
Definition dims (d : nat) : Prop := (d = 1 \/ d = 2 \/ d = 3)%nat.
Definition column (P : list (list R)) (k : nat) : list R := vsub (nth (S k) P []) (nth 0 P []).
Definition unit_vec (d k : nat) : list R := map (fun j => if Nat.eqb j k then 1 else 0) (seq 0 d).

Lemma image_vec d P x : dims d -> length P = S d -> Forall (is_vec d) P -> is_vec d x -> is_vec d (image d P x).
Proof. intros [-> | [-> | ->]] HP HF Hx; vec_cases; reflexivity. Qed.
Lemma image_step d P x k t : dims d -> length P = S d -> Forall (is_vec d) P -> is_vec d x -> (k < d)%nat ->
  image d P (vadd x (vscale t (unit_vec d k))) = vadd (image d P x) (vscale t (column P k)).
Proof.
  intros [-> | [-> | ->]] HP HF Hx Hk; vec_cases; unfold image, comb, bary, total; do 3 (destruct k as [|k]; [try lia; cbn; repeat (apply cons_eq; [ring|]); reflexivity|]); lia.
Qed.
Lemma column_vec d P k : dims d -> length P = S d -> Forall (is_vec d) P -> (k < d)%nat -> is_vec d (column P k).
Proof. intros [-> | [-> | ->]] HP HF Hk; vec_cases; do 3 (destruct k as [|k]; [try lia; reflexivity|]); lia. Qed.
Lemma map_nth_seq (l : list R) : map (fun m => nth m l 0) (seq 0 (length l)) = l.
Proof. induction l as [|a l IH]; [reflexivity|]. cbn. rewrite <- IH at 2. now rewrite <- seq_shift, map_map. Qed.
Lemma poly_image d n P u : dims d -> length P = S d -> Forall (is_vec d) P -> polynomial d n u -> polynomial d n (fun x => u (image d P x)).
Proof.
  intros Hd HP HF Hu.
  apply poly_ext with (v := fun x => u (map (fun f => f x) (map (fun m x => nth m (image d P x) 0) (seq 0 d)))).
  - intros x Hx. f_equal. assert (Hi := image_vec d P x Hd HP HF Hx). unfold is_vec in Hi. rewrite map_map. replace (seq 0 d) with (seq 0 (length (image d P x))) by now rewrite Hi. now rewrite map_nth_seq.
  - apply poly_comp; auto; [now rewrite map_length, seq_length|].
    intros i Hi. rewrite nth_indep with (d' := (fun x : list R => nth i (image d P x) 0)) by (rewrite map_length, seq_length; auto).
    change (fun x : list R => nth i (image d P x) 0) with ((fun m => fun x : list R => nth m (image d P x) 0) i).
    rewrite map_nth, seq_nth by auto. cbn [Nat.add].
    assert (K : forall c l, length l = d -> polynomial d 1 (fun x => c + dot l x)).
    { intros c l HL. apply poly_add; [apply poly_const|]. revert HL. destruct Hd as [-> | [-> | ->]]; intros HL.
      - destruct l as [|l0 [|]]; try discriminate. apply poly_ext with (v := fun x => l0 * nth 0 x 0).
        + intros x Hx. vec_cases. unfold dot, total. cbn. ring.
        + apply poly_scal, poly_coord. lia.
      - destruct l as [|l0 [|l1 [|]]]; try discriminate. apply poly_ext with (v := fun x => l0 * nth 0 x 0 + l1 * nth 1 x 0).
        + intros x Hx. vec_cases. unfold dot, total. cbn. ring.
        + apply poly_add; apply poly_scal, poly_coord; lia.
      - destruct l as [|l0 [|l1 [|l2 [|]]]]; try discriminate. apply poly_ext with (v := fun x => l0 * nth 0 x 0 + (l1 * nth 1 x 0 + l2 * nth 2 x 0)).
        + intros x Hx. vec_cases. unfold dot, total. cbn. ring.
        + repeat apply poly_add; apply poly_scal, poly_coord; lia. }
    apply poly_ext with (v := fun x => nth i (nth 0 P []) 0 + dot (map (fun k => nth i (column P k) 0) (seq 0 d)) x).
    + intros x Hx. unfold is_vec in Hx. clear K Hu u. destruct Hd as [-> | [-> | ->]]; vec_cases;
        do 3 (destruct i as [|i]; [try lia; unfold dot, column, vsub, image, comb, bary, vadd, vscale, total; cbn; ring|]); lia.
    + apply K. now rewrite map_length, seq_length.
Qed.

(** * Derivatives along the axes of the reference simplex *)
Lemma dlim_shift h c v : derivable_pt_lim h c v <-> derivable_pt_lim (fun t => h (c + t)) 0 v.
Proof.
  unfold derivable_pt_lim. split; intros H eps He; destruct (H eps He) as (dl & Hd); exists dl; intros e H1 H2; specialize (Hd e H1 H2).
  - now rewrite Rplus_0_l, Rplus_0_r.
  - now rewrite Rplus_0_l, Rplus_0_r in Hd.
Qed.
Lemma axis_step d x k t : dims d -> is_vec d x -> (k < d)%nat -> vadd x (vscale t (unit_vec d k)) = with_coord x k (nth k x 0 + t).
Proof.
  intros [-> | [-> | ->]] Hx Hk; vec_cases; do 3 (destruct k as [|k]; [try lia; cbn; repeat (apply cons_eq; [ring|]); reflexivity|]); lia.
Qed.
Lemma axis_partial d f x k v : dims d -> is_vec d x -> (k < d)%nat ->
  derivable_pt_lim (fun t => f (vadd x (vscale t (unit_vec d k)))) 0 v <-> partial f k x v.
Proof.
  intros Hd Hx Hk. unfold partial. rewrite (dlim_shift (fun t => f (with_coord x k t))). split; apply dlim_ext; intros t; now rewrite (axis_step d).
Qed.
Lemma local_gradient d P u g x k : dims d -> length P = S d -> Forall (is_vec d) P -> gradient d u g -> is_vec d x -> (k < d)%nat ->
  partial (fun y => u (image d P y)) k x (dot (g (image d P x)) (column P k)).
Proof.
  intros Hd HP HF Hg Hx Hk. apply (axis_partial d); auto.
  eapply dlim_ext; [intros t; rewrite image_step by auto; reflexivity|].
  apply Hg; [now apply image_vec|now apply column_vec].
Qed.
Lemma partial_unique f k x v v' : partial f k x v -> partial f k x v' -> v = v'.
Proof. apply uniqueness_limite. Qed.
Lemma with_coord_vec d x k t : is_vec d x -> (k < d)%nat -> is_vec d (with_coord x k t).
Proof. unfold is_vec, with_coord. intros H Hk. rewrite app_length, firstn_length. cbn [length]. rewrite skipn_length. lia. Qed.

(** the k-th partial derivative of a monomial *)
Definition dmono (e : list nat) (k : nat) (x : list R) : R :=
  match upd (map pw e) k (pd (nth k e 0%nat)) with Some fs => gen fs x | None => 0 end.
Definition dpoly (p : list (R * list nat)) (k : nat) (x : list R) : R := total (map (fun t => fst t * dmono (snd t) k x) p).
Lemma dmono_partial e k x : length e = length x -> (k < length x)%nat -> partial (mono e) k x (dmono e k x).
Proof.
  intros HL Hk. unfold dmono. destruct (nth_error_lt_Some e k) as [n Hn]; [lia|].
  destruct (upd (map pw e) k (pd (nth k e 0%nat))) as [fs|] eqn:Hf; [|apply upd_None in Hf; rewrite map_length in Hf; lia].
  apply nth_error_nth with (d := 0%nat) in Hn as Hn'. rewrite Hn' in Hf. eapply mono_partial; eauto.
Qed.
Lemma partial_sum {A} (l : list A) (f : A -> list R -> R) (df : A -> R) k x : (forall a, In a l -> partial (f a) k x (df a)) ->
  partial (fun z => total (map (fun a => f a z) l)) k x (total (map df l)).
Proof.
  unfold partial. induction l as [|a l IH]; intros H; cbn [map].
  - apply dlim_ext with (g := fct_cte 0); [reflexivity|]. apply derivable_pt_lim_const.
  - rewrite total_cons. eapply dlim_ext with (g := plus_fct (fun t => f a (with_coord x k t)) (fun t => total (map (fun a => f a (with_coord x k t)) l))).
    + intros t. unfold plus_fct. now rewrite total_cons.
    + apply derivable_pt_lim_plus; [apply H; now left|]. apply IH. intros b Hb. apply H. now right.
Qed.
Lemma partial_scal c f k x v : partial f k x v -> partial (fun z => c * f z) k x (c * v).
Proof. unfold partial. intros H. apply derivable_pt_lim_scal with (f := fun t => f (with_coord x k t)). exact H. Qed.
Lemma poly_partial d p k x : Forall (fun t => length (snd t) = d) p -> is_vec d x -> (k < d)%nat ->
  partial (poly p) k x (dpoly p k x).
Proof.
  intros Hp Hx Hk. unfold is_vec in Hx. apply (partial_sum p (fun t z => fst t * mono (snd t) z) (fun t => fst t * dmono (snd t) k x)).
  intros t Ht. rewrite Forall_forall in Hp. apply partial_scal, dmono_partial; rewrite ?Hp; auto; lia.
Qed.
(** partial derivatives of linear combinations *)
Lemma partial_dot c : forall fs (dfs : list R) k x, length fs = length dfs ->
  (forall i f v, nth_error fs i = Some f -> nth_error dfs i = Some v -> partial f k x v) ->
  partial (fun z => dot c (map (fun f => f z) fs)) k x (dot c dfs).
Proof.
  induction c as [|a c IH]; intros fs dfs k x HL H.
  - unfold dot. cbn. apply (dlim_ext _ (fct_cte 0)); [reflexivity|]. apply derivable_pt_lim_const.
  - destruct fs as [|f fs], dfs as [|v dfs]; try discriminate.
    + unfold dot. cbn. apply (dlim_ext _ (fct_cte 0)); [reflexivity|]. apply derivable_pt_lim_const.
    + unfold dot. cbn [map combine]. rewrite total_cons. unfold partial.
      eapply dlim_ext with (g := plus_fct (fun t => a * f (with_coord x k t)) (fun t => dot c (map (fun f => f (with_coord x k t)) fs))).
      * intros t. unfold plus_fct. cbn [map combine]. now rewrite total_cons.
      * apply derivable_pt_lim_plus.
        -- apply derivable_pt_lim_scal with (f := fun t => f (with_coord x k t)). now apply (H 0%nat).
        -- apply IH; [cbn in HL; lia|]. intros i f' v'. apply (H (S i)).
Qed.
