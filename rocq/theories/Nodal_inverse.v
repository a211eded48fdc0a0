(** Polynomials have gradients and Hessians; the affine map of a simplex has an inverse. *)
From Coq Require Import Reals Lra Lia List Arith.
From Verif Require Import Lib MonomialSet_spec MonomialSet_props Nodal_spec Nodal_poly Nodal_rat.
Import ListNotations.
Local Open Scope R_scope.
#[local] Arguments mono : simpl never.
#[local] Arguments degree : simpl never.
#[local] Arguments total : simpl never.

(** * Gradients of polynomials *)
Fixpoint dec (m : nat) (e : list nat) : list nat :=
  match e with
  | [] => []
  | n :: e => match m with O => (n - 1)%nat :: e | S m => n :: dec m e end
  end.
Lemma dec_length e : forall m, length (dec m e) = length e.
Proof. induction e as [|n e IH]; intros [|m]; cbn; auto. Qed.
Lemma dec_degree e : forall m, (degree (dec m e) <= degree e)%nat.
Proof. unfold degree. induction e as [|n e IH]; intros [|m]; cbn; try lia. specialize (IH m). lia. Qed.
Fixpoint gmono (e : list nat) (z : list R) : list R :=
  match e, z with
  | n :: e, a :: z => (pd n a * mono e z) :: vscale (a ^ n) (gmono e z)
  | _, _ => []
  end.
Lemma mono_cons n e a z : mono (n :: e) (a :: z) = a ^ n * mono e z. Proof. reflexivity. Qed.
Lemma gmono_length e : forall z, length e = length z -> length (gmono e z) = length z.
Proof. induction e as [|n e IH]; intros [|a z] H; cbn in *; try lia. rewrite vscale_length, IH; lia. Qed.
Lemma nth_vscale t l m : nth m (vscale t l) 0 = t * nth m l 0.
Proof. unfold vscale. replace 0 with (t * 0) at 1 by ring. now rewrite map_nth. Qed.
Lemma gmono_nth e : forall z m, length e = length z -> (m < length z)%nat -> nth m (gmono e z) 0 = INR (nth m e 0%nat) * mono (dec m e) z.
Proof.
  induction e as [|n e IH]; intros [|a z] [|m] H Hm; cbn [length] in *; try lia; cbn [gmono nth dec].
  - rewrite mono_cons. unfold pd. rewrite <- Rmult_assoc. reflexivity.
  - rewrite nth_vscale, IH, mono_cons by lia. ring.
Qed.
Lemma line_dlim a b x : derivable_pt_lim (fun t => a + t * b) x b.
Proof.
  apply (dlim_ext _ (plus_fct (fct_cte a) (mult_fct id (fct_cte b)))); [reflexivity|].
  replace b with (0 + (1 * fct_cte b x + id x * 0)) at 2 by (unfold fct_cte, id; ring).
  apply derivable_pt_lim_plus; [apply derivable_pt_lim_const|].
  apply derivable_pt_lim_mult; [apply derivable_pt_lim_id|apply derivable_pt_lim_const].
Qed.
Lemma gmono_dlim e : forall z w, length e = length z -> length w = length z ->
  derivable_pt_lim (fun t => mono e (vadd z (vscale t w))) 0 (dot (gmono e z) w).
Proof.
  induction e as [|n e IH]; intros [|a z] [|b w] H Hw; cbn [length] in *; try lia.
  - cbn [gmono]. rewrite dot_nil_l. apply (dlim_ext _ (fct_cte 1)); [reflexivity|]. apply derivable_pt_lim_const.
  - cbn [gmono]. rewrite dot_cons, dot_vscale.
    apply (dlim_ext _ (mult_fct (fun t => (a + t * b) ^ n) (fun t => mono e (vadd z (vscale t w))))).
    { intros t. reflexivity. }
    replace (pd n a * mono e z * b + a ^ n * dot (gmono e z) w)
      with ((pd n a * b) * mono e (vadd z (vscale 0 w)) + (a + 0 * b) ^ n * dot (gmono e z) w).
    + apply derivable_pt_lim_mult; [|apply IH; lia].
      apply (dlim_ext _ (comp (fun y => y ^ n) (fun t => a + t * b))); [reflexivity|].
      replace (pd n a * b) with (pd n a * b) by ring. unfold pd. apply derivable_pt_lim_comp.
      * apply line_dlim.
      * replace (a + 0 * b) with a by ring. replace (n - 1)%nat with (pred n) by lia. apply derivable_pt_lim_pow.
    + replace (a + 0 * b) with a by ring. replace (vadd z (vscale 0 w)) with z; [ring|].
      clear - Hw. assert (length w = length z) by lia. clear Hw. revert w H. induction z as [|x z IH]; intros [|y w] H; cbn in *; try lia; [reflexivity|].
      unfold vadd, vscale. cbn. apply cons_eq; [ring|]. apply IH. lia.
Qed.
Definition dterm (m : nat) (p : list (R * list nat)) : list (R * list nat) :=
  map (fun t => (fst t * INR (nth m (snd t) 0%nat), dec m (snd t))) p.
Definition pgrad (d : nat) (p : list (R * list nat)) (z : list R) : list R := map (fun m => poly (dterm m p) z) (seq 0 d).
Lemma dterm_ok d n p m : Forall (fun t => length (snd t) = d /\ (degree (snd t) <= n)%nat) p ->
  Forall (fun t => length (snd t) = d /\ (degree (snd t) <= n)%nat) (dterm m p).
Proof.
  intros H. apply Forall_map. eapply Forall_impl; [|exact H]. cbn. intros t [A B]. rewrite dec_length. split; auto.
  pose proof (dec_degree (snd t) m). lia.
Qed.
Lemma pgrad_vec d p z : is_vec d (pgrad d p z).
Proof. unfold is_vec, pgrad. now rewrite map_length, seq_length. Qed.
Lemma nth_pgrad d p z m : (m < d)%nat -> nth m (pgrad d p z) 0 = poly (dterm m p) z.
Proof. intros H. unfold pgrad. rewrite (nth_indep _ 0 (poly (dterm 0 p) z)) by (rewrite map_length, seq_length; auto).
  rewrite (map_nth (fun m => poly (dterm m p) z)), seq_nth by auto. reflexivity. Qed.
Lemma vadd_vec d a b : is_vec d a -> is_vec d b -> is_vec d (vadd a b).
Proof. unfold is_vec. intros A B. rewrite vadd_length. lia. Qed.
Lemma vscale_vec d t a : is_vec d a -> is_vec d (vscale t a).
Proof. unfold is_vec. now rewrite vscale_length. Qed.
Lemma dlim_total {A} (l : list A) (f : A -> R -> R) (df : A -> R) x :
  (forall a, In a l -> derivable_pt_lim (f a) x (df a)) ->
  derivable_pt_lim (fun t => total (map (fun a => f a t) l)) x (total (map df l)).
Proof.
  induction l as [|a l IH]; intros H; cbn [map].
  - apply (dlim_ext _ (fct_cte 0)); [reflexivity|]. apply derivable_pt_lim_const.
  - rewrite total_cons. apply (dlim_ext _ (plus_fct (f a) (fun t => total (map (fun a => f a t) l)))); [intros t; now rewrite total_cons|].
    apply derivable_pt_lim_plus; [apply H; now left|]. apply IH. intros b Hb. apply H. now right.
Qed.
Lemma pgrad_dot d p z w : Forall (fun t => length (snd t) = d) p -> is_vec d z -> is_vec d w ->
  dot (pgrad d p z) w = total (map (fun t => fst t * dot (gmono (snd t) z) w) p).
Proof.
  intros Hp Hz Hw. induction Hp as [|[c e] p He Hp IH].
  - cbn [map]. assert (E : pgrad d [] z = repeat 0 d).
    { unfold pgrad, dterm. cbn [map]. change (poly [] z) with 0. clear. generalize 0%nat. induction d as [|d IH]; intros k; cbn; [reflexivity|]. now rewrite IH. }
    rewrite E. apply dot_repeat0.
  - cbn [map fst snd] in *. rewrite total_cons, <- IH.
    assert (E : pgrad d ((c, e) :: p) z = vadd (vscale c (gmono e z)) (pgrad d p z)).
    { unfold is_vec in *. apply (nth_ext _ _ 0 0).
      - rewrite vadd_length, vscale_length, gmono_length by lia. unfold pgrad. rewrite !map_length, seq_length. lia.
      - intros m Hm. unfold pgrad in Hm. rewrite map_length, seq_length in Hm. rewrite nth_pgrad by auto.
        assert (N : forall (a b : list R), length a = d -> length b = d -> nth m (vadd a b) 0 = nth m a 0 + nth m b 0).
        { clear - Hm. intros a b Ha Hb. revert m d b Hm Ha Hb. induction a as [|x a IH]; intros m d b Hm Ha Hb; cbn in *; [lia|]. destruct b as [|y b]; cbn in *; [lia|].
          destruct m as [|m]; [reflexivity|]. cbn. destruct d as [|d]; [lia|]. apply (IH m d); lia. }
        rewrite N; [|rewrite vscale_length, gmono_length; lia|apply pgrad_vec]. rewrite nth_vscale, gmono_nth, nth_pgrad by lia.
        unfold poly, dterm. cbn [map fst snd]. rewrite total_cons. ring. }
    rewrite E, dot_vadd, dot_vscale; [reflexivity| |].
    + rewrite vscale_length, gmono_length; unfold is_vec in *; lia.
    + rewrite Hw. apply pgrad_vec.
Qed.
Lemma poly_gradient d p : Forall (fun t => length (snd t) = d) p -> gradient d (poly p) (pgrad d p).
Proof.
  intros Hp z Hz. split; [apply pgrad_vec|]. intros w Hw. rewrite pgrad_dot by auto. unfold poly.
  apply (dlim_total p (fun a t => fst a * mono (snd a) (vadd z (vscale t w)))). intros [c e] Ht. cbn [fst snd].
  apply (derivable_pt_lim_scal (fun t => mono e (vadd z (vscale t w)))). rewrite Forall_forall in Hp. specialize (Hp _ Ht). cbn in Hp. unfold is_vec in *.
  apply gmono_dlim; lia.
Qed.
Lemma gradient_ext d u v g : (forall z, is_vec d z -> u z = v z) -> gradient d v g -> gradient d u g.
Proof.
  intros E G z Hz. destruct (G z Hz) as [A B]. split; auto. intros w Hw. eapply dlim_ext; [|apply (B w Hw)].
  intros t. cbn. apply E. apply vadd_vec; auto. now apply vscale_vec.
Qed.
(** A polynomial has a gradient and a Hessian. *)
Lemma polynomial_gradient d n u : polynomial d n u -> exists g H, gradient d u g /\ hessian d g H.
Proof.
  intros (p & Hp & E). exists (pgrad d p), (fun z => map (fun m => pgrad d (dterm m p) z) (seq 0 d)). split.
  - apply (gradient_ext d u (poly p)); auto. apply poly_gradient. eapply Forall_impl; [|exact Hp]. cbn. tauto.
  - intros m Hm. assert (G : gradient d (poly (dterm m p)) (pgrad d (dterm m p))).
    { apply poly_gradient. eapply Forall_impl; [|apply (dterm_ok d n p m Hp)]. cbn. tauto. }
    apply (gradient_ext d _ (poly (dterm m p))). { intros z _. now apply nth_pgrad. }
    intros z Hz. rewrite (nth_indep _ [] (pgrad d (dterm 0 p) z)) by (rewrite map_length, seq_length; auto).
    rewrite (map_nth (fun m => pgrad d (dterm m p) z)), seq_nth by auto. now apply G.
Qed.

(** * The inverse of the affine map of a simplex *)
Lemma affine_poly d c l : dims d -> length l = d -> polynomial d 1 (fun x => c + dot l x).
Proof.
  intros Hd HL. apply poly_add; [apply poly_const|]. destruct Hd as [-> | [-> | ->]].
  - destruct l as [|l0 [|]]; try discriminate. apply poly_ext with (v := fun x => l0 * nth 0 x 0).
    + intros x Hx. vec_cases. unfold dot, total. cbn. ring.
    + apply poly_scal, poly_coord. lia.
  - destruct l as [|l0 [|l1 [|]]]; try discriminate. apply poly_ext with (v := fun x => l0 * nth 0 x 0 + l1 * nth 1 x 0).
    + intros x Hx. vec_cases. unfold dot, total. cbn. ring.
    + apply poly_add; apply poly_scal, poly_coord; lia.
  - destruct l as [|l0 [|l1 [|l2 [|]]]]; try discriminate. apply poly_ext with (v := fun x => l0 * nth 0 x 0 + (l1 * nth 1 x 0 + l2 * nth 2 x 0)).
    + intros x Hx. vec_cases. unfold dot, total. cbn. ring.
    + repeat apply poly_add; apply poly_scal, poly_coord; lia.
Qed.
(** M lists the rows of a matrix that undoes the linear part. *)
Definition undoes (d : nat) (P M : list (list R)) : Prop :=
  length M = d /\ Forall (is_vec d) M /\
  (forall x, is_vec d x -> map (fun row => dot row (vsub (image d P x) (nth 0 P []))) M = x) /\
  forall z, is_vec d z -> image d P (map (fun row => dot row (vsub z (nth 0 P []))) M) = z.
Lemma det2 a b c e : (forall g0 g1, g0 * a + g1 * b = 0 -> g0 * c + g1 * e = 0 -> g0 = 0 /\ g1 = 0) -> a * e - b * c <> 0.
Proof.
  intros H D. destruct (H (- b) a ltac:(ring) ltac:(lra)). destruct (H (- e) c ltac:(lra) ltac:(ring)).
  destruct (H 1 0) as [Q _]; lra.
Qed.
Lemma det3 a1 a2 a3 b1 b2 b3 c1 c2 c3 :
  (forall g1 g2 g3, g1 * a1 + g2 * a2 + g3 * a3 = 0 -> g1 * b1 + g2 * b2 + g3 * b3 = 0 -> g1 * c1 + g2 * c2 + g3 * c3 = 0 -> g1 = 0 /\ g2 = 0 /\ g3 = 0) ->
  a1 * (b2 * c3 - b3 * c2) + a2 * (b3 * c1 - b1 * c3) + a3 * (b1 * c2 - b2 * c1) <> 0.
Proof.
  intros H D.
  destruct (H (b2 * c3 - b3 * c2) (b3 * c1 - b1 * c3) (b1 * c2 - b2 * c1)) as (X1 & X2 & X3); [rewrite <- D; ring|ring|ring|].
  destruct (H (c2 * a3 - c3 * a2) (c3 * a1 - c1 * a3) (c1 * a2 - c2 * a1)) as (Y1 & Y2 & Y3); [ring|rewrite <- D; ring|ring|].
  destruct (H (a2 * b3 - a3 * b2) (a3 * b1 - a1 * b3) (a1 * b2 - a2 * b1)) as (Z1 & Z2 & Z3); [ring|ring|rewrite <- D; ring|].
  destruct (H 0 a3 (- a2)) as (_ & A3 & A2); [ring|lra|lra|].
  destruct (H a2 (- a1) 0) as (_ & A1 & _); [ring|lra|lra|].
  destruct (H 0 b3 (- b2)) as (_ & B3 & B2); [lra|ring|lra|].
  destruct (H b2 (- b1) 0) as (_ & B1 & _); [lra|ring|lra|].
  destruct (H 0 c3 (- c2)) as (_ & C3 & C2); [lra|lra|ring|].
  destruct (H c2 (- c1) 0) as (_ & C1 & _); [lra|lra|ring|].
  destruct (H 1 0 0) as (Q & _); lra.
Qed.

Definition c3 (x y : list R) : list R :=
  [nth 1 x 0 * nth 2 y 0 - nth 2 x 0 * nth 1 y 0; nth 2 x 0 * nth 0 y 0 - nth 0 x 0 * nth 2 y 0; nth 0 x 0 * nth 1 y 0 - nth 1 x 0 * nth 0 y 0].
Lemma vec1 p : is_vec 1 p -> exists a, p = [a].
Proof. destruct p as [|a [|]]; intros H; try discriminate H. now exists a. Qed.
Lemma vec2 p : is_vec 2 p -> exists a b, p = [a; b].
Proof. destruct p as [|a [|b [|]]]; intros H; try discriminate H. now exists a, b. Qed.
Lemma vec3 p : is_vec 3 p -> exists a b c, p = [a; b; c].
Proof. destruct p as [|a [|b [|c [|]]]]; intros H; try discriminate H. now exists a, b, c. Qed.
Lemma inverse d P : dims d -> simplex d P -> exists M, undoes d P M.
Proof.
  intros Hd (HL & HF & HO). destruct Hd as [-> | [-> | ->]].
  - destruct P as [|p [|q [|]]]; try discriminate HL. inversion HF as [|? ? Hp HF1]; subst. inversion HF1 as [|? ? Hq _]; subst. clear HF HF1.
    apply vec1 in Hp as (p0 & ->). apply vec1 in Hq as (q0 & ->).
    assert (D : q0 - p0 <> 0).
    { intros D. specialize (HO [1] eq_refl). assert ([1] = repeat 0 1); [|injection H; lra]. apply HO. intros [|[|i]] Hi; [| |lia]; unfold dot, total; cbn; lra. }
    exists [[/ (q0 - p0)]]. split; [reflexivity|]. split; [repeat constructor|]. split; intros x Hx; vec_cases; unfold image, comb, bary, dot, vsub, vadd, vscale, total; cbn;
      (apply cons_eq; [field; auto|reflexivity]).
  - destruct P as [|p [|q [|r [|]]]]; try discriminate HL. inversion HF as [|? ? Hp HF1]; subst. inversion HF1 as [|? ? Hq HF2]; subst. inversion HF2 as [|? ? Hr _]; subst. clear HF HF1 HF2.
    apply vec2 in Hp as (p0 & p1 & ->). apply vec2 in Hq as (q0 & q1 & ->). apply vec2 in Hr as (r0 & r1 & ->).
    assert (D : (q0 - p0) * (r1 - p1) - (q1 - p1) * (r0 - p0) <> 0).
    { apply det2. intros g0 g1 A B. specialize (HO [g0; g1] eq_refl). assert ([g0; g1] = repeat 0 2); [|injection H; auto].
      apply HO. intros [|[|[|i]]] Hi; [| | |lia]; unfold dot, total; cbn; lra. }
    set (D0 := (q0 - p0) * (r1 - p1) - (q1 - p1) * (r0 - p0)) in *.
    exists [[(r1 - p1) / D0; - (r0 - p0) / D0]; [- (q1 - p1) / D0; (q0 - p0) / D0]]. split; [reflexivity|]. split; [repeat constructor|].
    split; intros x Hx; vec_cases; unfold image, comb, bary, dot, vsub, vadd, vscale, total; cbn;
      (apply cons_eq; [unfold D0 in *; field; auto|apply cons_eq; [unfold D0 in *; field; auto|reflexivity]]).
  - destruct P as [|p [|q [|r [|s [|]]]]]; try discriminate HL. inversion HF as [|? ? Hp HF1]; subst. inversion HF1 as [|? ? Hq HF2]; subst. inversion HF2 as [|? ? Hr HF3]; subst. inversion HF3 as [|? ? Hs _]; subst. clear HF HF1 HF2 HF3.
    apply vec3 in Hp as (p0 & p1 & p2 & ->). apply vec3 in Hq as (q0 & q1 & q2 & ->). apply vec3 in Hr as (r0 & r1 & r2 & ->). apply vec3 in Hs as (s0 & s1 & s2 & ->).
    set (a0 := q0 - p0). set (a1 := q1 - p1). set (a2 := q2 - p2).
    set (b0 := r0 - p0). set (b1 := r1 - p1). set (b2 := r2 - p2).
    set (e0 := s0 - p0). set (e1 := s1 - p1). set (e2 := s2 - p2).
    assert (D : a0 * (b1 * e2 - b2 * e1) + a1 * (b2 * e0 - b0 * e2) + a2 * (b0 * e1 - b1 * e0) <> 0).
    { apply det3. intros g0 g1 g2 A B C. specialize (HO [g0; g1; g2] eq_refl). assert ([g0; g1; g2] = repeat 0 3); [|injection H; auto].
      apply HO. intros [|[|[|[|i]]]] Hi; [| | | |lia]; unfold dot, total; cbn; fold a0 a1 a2 b0 b1 b2 e0 e1 e2; lra. }
    set (D0 := a0 * (b1 * e2 - b2 * e1) + a1 * (b2 * e0 - b0 * e2) + a2 * (b0 * e1 - b1 * e0)) in *.
    exists (map (vscale (/ D0)) [c3 [b0; b1; b2] [e0; e1; e2]; c3 [e0; e1; e2] [a0; a1; a2]; c3 [a0; a1; a2] [b0; b1; b2]]).
    split; [reflexivity|]. split; [repeat constructor|].
    split; intros x Hx; vec_cases; unfold image, comb, bary, dot, vsub, vadd, vscale, total; cbn;
      (repeat (apply cons_eq; [unfold D0, a0, a1, a2, b0, b1, b2, e0, e1, e2 in *; field; auto|]); reflexivity).
Qed.
