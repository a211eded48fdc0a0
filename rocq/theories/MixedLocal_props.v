(** C104: the local assemblers of the mixed Poisson example. *)
From Coq Require Import List Arith Lia Bool Reals Lra.
From Verif Require Import Lib Basis_model Basis_spec Basis_ok Basis_view Basis_proofs Basis_props DiscreteFunction_model DiscreteFunction_proofs
  Assembly_proofs Assembly_props Stokes_spec Stokes_props LocalAssembler_model LocalAssembler_spec LocalAssembler_props StokesLocal_model StokesLocal_props
  MixedLocal_model MixedLocal_spec.
Import ListNotations.

Definition lin (n : nat) (w y : nat -> R) : R := rsum n (fun r => (w r * y r)%R).
Lemma dense_vec_add_lin n a x y : a < n -> exists y', dense_vec_add n a x y = Some y' /\ forall w, lin n w y' = (lin n w y + w a * x)%R.
Proof.
  intros Ha. unfold dense_vec_add. rewrite (proj2 (Nat.ltb_lt _ _) Ha). eexists. split; [reflexivity|]. intros w. unfold lin.
  rewrite <- (rsum_pick1 n a (fun r => (w r * x)%R) Ha), <- rsum_plus. apply rsum_ext. intros r _. destruct (r =? a); lra.
Qed.
Lemma forl_lin N n (body : nat -> (nat -> R) -> option (nat -> R)) (t : (nat -> R) -> nat -> R) :
  (forall i y, i < n -> exists y', body i y = Some y' /\ forall w, lin N w y' = (lin N w y + t w i)%R) ->
  forall y, exists y', forl n 0 body y = Some y' /\ forall w, lin N w y' = (lin N w y + rsum n (t w))%R.
Proof.
  intros H y. destruct (forl_inv (fun k y' => forall w, lin N w y' = (lin N w y + rsum k (t w))%R) n 0 body y) as (y' & Q & P).
  - intros w. rewrite rsum_0. lra.
  - intros i y1 Hi A. destruct (H i y1 ltac:(lia)) as (y2 & Q & B). exists y2. split; [exact Q|]. intros w. rewrite B, A, Nat.add_1_r, rsum_S. lra.
  - exists y'. split; [exact Q|exact P].
Qed.

Section Proofs.
Context {E X : Type}.
Variables (dim : nat) (rt p : leaf E) (els : E -> Prop) (quad quadb : E -> list (X * R)).
Variables (flux : E -> X -> nat -> nat -> R) (fluxj : E -> X -> nat -> nat -> nat -> R) (jinv : E -> X -> nat -> nat -> R)
  (ie : E -> X -> R) (psi : E -> X -> nat -> R) (f : E -> X -> R).
Notation b := (mixed_basis rt p).
Hypotheses (Hr : leaf_ok els rt) (Hp : leaf_ok els p).

Lemma mixed_wf : wf els b.
Proof. cbn. split; [discriminate|]. auto. Qed.
Lemma mixed_indices e : els e -> indices b e = map (fun g => [0; g]) (lf_indices rt e) ++ map (fun g => [1; g]) (lf_indices p e).
Proof.
  intros He. pose proof (build_ok b els mixed_wf) as OK. unfold indices. rewrite (bind_new_ok els _ _ e OK He).
  set (l := map (sp_glob (meaning b)) (sp_keys (meaning b) e)).
  assert (S : lv_size (LV (Some e) (bind_tree e 0 (fst (init_tree 0 (pb_node (build b))))) l) = length l).
  { unfold l. rewrite map_length. apply (ok_nsize _ _ _ OK _ e 0 He (new_skel _)). }
  rewrite S. unfold lv_index. cbn [lv_indices].
  transitivity l.
  - clear S. clearbody l. apply (nth_ext _ _ [] []); rewrite map_length, seq_length; [reflexivity|]. intros i Hi. set (g := fun i : nat => _).
    rewrite (nth_indep _ [] (g 0)) by (rewrite map_length, seq_length; exact Hi). rewrite map_nth, seq_nth by exact Hi. unfold g. cbn [Nat.add].
    rewrite (nth_error_nth' l [] Hi). reflexivity.
  - unfold l. cbn. rewrite app_nil_r, map_app. f_equal; rewrite !map_map; reflexivity.
Qed.
Lemma index_flux e i : els e -> i < lf_fe rt e -> index_at b e i = [0; nth i (lf_indices rt e) 0].
Proof.
  intros He Hi. unfold index_at. rewrite mixed_indices by auto. pose proof (lok_size _ _ Hr e He) as L. rewrite app_nth1 by (rewrite map_length; lia).
  rewrite (nth_indep _ [] [0; 0]) by (rewrite map_length; lia). now rewrite (map_nth (fun g => [0; g])).
Qed.
Lemma index_mixed_pressure e j : els e -> j < lf_fe p e -> index_at b e (lf_fe rt e + j) = [1; nth j (lf_indices p e) 0].
Proof.
  intros He Hj. unfold index_at. rewrite mixed_indices by auto. pose proof (lok_size _ _ Hr e He) as L. pose proof (lok_size _ _ Hp e He) as L'.
  rewrite app_nth2 by (rewrite map_length; lia). rewrite map_length, L, Nat.add_comm, Nat.add_sub.
  rewrite (nth_indep _ [] [1; 0]) by (rewrite map_length; lia). now rewrite (map_nth (fun g => [1; g])).
Qed.
Lemma mixed_children w w' e : skel (lv_tree w) = skel (pb_node (build b)) -> lv_bind (build b) w e = Some w' ->
  lv_size w' = lf_fe rt e + lf_fe p e /\
  fe_size w' [0] = Some (lf_fe rt e) /\ fe_size w' [1] = Some (lf_fe p e) /\
  (forall i, i < lf_fe rt e -> at_child w' [0] i = Some i) /\ (forall j, j < lf_fe p e -> at_child w' [1] j = Some (lf_fe rt e + j)).
Proof.
  intros F B. assert (T : lv_tree w' = bind_tree e 0 (lv_tree w)).
  { unfold lv_bind in B. destruct (pb_indices _ _ _ _) as [[b' ?]|]; [|discriminate]. injection B as <-. reflexivity. }
  unfold lv_size, fe_size, at_child. rewrite T. cbn in F.
  apply skel_inner in F as (m & cs & -> & Hcs). destruct cs as [|c0 [|c1 [|]]]; try discriminate. injection Hcs as H0 H1.
  apply skel_leaf in H0 as (m0 & el0 & ->). apply skel_leaf in H1 as (m1 & el1 & ->).
  cbn -[Nat.ltb]. unfold local_index. cbn -[Nat.ltb]. split; [lia|]. split; [reflexivity|]. split; [reflexivity|].
  split; intros i Hi; rewrite (proj2 (Nat.ltb_lt _ _) Hi); reflexivity.
Qed.

Section Bound.
Variables (w w' : lview E) (e : E).
Hypotheses (F : skel (lv_tree w) = skel (pb_node (build b))) (B : lv_bind (build b) w e = Some w').
Notation nf := (lf_fe rt e).
Notation np := (lf_fe p e).
Definition ff (q : X * R) (t u : nat -> R) : R := rsum nf (fun i => rsum nf (fun j =>
  (t i * (row_times_row dim (flux e (fst q) i) (flux e (fst q) j) * snd q * ie e (fst q)) * u j)%R)).
Definition fp (q : X * R) (t u : nat -> R) : R := rsum nf (fun i => rsum np (fun j =>
  (t i * (flux_divergence dim fluxj jinv e (fst q) i * psi e (fst q) j * snd q * ie e (fst q)) * u (nf + j)%nat +
   t (nf + j)%nat * (flux_divergence dim fluxj jinv e (fst q) i * psi e (fst q) j * snd q * ie e (fst q)) * u i)%R)).
Lemma couple_flux_ok q M : exists M', couple_flux dim flux ie w' e q nf M = Some M' /\
  forall t u, bil (lv_size w') t u M' = (bil (lv_size w') t u M + ff q t u)%R.
Proof.
  destruct (mixed_children w w' e F B) as (S & _ & _ & A0 & _). unfold couple_flux, ff.
  refine (forl_bil _ _ _ (fun t u i => rsum nf (fun j => (t i * (row_times_row dim (flux e (fst q) i) (flux e (fst q) j) * snd q * ie e (fst q)) * u j)%R)) _ M). intros i M1 Hi. rewrite A0 by auto. cbn [obind].
  refine (forl_bil _ _ _ (fun t u j => (t i * (row_times_row dim (flux e (fst q) i) (flux e (fst q) j) * snd q * ie e (fst q)) * u j)%R) _ M1). intros j M2 Hj. rewrite A0 by auto. cbn [obind].
  apply dense_add_bil; lia.
Qed.
Lemma couple_flux_pressure_ok q M : exists M', couple_flux_pressure dim fluxj jinv ie psi w' e q nf np M = Some M' /\
  forall t u, bil (lv_size w') t u M' = (bil (lv_size w') t u M + fp q t u)%R.
Proof.
  destruct (mixed_children w w' e F B) as (S & _ & _ & A0 & A1). unfold couple_flux_pressure, fp. cbn zeta.
  refine (forl_bil _ _ _ (fun t u i => rsum np (fun j => (t i * (flux_divergence dim fluxj jinv e (fst q) i * psi e (fst q) j * snd q * ie e (fst q)) * u (nf + j)%nat + t (nf + j)%nat * (flux_divergence dim fluxj jinv e (fst q) i * psi e (fst q) j * snd q * ie e (fst q)) * u i)%R)) _ M).
  intros i M1 Hi. rewrite A0 by auto. cbn [obind].
  refine (forl_bil _ _ _ (fun t u j => (t i * (flux_divergence dim fluxj jinv e (fst q) i * psi e (fst q) j * snd q * ie e (fst q)) * u (nf + j)%nat + t (nf + j)%nat * (flux_divergence dim fluxj jinv e (fst q) i * psi e (fst q) j * snd q * ie e (fst q)) * u i)%R) _ M1).
  intros j M2 Hj. rewrite A1 by auto. cbn [obind].
  match goal with |- context[dense_add _ _ _ ?x M2] => destruct (dense_add_bil (lv_size w') i (nf + j) x M2 ltac:(lia) ltac:(lia)) as (M4 & -> & P4); destruct (dense_add_bil (lv_size w') (nf + j) i x M4 ltac:(lia) ltac:(lia)) as (M5 & Q5 & P5) end.
  cbn [obind]. exists M5. split; [exact Q5|]. intros t u. rewrite P5, P4. ring.
Qed.
Lemma mixed_points_ok qs : forall M, exists M', mixed_points dim flux fluxj jinv ie psi w' e nf np qs M = Some M' /\
  forall t u, bil (lv_size w') t u M' = (bil (lv_size w') t u M + fold_right Rplus 0 (map (fun q => ff q t u + fp q t u) qs))%R.
Proof.
  induction qs as [|q qs IH]; intros M; cbn [mixed_points map fold_right].
  - exists M. split; [reflexivity|]. intros. lra.
  - destruct (couple_flux_ok q M) as (M1 & -> & P1). cbn [obind]. destruct (couple_flux_pressure_ok q M1) as (M2 & -> & P2). cbn [obind].
    destruct (IH M2) as (M3 & -> & P3). exists M3. split; [reflexivity|]. intros t u. rewrite P3, P2, P1. lra.
Qed.
Lemma mixed_points_rhs_ok qs : forall y, exists y', mixed_points_rhs ie psi f w' e np qs y = Some y' /\
  forall t, lin (lv_size w') t y' = (lin (lv_size w') t y + fold_right Rplus 0 (map (fun q => rsum np (fun j => t (nf + j)%nat * (- psi e (fst q) j * f e (fst q) * snd q * ie e (fst q)))) qs))%R.
Proof.
  destruct (mixed_children w w' e F B) as (S & _ & _ & _ & A1).
  induction qs as [|q qs IH]; intros y; cbn [mixed_points_rhs map fold_right].
  - exists y. split; [reflexivity|]. intros. lra.
  - unfold mixed_point_rhs at 1.
    destruct (forl_lin (lv_size w') np (fun j y => pi <- at_child w' [1] j ;; dense_vec_add (lv_size w') pi (- psi e (fst q) j * f e (fst q) * snd q * ie e (fst q))%R y)
      (fun t j => (t (nf + j)%nat * (- psi e (fst q) j * f e (fst q) * snd q * ie e (fst q)))%R)) with (y := y) as (y1 & -> & P1).
    { intros j y0 Hj. rewrite A1 by auto. cbn [obind]. apply dense_vec_add_lin. lia. }
    cbn [obind]. destruct (IH y1) as (y2 & -> & P2). exists y2. split; [reflexivity|]. intros t. rewrite P2, P1. lra.
Qed.
End Bound.

Lemma ff_algebra n (a c : nat -> R) (g : nat -> nat -> R) (s : R) :
  rsum n (fun i => rsum n (fun j => (a i * (rsum dim (fun l => (g i l * g j l)%R) * s) * c j)%R)) =
  (rsum dim (fun l => rsum n (fun i => a i * g i l) * rsum n (fun j => c j * g j l)) * s)%R.
Proof.
  transitivity (rsum dim (fun l => rsum n (fun i => rsum n (fun j => (s * (a i * g i l * (c j * g j l)))%R)))).
  - rewrite (rsum_swap dim n). apply rsum_ext. intros i _. rewrite (rsum_swap dim n). apply rsum_ext. intros j _.
    rewrite (rsum_ext dim (fun l => (s * (a i * g i l * (c j * g j l)))%R) (fun l => (s * a i * c j * (g i l * g j l))%R)) by (intros; ring). rewrite rsum_scal. ring.
  - rewrite Rmult_comm, <- rsum_scal. apply rsum_ext. intros l _. rewrite rsum_prod, <- rsum_scal. apply rsum_ext. intros i _. now rewrite rsum_scal.
Qed.
Lemma flux_div_sum u e x : flux_div dim rt fluxj jinv u e x = rsum (lf_fe rt e) (fun i => (u [0; nth i (lf_indices rt e) 0]%nat * flux_divergence dim fluxj jinv e x i)%R).
Proof. unfold flux_div, flux_derivative, flux_divergence, trace. rewrite rsum_swap. apply rsum_ext. intros i _. now rewrite rsum_scal. Qed.

(** The element matrix and vector of a view bound to [e], also if it was bound before: no access is out of bounds, and the forms on the
    local coefficients are the quadratures of the mixed weak form. *)
Theorem C104_mixed_assemblers w e : els e -> skel (lv_tree w) = skel (pb_node (build b)) ->
  exists w' M y, lv_bind (build b) w e = Some w' /\ lv_size w' = length (indices b e) /\
    mixed_local_matrix dim quad flux fluxj jinv ie psi w' e = Some M /\ mixed_local_rhs quadb ie psi f w' e = Some y /\
    (forall t u, rsum (lv_size w') (fun i => rsum (lv_size w') (fun j => (t (index_at b e i) * M i j * u (index_at b e j))%R)) =
      integral ie quad (mixed_integrand dim rt p flux fluxj jinv psi t u) e) /\
    (forall t, rsum (lv_size w') (fun i => (t (index_at b e i) * y i)%R) = integral ie quadb (mixed_source p psi f t) e).
Proof.
  intros He F. pose proof (build_ok b els mixed_wf) as OK. pose proof (bind_ok els _ _ w e OK He F) as B. cbn zeta in B. set (w' := LV _ _ _) in B.
  destruct (mixed_children w w' e F B) as (S & S0 & S1 & A0 & A1).
  destruct (mixed_points_ok w w' e F B (quad e) (fun _ _ => 0%R)) as (M & K & P). destruct (mixed_points_rhs_ok w w' e F B (quadb e) (fun _ => 0%R)) as (y & K' & P').
  exists w', M, y. split; [exact B|]. split; [rewrite S, mixed_indices, app_length, !map_length, (lok_size _ _ Hr e He), (lok_size _ _ Hp e He) by auto; reflexivity|].
  split; [unfold mixed_local_matrix; rewrite S0, S1; exact K|]. split; [unfold mixed_local_rhs; rewrite S1; exact K'|]. clear K K' A0 A1. split.
  - intros t u. specialize (P (fun i => t (index_at b e i)) (fun i => u (index_at b e i))). unfold bil in P. rewrite P. clear P P'.
    rewrite rsum_zeros by (intros; apply rsum_zeros; intros; ring). rewrite Rplus_0_l. unfold integral. apply sum_ext. intros q _. unfold mixed_integrand. rewrite !flux_div_sum.
    unfold ff, fp, mixed_pressure.
    rewrite (rsum_ext _ _ (fun i => rsum (lf_fe rt e) (fun j => (t [0; nth i (lf_indices rt e) 0]%nat * (rsum dim (fun l => (flux e (fst q) i l * flux e (fst q) j l)%R) * (snd q * ie e (fst q))) * u [0; nth j (lf_indices rt e) 0]%nat)%R))).
    2:{ intros i Hi. apply rsum_ext. intros j Hj. rewrite !index_flux by auto. unfold row_times_row. ring. }
    rewrite (ff_algebra _ (fun i => t [0; nth i (lf_indices rt e) 0]) (fun i => u [0; nth i (lf_indices rt e) 0])).
    rewrite (rsum_ext _ (fun i => rsum (lf_fe p e) _) (fun i => (rsum (lf_fe p e) (fun j => (t [0; nth i (lf_indices rt e) 0]%nat * flux_divergence dim fluxj jinv e (fst q) i * (snd q * ie e (fst q) * (u [1; nth j (lf_indices p e) 0]%nat * psi e (fst q) j)))%R) +
      rsum (lf_fe p e) (fun j => (u [0; nth i (lf_indices rt e) 0]%nat * flux_divergence dim fluxj jinv e (fst q) i * (snd q * ie e (fst q) * (t [1; nth j (lf_indices p e) 0]%nat * psi e (fst q) j)))%R))%R)).
    2:{ intros i Hi. rewrite <- rsum_plus. apply rsum_ext. intros j Hj. rewrite !index_flux, !index_mixed_pressure by auto. ring. }
    rewrite rsum_plus, <- !rsum_prod, !rsum_scal. unfold flux_value. ring.
  - intros t. specialize (P' (fun i => t (index_at b e i))). unfold lin in P'. rewrite P'. clear P P'.
    rewrite rsum_zeros by (intros; ring). rewrite Rplus_0_l. unfold integral. apply sum_ext. intros q _. unfold mixed_source, mixed_pressure.
    rewrite (rsum_ext _ _ (fun j => (- (f e (fst q) * snd q * ie e (fst q)) * (t [1; nth j (lf_indices p e) 0]%nat * psi e (fst q) j))%R)).
    2:{ intros j Hj. rewrite index_mixed_pressure by auto. ring. }
    rewrite rsum_scal. ring.
Qed.
End Proofs.

(** * A case: two elements, two fluxes and two pressures on each; one quadrature point of weight 1/2 *)
Definition ex104_flux (e : nat) (_ : R) (i k : nat) : R := if i =? k then (INR e + 1)%R else 0%R.
Definition ex104_fluxj (_ : nat) (_ : R) (i k m : nat) : R := if (k =? m) && (i =? 0) then 1%R else 0%R.
Definition ex104_jinv (_ : nat) (_ : R) (m l : nat) : R := if m =? l then 2%R else 0%R.
Example C104_hypotheses_met :
  let form := mixed_integrand 2 ex_p1 ex_p1 ex104_flux ex104_fluxj ex104_jinv (fun _ x i => if i =? 0 then (1 - x)%R else x) in
  let one m m' := if list_eq_dec Nat.eq_dec m m' then 1%R else 0%R in
  leaf_ok ex_els ex_p1 /\ ex_els 1 /\ indices (mixed_basis ex_p1 ex_p1) 1 = [[0; 1]; [0; 2]; [1; 1]; [1; 2]] /\
  form (one [0; 1]) (one [0; 1]) 1 (1/4)%R = 4%R /\ form (one [0; 1]) (one [1; 2]) 1 (1/4)%R = 1%R /\ form (one [0; 2]) (one [1; 2]) 1 (1/4)%R = 0%R.
Proof.
  split; [apply ex_p1_ok|]. split; [unfold ex_els; lia|]. split; [reflexivity|].
  unfold mixed_integrand, flux_div, flux_derivative, flux_value, mixed_pressure, ex104_flux, ex104_fluxj, ex104_jinv, rsum. cbn. repeat split; lra.
Qed.

Print Assumptions C104_mixed_assemblers.
