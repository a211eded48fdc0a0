(** Interpolation of grid functions, and transfer between grid views (C94). *)
From Coq Require Import List Arith Bool Reals Lia Lra.
From Verif Require Import Lib Basis_model Basis_spec Basis_proofs Basis_ok Basis_view Basis_props
  Container_model Container_spec Container_proofs Container_desc Container_props FlatVector_model FlatVector_props
  Interpolate_model Interpolate_props DiscreteFunction_model DiscreteFunction_spec DiscreteFunction_proofs DiscreteFunction_props
  Projection_model Projection_spec Projection_props Transfer_spec Transfer_proofs Transfer_props
  LocalFunction_model LocalFunction_spec LocalFunction_props GridInterp_model GridInterp_spec GridInterp_proofs.
Import ListNotations.
#[local] Arguments Nat.ltb : simpl never.
#[local] Arguments Nat.eqb : simpl never.

(** interpolate() of any grid function is defined, throws only if the vector cannot be resized,
    and gives every marked DOF that occurs on a visited element the value that the local
    interpolation of one of these elements delivers for the values of the function there; all
    other DOFs keep their values. *)
Theorem C94_grid_functions_are_interpolated : forall (E X Y : Type) (G : grid E X Y) (els : E -> Prop) (g : gf E X Y (cont R))
    (b : bexpr E) (path : list nat) (t : cty) (mask : mi -> bool) (asks : list nat -> bool) (sa : sampling E X)
    (interp : E -> list nat -> list R) (es : list E) (c : cont R),
  grid_ok G -> usable_function G els asks g -> call_ok b els path t interp c es ->
  locally_interpolates_grid G els b path asks (sample sa) g interp ->
  match interpolate_grid G t mask asks sa g (subspace_of_root (build b) path) es c with
  | Undef => False
  | Throw => backend_resize 0%R (pb_size (build b)) t c = Throw
  | Done c' =>
      (forall m e x, mask m = true -> In e es -> local_value b path interp e m x ->
         exists e' x', In e' es /\ local_value b path interp e' m x' /\ read t c' m = Some (CVal x')) /\
      (forall m, global_index els b m -> mask m = false \/ (forall e x, In e es -> ~ local_value b path interp e m x) ->
         exists c0, backend_resize 0%R (pb_size (build b)) t c = Done c0 /\ read t c' m = read t c0 m)
  end.
Proof.
  intros E X Y G els g b path t mask asks sa interp es c OK UF HC HL.
  pose proof (C25_throws_iff_resize_throws b els path t mask interp 0%R c es HC) as HT.
  rewrite (grid_transfer G OK els t mask asks sa g UF interp (subspace_of_root (build b) path) (used_leaf b path) HL (tviews b)).
  - destruct (interpolate t mask interp 0%R _ es c) as [c'| |] eqn:EI; auto. split.
    + intros m e x Hm He Hx. eapply (C25_marked_dofs_are_interpolated b els path); eauto.
    + intros m Gm Hm. destruct (C25_other_dofs_unchanged b els path t mask interp 0%R c es c' m HC EI Gm Hm) as (c0 & A & B & _). eauto.
  - intros v e v' Hv He Hb. eapply (tviews_ok b els path); eauto; [apply HC|]. intros; eapply bind_tree_of; eauto.
  - reflexivity.
  - apply HC.
  - intros HU. now rewrite HU in HT.
Qed.

Section Represented.
Context {E X Y : Type}.
Variables (G : grid E X Y) (els : E -> Prop) (asks : list nat -> bool) (interpolation : @functional E X) (g : gf E X Y (cont R)).
Variables (b2 : bexpr E) (path2 : list nat) (su2 : setup E X) (c2 : mi -> option (list R)) (x : mi -> R).
Hypothesis OK2 : setup_ok b2 path2 els su2.
Hypothesis Hdim : su_cdim su2 = 1.
Hypothesis HD : dual b2 path2 els su2 asks interpolation.
Hypothesis Hx : numbers b2 els c2 x.
Hypothesis HS : represents G els asks g b2 path2 su2 c2.

Lemma represented_interpolates : locally_interpolates_grid G els b2 path2 asks interpolation g (interp0 b2 path2 x).
Proof.
  pose proof (c2_ok els b2 su2 c2 x Hdim Hx) as C2.
  intros e p f d He (v & n & L & NZ) Hf Hd. rewrite (interp0_leaf b2 path2 x e v p n L).
  assert (U : used_leaf b2 path2 e p) by (exists v, n; auto). destruct (view_of_leaf b2 path2 els su2 OK2 e v p n He L) as [V1 V2].
  assert (CO : forall i, coef_of c2 v n i 0 = coefx x v n i).
  { intros i. unfold coef_of, coefx. destruct (Basis_model.local_index n i) as [k|]; auto. destruct (lv_index v k) as [m|] eqn:Em; auto.
    rewrite (Hx m); auto. eapply (vinv_global b2 path2 els su2 OK2); eauto. }
  apply (HD e v p n); auto.
  - intros y. destruct (Hf y) as (y1 & Y1 & ->). destruct (value_exists b2 path2 els su2 OK2 c2 e y C2 He) as [y2 Y2].
    destruct (HS e p y He U) as [S1 _]. specialize (S1 y1 y2 Y1 Y2). destruct Y2 as [_ Y2]. destruct (Y2 v p n L) as (z2 & Z1 & _ & Z2).
    rewrite Z1 in S1. destruct (node_to_range p y1) as [z1|]; [|discriminate]. cbn in S1. injection S1 as S1.
    destruct (Z2 NZ) as [Z3 Z4]. exists z1. split; auto. rewrite S1. split; [lia|]. intros k Hk. specialize (Z4 0 k ltac:(lia) Hk). cbn [Nat.mul Nat.add] in Z4.
    rewrite Z4. f_equal. apply rsum_ext. intros i _. now rewrite CO.
  - destruct (asks p) eqn:Ea; auto. destruct Hd as (g' & d' & Hg' & -> & Hd). exists d'. split; auto.
    intros y. destruct (Hd y) as (y1 & Y1 & ->). destruct (derivative_exists b2 path2 els su2 OK2 c2 e y C2 He) as [y2 Y2].
    destruct (HS e p y He U) as [_ S1]. specialize (S1 Ea g' y1 y2 Hg' Y1 Y2). destruct Y2 as [_ Y2]. destruct (Y2 v p n L) as (z2 & Z1 & _ & Z2).
    rewrite Z1 in S1. destruct (node_to_range p y1) as [z1|]; [|discriminate]. cbn in S1. injection S1 as S1.
    destruct (Z2 NZ) as [Z3 Z4]. exists z1. split; auto. rewrite S1. split; [lia|]. intros r q Hr Hq. specialize (Z4 0 r q ltac:(lia) Hr Hq). cbn [Nat.mul Nat.add] in Z4.
    rewrite Z4. f_equal. apply rsum_ext. intros i _. now rewrite CO.
Qed.
End Represented.

(** If the grid function is a function of the basis, interpolating it gives its coefficients. *)
Theorem C94_represented_functions_are_reproduced : forall (E X Y : Type) (G : grid E X Y) (els : E -> Prop) (g : gf E X Y (cont R))
    (b2 : bexpr E) (path2 : list nat) (su2 : setup E X) (c2 : mi -> option (list R)) (x : mi -> R)
    (t : cty) (mask : mi -> bool) (asks : list nat -> bool) (sa : sampling E X) (es : list E) (c : cont R),
  grid_ok G -> usable_function G els asks g ->
  setup_ok b2 path2 els su2 -> su_cdim su2 = 1 -> dual b2 path2 els su2 asks (sample sa) -> numbers b2 els c2 x ->
  represents G els asks g b2 path2 su2 c2 ->
  (forall e, In e es -> els e) -> has_ty t c -> solid_entries t (sp_tree (meaning b2)) ->
  match interpolate_grid G t mask asks sa g (su_basis su2) es c with
  | Undef => False
  | Throw => backend_resize 0%R (pb_size (build b2)) t c = Throw
  | Done c' =>
      (forall e m, In e es -> dof_on b2 path2 e m -> mask m = true -> read t c' m = Some (CVal (x m))) /\
      (forall m, global_index els b2 m -> mask m = false \/ (forall e, In e es -> ~ dof_on b2 path2 e m) ->
         exists c0, backend_resize 0%R (pb_size (build b2)) t c = Done c0 /\ read t c' m = read t c0 m)
  end.
Proof.
  intros E X Y G els g b2 path2 su2 c2 x t mask asks sa es c OK UF OK2 Hdim HD Hx HS Hes Hty Hso.
  rewrite (so_basis _ _ _ _ OK2).
  pose proof (represented_interpolates G els asks (sample sa) g b2 path2 su2 c2 x OK2 Hdim HD Hx HS) as HL.
  assert (HC : call_ok b2 els path2 t (interp0 b2 path2 x) c es).
  { constructor; auto; [apply OK2|apply OK2|apply (interp0_ok b2 path2 els x)]. }
  pose proof (C94_grid_functions_are_interpolated E X Y G els g b2 path2 t mask asks sa (interp0 b2 path2 x) es c OK UF HC HL) as H.
  destruct (interpolate_grid G t mask asks sa g _ es c) as [c'| |]; auto. destruct H as [H1 H2]. split.
  - intros e m He Hm Hk. destruct (H1 m e (x m) Hk He) as (e' & x' & He' & Hv & ->). { eapply (dof_value b2 path2 els); eauto. }
    now rewrite (value_dof b2 path2 x e' m x' Hv).
  - intros m Gm [Hm|Hm]; apply H2; auto. right. intros e y He Hv. apply (Hm e He).
    destruct Hv as (v & p & n & j & k & P1 & P2 & P3 & P4 & P5 & P6). exists v, p, n, j, k. split; [split; auto|auto].
Qed.
(** ... and the discrete function with the resulting vector is the grid function. *)
Theorem C94_interpolant_is_the_function : forall (E X Y : Type) (G : grid E X Y) (els : E -> Prop) (g : gf E X Y (cont R))
    (b2 : bexpr E) (path2 : list nat) (su2 : setup E X) (c2 : mi -> option (list R)) (x : mi -> R)
    (t : cty) (asks : list nat -> bool) (sa : sampling E X) (es : list E) (c c' : cont R),
  grid_ok G -> usable_function G els asks g ->
  setup_ok b2 path2 els su2 -> su_cdim su2 = 1 -> dual b2 path2 els su2 asks (sample sa) -> numbers b2 els c2 x ->
  represents G els asks g b2 path2 su2 c2 ->
  (forall e, In e es <-> els e) -> has_ty t c -> solid_entries t (sp_tree (meaning b2)) ->
  interpolate_grid G t (fun _ => true) asks sa g (su_basis su2) es c = Done c' ->
  represents G els asks g b2 path2 su2 (contents t c').
Proof.
  intros E X Y G els g b2 path2 su2 c2 x t asks sa es c c' OK UF OK2 Hdim HD Hx HS Hes Hty Hso HI.
  pose proof (C94_represented_functions_are_reproduced E X Y G els g b2 path2 su2 c2 x t (fun _ => true) asks sa es c
    OK UF OK2 Hdim HD Hx HS (fun e He => proj1 (Hes e) He) Hty Hso) as H. rewrite HI in H. destruct H as [H _].
  assert (EQ : forall e, els e -> forall m, dof_on b2 path2 e m -> contents t c' m = c2 m).
  { intros e He m Hm. unfold contents. rewrite (H e m); auto; [|now apply Hes]. symmetry. apply Hx.
    destruct Hm as (v & p & n & i & k & L & Hi & Hk). destruct (view_of_leaf b2 path2 els su2 OK2 e v p n He L) as [V1 V2].
    eapply (vinv_global b2 path2 els su2 OK2); eauto. }
  intros e p y He U. destruct (HS e p y He U) as [S1 S2]. split.
  - intros y1 y2 Y1 Y2. apply S1; auto. eapply is_value_ext; [|exact Y2]. intros m Hm. now apply (EQ e).
  - intros Ha g' y1 y2 Hg' Y1 Y2. apply (S2 Ha g'); auto. eapply is_derivative_ext; [|exact Y2]. intros m Hm. now apply (EQ e).
Qed.

(** * Between grid views *)
Section Levels.
Context {E X Y V : Type}.
Variable G : grid E X Y.
(** From an element of the coarse view down to the fine view and back up. *)
Lemma located_up cs fs e x d y : coarse_view G cs -> located G fs e x d y -> forall a k z, nearest G cs e a k -> up_along G k x = z ->
  exists l, nearest G cs d a l /\ up_along G l y = z.
Proof.
  intros CV. induction 1 as [e x He|e x c d y He [Hc1 Hc2] Hl IH]; intros a k z Hn Hz; [eauto|].
  apply (IH a (c :: k) z).
  - apply near_up with (f := e); auto; [eapply (cv_below _ _ CV); eauto|now apply (cv_father _ _ CV)].
  - cbn. now rewrite (cv_inverse _ _ CV).
Qed.
(** A function on a coarse grid view, taken to a finer grid view and back again, is the same
    function. *)
Theorem C94_down_and_up_again cs fs (g : gf E X Y V) e x v : coarse_view G cs -> cs e = true ->
  value G (GFine fs (GCoarse cs g)) e x v -> value G g e x v.
Proof.
  intros CV He H. inversion H as [| | | | |fs' g' e' x' d y v' Hl Hv]; subst. inversion Hv as [| | | |cs' g' e' x' a l v' Hn Hg|]; subst.
  destruct (located_up cs fs e x d y CV Hl e [] x (near_here _ _ _ He) eq_refl) as (l' & Hn' & Hu).
  destruct (nearest_fun G cs d a l Hn e l' Hn') as [-> ->]. now rewrite Hu in Hg.
Qed.
End Levels.

Section Nested.
Context {E X Y : Type}.
Variables (G : grid E X Y) (cs fs : E -> bool).
(** the coarse and the fine elements *)
Variables (els1 els2 : E -> Prop).
Variables (b1 : bexpr E) (path1 : list nat) (su1 : setup E X) (c1 : mi -> option (list R)).
Variables (v : E -> X -> cont R) (dv : option (E -> X -> cont R)).
Variables (b2 : bexpr E) (path2 : list nat) (su2 : setup E X).

Lemma same_list {A} n m (l l' : list A) : length l = n * m -> length l' = n * m ->
  (forall j k, j < n -> k < m -> nth_error l (j * m + k) = nth_error l' (j * m + k)) -> l = l'.
Proof.
  intros H1 H2 H. apply nth_error_ext. intros i. destruct (Nat.lt_ge_cases i (n * m)) as [Hi|Hi].
  - assert (m <> 0) by lia. rewrite (Nat.div_mod i m) by auto. rewrite (Nat.mul_comm m). apply H; [apply Nat.div_lt_upper_bound; lia|now apply Nat.mod_upper_bound].
  - rewrite (proj2 (nth_error_None l i)), (proj2 (nth_error_None l' i)); auto; lia.
Qed.
(** The values for a leaf with basis functions are determined. *)
Lemma is_value_parts b path (su : setup E X) e c x y y' p : is_value b path su e c x y -> is_value b path su e c x y' -> used_leaf b path e p ->
  option_map scalars (node_to_range p y) = option_map scalars (node_to_range p y').
Proof.
  intros [_ H] [_ H'] (w & n & L & NZ). destruct (H w p n L) as (z & -> & _ & Z), (H' w p n L) as (z' & -> & _ & Z'). cbn. f_equal.
  destruct (Z NZ) as [Z1 Z2], (Z' NZ) as [Z1' Z2']. eapply same_list; eauto. intros j k Hj Hk. now rewrite Z2, Z2'.
Qed.
Lemma is_derivative_parts b path (su : setup E X) e c x y y' p : is_derivative b path su e c x y -> is_derivative b path su e c x y' -> used_leaf b path e p ->
  option_map scalars (node_to_range p y) = option_map scalars (node_to_range p y').
Proof.
  intros [_ H] [_ H'] (w & n & L & NZ). destruct (H w p n L) as (z & -> & _ & Z), (H' w p n L) as (z' & -> & _ & Z'). cbn. f_equal.
  destruct (Z NZ) as [Z1 Z2], (Z' NZ) as [Z1' Z2']. eapply same_list; eauto. intros j k Hj Hk.
  assert (su_gdim su <> 0) by (intros H0; rewrite H0 in Hk; lia).
  rewrite (Nat.div_mod k (su_gdim su)) by auto. rewrite (Nat.mul_comm (su_gdim su)).
  assert (k / su_gdim su < su_vdim su p) by (apply Nat.div_lt_upper_bound; lia). assert (k mod su_gdim su < su_gdim su) by now apply Nat.mod_upper_bound.
  now rewrite Z2, Z2'.
Qed.

(** The fine function with coefficients [c2] is the coarse one; seen from the coarse view, it
    is the coarse function again, and interpolating it there gives the original coefficients. *)
Theorem C94_round_trip : forall (c2 : mi -> option (list R)) (w : E -> X -> cont R) (dw : option (E -> X -> cont R)) (x1 : mi -> R)
    (t : cty) (asks : list nat -> bool) (sa : sampling E X) (es : list E) (c : cont R),
  grid_ok G -> coarse_view G cs -> (forall e, els1 e -> cs e = true) ->
  (forall e, els1 e -> refined G fs els2 e) ->
  (forall d a l p, els2 d -> els1 a -> nearest G cs d a l -> used_leaf b1 path1 a p -> used_leaf b2 path2 d p) ->
  discrete_function els1 b1 path1 su1 c1 v dv -> discrete_function els2 b2 path2 su2 c2 w dw ->
  ((exists p, asks p = true) -> dv <> None /\ dw <> None) ->
  represents G els2 asks (GCoarse cs (GDis v dv)) b2 path2 su2 c2 ->
  setup_ok b1 path1 els1 su1 -> su_cdim su1 = 1 -> dual b1 path1 els1 su1 asks (sample sa) -> numbers b1 els1 c1 x1 ->
  (forall e, In e es -> els1 e) -> has_ty t c -> solid_entries t (sp_tree (meaning b1)) ->
  represents G els1 asks (GFine fs (GDis w dw)) b1 path1 su1 c1 /\
  match interpolate_grid G t (fun _ => true) asks sa (GFine fs (GDis w dw)) (su_basis su1) es c with
  | Undef => False
  | Throw => backend_resize 0%R (pb_size (build b1)) t c = Throw
  | Done c' => forall e m, In e es -> dof_on b1 path1 e m -> read t c' m = Some (CVal (x1 m))
  end.
Proof.
  intros c2 w dw x1 t asks sa es c OK CV Hcs Href Hlf [V1 D1] [V2 D2] Hds HR OK1 Hdim HD Hx Hes Hty Hso.
  assert (FD : forall e x d y, els1 e -> located G fs e x d y -> els2 d).
  { intros e x d y He Hl. specialize (Href e He). clear - Hl Href. induction Hl as [e x H|e x c d y H [Hc _] Hl IH]; inversion Href; subst; try congruence; auto. }
  assert (RE : represents G els1 asks (GFine fs (GDis w dw)) b1 path1 su1 c1).
  { intros e p x He U. split.
    - intros y1 y2 Y1 Y2. inversion Y1 as [| | | | |fs' g' e' x' d y v' Hl Hv]; subst. inversion Hv; subst.
      destruct (located_up G cs fs e x d y CV Hl e [] x (near_here _ _ _ (Hcs e He)) eq_refl) as (l & Hn & Hu).
      assert (Hd : els2 d) by eauto. destruct (HR d p y Hd (Hlf d e l p Hd He Hn U)) as [S1 _].
      rewrite <- (S1 (v e x) (w d y)); auto.
      + apply (is_value_parts b1 path1 su1 e c1 x); auto.
      + rewrite <- Hu. eapply val_coarse; [exact Hn|]. constructor.
    - intros Ha g' y1 y2 Hg' Y1 Y2. destruct (Hds (ex_intro _ p Ha)) as [N1 N2]. destruct dv as [d1|]; [|congruence]. destruct dw as [d2|]; [|congruence].
      cbn in Hg'. injection Hg' as <-. inversion Y1 as [| | | | |fs' g' e' x' d y v' Hl Hv]; subst. inversion Hv; subst.
      destruct (located_up G cs fs e x d y CV Hl e [] x (near_here _ _ _ (Hcs e He)) eq_refl) as (l & Hn & Hu).
      assert (Hd : els2 d) by eauto. destruct (HR d p y Hd (Hlf d e l p Hd He Hn U)) as [_ S1].
      rewrite <- (S1 Ha (GCoarse cs (GDis d1 None)) (d1 e x) (d2 d y)); auto.
      + apply (is_derivative_parts b1 path1 su1 e c1 x); auto.
      + rewrite <- Hu. eapply val_coarse; [exact Hn|]. constructor. }
  split; [exact RE|].
  assert (UF : usable_function G els1 asks (GFine fs (GDis w dw))).
  { constructor; [exact I| |].
    - intros e He. cbn. specialize (Href e He). clear - Href. induction Href; [now apply ref_here|now apply ref_down].
    - intros p Ha. split; [reflexivity|]. destruct (Hds (ex_intro _ p Ha)) as [_ N2]. destruct dw; [|congruence]. cbn. eauto. }
  pose proof (C94_represented_functions_are_reproduced E X Y G els1 (GFine fs (GDis w dw)) b1 path1 su1 c1 x1 t (fun _ => true) asks sa es c
    OK UF OK1 Hdim HD Hx RE Hes Hty Hso) as H.
  destruct (interpolate_grid _ _ _ _ _ _ _ es c) as [c'| |]; auto. destruct H as [H _]. intros e m He Hm. now apply (H e m).
Qed.

Section Polynomials.
Variables (pol : (X -> R) -> Prop) (node : E -> list nat -> nat -> X).
Hypothesis NS : nested_spaces G pol els1 els2 b1 path1 su1 b2 path2 su2 node.
Lemma pol_sum n (a : nat -> R) (f : nat -> X -> R) : (forall i, pol (f i)) -> pol (fun x => rsum n (fun i => (a i * f i x)%R)).
Proof.
  intros H. induction n as [|n IH]; [apply (ns_ext _ _ _ _ _ _ _ _ _ _ _ NS) with (f := fun _ => 0%R); auto; apply NS|].
  apply (ns_ext _ _ _ _ _ _ _ _ _ _ _ NS) with (f := fun x => (rsum n (fun i => a i * f i x) + a n * f n x)%R); [intros x; now rewrite rsum_S|].
  apply (ns_plus _ _ _ _ _ _ _ _ _ _ _ NS); auto. now apply (ns_scale _ _ _ _ _ _ _ _ _ _ _ NS).
Qed.
Lemma pol_up l : forall f, pol f -> pol (fun x => f (up_along G l x)).
Proof.
  induction l as [|e l IH]; intros f Hf; cbn; [exact Hf|]. apply (ns_up _ _ _ _ _ _ _ _ _ _ _ NS e (fun x => f (up_along G l x))). now apply IH.
Qed.
(** The coarse function is one of the functions of the fine space. *)
Lemma coarse_is_fine (asks : list nat -> bool) c2 x : (forall p, asks p = false) -> setup_ok b2 path2 els2 su2 -> su_cdim su1 = 1 -> su_cdim su2 = 1 ->
  discrete_function els1 b1 path1 su1 c1 v dv -> covered G cs els1 els2 b1 path1 b2 path2 ->
  node_values G cs els2 v b2 path2 node x -> numbers b2 els2 c2 x ->
  represents G els2 asks (GCoarse cs (GDis v dv)) b2 path2 su2 c2.
Proof.
  intros Ha OK2 Hd1 Hd2 [HV _] HC HN Hx e p z He U. split; [|rewrite Ha; discriminate].
  intros y1 y2 Y1 Y2. inversion Y1 as [| | | |cs' g' e' x' a l v' Hn Hg|]; subst. inversion Hg; subst. clear Hg Y1.
  destruct (HC e He) as (a' & l' & Hn' & Ha1 & Hu). destruct (nearest_fun G cs e a l Hn a' l' Hn') as [<- <-]. specialize (Hu p U).
  assert (PF : exists f, pol f /\ forall z, option_map scalars (node_to_range p (v a z)) = Some [f z]).
  { destruct Hu as (w & n & L & NZ). exists (fun z => rsum (node_size n) (fun i => (coef_of c1 w n i 0 * shape_of su1 a p z i 0)%R)). split.
    - apply pol_sum. intros i. apply (ns_coarse _ _ _ _ _ _ _ _ _ _ _ NS); auto. exists w, n; auto.
    - intros z'. destruct (HV a z' Ha1) as [_ H]. destruct (H w p n L) as (q & -> & _ & Q). destruct (Q NZ) as [Q1 Q2]. cbn. f_equal.
      specialize (Q2 0 0). rewrite Hd1, (ns_scalar1 _ _ _ _ _ _ _ _ _ _ _ NS) in *. specialize (Q2 Nat.lt_0_1 Nat.lt_0_1). cbn in Q1, Q2.
      destruct (scalars q) as [|r [|? ?]]; try discriminate. cbn in Q2. now injection Q2 as ->. }
  destruct PF as (f & Pf & Hf). rewrite Hf. destruct U as (w & n & L & NZ). destruct Y2 as [_ Y2]. destruct (Y2 w p n L) as (q & -> & _ & Q).
  destruct (Q NZ) as [Q1 Q2]. cbn. f_equal. specialize (Q2 0 0). rewrite Hd2, (ns_scalar2 _ _ _ _ _ _ _ _ _ _ _ NS) in *. specialize (Q2 Nat.lt_0_1 Nat.lt_0_1). cbn in Q1, Q2.
  destruct (scalars q) as [|r [|? ?]]; try discriminate. cbn in Q2. injection Q2 as ->. f_equal.
  rewrite (ns_fine _ _ _ _ _ _ _ _ _ _ _ NS e w p n (fun x => f (up_along G l x)) z He L (pol_up l f Pf)).
  apply rsum_ext. intros i Hi. f_equal. destruct (view_of_leaf b2 path2 els2 su2 OK2 e w p n He L) as [V1 V2].
  assert (Ei : Basis_model.local_index n i = Some (node_offset n + i)) by (apply local_index_Some; auto). unfold coef_of. rewrite Ei.
  pose proof L as (L1 & L2 & L3). destruct (vinv_good b2 els2 w e V1 V2) as [Hg Ho]. destruct (desc_range (path2 ++ p) _ n Hg L2) as (_ & R1 & R2). rewrite Ho in R2. cbn in R2.
  destruct (nth_error_lt_Some (lv_indices w) (node_offset n + i)) as [m Em]; [rewrite (vinv_size b2 path2 els2 su2 OK2 w e V1 V2); lia|].
  change (lv_index w (node_offset n + i) = Some m) in Em. rewrite Em.
  rewrite (Hx m) by (eapply (vinv_global b2 path2 els2 su2 OK2); eauto). cbn.
  specialize (HN e w p n i _ m a l He L Ei Em Hn). rewrite Hf in HN. now injection HN.
Qed.

(** Transfer to a finer grid view: if the fine spaces contain the coarse ones, then the result
    of interpolating the coarse function is, at every point of every fine element, the value of
    the coarse function at that point of the coarse element it lies in; the coefficients are
    the values of the coarse function at the nodes. *)
Theorem C94_prolongation_is_exact : forall (x : mi -> R) (t : cty) (sa : sampling E X) (es : list E) (c : cont R),
  grid_ok G -> setup_ok b1 path1 els1 su1 -> setup_ok b2 path2 els2 su2 -> su_cdim su1 = 1 -> su_cdim su2 = 1 ->
  discrete_function els1 b1 path1 su1 c1 v dv -> covered G cs els1 els2 b1 path1 b2 path2 ->
  node_values G cs els2 v b2 path2 node x -> dual b2 path2 els2 su2 (fun _ => false) (sample sa) ->
  (forall e, In e es <-> els2 e) -> has_ty t c -> solid_entries t (sp_tree (meaning b2)) ->
  match interpolate_grid G t (fun _ => true) (fun _ => false) sa (GCoarse cs (GDis v dv)) (su_basis su2) es c with
  | Undef => False
  | Throw => backend_resize 0%R (pb_size (build b2)) t c = Throw
  | Done c' =>
      (forall e m, els2 e -> dof_on b2 path2 e m -> read t c' m = Some (CVal (x m))) /\
      forall e a l p z y y', els2 e -> nearest G cs e a l -> used_leaf b2 path2 e p ->
        is_value b1 path1 su1 a c1 (up_along G l z) y -> is_value b2 path2 su2 e (contents t c') z y' ->
        option_map scalars (node_to_range p y') = option_map scalars (node_to_range p y)
  end.
Proof.
  intros x t sa es c OK OK1 OK2 Hd1 Hd2 HV HC HN HD Hes Hty Hso.
  pose (c2 := fun m => Some [x m] : option (list R)).
  assert (Hx : numbers b2 els2 c2 x) by (intros m _; reflexivity).
  pose proof (coarse_is_fine (fun _ => false) c2 x (fun _ => eq_refl) OK2 Hd1 Hd2 HV HC HN Hx) as HR.
  assert (UF : usable_function G els2 (fun _ => false) (GCoarse cs (GDis v dv))).
  { constructor; [exact I| |discriminate]. intros e He. destruct (HC e He) as (a & l & Hn & _). exists a, l. split; [exact Hn|exact I]. }
  pose proof (C94_represented_functions_are_reproduced E X Y G els2 (GCoarse cs (GDis v dv)) b2 path2 su2 c2 x t (fun _ => true) (fun _ => false) sa es c
    OK UF OK2 Hd2 HD Hx HR (fun e He => proj1 (Hes e) He) Hty Hso) as H.
  destruct (interpolate_grid G t _ _ sa _ _ es c) as [c'| |] eqn:EI; auto. destruct H as [H _]. split.
  { intros e m He Hm. apply (H e m); auto. now apply Hes. }
  intros e a l p z y y' He Hn U Y1 Y2.
  pose proof (C94_interpolant_is_the_function E X Y G els2 (GCoarse cs (GDis v dv)) b2 path2 su2 c2 x t (fun _ => false) sa es c c'
    OK UF OK2 Hd2 HD Hx HR Hes Hty Hso EI) as HI.
  destruct (HI e p z He U) as [S1 _]. rewrite <- (S1 (v a (up_along G l z)) y'); auto.
  - destruct (HC e He) as (a' & l' & Hn' & Ha1 & Hu). destruct (nearest_fun G cs e a l Hn a' l' Hn') as [<- <-].
    apply (is_value_parts b1 path1 su1 a c1 (up_along G l z)); auto. now apply HV.
  - eapply val_coarse; [exact Hn|]. constructor.
Qed.
End Polynomials.
End Nested.

(** * Linear functions on simplices of any dimension *)
Section Affine.
Variable d : nat.
Definition affine (f : (nat -> R) -> R) : Prop := exists a0 a, forall x, f x = (a0 + rsum d (fun j => a j * x j))%R.
(** The corners and the barycentric coordinates of the reference simplex. *)
Definition corner (i j : nat) : R := if i =? S j then 1%R else 0%R.
Definition barycentric (x : nat -> R) (i : nat) : R := match i with 0 => (1 - rsum d x)%R | S j => x j end.
Lemma rsum_first n f : rsum (S n) f = (f 0%nat + rsum n (fun i => f (S i)))%R.
Proof. unfold rsum. cbn [seq map fold_right]. f_equal. f_equal. rewrite <- seq_shift, map_map. reflexivity. Qed.
Lemma rsum_one n i f : i < n -> rsum n (fun j => (f j * (if j =? i then 1 else 0))%R) = f i.
Proof.
  induction n as [|n IH]; [lia|]. intros H. rewrite rsum_S. destruct (Nat.eq_dec i n) as [->|Hi].
  - rewrite Nat.eqb_refl. rewrite (rsum_ext n _ (fun j => (0 * f j)%R)).
    + rewrite rsum_scal. ring.
    + intros j Hj. destruct (Nat.eqb_spec j n); [lia|ring].
  - rewrite IH by lia. destruct (Nat.eqb_spec n i); [lia|ring].
Qed.
Theorem C94_linear_functions_are_nodal f x : affine f -> f x = rsum (S d) (fun i => (f (corner i) * barycentric x i)%R).
Proof.
  intros (a0 & a & H). rewrite rsum_first. cbn [barycentric].
  rewrite (rsum_ext d (fun i => (f (corner (S i)) * x i)%R) (fun i => (a0 * x i + a i * x i)%R)).
  - rewrite rsum_plus, rsum_scal, !H. rewrite (rsum_ext d (fun j => (a j * corner 0 j)%R) (fun j => (0 * a j)%R)).
    + rewrite rsum_scal. ring.
    + intros j _. unfold corner. change (0 =? S j) with false. cbn. ring.
  - intros i Hi. rewrite H. rewrite (rsum_ext d (fun j => (a j * corner (S i) j)%R) (fun j => (a j * (if j =? i then 1 else 0))%R)).
    + rewrite rsum_one by auto. ring.
    + intros j _. unfold corner. change (S i =? S j) with (i =? j). rewrite (Nat.eqb_sym i j). reflexivity.
Qed.
(** They stay linear under affine maps of coordinates, such as geometryInFather of simplices. *)
Theorem C94_affine_maps_keep_linear_functions f (m : (nat -> R) -> nat -> R) : affine f -> (forall j, j < d -> affine (fun x => m x j)) -> affine (fun x => f (m x)).
Proof.
  intros (a0 & a & H) Hm.
  assert (K : forall n, n <= d -> affine (fun x => rsum n (fun j => (a j * m x j)%R))).
  { induction n as [|n IH]; intros Hn.
    - exists 0%R, (fun _ => 0%R). intros x. rewrite rsum_scal. unfold rsum. cbn. ring.
    - destruct (IH ltac:(lia)) as (b0 & b & Hb). destruct (Hm n ltac:(lia)) as (m0 & m1 & H1).
      exists (b0 + a n * m0)%R, (fun j => (b j + a n * m1 j)%R). intros x. rewrite rsum_S, Hb, H1.
      rewrite (rsum_ext d (fun j => ((b j + a n * m1 j) * x j)%R) (fun j => (b j * x j + a n * (m1 j * x j))%R)) by (intros; ring).
      rewrite rsum_plus, rsum_scal. ring. }
  destruct (K d (le_n _)) as (b0 & b & Hb). exists (a0 + b0)%R, b. intros x. rewrite H, Hb. ring.
Qed.
End Affine.
Print Assumptions C94_grid_functions_are_interpolated.
Print Assumptions C94_represented_functions_are_reproduced.
Print Assumptions C94_interpolant_is_the_function.
Print Assumptions C94_down_and_up_again.
Print Assumptions C94_round_trip.
Print Assumptions C94_prolongation_is_exact.
Print Assumptions C94_linear_functions_are_nodal.
Print Assumptions C94_affine_maps_keep_linear_functions.
