(** Coefficient arrays in Python (C83, C84). *)
From Coq Require Import List Arith Bool Reals Lia.
From Verif Require Import Lib Basis_model Basis_spec Basis_proofs Basis_ok Basis_view Basis_props
  Container_model Container_spec Container_proofs Container_desc Container_props Interpolate_model Interpolate_props
  FlatVector_model DiscreteFunction_model DiscreteFunction_spec DiscreteFunction_proofs DiscreteFunction_props
  PyArrays_model PyArrays_spec.
Import ListNotations.
#[local] Arguments Nat.ltb : simpl never.

Section Flat.
Context {E : Type} (b : bexpr E) (els : E -> Prop).
Hypothesis Hwf : wf els b.
Lemma root_size : pb_size (build b) [] = Some (length (sp_forest (meaning b))).
Proof. now rewrite (C04_size_is_the_index_tree b els [] (sp_tree (meaning b)) Hwf eq_refl). Qed.
Lemma block_size i t : nth_error (sp_forest (meaning b)) i = Some t -> pb_size (build b) [i] = Some (degree t).
Proof. intros H. apply (C04_size_is_the_index_tree b els [i] t Hwf). cbn. now rewrite H. Qed.
Lemma flat_or_blocked : flat b \/ blocked b.
Proof.
  destruct (existsb (fun t => negb (degree t =? 0)) (sp_forest (meaning b))) eqn:Ee.
  - right. apply existsb_exists in Ee as (t & Ht & Hd). apply In_nth_error in Ht as [i Hi].
    apply negb_true_iff, Nat.eqb_neq in Hd. destruct (degree t) as [|k] eqn:Ek; [lia|].
    exists (length (sp_forest (meaning b))), i, k. split; [apply root_size|]. split; [now apply nth_error_Some_lt in Hi|].
    rewrite (block_size i t Hi). now rewrite Ek.
  - left. intros n i Hn Hi. rewrite root_size in Hn. injection Hn as <-.
    destruct (nth_error_lt_Some _ _ Hi) as [t Ht]. rewrite (block_size i t Ht).
    destruct (Nat.eqb_spec (degree t) 0) as [->|Hd]; auto. exfalso.
    assert (existsb (fun t => negb (degree t =? 0)) (sp_forest (meaning b)) = true) as Hx; [|congruence].
    apply existsb_exists. exists t. split; [eapply nth_error_In; eauto|]. now apply negb_true_iff, Nat.eqb_neq.
Qed.
Lemma flat_index n m : flat b -> pb_size (build b) [] = Some n -> global_index els b m -> exists k, m = [k] /\ k < n.
Proof.
  intros Hf Hn Hm. apply (global_index_iff b els m Hwf) in Hm. rewrite root_size in Hn. injection Hn as <-.
  destruct m as [|k m]; [discriminate|]. cbn in Hm. destruct (nth_error (sp_forest (meaning b)) k) as [t|] eqn:Et; [|discriminate].
  pose proof (nth_error_Some_lt _ _ _ Et) as Hk. pose proof (Hf _ k root_size Hk) as H0. rewrite (block_size k t Et) in H0.
  injection H0 as H0. exists k. split; auto. destruct m as [|j m]; auto. destruct t as [|[|? ?]]; cbn in *; try discriminate.
  destruct j; discriminate.
Qed.
Lemma array_compatible n (data : list R) : pb_size (build b) [] = Some n -> length data = n ->
  (compatible 0%R (TArr n TScalar) (CBlk (map CVal data)) (sp_tree (meaning b)) <-> flat b).
Proof.
  intros Hn Hl. rewrite root_size in Hn. injection Hn as Hn. unfold sp_tree.
  destruct (sp_forest (meaning b)) as [|t0 f] eqn:Ef.
  - split; [|cbn; auto]. intros _ k i Hk Hi. rewrite root_size, Ef in Hk. injection Hk as <-. cbn in Hi. lia.
  - rewrite <- Ef in *. assert (HE : compatible 0%R (TArr n TScalar) (CBlk (map CVal data)) (Blk (sp_forest (meaning b))) <->
      (length (map (@CVal R) data) = length (sp_forest (meaning b)) /\
       forall i s x, nth_error (sp_forest (meaning b)) i = Some s -> nth_error (map CVal data) i = Some x -> compatible 0%R TScalar x s)).
    { rewrite Ef. cbn. reflexivity. }
    rewrite HE. clear HE. split.
    + intros [_ H] k i Hk Hi. rewrite root_size in Hk. injection Hk as <-.
      destruct (nth_error_lt_Some _ _ Hi) as [t Ht]. rewrite (block_size i t Ht). f_equal.
      destruct (nth_error_lt_Some (map (@CVal R) data) i) as [x Hx]; [rewrite map_length; lia|].
      pose proof (H i t x Ht Hx) as HC. destruct t as [|[|t1 r]]; cbn in HC |- *; auto. destruct HC.
    + intros Hf. split; [rewrite map_length; lia|]. intros i s x Hs _.
      pose proof (Hf _ i root_size (nth_error_Some_lt _ _ _ Hs)) as H0. rewrite (block_size i s Hs) in H0. injection H0 as H0.
      destruct s as [|[|t1 r]]; cbn in H0 |- *; auto; lia.
Qed.
End Flat.

(** * C83 *)
Section Interpolation.
Context {E : Type} (b : bexpr E) (els : E -> Prop) (path : list nat) (es : list E).
Variables (interp : dtype -> E -> list nat -> list R) (trunc : R -> R).

(** The basis, or its subspace at [path], and what the finite elements deliver. *)
Record python_call_ok : Prop := {
  pc_basis : wf els b;
  pc_path : exists n, descendant (pb_node (build b)) path = Some n;
  pc_interp : forall d, interp_ok b path els (interp d);
  pc_elements : forall e, In e es -> els e
}.
Hypothesis OK : python_call_ok.
Notation run := (py_interpolate interp trunc (subspace_of_root (build b) path) es).
Notation into := (interpolate_into interp trunc).

Lemma python_call n d (data : list R) : length data = n ->
  call_ok b els path (TArr n TScalar) (fun e p => map (store trunc d) (interp d e p)) (CBlk (map CVal data)) es.
Proof.
  intros Hl. destruct OK as [H1 H2 H3 H4]. constructor; auto.
  - intros e v p k He Hv Hd Hk. rewrite map_length. eapply H3; eauto.
  - cbn. rewrite map_length. split; auto. apply Forall_forall. intros x Hx. apply in_map_iff in Hx as (r & <- & _). exact I.
  - intros p u Hp Hu. destruct p as [|i p]; [discriminate|]. cbn in Hu. destruct (i <? n); [|discriminate].
    destruct p; [injection Hu as <-; reflexivity|discriminate].
Qed.
Lemma into_fitting n d a : pb_size (build b) [] = Some n -> fits n a ->
  into d (subspace_of_root (build b) path) es a =
  match interpolate (TArr n TScalar) (fun _ => true) (fun e p => map (store trunc d) (interp d e p)) 0%R
          (subspace_of_root (build b) path) es (CBlk (map CVal (a_data a))) with
  | Done c => (Returned, Arr (a_type a) (a_shape a) (a_writeable a) (entries c))
  | Throw => (Raised, a)
  | Undef => (Undefined, a)
  end.
Proof.
  intros Hn (Hs & Hl & Hw). unfold interpolate_into. cbn [ss_root subspace_of_root]. rewrite Hs, Hn, Hw, Nat.eqb_refl. reflexivity.
Qed.
Lemma local_value_map d e m y :
  local_value b path (fun e p => map (store trunc d) (interp d e p)) e m y <-> exists x, local_value b path (interp d) e m x /\ y = store trunc d x.
Proof.
  split.
  - intros (v & p & k & j & l & H1 & H2 & H3 & H4 & H5 & H6). rewrite nth_error_map in H6.
    destruct (nth_error (interp d e p) j) as [x|] eqn:Ex; [|discriminate]. injection H6 as <-.
    exists x. split; auto. exists v, p, k, j, l. auto 10.
  - intros (x & (v & p & k & j & l & H1 & H2 & H3 & H4 & H5 & H6) & ->). exists v, p, k, j, l.
    rewrite nth_error_map, H6. auto 10.
Qed.

Lemma entries_shape (c : cont R) n : has_ty (TArr n TScalar) c -> exists l, c = CBlk (map CVal l) /\ length l = n /\ entries c = l.
Proof.
  destruct c as [x|l]; intros H; [destruct H|]. cbn in H. destruct H as [Hl HF]. exists (map entry_value l). rewrite map_length, map_map.
  split; [|split; auto]. f_equal. induction HF as [|x l Hx HF IH]; [reflexivity|]. cbn. destruct x; [|destruct Hx]. f_equal; auto.
  clear -HF. induction HF as [|y l Hy HF IH]; [reflexivity|]. cbn. destruct y; [|destruct Hy]. cbn. now f_equal.
Qed.
Lemma at_number (l : list R) k : at_path (CBlk (map CVal l)) [k] = option_map CVal (nth_error l k).
Proof. cbn. rewrite nth_error_map. now destruct (nth_error l k). Qed.
Lemma backend_number n (l : list R) k : k < length l -> backend_at (TArr n TScalar) (CBlk (map CVal l)) [k] = Some [k].
Proof.
  intros Hk. unfold backend_at, resolve_final. cbn. unfold shifted_at, shifted_size. cbn.
  change (0 <? 1) with true. change (1 <? 1) with false. cbn. change (0 <? 1) with true. cbn. rewrite nth_error_map.
  destruct (nth_error_lt_Some l k Hk) as [x ->]. reflexivity.
Qed.

Lemma store_converts d x : converted trunc d x (store trunc d x).
Proof. destruct d; cbn; auto. destruct (Req_EM_T x 0); auto. Qed.
Lemma each_same (g : nat -> cont R -> res (cont R)) l : forall k, (forall i r, k <= i < k + length l -> g i (CVal r) = Done (CVal r)) ->
  each g k (map CVal l) = Done (map CVal l).
Proof.
  induction l as [|x l IH]; intros k H; [reflexivity|]. cbn [map each length] in *. rewrite H by lia. cbn [rbind].
  rewrite IH; [reflexivity|]. intros i r Hi. apply H. lia.
Qed.

(** An array of doubles, bools or ints of the size of a flat basis: the call returns and
    the caller's array holds, at the number of every degree of freedom of the basis, the
    value (converted to the type of the array) which the interpolation gives for it.
    All other entries and all other arrays are unchanged. *)
Theorem C83_the_array_holds_the_interpolation_partial h i a n :
  flat b -> pb_size (build b) [] = Some n -> nth_error h i = Some a -> a_type a <> OtherType -> fits n a ->
  exists h' a', run h i = Some (Returned, h') /\ nth_error h' i = Some a' /\ fits n a' /\ a_type a' = a_type a /\
    length h' = length h /\ (forall j, j <> i -> nth_error h' j = nth_error h j) /\
    forall k, k < n ->
      (exists e x y, In e es /\ local_value b path (interp (a_type a)) e [k] x /\
         nth_error (a_data a') k = Some y /\ converted trunc (a_type a) x y) \/
      ((forall e x, In e es -> ~ local_value b path (interp (a_type a)) e [k] x) /\
       nth_error (a_data a') k = nth_error (a_data a) k).
Proof.
  intros Hf Hn Hi Ht Hfit. pose proof (pc_basis OK) as Hwf. set (d := a_type a) in *.
  destruct Hfit as (Hs & Hl & Hw).
  pose proof (python_call n d (a_data a) Hl) as HC. set (c := CBlk (map CVal (a_data a))) in *.
  assert (HR : backend_resize 0%R (pb_size (build b)) (TArr n TScalar) c = Done c).
  { pose proof (C21_resize_returns_iff_compatible b els 0%R (TArr n TScalar) c Hwf (call_container _ _ _ _ _ _ _ HC)) as HX.
    assert (Hcomp : compatible 0%R (TArr n TScalar) c (sp_tree (meaning b))) by (apply (array_compatible b els Hwf n); auto).
    unfold backend_resize in *. cbn [resize] in *. rewrite Hn in *. unfold c at 1 in HX. unfold c at 1.
    destruct (Nat.eqb_spec n 0) as [E0|E0]; [reflexivity|]. rewrite map_length, Hl, Nat.eqb_refl in *. cbn [negb] in *.
    rewrite (each_same _ (a_data a) 0); [reflexivity|]. intros k r Hk. cbn [app resize]. rewrite (Hf n k Hn) by lia. reflexivity. }
  destruct (interpolate_effect b els path (TArr n TScalar) (fun _ => true) _ 0%R c es c HC HR) as (c' & HI & Hty & HSh & HB & HV).
  destruct (entries_shape c' n Hty) as (l & -> & Hll & He).
  assert (Hlt : i < length h) by (eapply nth_error_Some_lt; eauto).
  destruct (upd_Some h i (Arr (a_type a) (a_shape a) (a_writeable a) l) Hlt) as [h' Hh'].
  exists h', (Arr (a_type a) (a_shape a) (a_writeable a) l).
  assert (Hrun : run h i = Some (Returned, h')).
  { unfold py_interpolate. rewrite Hi. cbn [obind].
    assert (HX : (let '(o, a') := into d (subspace_of_root (build b) path) es a in h' <- upd h i a' ;; Some (o, h')) = Some (Returned, h')).
    { rewrite (into_fitting n d a Hn (conj Hs (conj Hl Hw))). fold c. rewrite HI, He, Hh'. reflexivity. }
    fold d. destruct d; try exact HX. now destruct Ht. }
  split; [exact Hrun|]. split; [now rewrite (upd_nth_error _ _ _ _ i Hh'), Nat.eqb_refl|].
  split; [split; [exact Hs|split; [exact Hll|exact Hw]]|]. split; [reflexivity|]. split; [apply (upd_length _ _ _ _ Hh')|].
  split; [intros j Hj; rewrite (upd_nth_error _ _ _ _ j Hh'); apply Nat.eqb_neq in Hj; now rewrite Hj|].
  intros k Hk. cbn [a_data]. destruct (nth_error_lt_Some (a_data a) k) as [r Hr]; [lia|].
  destruct (HV [k] r) as [(e & m & y & P1 & P2 & P3 & P4 & P5)|[P1 P2]].
  - unfold c. rewrite at_number, Hr. reflexivity.
  - left. assert (Gm : global_index els b m) by (eapply value_global; eauto).
    destruct (flat_index b els Hwf n m Hf Hn Gm) as (k' & -> & Hk'). unfold c in P4. rewrite backend_number in P4 by lia. injection P4 as ->.
    apply local_value_map in P2 as (x & Hx & ->). exists e, x, (store trunc d x). split; auto. split; auto. split; [|apply store_converts].
    rewrite at_number in P5. destruct (nth_error l k); [|discriminate]. cbn in P5. now injection P5 as ->.
  - right. split.
    + intros e x He' Hv. apply (P2 e [k] (store trunc d x)); auto; [apply local_value_map; eauto|]. unfold c. apply backend_number. lia.
    + rewrite at_number in P1. rewrite Hr. destruct (nth_error l k); [|discriminate]. cbn in P1. now injection P1 as ->.
Qed.

(** Arrays of the wrong shape and read-only arrays are rejected and left unchanged. *)
Theorem C83_arrays_that_do_not_fit_are_rejected h i a n :
  pb_size (build b) [] = Some n -> nth_error h i = Some a -> a_type a <> OtherType ->
  a_shape a <> [n] \/ a_writeable a = false -> run h i = Some (Raised, h).
Proof.
  intros Hn Hi Ht Hbad.
  assert (HX : forall d, into d (subspace_of_root (build b) path) es a = (Raised, a)).
  { intros d. unfold interpolate_into. cbn [ss_root subspace_of_root]. rewrite Hn.
    destruct (a_shape a) as [|k r] eqn:Es; [reflexivity|]. destruct (Nat.eqb_spec k n) as [->|]; [|reflexivity]. cbn [negb].
    destruct (a_writeable a) eqn:Ew; [|reflexivity]. cbn [negb]. destruct r as [|k' r]; [|reflexivity].
    destruct Hbad as [Hb|Hb]; [now destruct Hb|discriminate]. }
  assert (HU : upd h i a = Some h).
  { clear -Hi. revert i Hi. induction h as [|x h IH]; intros [|i] Hi; try discriminate; cbn in *; [now injection Hi as ->|].
    now rewrite IH. }
  unfold py_interpolate. rewrite Hi. cbn [obind]. destruct (a_type a); try (now destruct Ht); rewrite HX, HU; reflexivity.
Qed.

(** So is every array if the basis has blocks. *)
Theorem C83_bases_with_blocks_are_rejected h i a :
  blocked b -> nth_error h i = Some a -> a_type a <> OtherType -> (forall n, a_shape a = [n] -> length (a_data a) = n) ->
  run h i = Some (Raised, h).
Proof.
  intros (n & j & q & Hn & Hj & Hb) Hi Ht Hlen. pose proof (pc_basis OK) as Hwf.
  destruct (list_eq_dec Nat.eq_dec (a_shape a) [n]) as [Hs|Hs]; [|eapply C83_arrays_that_do_not_fit_are_rejected; eauto].
  destruct (a_writeable a) eqn:Hw; [|eapply C83_arrays_that_do_not_fit_are_rejected; eauto].
  pose proof (Hlen n Hs) as Hl.
  assert (HX : forall d, into d (subspace_of_root (build b) path) es a = (Raised, a)).
  { intros d. rewrite (into_fitting n d a Hn (conj Hs (conj Hl Hw))).
    pose proof (python_call n d (a_data a) Hl) as HC.
    pose proof (C25_throws_iff_resize_throws b els path (TArr n TScalar) (fun _ => true) _ 0%R _ es HC) as H25.
    pose proof (C21_resize_returns_iff_compatible b els 0%R (TArr n TScalar) _ Hwf (call_container _ _ _ _ _ _ _ HC)) as H21.
    destruct (interpolate _ _ _ _ _ _ _) as [c| |]; [|reflexivity|destruct H25]. exfalso.
    destruct H25 as [c0 HR]. rewrite HR in H21. apply (array_compatible b els Hwf n _ Hn Hl) in H21.
    rewrite (H21 n j Hn Hj) in Hb. discriminate. }
  assert (HU : upd h i a = Some h).
  { clear -Hi. revert i Hi. induction h as [|x h IH]; intros [|i] Hi; try discriminate; cbn in *; [now injection Hi as ->|].
    now rewrite IH. }
  unfold py_interpolate. rewrite Hi. cbn [obind]. destruct (a_type a); try (now destruct Ht); rewrite HX, HU; reflexivity.
Qed.

(** Arrays of any other type, for instance float32 or int64: the call returns as if it had
    succeeded, but the values went to a temporary copy.  No array has changed. *)
Theorem C83_arrays_of_other_types_refuted h i a n :
  flat b -> pb_size (build b) [] = Some n -> nth_error h i = Some a -> a_type a = OtherType ->
  a_shape a = [n] -> length (a_data a) = n ->
  run h i = Some (Returned, h).
Proof.
  intros Hf Hn Hi Ht Hs Hl.
  pose (a0 := Arr Float64 (a_shape a) true (a_data a)).
  assert (H0 : nth_error [a0] 0 = Some a0) by reflexivity.
  destruct (C83_the_array_holds_the_interpolation_partial [a0] 0 a0 n Hf Hn H0) as (h' & a' & HR & _); [discriminate|repeat split; auto|].
  unfold py_interpolate in *. cbn [nth_error obind a_type a0] in HR. rewrite Hi. cbn [obind]. rewrite Ht.
  fold a0. destruct (into Float64 (subspace_of_root (build b) path) es a0) as [o a1]. cbn [upd obind] in HR. injection HR as -> _. reflexivity.
Qed.
End Interpolation.

(** * C84 *)
Lemma py_number (data : list R) m : (exists k, m = [k]) -> py_coefficient data m = number_coefficient data m.
Proof.
  intros (k & ->). unfold py_coefficient, number_coefficient. cbn. unfold shifted_at, shifted_size. cbn.
  change (0 <? 1) with true. change (1 <? 1) with false. cbn. change (0 <? 1) with true. cbn. rewrite nth_error_map.
  destruct (nth_error data k) as [x|] eqn:Ex; [|reflexivity]. cbn. now rewrite nth_error_map, Ex.
Qed.

Section Functions.
Context {E X : Type} (b : bexpr E) (path : list nat) (els : E -> Prop) (su : setup E X) (n : nat).
Hypothesis OKS : setup_ok b path els su.
Hypothesis Hcd : su_cdim su = 1.
Hypothesis Hflat : flat b.
Hypothesis Hn : pb_size (build b) [] = Some n.

Lemma py_coefs_ok data : length data = n -> coefs_ok b els su (py_coefficient data).
Proof.
  intros Hl m Hm. destruct (flat_index b els (so_wf _ _ _ _ OKS) n m Hflat Hn Hm) as (k & -> & Hk).
  rewrite py_number by eauto. cbn. destruct (nth_error_lt_Some data k) as [x ->]; [lia|]. cbn. exists [x]. rewrite Hcd. auto.
Qed.
Definition sf_of (f : pyfun E) : sfun (E := E) := SF (pf_deriv f) (option_map (fun ed => (fst ed, py_coefficient (snd ed))) (pf_state f)).
Definition op_of (o : pyop E) (data : list R) : lfop E :=
  match o with
  | PyNew d => OpNew d | PyBind i e => OpBind i e | PyUnbind i => OpUnbind i | PyCopy i => OpCopy i
  | PyDerivative i => OpDerivative i | PySet k v => OpCoefs (py_coefficient data)
  end.
Lemma upd_map {A B} (g : A -> B) l i x : upd (map g l) i (g x) = option_map (map g) (upd l i x).
Proof. revert i. induction l as [|a l IH]; intros [|i]; cbn; auto. rewrite IH. now destruct (upd l i x). Qed.
Lemma ps_sf l data o l' data' : ps_step (l, data) o = Some (l', data') ->
  sf_step (map sf_of l, py_coefficient data) (op_of o data') = Some (map sf_of l', py_coefficient data').
Proof.
  destruct o as [d|i e|i|i|i|k v]; cbn.
  - intros [= <- <-]. now rewrite map_app.
  - rewrite nth_error_map. destruct (nth_error l i) as [f|]; [|discriminate]. cbn [obind option_map].
    cbn. change (SF (pf_deriv f) (Some (e, py_coefficient data))) with (sf_of (PF (pf_deriv f) (Some (e, data)))). rewrite upd_map.
    destruct (upd l i _); [|discriminate]. now intros [= <- <-].
  - rewrite nth_error_map. destruct (nth_error l i) as [f|]; [|discriminate]. cbn [obind option_map].
    cbn. change (SF (pf_deriv f) None) with (sf_of (PF (pf_deriv f) None)). rewrite upd_map.
    destruct (upd l i _); [|discriminate]. now intros [= <- <-].
  - rewrite nth_error_map. destruct (nth_error l i) as [f|]; [|discriminate]. cbn. intros [= <- <-]. now rewrite map_app.
  - rewrite nth_error_map. destruct (nth_error l i) as [f|]; [|discriminate]. cbn. destruct (pf_deriv f); [discriminate|].
    intros [= <- <-]. rewrite map_app. cbn. destruct (pf_state f) as [[e d]|]; reflexivity.
  - destruct (upd data k v); [|discriminate]. now intros [= <- <-].
Qed.
Lemma py_lf fs data o l' l d' : ps_step (l, data) o = Some (l', d') -> py_step su (fs, data) o = option_map (fun fs' => (fs', d')) (lf_step su fs (op_of o d')).
Proof.
  destruct o as [d|i e|i|i|i|k v]; cbn [ps_step py_step op_of].
  - intros [= _ <-]. now destruct (lf_step su fs (OpNew d)).
  - intros H. assert (d' = data) as ->. { destruct (nth_error l i); [|discriminate]. cbn in H. destruct (upd l i _); [|discriminate]. now injection H. }
    now destruct (lf_step su fs (OpBind i e)).
  - intros H. assert (d' = data) as ->. { destruct (nth_error l i); [|discriminate]. cbn in H. destruct (upd l i _); [|discriminate]. now injection H. }
    now destruct (lf_step su fs (OpUnbind i)).
  - intros H. assert (d' = data) as ->. { destruct (nth_error l i); [|discriminate]. now injection H. }
    now destruct (lf_step su fs (OpCopy i)).
  - intros H. assert (d' = data) as ->. { destruct (nth_error l i) as [f|]; [|discriminate]. cbn in H. destruct (pf_deriv f); [discriminate|]. now injection H. }
    now destruct (lf_step su fs (OpDerivative i)).
  - intros H. destruct (upd data k v) as [dd|]; [|discriminate]. injection H as _ ->. reflexivity.
Qed.
(** A history as a history of DiscreteFunction_model *)
Lemma history h : forall l data l' data' fs, length data = n -> Forall (pyop_ok els) h -> ps_run (l, data) h = Some (l', data') ->
  exists lh, Forall (op_ok b els su) lh /\ sf_run (map sf_of l, py_coefficient data) lh = Some (map sf_of l', py_coefficient data') /\
    py_run su (fs, data) h = option_map (fun fs' => (fs', data')) (lf_run su fs lh) /\ length data' = n.
Proof.
  induction h as [|o h IH]; intros l data l' data' fs Hl Hok Hr.
  - injection Hr as <- <-. exists []. repeat split; auto.
  - cbn [ps_run] in Hr. destruct (ps_step (l, data) o) as [[l1 data1]|] eqn:E1; [|discriminate]. cbn [obind] in Hr.
    pose proof (Forall_inv Hok) as Ho. pose proof (Forall_inv_tail Hok) as Hok'.
    assert (Hl1 : length data1 = length data).
    { destruct o as [d|i e|i|i|i|k v]; cbn in E1.
      - now injection E1 as _ <-.
      - destruct (nth_error l i); [|discriminate]. cbn in E1. destruct (upd l i _); [|discriminate]. now injection E1 as _ <-.
      - destruct (nth_error l i); [|discriminate]. cbn in E1. destruct (upd l i _); [|discriminate]. now injection E1 as _ <-.
      - destruct (nth_error l i); [|discriminate]. now injection E1 as _ <-.
      - destruct (nth_error l i) as [f|]; [|discriminate]. cbn in E1. destruct (pf_deriv f); [discriminate|]. now injection E1 as _ <-.
      - destruct (upd data k v) as [dd|] eqn:Ed; [|discriminate]. injection E1 as _ <-. apply (upd_length _ _ _ _ Ed). }
    assert (HO : op_ok b els su (op_of o data1)).
    { destruct o; cbn in *; auto. apply py_coefs_ok. congruence. }
    cbn [py_run]. rewrite (py_lf fs data o l1 l data1 E1).
    destruct (lf_step su fs (op_of o data1)) as [fs1|] eqn:Ef.
    + destruct (IH l1 data1 l' data' fs1 (eq_trans Hl1 Hl) Hok' Hr) as (lh & A & B & C & D).
      exists (op_of o data1 :: lh). split; [constructor; auto|]. split; [|split; [|congruence]].
      * cbn [sf_run]. rewrite (ps_sf l data o l1 data1 E1). exact B.
      * cbn [option_map obind lf_run]. rewrite Ef. exact C.
    + destruct (IH l1 data1 l' data' fs (eq_trans Hl1 Hl) Hok' Hr) as (lh & A & B & C & D).
      exists (op_of o data1 :: lh). split; [constructor; auto|]. split; [|split; [|congruence]].
      * cbn [sf_run]. rewrite (ps_sf l data o l1 data1 E1). exact B.
      * cbn [option_map obind lf_run]. now rewrite Ef.
Qed.

Lemma coef_of_number data e v p k i j : els e -> leaf_of b path e v p k ->
  coef_of (py_coefficient data) v k i j = coef_of (number_coefficient data) v k i j.
Proof.
  intros He (L1 & L2 & L3). unfold coef_of. destruct (local_index k i) as [q|] eqn:Eq; auto.
  destruct (lv_index v q) as [m|] eqn:Em; auto.
  assert (Hm : global_index els b m).
  { apply (local_value_global (fun _ _ => repeat 0 (S i)) b els path (so_wf _ _ _ _ OKS) e m 0 He).
    exists v, p, k, i, q. do 5 (split; auto). apply (nth_error_repeat 0). lia. }
  destruct (flat_index b els (so_wf _ _ _ _ OKS) n m Hflat Hn Hm) as (k' & -> & _). rewrite py_number by eauto. reflexivity.
Qed.

(** Every history of binding, copying, ... local functions of basis.asFunction(x) and of
    assignments to entries of x: a bound local function has the value, or derivative,
    of the function with coefficient x[k] for basis function number k, with x as it was
    at the time of the bind. *)
Theorem C84_python_functions_partial data h l data' :
  length data = n -> Forall (pyop_ok els) h -> ps_run ([], data) h = Some (l, data') ->
  exists fs, py_run su (py_function data) h = Some (fs, data') /\ length (w_pool fs) = length l /\
    forall i d e x0 f x, nth_error l i = Some (PF d (Some (e, x0))) -> nth_error (w_pool fs) i = Some f ->
      els e -> exists y, lf_eval su f x = Some y /\
        if d then is_derivative b path su e (number_coefficient x0) x y else is_value b path su e (number_coefficient x0) x y.
Proof.
  intros Hl Hok Hr. destruct (history h [] data l data' (W [] (py_coefficient data)) Hl Hok Hr) as (lh & A & B & C & D).
  cbn [map] in B. pose proof (py_coefs_ok data Hl) as H0.
  destruct (C26_histories_are_defined b path els su (py_coefficient data) lh OKS H0 A _ _ B) as (fs & Hfs & Hlen).
  exists fs. unfold py_function. rewrite C, Hfs. split; auto. split; [now rewrite Hlen, map_length|].
  intros i d e x0 f x Hi Hf He.
  assert (Hi' : nth_error (map sf_of l) i = Some (SF d (Some (e, py_coefficient x0)))) by (rewrite nth_error_map, Hi; reflexivity).
  destruct d.
  - destruct (C26_derivative_is_the_weighted_sum b path els su (py_coefficient data) lh OKS H0 A _ _ fs i e (py_coefficient x0) f x B Hfs Hi' Hf) as (y & Hy & (S1 & S2)).
    exists y. split; auto. split; auto. intros v p k L. destruct (S2 v p k L) as (en & Q1 & Q2 & Q3). exists en. split; auto. split; auto.
    intros Hk. destruct (Q3 Hk) as [Q4 Q5]. split; auto. intros j r g Hj Hr' Hg. rewrite (Q5 j r g Hj Hr' Hg). f_equal.
    apply rsum_ext. intros q Hq. now rewrite (coef_of_number x0 e v p k q j He L).
  - destruct (C26_value_is_the_weighted_sum b path els su (py_coefficient data) lh OKS H0 A _ _ fs i e (py_coefficient x0) f x B Hfs Hi' Hf) as (y & Hy & (S1 & S2)).
    exists y. split; auto. split; auto. intros v p k L. destruct (S2 v p k L) as (en & Q1 & Q2 & Q3). exists en. split; auto. split; auto.
    intros Hk. destruct (Q3 Hk) as [Q4 Q5]. split; auto. intros j r Hj Hr'. rewrite (Q5 j r Hj Hr'). f_equal.
    apply rsum_ext. intros q Hq. now rewrite (coef_of_number x0 e v p k q j He L).
Qed.
End Functions.

(** If the basis has blocks, nothing is rejected: all basis functions of a block share
    one entry of the array. *)
Theorem C84_blocks_share_coefficients_refuted (data : list R) i p q :
  py_coefficient data (i :: p) = py_coefficient data (i :: q).
Proof.
  unfold py_coefficient. cbn. unfold shifted_at, shifted_size. cbn.
  change (0 <? S (length p)) with true. change (0 <? S (length q)) with true. cbn. change (0 <? 1) with true. cbn.
  now destruct (nth_error (map CVal data) i).
Qed.

(** * The hypotheses are met *)

(** Two linear components, numbered alternately, on two intervals: size six. *)
Definition ex83_b : bexpr nat := BPower true 2 FlatInterleaved (BLeaf ex_p1).
Definition ex83_interp (d : dtype) (e : nat) (p : list nat) : list R := repeat (INR e + 1)%R 2.
Lemma ex83_leaf e v p n : leaf_of ex83_b [] e v p n -> (p = [0] \/ p = [1]) /\ node_size n = 2.
Proof.
  intros (H1 & H2 & H3). injection H1 as <-. cbn [app] in H2.
  destruct p as [|[|[|i]] p]; cbn in H2.
  - injection H2 as <-. discriminate.
  - destruct p; cbn in H2; [|destruct n0; discriminate]. injection H2 as <-. cbn. auto.
  - destruct p; cbn in H2; [|destruct n0; discriminate]. injection H2 as <-. cbn. auto.
  - destruct i; discriminate.
Qed.
Lemma ex83_wf : wf ex_els ex83_b.
Proof. cbn. split; [lia|]. split; [apply ex_p1_ok|]. discriminate. Qed.
Example C83_hypotheses_met : python_call_ok ex83_b ex_els [] [1; 0] ex83_interp /\ flat ex83_b /\ pb_size (build ex83_b) [] = Some 6 /\ blocked (BPower true 2 BlockedInterleaved (BLeaf ex_p1)) /\ fits 6 (Arr Float64 [6] true [0; 0; 0; 0; 0; 0]%R).
Proof.
  split; [constructor|split; [|split; [|split; [|repeat split]]]].
  - apply ex83_wf.
  - cbn. eauto.
  - intros d e v p n He Hv Hd Hk. destruct (ex83_leaf e v p n) as [_ ->]; [split; auto|]. cbn. lia.
  - intros e [<-|[<-|[]]]; unfold ex_els; lia.
  - intros n i Hn Hi. cbn in Hn. injection Hn as <-. cbn in Hi. do 6 (destruct i as [|i]; [reflexivity|]). lia.
  - reflexivity.
  - exists 3, 2, 1. repeat split; auto.
Qed.
Definition ex84_su : setup nat R := SU (subspace_of_root (build ex83_b) []) 1 (fun _ => 1) 1 1
  (fun _ _ x => [[1 - x]; [x]]%R) (fun _ _ _ => [[- (1)]; [1]]%R) (fun _ _ _ _ => 2%R)
  (CBlk [CVal 0; CVal 0])%R (fun _ => FScalar) (CBlk [CBlk [CVal 0]; CBlk [CVal 0]])%R (fun _ => FVec (Some 1) FScalar).
Example C84_hypotheses_met : setup_ok ex83_b [] ex_els ex84_su /\ su_cdim ex84_su = 1.
Proof.
  split; [constructor|reflexivity].
  - apply ex83_wf.
  - cbn. eauto.
  - reflexivity.
  - intros e v p n x He L. destruct (ex83_leaf e v p n L) as [[ -> | -> ] ->]; cbn; repeat constructor.
  - intros e v p n x He L. destruct (ex83_leaf e v p n L) as [[ -> | -> ] ->]; cbn; repeat constructor.
  - intros e v p n He L. destruct (ex83_leaf e v p n L) as [[ -> | -> ] _]; (split; [|right; cbn; eauto]);
      eexists; repeat split; reflexivity.
  - intros e v p n He L. destruct (ex83_leaf e v p n L) as [[ -> | -> ] _]; (split; [|right; cbn; eauto]);
      eexists; (split; [reflexivity|]); repeat split; repeat constructor.
Qed.
Definition ex84_x : list R := [1; 2; 3; 4; 5; 6]%R.
(** Nor is the length of the array checked: for an array with one entry missing
    asFunction returns, and binding to the last element reads past its end. *)
Theorem C84_short_arrays_refuted :
  exists (su : setup nat R), setup_ok ex83_b [] ex_els su /\ pb_size (build ex83_b) [] = Some 6 /\
    py_run su (py_function [1; 2; 3; 4; 5]%R) [PyNew false; PyBind 0 0] <> None /\
    py_run su (py_function [1; 2; 3; 4; 5]%R) [PyNew false; PyBind 0 1] = None.
Proof. exists ex84_su. split; [apply C84_hypotheses_met|]. split; [reflexivity|]. split; [discriminate|reflexivity]. Qed.

(** The entry is changed after the bind: the bound function keeps the old one. *)
Example C84_history_met : Forall (pyop_ok ex_els) [PyNew false; PyBind 0 1; PySet 2 7%R; PyDerivative 0; PyCopy 0] /\ ps_run (E := nat) ([], ex84_x) [PyNew false; PyBind 0 1; PySet 2 7%R; PyDerivative 0; PyCopy 0] =
  Some ([PF false (Some (1, ex84_x)); PF true (Some (1, [1; 2; 7; 4; 5; 6]%R)); PF false (Some (1, ex84_x))], [1; 2; 7; 4; 5; 6]%R).
Proof. split; [|reflexivity]. repeat constructor. Qed.

Print Assumptions C83_the_array_holds_the_interpolation_partial.
Print Assumptions C83_arrays_that_do_not_fit_are_rejected.
Print Assumptions C83_bases_with_blocks_are_rejected.
Print Assumptions C83_arrays_of_other_types_refuted.
Print Assumptions C84_python_functions_partial.
Print Assumptions C84_blocks_share_coefficients_refuted.
Print Assumptions C84_short_arrays_refuted.
