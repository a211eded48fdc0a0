(** interpolate (C25). *)
From Coq Require Import List Arith Bool Lia Permutation.
From Verif Require Import Lib Basis_model Basis_spec Basis_proofs Basis_ok Basis_view Basis_props
  Container_model Container_spec Container_proofs Container_desc Container_props Interpolate_model.
Import ListNotations.
#[local] Arguments Nat.ltb : simpl never.

Section Spec.
Context {E V : Type}.

(** On element [e], multi-index [m] is a DOF of the (sub)basis and the interpolation
    there gives [x]: in a view bound to [e], [m] is the index of local DOF [j] of the
    leaf node at path [p], and [x] is coefficient [j] computed for that node. *)
Definition local_value (b : bexpr E) (path : list nat) (interp : E -> list nat -> list V) (e : E) (m : mi) (x : V) : Prop :=
  exists v p n j k,
    lv_bind (build b) (lv_new (build b)) e = Some v /\
    descendant (lv_tree v) (path ++ p) = Some n /\ is_leaf n = true /\
    local_index n j = Some k /\ lv_index v k = Some m /\
    nth_error (interp e p) j = Some x.

(** The local interpolation of every leaf gives at least as many coefficients as the
    leaf has basis functions. *)
Definition interp_ok (b : bexpr E) (path : list nat) (els : E -> Prop) (interp : E -> list nat -> list V) : Prop :=
  forall e v p n, els e -> lv_bind (build b) (lv_new (build b)) e = Some v ->
    descendant (lv_tree v) (path ++ p) = Some n -> is_leaf n = true -> node_size n <= length (interp e p).

(** The value the vector backend shows for an index. *)
Definition read (t : cty) (c : cont V) (m : mi) : option (cont V) :=
  match backend_at t c m with Some a => at_path c a | None => None end.
End Spec.

Section Proofs.
Context {E V : Type}.
Notation cont := (cont V).

Lemma for_each_leaf_eq (n : node E) : for_each_leaf n = leaf_nodes n.
Proof. reflexivity. Qed.
Lemma descendant_app' (n : node E) p q : descendant n (p ++ q) = match descendant n p with Some c => descendant c q | None => None end.
Proof. revert n. induction p as [|i p IH]; intros n; cbn; auto. destruct (child n i); auto. Qed.

(** resize() keeps the values of entries that exist before and after. *)
Lemma resize_keeps (zero : V) size : forall t (c c' : cont) pre p x y,
  resize zero size t c pre = Done c' -> at_path c p = Some (CVal x) -> at_path c' p = Some y -> y = CVal x.
Proof.
  induction t as [|t IH|n t IH|ts IH] using cty_ind'; intros c c' pre p x y H Hx Hy;
    cbn [resize] in H; (destruct (size pre) as [n0|]; [|discriminate]).
  - destruct c; [|discriminate]. destruct (n0 =? 0); [|discriminate]. injection H as <-. congruence.
  - destruct c as [v|l]; [discriminate|]. destruct (n0 =? 0); [destruct (length l =? 0); [discriminate|]; injection H as <-; congruence|].
    destruct (each _ 0 _) as [l'| |] eqn:El; try discriminate. injection H as <-. apply each_Done in El as [HL He].
    destruct p as [|i p]; [discriminate|]. cbn in Hx, Hy. destruct (nth_error l i) as [a|] eqn:Ea; [|discriminate].
    destruct (nth_error l' i) as [a'|] eqn:Ea'; [|discriminate].
    assert (Hi : i < n0).
    { rewrite vresize_length in HL. rewrite <- HL. eapply nth_error_Some_lt; eauto. }
    destruct (He i a) as (z & Hz & Hr).
    { rewrite vresize_nth. destruct (Nat.ltb_spec i n0); [|lia]. f_equal. now apply nth_error_nth. }
    rewrite Ea' in Hz. injection Hz as <-. eapply IH; eauto.
  - destruct c as [v|l]; [discriminate|]. destruct (n0 =? 0); [injection H as <-; congruence|].
    destruct (negb _); [discriminate|]. destruct (each _ 0 _) as [l'| |] eqn:El; try discriminate. injection H as <-. apply each_Done in El as [HL He].
    destruct p as [|i p]; [discriminate|]. cbn in Hx, Hy. destruct (nth_error l i) as [a|] eqn:Ea; [|discriminate].
    destruct (nth_error l' i) as [a'|] eqn:Ea'; [|discriminate].
    destruct (He i a Ea) as (z & Hz & Hr). rewrite Ea' in Hz. injection Hz as <-. eapply IH; eauto.
  - destruct c as [v|l]; [discriminate|]. destruct (n0 =? 0); [injection H as <-; congruence|].
    destruct (negb _); [discriminate|].
    match type of H with rbind ?g _ = _ => destruct g as [l'| |] eqn:El end; try discriminate. injection H as <-.
    destruct p as [|i p]; [discriminate|]. cbn in Hx, Hy.
    destruct (nth_error l i) as [a|] eqn:Ea; [|discriminate].
    destruct (nth_error l' i) as [a'|] eqn:Ea'; [|discriminate].
    match type of El with ?g ts l 0 = _ => assert (El' : exists o, g ts l o = Done l') by (exists 0; exact El) end.
    clear El. destruct El' as [o El]. revert l l' i IH Ea Ea' o El.
    induction ts as [|t ts IHts]; intros l l' i IH Ea Ea' o El.
    + destruct l; [|discriminate]. destruct i; discriminate.
    + destruct l as [|z l]; [destruct i; discriminate|]. inversion IH; subst.
      destruct (resize zero size t z (pre ++ [o])) as [w| |] eqn:Ew; try discriminate. cbn [rbind] in El.
      match type of El with rbind ?g _ = _ => destruct g as [r| |] eqn:Er end; try discriminate. injection El as <-.
      destruct i as [|i].
      * injection Ea as <-. injection Ea' as <-. eapply H1; eauto.
      * cbn in Ea, Ea'. eapply IHts; eauto.
Qed.

Lemma cont_ext (c : cont) : forall c', shape c = shape c' ->
  (forall p x, at_path c p = Some (CVal x) -> at_path c' p = Some (CVal x)) -> c = c'.
Proof.
  induction c as [x|l IH] using cont_ind'; intros [y|l'] HS H; try discriminate.
  - specialize (H [] x eq_refl). cbn in H. congruence.
  - injection HS as HS. f_equal. apply nth_error_ext. intros i.
    assert (HL : length l = length l') by (apply (f_equal (@length _)) in HS; now rewrite !map_length in HS).
    destruct (nth_error l i) as [x|] eqn:Ex.
    + destruct (nth_error_lt_Some l' i) as [y Hy]; [rewrite <- HL; eapply nth_error_Some_lt; eauto|].
      rewrite Hy. f_equal. rewrite Forall_forall in IH. apply IH; [eapply nth_error_In; eauto| |].
      * apply (f_equal (fun m => nth_error m i)) in HS. rewrite !nth_error_map_eq, Ex, Hy in HS. now injection HS.
      * intros p v Hp. specialize (H (i :: p) v). cbn in H. rewrite Ex, Hy in H. auto.
    + symmetry. apply nth_error_None. rewrite <- HL. now apply nth_error_None.
Qed.

Variables (t : cty) (mask : mi -> bool) (interp : E -> list nat -> list V).

Definition write1 (c : cont) (w : mi * V) : option cont :=
  if mask (fst w) then backend_write t c (fst w) (snd w) else Some c.
Fixpoint writes (ws : list (mi * V)) (c : cont) : option cont :=
  match ws with [] => Some c | w :: r => c' <- write1 c w ;; writes r c' end.
Lemma writes_app a b c : writes (a ++ b) c = (c' <- writes a c ;; writes b c').
Proof. revert c. induction a as [|w a IH]; intros c; cbn; auto. destruct (write1 c w); cbn; auto. Qed.

(** Addresses depend on the shape only. *)
Lemma backend_shape (c c' : cont) m a : has_ty t c -> shape c' = shape c -> (exists x, at_path c m = Some x) ->
  backend_at t c m = Some a -> backend_at t c' m = Some a.
Proof.
  intros Ht HS [x Hx] H. assert (Ht' : has_ty t c') by (apply (has_ty_shape t c c'); auto).
  pose proof (shape_path c m) as H1. rewrite <- HS, shape_path, Hx in H1.
  destruct (at_path c' m) as [x'|] eqn:Ex'; [|discriminate]. cbn in H1. injection H1 as H1.
  apply (C23_follows_digits_then_zeros t c x m a Ht Hx) in H as (k & -> & Hk).
  apply (C23_follows_digits_then_zeros t c' x' m _ Ht' Ex'). exists k. split; auto. apply (zeros_shape k x x'); auto.
Qed.
Lemma path_shape (c c' : cont) p : shape c' = shape c -> (exists x, at_path c p = Some x) -> exists x, at_path c' p = Some x.
Proof.
  intros HS [x Hx]. pose proof (shape_path c p) as H1. rewrite <- HS, shape_path, Hx in H1.
  destruct (at_path c' p); [eauto|discriminate].
Qed.

Definition addressable (c : cont) (m : mi) : Prop :=
  (exists x, at_path c m = Some x) /\ exists a v, backend_at t c m = Some a /\ at_path c a = Some (CVal v).

Lemma addressable_shape c c' m : has_ty t c -> shape c' = shape c -> addressable c m -> addressable c' m.
Proof.
  intros Ht HS (Hx & a & v & Ha & Hv). split; [now apply (path_shape c c')|].
  exists a. pose proof (shape_path c a) as H1. rewrite <- HS, shape_path, Hv in H1.
  destruct (at_path c' a) as [[w|l]|]; try discriminate. exists w. split; auto. now apply (backend_shape c c').
Qed.

Lemma writes_ok ws : forall c, has_ty t c -> (forall w, In w ws -> addressable c (fst w)) ->
  exists c', writes ws c = Some c' /\ shape c' = shape c /\
    forall a v, at_path c a = Some (CVal v) ->
      (exists m x, In (m, x) ws /\ mask m = true /\ backend_at t c m = Some a /\ at_path c' a = Some (CVal x)) \/
      (at_path c' a = Some (CVal v) /\ forall m x, In (m, x) ws -> mask m = true -> backend_at t c m <> Some a).
Proof.
  induction ws as [|[m x] ws IH]; intros c Ht Ha.
  - exists c. split; [reflexivity|]. split; [reflexivity|]. intros a v Hv. right. split; auto.
  - cbn [writes]. unfold write1. cbn [fst snd]. destruct (mask m) eqn:Em.
    + destruct (Ha (m, x) (or_introl eq_refl)) as (Hx & a0 & v0 & H1 & H2). cbn [fst] in *.
      destruct (put_spec c (CVal x) a0 (CVal v0) H2) as (c1 & Hc1 & Hr & Ho).
      pose proof (put_shape c c1 a0 v0 x H2 Hc1) as HS1.
      assert (Ht1 : has_ty t c1) by (apply (has_ty_shape t c c1); auto).
      unfold backend_write. rewrite H1. cbn [obind]. rewrite Hc1. cbn [obind].
      destruct (IH c1 Ht1) as (c' & HW & HS & HV).
      { intros w Hw. apply (addressable_shape c c1); auto. apply Ha. now right. }
      exists c'. split; auto. split; [congruence|]. intros a v Hv.
      assert (HB : forall m' x', In (m', x') ws -> forall a', backend_at t c1 m' = Some a' <-> backend_at t c m' = Some a').
      { intros m' x' Hm' a'. destruct (Ha (m', x') (or_intror Hm')) as (P1 & P2). cbn [fst] in *. split; intros HH.
        - eapply (backend_shape c1 c); eauto. apply (path_shape c c1); auto.
        - eapply (backend_shape c c1); eauto. }
      destruct (list_eq_dec Nat.eq_dec a a0) as [->|Hne].
      * destruct (HV a0 x Hr) as [(m' & x' & P1 & P2 & P3 & P4)|[P1 P2]].
        -- left. exists m', x'. split; [now right|]. split; auto. split; auto. eapply HB; eauto.
        -- left. exists m, x. split; [now left|]. auto.
      * destruct (scalar_paths c a0 a v0 v H2 Hv ltac:(auto)) as [A B].
        assert (Hv1 : at_path c1 a = Some (CVal v)) by (rewrite (Ho a A B); exact Hv).
        destruct (HV a v Hv1) as [(m' & x' & P1 & P2 & P3 & P4)|[P1 P2]].
        -- left. exists m', x'. split; [now right|]. split; auto. split; auto. eapply HB; eauto.
        -- right. split; auto. intros m' x' [[= <- <-]|Hin] Hm' Hb; [congruence|].
           eapply P2; eauto. eapply HB; eauto.
    + cbn [obind]. destruct (IH c Ht) as (c' & HW & HS & HV).
      { intros w Hw. apply Ha. now right. }
      exists c'. split; auto. split; auto. intros a v Hv.
      destruct (HV a v Hv) as [(m' & x' & P1 & P2 & P3 & P4)|[P1 P2]].
      * left. exists m', x'. split; [now right|]. auto.
      * right. split; auto. intros m' x' [[= <- <-]|Hin] Hm'; [congruence|]. eauto.
Qed.

Lemma forl_writes (n k0 : nat) (body : nat -> cont -> option cont) (P : nat -> mi * V -> Prop) :
  (forall i, k0 <= i < k0 + n -> exists w, P i w /\ forall c, body i c = write1 c w) ->
  exists ws, (forall c, forl n k0 body c = writes ws c) /\ Forall2 P (seq k0 n) ws.
Proof.
  revert k0. induction n as [|n IH]; intros k0 H; [exists []; split; [reflexivity|constructor]|].
  destruct (H k0) as (w & HP & Hw); [lia|]. destruct (IH (S k0)) as (ws & H1 & H2).
  { intros i Hi. apply H. lia. }
  exists (w :: ws). split; [|constructor; auto]. intros c. cbn. rewrite Hw. destruct (write1 c w); cbn; auto.
  rewrite Nat.add_1_r. apply H1.
Qed.

Lemma bound_leaf e (n : node E) : forall off p l, In (p, l) (leaf_nodes (bind_tree e off n)) -> node_size l <> 0 ->
  exists m g fe, l = NLeaf m g fe (Some e) /\ node_size l = fe e.
Proof.
  induction n as [m g fe el|m g cs IH] using node_ind'; intros off p l H Hs.
  - cbn in H. destruct (forallb _ g) eqn:Eg.
    + destruct H as [[= <- <-]|[]]. exists (MX off (fe e) (mx_tix m)), g, fe. auto.
    + exfalso. apply Hs. apply (leaf_nodes_zero off (NLeaf m g fe el) (p, l)). exact H.
  - rewrite bind_inner in H. destruct (forallb _ g) eqn:Eg.
    2:{ exfalso. apply Hs. apply (leaf_nodes_zero off (NInner m g cs) (p, l)). exact H. }
    rewrite leaf_nodes_inner in H. revert H. generalize 0 as i. revert off p.
    induction IH as [|c cs Hc _ IHc]; intros off p i H; [destruct H|]. cbn in H.
    destruct (bind_children e (off + node_size (bind_tree e off c)) cs) as [o' r'] eqn:Er. cbn in H.
    apply in_app_or in H as [H|H].
    + apply in_map_iff in H as ([q l'] & [= <- <-] & Hq). eapply Hc; eauto.
    + eapply (IHc (off + node_size (bind_tree e off c))). rewrite Er. exact H.
Qed.

Section Run.
Variables (b : bexpr E) (els : E -> Prop) (path : list nat).
Hypothesis Hwf : wf els b.
Let s := subspace_of_root (build b) path.
Let OK := build_ok b els Hwf.
(** the path names a node of the basis *)
Hypothesis Hpath : exists n, descendant (pb_node (build b)) path = Some n.
Hypothesis Hint : interp_ok b path els interp.

(** A view bound by the loop. *)
Definition view_ok (v : lview E) : Prop := tskel (lv_tree v) = tskel (lv_tree (lv_new (build b))).

Lemma skel_descendant (n n' : node E) : forall p, skel n = skel n' ->
  (descendant n p = None <-> descendant n' p = None).
Proof.
  intros p. revert n n'. induction p as [|i p IH]; intros n n' H; cbn; [split; discriminate|].
  assert (G : match child n i, child n' i with Some a, Some a' => skel a = skel a' | None, None => True | _, _ => False end).
  { destruct n as [m g fe e|m g cs], n' as [m' g' fe' e'|m' g' cs']; cbn in H; try discriminate; unfold child; cbn.
    - destruct i; exact I.
    - injection H as _ H. revert cs' H i. induction cs as [|c cs IHc]; intros [|c' cs'] H i; try discriminate.
      + destruct i; exact I.
      + injection H as H1 H2. destruct i; cbn; auto. now apply IHc. }
  destruct (child n i), (child n' i); try contradiction; [apply IH; auto|tauto].
Qed.

Lemma element_writes v e : view_ok v -> els e ->
  exists v' ws, sv_bind s v e = Some v' /\ view_ok v' /\
    (forall c, interpolate_local t mask interp s v' c = writes ws c) /\
    (forall m x, In (m, x) ws <-> local_value b path interp e m x).
Proof.
  intros Hv He. unfold sv_bind, s. cbn [ss_root subspace_of_root].
  assert (Hsk : skel (lv_tree v) = skel (pb_node (build b))) by (rewrite (tskel_skel _ _ Hv); apply new_skel).
  rewrite (bind_ok els _ _ v e OK He Hsk). set (v' := LV _ _ _). exists v'.
  assert (Hnew : lv_bind (build b) (lv_new (build b)) e = Some (LV (Some e)
            (bind_tree e 0 (fst (init_tree 0 (pb_node (build b))))) (lv_indices v'))).
  { apply (bind_new_ok els _ _ e OK He). }
  set (v1 := LV (Some e) (bind_tree e 0 (fst (init_tree 0 (pb_node (build b))))) (lv_indices v')) in Hnew.
  assert (HST : same_tree (lv_tree v') (lv_tree v1)) by (apply same_bind; exact Hv).
  assert (Hsz : length (lv_indices v') = node_size (lv_tree v')).
  { cbn [v' lv_indices lv_tree]. rewrite map_length. symmetry. apply (ok_nsize _ _ _ OK _ e 0 He Hsk). }
  destruct (descendant (lv_tree v') path) as [tr|] eqn:Etr.
  2:{ exfalso. destruct Hpath as [n0 Hn0]. cbn in Etr.
      apply (skel_descendant _ (pb_node (build b))) in Etr; [congruence|]. rewrite skel_bind. exact Hsk. }
  (* each leaf *)
  assert (HL : forall p n, In (p, n) (leaf_nodes tr) ->
    exists ws, (forall c, interpolate_leaf t mask interp v' (p, n) c = writes ws c) /\
      forall m x, In (m, x) ws <-> exists j k, local_index n j = Some k /\ lv_index v' k = Some m /\ nth_error (interp e p) j = Some x).
  { intros p n Hn. unfold interpolate_leaf. destruct (Nat.eqb_spec (node_size n) 0) as [Hz|Hnz].
    - exists []. split; auto. intros m x. split; [intros []|]. intros (j & k & H1 & _). apply local_index_Some in H1. lia.
    - pose proof Hn as Hn'. apply leaf_nodes_descendant in Hn' as [Hd Hlf].
      assert (Hd' : descendant (lv_tree v') (path ++ p) = Some n) by (rewrite descendant_app', Etr; exact Hd).
      assert (HI : In (path ++ p, n) (leaf_nodes (lv_tree v'))) by (apply leaf_nodes_descendant; auto).
      destruct (bound_leaf e (lv_tree v) 0 (path ++ p) n HI Hnz) as (mx & g & fe & -> & Hfe).
      assert (HR : forall i k, local_index (NLeaf mx g fe (Some e)) i = Some k -> exists m, lv_index v' k = Some m).
      { intros i k Hk. pose proof (C12_leaf_indices_in_range (lv_tree v) e 0 (path ++ p) _ i k Hd' Hlf Hk) as Hr. cbn in Hr.
        apply nth_error_lt_Some. rewrite Hsz. cbn. lia. }
      assert (HX : fe e <= length (interp e p)).
      { pose proof (HST (path ++ p)) as Q. rewrite Hd' in Q. destruct (descendant (lv_tree v1) (path ++ p)) as [n1|] eqn:En1; [|contradiction].
        destruct Q as (Q1 & Q2 & _ & _ & Q3 & _). rewrite <- Hfe, Q2. eapply Hint; eauto. }
      destruct (forl_writes (fe e) 0 (fun i c =>
          k <- local_index (NLeaf mx g fe (Some e)) i ;; m <- lv_index v' k ;;
          if mask m then x <- nth_error (interp e p) i ;; backend_write t c m x else Some c)
        (fun i w => exists k, local_index (NLeaf mx g fe (Some e)) i = Some k /\ lv_index v' k = Some (fst w) /\
                              nth_error (interp e p) i = Some (snd w))) as (ws & W1 & W2).
      { intros i Hi.
        assert (Hk : local_index (NLeaf mx g fe (Some e)) i = Some (node_offset (NLeaf mx g fe (Some e)) + i)).
        { apply local_index_Some. rewrite Hfe. split; [lia|reflexivity]. }
        destruct (HR _ _ Hk) as [m Hm]. destruct (nth_error_lt_Some (interp e p) i) as [x Hx]; [lia|].
        exists (m, x). split; [eauto|]. intros c. rewrite Hk. cbn [obind]. rewrite Hm. cbn [obind].
        unfold write1. cbn [fst snd]. destruct (mask m); [|reflexivity]. now rewrite Hx. }
      exists ws. split; [exact W1|]. intros m x. split.
      + intros HI2. apply In_nth_error in HI2 as [i Hi].
        destruct (Forall2_nth_r _ _ _ _ _ W2 Hi) as (i' & _ & k & P1 & P2 & P3). exists i', k. auto.
      + intros (j & k & P1 & P2 & P3). pose proof P1 as P1'. apply local_index_Some in P1' as [Hj _]. rewrite Hfe in Hj.
        destruct (Forall2_nth_l _ _ _ j j W2) as ([m' x'] & Hw & k' & R1 & R2 & R3).
        { rewrite nth_error_seq. destruct (Nat.ltb_spec j (fe e)); [f_equal; lia|lia]. }
        cbn [fst snd] in *. assert (k' = k) as -> by congruence.
        assert (m' = m) as -> by congruence. assert (x' = x) as -> by congruence.
        eapply nth_error_In; eauto. }
  (* all leaves *)
  assert (HA : forall l, (forall p n, In (p, n) l -> In (p, n) (leaf_nodes tr)) ->
    exists ws, (forall c, interpolate_leaves t mask interp v' l c = writes ws c) /\
      forall m x, In (m, x) ws <-> exists p n j k, In (p, n) l /\ local_index n j = Some k /\ lv_index v' k = Some m /\ nth_error (interp e p) j = Some x).
  { induction l as [|[p n] l IHl]; intros Hl.
    - exists []. split; [reflexivity|]. intros m x. split; [intros []|]. intros (p & n & j & k & [] & _).
    - destruct (HL p n (Hl p n (or_introl eq_refl))) as (ws1 & A1 & A2).
      destruct IHl as (ws2 & B1 & B2); [intros; apply Hl; now right|].
      exists (ws1 ++ ws2). split.
      + intros c. cbn [interpolate_leaves]. rewrite A1, writes_app. destruct (writes ws1 c); cbn; auto.
      + intros m x. rewrite in_app_iff, A2, B2. split.
        * intros [(j & k & P)|(p' & n' & j & k & P1 & P2)].
          -- exists p, n, j, k. split; [now left|]. exact P.
          -- exists p', n', j, k. split; [now right|]. exact P2.
        * intros (p' & n' & j & k & [[= <- <-]|P1] & P2); [left; eauto|right; eauto 8]. }
  destruct (HA (leaf_nodes tr)) as (ws & W1 & W2); [auto|].
  exists ws. split; [reflexivity|]. split.
  { unfold view_ok. cbn [v' lv_tree]. rewrite tskel_bind. exact Hv. }
  split.
  { intros c. unfold interpolate_local, sv_tree. cbn [ss_path subspace_of_root]. rewrite Etr. cbn [obind].
    rewrite for_each_leaf_eq. apply W1. }
  intros m x. rewrite W2. split.
  - intros (p & n & j & k & Hn & P1 & P2 & P3). apply leaf_nodes_descendant in Hn as [Hd Hlf].
    assert (Hd' : descendant (lv_tree v') (path ++ p) = Some n) by (rewrite descendant_app', Etr; exact Hd).
    pose proof (HST (path ++ p)) as Q. rewrite Hd' in Q. destruct (descendant (lv_tree v1) (path ++ p)) as [n1|] eqn:En1; [|contradiction].
    destruct Q as (Q1 & Q2 & _ & _ & Q3 & _). exists v1, p, n1, j, k. split; [exact Hnew|]. split; auto. split; [congruence|].
    split; [|split; auto]. apply local_index_Some. apply local_index_Some in P1. lia.
  - intros (v2 & p & n & j & k & P0 & P1 & P2 & P3 & P4 & P5). rewrite Hnew in P0. injection P0 as <-.
    pose proof (HST (path ++ p)) as Q. rewrite P1 in Q. destruct (descendant (lv_tree v') (path ++ p)) as [n1|] eqn:En1; [|contradiction].
    destruct Q as (Q1 & Q2 & _ & _ & Q3 & _). rewrite descendant_app', Etr in En1.
    exists p, n1, j, k. split; [apply leaf_nodes_descendant; split; [exact En1|congruence]|].
    split; [|split; auto]. apply local_index_Some. apply local_index_Some in P3. lia.
Qed.

(** The whole loop is a sequence of writes, one group per element. *)
Lemma elements_writes es : forall v, view_ok v -> (forall e, In e es -> els e) ->
  exists wss, (forall c, interpolate_elements t mask interp s v es c = writes (concat wss) c) /\
    Forall2 (fun e ws => forall m x, In (m, x) ws <-> local_value b path interp e m x) es wss.
Proof.
  induction es as [|e es IH]; intros v Hv Hes.
  - exists []. split; [reflexivity|constructor].
  - destruct (element_writes v e Hv (Hes e (or_introl eq_refl))) as (v' & ws & H1 & H2 & H3 & H4).
    destruct (IH v' H2) as (wss & H5 & H6); [intros; apply Hes; now right|].
    exists (ws :: wss). split; [|constructor; auto]. intros c. cbn [interpolate_elements concat]. rewrite H1. cbn [obind].
    rewrite H3, writes_app. destruct (writes ws c); cbn; auto.
Qed.

Lemma local_value_global e m x : els e -> local_value b path interp e m x -> global_index els b m.
Proof.
  intros He (v & p & n & j & k & H1 & H2 & H3 & H4 & H5 & _). exists e, k. split; auto. exists v. split; auto. split; auto.
  unfold lv_size. rewrite (bind_new_ok els _ _ e OK He) in H1. injection H1 as <-. cbn in *.
  eapply (C12_leaf_indices_in_range _ e 0); eauto.
Qed.
End Run.
End Proofs.

Section Props.
Context {E V : Type}.
Notation cont := (cont V).
Variables (b : bexpr E) (els : E -> Prop) (path : list nat).
Variables (t : cty) (mask : mi -> bool) (interp : E -> list nat -> list V) (zero : V).

(** The situation of a call interpolate(basis, c, f, mask) for the basis [b], or its
    subspace at [path], on a grid view with elements [els], visited in the order [es]. *)
Record call_ok (c : cont) (es : list E) : Prop := {
  call_basis : wf els b;
  call_path : exists n, descendant (pb_node (build b)) path = Some n;
  call_interp : interp_ok b path els interp;
  call_elements : forall e, In e es -> els e;
  call_container : has_ty t c;
  call_entries : solid_entries t (sp_tree (meaning b))
}.

Lemma interpolate_writes c es c0 : call_ok c es ->
  backend_resize zero (pb_size (build b)) t c = Done c0 ->
  has_ty t c0 /\ (forall m, global_index els b m -> addressable t c0 m) /\
  exists wss,
    interpolate t mask interp zero (subspace_of_root (build b) path) es c =
      match writes t mask (concat wss) c0 with Some c' => Done c' | None => Undef end /\
    Forall2 (fun e ws => forall m x, In (m, x) ws <-> local_value b path interp e m x) es wss.
Proof.
  intros [Hwf Hpath Hint Hes Ht HS] HR.
  destruct (resize_spec zero (pb_size (build b)) (sp_tree (meaning b)) (ok_size _ _ _ (build_ok b els Hwf))
              t c [] _ eq_refl Ht) as (_ & B & _).
  split; [apply (B c0 HR)|]. split.
  - intros m Hm. split.
    + destruct (C21_basis_indices_name_entries b els zero t c c0 m Hwf Ht HR Hm) as (x & Hx & _). eauto.
    + destruct (C21_basis_indices_address_scalars_partial b els zero t c c0 m Hwf Ht HS HR Hm) as (k & v & H1 & H2). eauto.
  - destruct (elements_writes t mask interp b els path Hwf Hpath Hint es (lv_new (build b)) eq_refl Hes) as (wss & H1 & H2).
    exists wss. split; auto. unfold interpolate. cbn [ss_root subspace_of_root]. rewrite HR.
    unfold sv_new. cbn [ss_root subspace_of_root]. now rewrite H1.
Qed.

(** What the call does, in one statement: the scalars of the container that are not
    addressed by a marked DOF of a visited element keep their values, the others get an
    interpolation value. *)
Lemma interpolate_effect c es c0 : call_ok c es ->
  backend_resize zero (pb_size (build b)) t c = Done c0 ->
  exists c', interpolate t mask interp zero (subspace_of_root (build b) path) es c = Done c' /\
    has_ty t c' /\ shape c' = shape c0 /\
    (forall m, global_index els b m -> backend_at t c' m = backend_at t c0 m) /\
    forall a v, at_path c0 a = Some (CVal v) ->
      (exists e m x, In e es /\ local_value b path interp e m x /\ mask m = true /\
         backend_at t c0 m = Some a /\ at_path c' a = Some (CVal x)) \/
      (at_path c' a = Some (CVal v) /\
       forall e m x, In e es -> local_value b path interp e m x -> mask m = true -> backend_at t c0 m <> Some a).
Proof.
  intros HC HR. destruct (interpolate_writes c es c0 HC HR) as (Ht0 & HA & wss & HI & HW).
  pose proof (call_basis _ _ HC) as Hwf. pose proof (call_elements _ _ HC) as Hes.
  assert (HIn : forall m x, In (m, x) (concat wss) <-> exists e, In e es /\ local_value b path interp e m x).
  { intros m x. rewrite in_concat. split.
    - intros (ws & H1 & H2). apply In_nth_error in H1 as [i Hi].
      destruct (Forall2_nth_r _ _ _ _ _ HW Hi) as (e & He & P). exists e. split; [eapply nth_error_In; eauto|]. now apply P.
    - intros (e & H1 & H2). apply In_nth_error in H1 as [i Hi].
      destruct (Forall2_nth_l _ _ _ _ _ HW Hi) as (ws & Hws & P). exists ws. split; [eapply nth_error_In; eauto|]. now apply P. }
  destruct (writes_ok t mask (concat wss) c0 Ht0) as (c' & W1 & W2 & W3).
  { intros [m x] Hm. apply HIn in Hm as (e & He & Hv). apply HA. eapply (local_value_global _ b els path Hwf e m x); eauto. }
  exists c'. rewrite HI, W1. split; auto. split; [apply (has_ty_shape t c0 c'); auto|]. split; auto. split.
  - intros m Hm. destruct (HA m Hm) as (Hx & a & v & Ha & _). rewrite Ha. now apply (backend_shape t c0 c').
  - intros a v Hv. destruct (W3 a v Hv) as [(m & x & P1 & P2 & P3 & P4)|[P1 P2]].
    + left. apply HIn in P1 as (e & He & Hl). exists e, m, x. auto.
    + right. split; auto. intros e m x He Hl. apply (P2 m x). apply HIn. eauto.
Qed.

Lemma addressed c es c0 m : call_ok c es -> backend_resize zero (pb_size (build b)) t c = Done c0 ->
  global_index els b m -> exists a v, backend_at t c0 m = Some a /\ at_path c0 a = Some (CVal v).
Proof.
  intros HC HR Hm. destruct (interpolate_writes c es c0 HC HR) as (_ & HA & _). apply (HA m Hm).
Qed.
Lemma value_global c es e m x : call_ok c es -> In e es -> local_value b path interp e m x -> global_index els b m.
Proof.
  intros HC He Hv. pose proof (call_basis _ _ HC) as Hwf.
  eapply (local_value_global _ b els path Hwf e m x); eauto. now apply (call_elements _ _ HC).
Qed.

(** interpolate() throws exactly if resizing the container does. *)
Theorem C25_throws_iff_resize_throws c es :
  call_ok c es ->
  match interpolate t mask interp zero (subspace_of_root (build b) path) es c with
  | Undef => False
  | Throw => backend_resize zero (pb_size (build b)) t c = Throw
  | Done _ => exists c0, backend_resize zero (pb_size (build b)) t c = Done c0
  end.
Proof.
  intros HC. destruct (backend_resize zero (pb_size (build b)) t c) as [c0| |] eqn:HR.
  - destruct (interpolate_effect c es c0 HC HR) as (c' & H & _). rewrite H. eauto.
  - unfold interpolate. cbn [ss_root subspace_of_root]. now rewrite HR.
  - pose proof (C21_resize_returns_iff_compatible b els zero t c (call_basis _ _ HC) (call_container _ _ HC)) as H.
    rewrite HR in H. destruct H.
Qed.

(** Afterwards every marked DOF of the (sub)basis on a visited element has the
    interpolation value of such an element. *)
Theorem C25_marked_dofs_are_interpolated c es c' m e x :
  call_ok c es ->
  interpolate t mask interp zero (subspace_of_root (build b) path) es c = Done c' ->
  mask m = true -> In e es -> local_value b path interp e m x ->
  exists e' x', In e' es /\ local_value b path interp e' m x' /\ read t c' m = Some (CVal x').
Proof.
  intros HC HI Hm He Hv. pose proof (C25_throws_iff_resize_throws c es HC) as HT. rewrite HI in HT. destruct HT as [c0 HR].
  destruct (interpolate_effect c es c0 HC HR) as (c1 & H1 & Ht & HS & HB & HV). rewrite HI in H1. injection H1 as <-.
  pose proof (value_global c es e m x HC He Hv) as Gm.
  destruct (addressed c es c0 m HC HR Gm) as (a & v & Ha & Hav).
  destruct (HV a v Hav) as [(e' & m' & x' & P1 & P2 & P3 & P4 & P5)|[P1 P2]].
  - assert (m' = m) as ->.
    { eapply (C21_distinct_indices_distinct_entries b els zero t c c0 m' m a);
        eauto using call_basis, call_container, value_global. }
    exists e', x'. split; auto. split; auto. unfold read. now rewrite (HB m Gm), Ha.
  - exfalso. eapply P2; eauto.
Qed.

(** Every other DOF keeps its value: an unmarked one, or one that belongs to no visited
    element or not to the subspace.  ([c0] is the resized container; entries that
    already existed have the same value in it as before the call.) *)
Theorem C25_other_dofs_unchanged c es c' m :
  call_ok c es ->
  interpolate t mask interp zero (subspace_of_root (build b) path) es c = Done c' ->
  global_index els b m ->
  mask m = false \/ (forall e x, In e es -> ~ local_value b path interp e m x) ->
  exists c0, backend_resize zero (pb_size (build b)) t c = Done c0 /\ read t c' m = read t c0 m /\
    forall a v, backend_at t c0 m = Some a -> at_path c a = Some (CVal v) -> read t c' m = Some (CVal v).
Proof.
  intros HC HI Gm Hm. pose proof (C25_throws_iff_resize_throws c es HC) as HT. rewrite HI in HT. destruct HT as [c0 HR].
  destruct (interpolate_effect c es c0 HC HR) as (c1 & H1 & Ht & HS & HB & HV). rewrite HI in H1. injection H1 as <-.
  destruct (addressed c es c0 m HC HR Gm) as (a & v & Ha & Hav). exists c0. split; auto.
  assert (HX : at_path c' a = Some (CVal v)).
  { destruct (HV a v Hav) as [(e' & m' & x' & P1 & P2 & P3 & P4 & P5)|[P1 P2]]; auto. exfalso.
    assert (m' = m) as ->.
    { eapply (C21_distinct_indices_distinct_entries b els zero t c c0 m' m a);
        eauto using call_basis, call_container, value_global. }
    destruct Hm as [Hm|Hm]; [congruence|]. eapply Hm; eauto. }
  unfold read. rewrite (HB m Gm), Ha. split; [congruence|].
  intros a' w [= <-] Hw. rewrite HX. rewrite <- Hav. f_equal. symmetry.
  pose proof (resize_keeps zero _ t c c0 [] a w (CVal v) HR Hw Hav) as HE. congruence.
Qed.

(** Entries of the container no basis index addresses are not touched either. *)
Theorem C25_other_entries_unchanged c es c' c0 a v :
  call_ok c es ->
  interpolate t mask interp zero (subspace_of_root (build b) path) es c = Done c' ->
  backend_resize zero (pb_size (build b)) t c = Done c0 ->
  at_path c0 a = Some (CVal v) -> (forall m, global_index els b m -> backend_at t c0 m <> Some a) ->
  at_path c' a = Some (CVal v).
Proof.
  intros HC HI HR Hav Hn.
  destruct (interpolate_effect c es c0 HC HR) as (c1 & H1 & Ht & HS & HB & HV). rewrite HI in H1. injection H1 as <-.
  destruct (HV a v Hav) as [(e' & m' & x' & P1 & P2 & P3 & P4 & P5)|[P1 P2]]; auto. exfalso.
  eapply Hn; eauto using value_global.
Qed.

(** The elements agree: a DOF shared by several elements gets the same value from all. *)
Definition agree (es : list E) : Prop :=
  forall e e' m x x', In e es -> In e' es -> mask m = true ->
    local_value b path interp e m x -> local_value b path interp e' m x' -> x = x'.

(** Then each marked DOF has that value ... *)
Theorem C25_agreeing_value c es c' m e x :
  call_ok c es -> agree es ->
  interpolate t mask interp zero (subspace_of_root (build b) path) es c = Done c' ->
  mask m = true -> In e es -> local_value b path interp e m x -> read t c' m = Some (CVal x).
Proof.
  intros HC HA HI Hm He Hv.
  destruct (C25_marked_dofs_are_interpolated c es c' m e x HC HI Hm He Hv) as (e' & x' & He' & Hv' & ->).
  do 2 f_equal. eapply (HA e' e); eauto.
Qed.

(** ... and the result does not depend on the order (or repetition) of the elements. *)
Theorem C25_order_independent c es es' :
  call_ok c es -> agree es -> (forall e, In e es <-> In e es') ->
  interpolate t mask interp zero (subspace_of_root (build b) path) es c =
  interpolate t mask interp zero (subspace_of_root (build b) path) es' c.
Proof.
  intros HC HA HP.
  assert (HC' : call_ok c es').
  { destruct HC. constructor; auto. intros e He. apply call_elements0. now apply HP. }
  destruct (backend_resize zero (pb_size (build b)) t c) as [c0| |] eqn:HR.
  2,3: unfold interpolate; cbn [ss_root subspace_of_root]; now rewrite HR.
  destruct (interpolate_effect c es c0 HC HR) as (c1 & H1 & Ht1 & HS1 & HB1 & HV1).
  destruct (interpolate_effect c es' c0 HC' HR) as (c2 & H2 & Ht2 & HS2 & HB2 & HV2).
  rewrite H1, H2. f_equal. apply cont_ext; [congruence|]. intros a x Hx.
  assert (Hv : exists v, at_path c0 a = Some (CVal v)).
  { pose proof (shape_path c1 a) as Q. rewrite HS1, shape_path, Hx in Q. destruct (at_path c0 a) as [[v|l]|]; try discriminate. eauto. }
  destruct Hv as [v Hv].
  destruct (HV1 a v Hv) as [(e1 & m1 & x1 & P1 & P2 & P3 & P4 & P5)|[P1 P2]];
  destruct (HV2 a v Hv) as [(e2 & m2 & x2 & Q1 & Q2 & Q3 & Q4 & Q5)|[Q1 Q2]].
  - assert (m2 = m1) as ->.
    { eapply (C21_distinct_indices_distinct_entries b els zero t c c0 m2 m1 a);
        eauto using call_basis, call_container, value_global. }
    rewrite Q5. rewrite P5 in Hx. assert (x1 = x2) by (eapply (HA e1 e2); eauto; now apply HP). congruence.
  - exfalso. eapply (Q2 e1); eauto. now apply HP.
  - exfalso. eapply (P2 e2); eauto. now apply HP.
  - congruence.
Qed.

(** Without agreement the last visited element wins. *)
Theorem C25_last_element_wins c es1 e es2 c' m x :
  call_ok c (es1 ++ e :: es2) ->
  interpolate t mask interp zero (subspace_of_root (build b) path) (es1 ++ e :: es2) c = Done c' ->
  mask m = true -> local_value b path interp e m x ->
  (forall e' x', In e' es2 -> ~ local_value b path interp e' m x') ->
  exists x', local_value b path interp e m x' /\ read t c' m = Some (CVal x').
Proof.
  intros HC HI Hm Hv Hno. pose proof (C25_throws_iff_resize_throws _ _ HC) as HT. rewrite HI in HT. destruct HT as [c0 HR].
  destruct (interpolate_writes c _ c0 HC HR) as (Ht0 & HA & wss & HIw & HW). rewrite HI in HIw.
  apply Forall2_app_inv_l in HW as (wss1 & wss2' & HW1 & HW2 & ->). inversion HW2 as [|? ws ? wss2 He HW3]; subst.
  rewrite concat_app in HIw. cbn [concat] in HIw. rewrite writes_app in HIw.
  assert (HAw : forall es' wss', Forall2 (fun e ws => forall m x, In (m, x) ws <-> local_value b path interp e m x) es' wss' ->
                 (forall e', In e' es' -> In e' (es1 ++ e :: es2)) -> forall w, In w (concat wss') -> addressable t c0 (fst w)).
  { intros es' wss' HF Hsub [m' x'] Hw. apply in_concat in Hw as (ws' & G1 & G2). apply In_nth_error in G1 as [i Hi].
    destruct (Forall2_nth_r _ _ _ _ _ HF Hi) as (e' & He' & P). apply P in G2. apply HA.
    eapply value_global; eauto. apply Hsub. eapply nth_error_In; eauto. }
  destruct (writes_ok t mask (concat wss1) c0 Ht0) as (c1 & A1 & A2 & A3).
  { eapply HAw; eauto. intros e' He'. apply in_or_app. now left. }
  rewrite A1 in HIw. cbn [obind] in HIw. rewrite writes_app in HIw.
  assert (Ht1 : has_ty t c1) by (apply (has_ty_shape t c0 c1); auto).
  destruct (writes_ok t mask ws c1 Ht1) as (c2 & B1 & B2 & B3).
  { intros [m' x'] Hw. apply (addressable_shape t c0 c1); auto. apply He in Hw. apply HA. eapply value_global; eauto.
    apply in_or_app. right. now left. }
  rewrite B1 in HIw. cbn [obind] in HIw.
  assert (Ht2 : has_ty t c2) by (apply (has_ty_shape t c1 c2); auto).
  destruct (writes_ok t mask (concat wss2) c2 Ht2) as (c3 & C1 & C2 & C3).
  { intros w Hw. apply (addressable_shape t c0 c2); auto; [congruence|]. eapply (HAw es2 wss2); eauto.
    intros e' He'. apply in_or_app. right. now right. }
  rewrite C1 in HIw. injection HIw as ->.
  assert (Gm : global_index els b m) by (eapply value_global; eauto; apply in_or_app; right; now left).
  destruct (HA m Gm) as (Hpm & a & v & Ha & Hav).
  assert (Ba : forall m' a', global_index els b m' -> backend_at t c0 m' = Some a' ->
             backend_at t c1 m' = Some a' /\ backend_at t c2 m' = Some a' /\ backend_at t c3 m' = Some a').
  { intros m' a' Gm' Ha'. destruct (HA m' Gm') as (Hp' & _).
    split; [|split]; eapply (backend_shape t c0); eauto; congruence. }
  assert (Bi : forall m', global_index els b m' -> backend_at t c1 m' = Some a \/ backend_at t c2 m' = Some a -> m' = m).
  { intros m' Gm' Hb. destruct (HA m' Gm') as (_ & a' & v' & Ha' & _).
    destruct (Ba m' a' Gm' Ha') as (X1 & X2 & _). assert (a' = a) as -> by (destruct Hb; congruence).
    eapply (C21_distinct_indices_distinct_entries b els zero t c c0 m' m a); eauto using call_basis, call_container. }
  destruct (Ba m a Gm Ha) as (Y1 & Y2 & Y3).
  destruct (A3 a v Hav) as [(? & v1 & _ & _ & _ & Z1)|[Z1 _]].
  all: destruct (B3 a _ Z1) as [(m' & x' & P1 & P2 & P3 & P4)|[_ P2]]; [|exfalso; apply (P2 m x); auto; now apply He].
  all: apply He in P1; assert (m' = m) as -> by (apply Bi; [eapply value_global; eauto; apply in_or_app; right; now left|auto]).
  all: exists x'; split; auto; unfold read; rewrite Y3.
  all: destruct (C3 a x' P4) as [(m'' & x'' & Q1 & Q2 & Q3 & Q4)|[Q1 _]]; [|exact Q1].
  all: exfalso; apply in_concat in Q1 as (ws' & G1 & G2); apply In_nth_error in G1 as [i Hi];
       destruct (Forall2_nth_r _ _ _ _ _ HW3 Hi) as (e' & He' & P); apply P in G2; apply nth_error_In in He';
       assert (m'' = m) as -> by (apply Bi; [eapply value_global; eauto; apply in_or_app; right; now right|auto]);
       eapply Hno; eauto.
Qed.
End Props.

(** * The hypotheses are met *)

(** A two-element example: the composite basis of Basis_props, its second and third leaf
    types, a nested container with old content, and a mask. *)
Definition ex_interp (e : nat) (p : list nat) : list nat := map (fun i => 100 * e + 10 * length p + i) (seq 0 20).
Definition ex_mask (m : mi) : bool := match m with [2; _] => false | _ => true end.
Lemma leaf_size_le {E} (b : bexpr E) (els : E -> Prop) e v p n : wf els b -> els e ->
  lv_bind (build b) (lv_new (build b)) e = Some v -> descendant (lv_tree v) p = Some n -> is_leaf n = true ->
  node_size n <= node_size (lv_tree v).
Proof.
  intros Hwf He Hv Hd Hl.
  rewrite (bind_new_ok els _ _ e (build_ok b els Hwf) He) in Hv. injection Hv as <-.
  destruct (node_size n) as [|k] eqn:En; [lia|]. cbn [lv_tree] in *.
  assert (H : local_index n k = Some (node_offset n + k)) by (apply local_index_Some; lia).
  pose proof (C12_leaf_indices_in_range _ e 0 _ n k _ Hd Hl H) as H1.
  assert (H0 : local_index n 0 = Some (node_offset n + 0)) by (apply local_index_Some; lia).
  pose proof (C12_leaf_indices_in_range _ e 0 _ n 0 _ Hd Hl H0) as H2. cbn beta in *. lia.
Qed.
Lemma ex_interp_ok path : interp_ok ex_b path ex_els ex_interp.
Proof.
  intros e v p n He Hv Hd Hl. unfold ex_interp. rewrite map_length, seq_length.
  pose proof (leaf_size_le ex_b ex_els e v _ n ex_wf He Hv Hd Hl) as Hs. clear Hd Hl.
  eapply Nat.le_trans; [exact Hs|]. clear Hs.
  unfold ex_els in He. destruct e as [|[|e]]; [| |exfalso; cbn in He; lia].
  - vm_compute in Hv. injection Hv as <-. vm_compute. lia.
  - vm_compute in Hv. injection Hv as <-. vm_compute. lia.
Qed.
Example C25_hypotheses_met : call_ok ex_b ex_els [] ex_cty ex_interp ex_cont [1; 0].
Proof.
  constructor.
  - apply ex_wf.
  - cbn. eauto.
  - apply ex_interp_ok.
  - intros e [<-|[<-|[]]]; unfold ex_els; lia.
  - apply C21_hypotheses_met.
  - apply C21_solid_entries_met.
Qed.
Example C25_example_run :
  exists c', interpolate ex_cty ex_mask ex_interp 0 (subspace_of_root (build ex_b) []) [1; 0] ex_cont = Done c' /\
    read ex_cty c' [0; 1; 1] = Some (CVal 21) /\ read ex_cty c' [2; 0] = Some (CVal 5).
Proof. eexists. split; [vm_compute; reflexivity|]. split; vm_compute; reflexivity. Qed.
(** Constant interpolation data agree, so C25_order_independent applies. *)
Example C25_agree_met : agree ex_b [] ex_mask (fun _ _ => repeat 7 20) [1; 0].
Proof.
  intros e e' m x x' _ _ _ (v & p & n & j & k & _ & _ & _ & _ & _ & H) (v' & p' & n' & j' & k' & _ & _ & _ & _ & _ & H').
  apply nth_error_In, repeat_spec in H. apply nth_error_In, repeat_spec in H'. congruence.
Qed.

Print Assumptions C25_throws_iff_resize_throws.
Print Assumptions C25_marked_dofs_are_interpolated.
Print Assumptions C25_other_dofs_unchanged.
Print Assumptions C25_other_entries_unchanged.
Print Assumptions C25_agreeing_value.
Print Assumptions C25_order_independent.
Print Assumptions C25_last_element_wins.
