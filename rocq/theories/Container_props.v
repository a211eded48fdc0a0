(** Theorems about coefficient containers: C21 (resize), C22 (factories), C23 (access by
    multi-index) and C50 (node-to-range map). *)
From Coq Require Import List Arith Bool Lia.
From Verif Require Import Lib Basis_model Basis_spec Basis_proofs Basis_ok Basis_view Basis_props
  Container_model Container_spec Container_proofs Container_desc.
Import ListNotations.
#[local] Arguments Nat.ltb : simpl never.

Section Props.
Context {V : Type}.
Notation cont := (cont V).

(** ** C23 *)

(** Accessing an entry of a container by its index: the digits are followed in order and
    then first entries, until a scalar is reached; otherwise the access fails. *)
Theorem C23_follows_digits_then_zeros t (c x : cont) m p :
  has_ty t c -> at_path c m = Some x ->
  (backend_at t c m = Some p <-> exists k, p = m ++ repeat 0 k /\ zeros_to_scalar k x).
Proof.
  intros Ht Hx. unfold backend_at, resolve_final. rewrite resolve_l_eq. cbn [skipn].
  destruct (at_path_ty t c x m Ht Hx) as (u & Hu & Hux).
  rewrite (resolve_follow _ true m t c x u Ht Hx Hu (no_final_above t c x m Ht Hx)). split.
  - destruct (resolve_l no_index_access true u x []) as [q|] eqn:Eq; [|discriminate]. intros [= <-].
    apply resolve_pad_inv in Eq as (k & -> & Hk); eauto.
  - intros (k & -> & Hk). now rewrite (resolve_pad true k u x Hux Hk).
Qed.

(** So a successful access gives a scalar of the container. *)
Lemma backend_scalar t (c x : cont) m p :
  has_ty t c -> at_path c m = Some x -> backend_at t c m = Some p -> exists v, at_path c p = Some (CVal v).
Proof.
  intros Ht Hx H. apply (C23_follows_digits_then_zeros t c x m p Ht Hx) in H as (k & -> & Hk).
  rewrite at_path_app, Hx. cbn. now apply zeros_at_path.
Qed.

(** hybridMultiIndexAccess follows the same path; it does not look at leftover digits. *)
Theorem C23_hybrid_access_agrees t (c : cont) m p :
  backend_at t c m = Some p -> hybrid_access no_index_access t c m 0 = Some p.
Proof.
  unfold backend_at, resolve_final. rewrite resolve_l_eq, hybrid_l_eq. cbn [skipn].
  revert c m p. induction t as [|t IH|n t IH|ts IH] using cty_ind'; intros c m p H.
  - cbn in *. destruct (length m =? 0); [auto|discriminate].
  - destruct c as [v|l]; [discriminate|]. cbn in H |- *. destruct (nth_error l _) as [y|]; [|discriminate].
    cbn [obind] in *. destruct (resolve_l no_index_access true t y (tl m)) as [q|] eqn:Eq; [|discriminate].
    now rewrite (IH _ _ _ Eq).
  - destruct c as [v|l]; [discriminate|]. cbn in H |- *. destruct (nth_error l _) as [y|]; [|discriminate].
    cbn [obind] in *. destruct (resolve_l no_index_access true t y (tl m)) as [q|] eqn:Eq; [|discriminate].
    now rewrite (IH _ _ _ Eq).
  - destruct c as [v|l]; [discriminate|].
    rewrite resolve_tup in H by reflexivity. rewrite resolve_tup by reflexivity.
    set (j := if hd 0 m <? length ts then hd 0 m else 0) in *. cbv zeta in *.
    destruct (nth_error ts j) as [t'|] eqn:Et; [|discriminate]. cbn [obind] in *.
    destruct (nth_error l j) as [y|]; [|discriminate]. cbn [obind] in *.
    destruct (resolve_l no_index_access true t' y (tl m)) as [q|] eqn:Eq; [|discriminate].
    rewrite Forall_forall in IH. apply nth_error_In in Et. now rewrite (IH t' Et _ _ _ Eq).
Qed.

(** Static multi-indices: the entry at the path, without padding. *)
Theorem C23_static_index_is_path (c : cont) m : resolve_static c m = at_path c m.
Proof.
  revert c. induction m as [|i m IH]; intros c; [reflexivity|]. destruct c as [v|l]; [reflexivity|].
  cbn. destruct (nth_error l i); cbn; auto.
Qed.

Lemma has_ty_shape t : forall c c' : cont, shape c = shape c' -> has_ty t c -> has_ty t c'.
Proof.
  induction t as [|t IH|n t IH|ts IH] using cty_ind'; intros c c' Hs Ht.
  - destruct c, c'; try discriminate; auto.
  - destruct c as [v|l]; [destruct Ht|]. destruct c' as [v|l']; [discriminate|]. injection Hs as Hs. cbn in *.
    revert l' Hs. induction Ht as [|x l Hx Ht IHt]; intros [|y l'] Hs; try discriminate; constructor.
    + injection Hs as H1 _. eauto.
    + injection Hs as _ H2. auto.
  - destruct c as [v|l]; [destruct Ht|]. destruct c' as [v|l']; [discriminate|]. injection Hs as Hs.
    destruct Ht as [HL Ht]. split; [apply (f_equal (@length _)) in Hs; rewrite !map_length in Hs; congruence|].
    clear HL. revert l' Hs. induction Ht as [|x l Hx Ht IHt]; intros [|y l'] Hs; try discriminate; constructor.
    + injection Hs as H1 _. eauto.
    + injection Hs as _ H2. auto.
  - apply has_ty_tup in Ht as (l & -> & Hl). destruct c' as [v|l']; [discriminate|]. injection Hs as Hs.
    apply has_ty_tup. exists l'. split; auto. revert l' Hs.
    induction Hl as [|t x ts l Hx Hl IHl]; intros [|y l'] Hs; try discriminate; constructor; injection Hs as H1 H2.
    + inversion IH; subst. eauto.
    + inversion IH; subst. eauto.
Qed.
Lemma zeros_shape k : forall x y : cont, shape x = shape y -> zeros_to_scalar k x -> zeros_to_scalar k y.
Proof.
  induction k as [|k IH]; intros [v|[|a l]] [w|[|b l']] H Hz; try discriminate; try contradiction; auto.
  cbn in *. injection H as H _. eauto.
Qed.
Lemma put_shape (c c' : cont) p v w : at_path c p = Some (CVal v) -> put c p (CVal w) = Some c' -> shape c' = shape c.
Proof.
  revert c c'. induction p as [|i p IH]; intros c c' H H'.
  - injection H as ->. injection H' as <-. reflexivity.
  - destruct c as [u|l]; [discriminate|]. cbn in H, H'. destruct (nth_error l i) as [y|] eqn:Ey; [|discriminate].
    destruct (put y p (CVal w)) as [y'|] eqn:Ey'; [|discriminate].
    destruct (upd l i y') as [l'|] eqn:El; [|discriminate]. injection H' as <-. cbn. f_equal.
    apply nth_error_ext. intros j. rewrite !nth_error_map_eq, (upd_nth_error l l' i y' j El).
    destruct (Nat.eqb_spec j i) as [->|Hj]; auto. rewrite Ey. cbn. f_equal. eauto.
Qed.

(** Writing a scalar through one index: it is read back through that index, and through
    every other index that addresses another entry the old value is still read. *)
Theorem C23_write_read_back t (c : cont) m x p w :
  has_ty t c -> at_path c m = Some x -> backend_at t c m = Some p ->
  exists c', put c p (CVal w) = Some c' /\ has_ty t c' /\
    backend_at t c' m = Some p /\ at_path c' p = Some (CVal w) /\
    forall m' x' p', at_path c m' = Some x' -> backend_at t c m' = Some p' -> p' <> p ->
      backend_at t c' m' = Some p' /\ at_path c' p' = at_path c p'.
Proof.
  intros Ht Hx H. destruct (backend_scalar t c x m p Ht Hx H) as [v Hv].
  destruct (put_spec c (CVal w) p (CVal v) Hv) as (c' & Hc' & Hr & Ho).
  pose proof (put_shape c c' p v w Hv Hc') as HS.
  assert (Ht' : has_ty t c') by (apply (has_ty_shape t c c'); auto).
  assert (G : forall m x p, at_path c m = Some x -> backend_at t c m = Some p -> backend_at t c' m = Some p).
  { clear - Ht Ht' HS. intros m x p Hx H.
    pose proof (shape_path c m) as H1. rewrite <- HS, shape_path, Hx in H1.
    destruct (at_path c' m) as [x'|] eqn:Ex'; [|discriminate]. cbn in H1. injection H1 as H1.
    apply (C23_follows_digits_then_zeros t c x m p Ht Hx) in H as (k & -> & Hk).
    apply (C23_follows_digits_then_zeros t c' x' m _ Ht' Ex'). exists k. split; auto. apply (zeros_shape k x x'); auto. }
  exists c'. split; auto. split; auto. split; [eapply G; eauto|]. split; auto.
  intros m' x' p' Hx' H' Hp. split; [eapply G; eauto|].
  destruct (backend_scalar t c x' m' p' Ht Hx' H') as [v' Hv'].
  destruct (scalar_paths c p p' v v' Hv Hv' ltac:(auto)) as [A B]. now apply Ho.
Qed.

(** Without tuples, an access that succeeds follows the digits of the index. *)
Fixpoint tuple_free (t : cty) : bool :=
  match t with TScalar => true | TDyn t | TArr _ t => tuple_free t | TTup _ => false end.
Theorem C23_bad_digits_rejected t (c : cont) m p :
  has_ty t c -> tuple_free t = true -> backend_at t c m = Some p -> exists x, at_path c m = Some x.
Proof.
  unfold backend_at, resolve_final. rewrite resolve_l_eq. cbn [skipn].
  revert c m p. induction t as [|t IH|n t IH|ts IH] using cty_ind'; intros c m p Ht Hf H.
  - cbn in H. destruct m; [cbn; eauto|discriminate].
  - destruct c as [v|l]; [discriminate|]. destruct m as [|i m]; [cbn; eauto|]. cbn in H |- *.
    destruct (nth_error l i) as [y|] eqn:Ey; [|discriminate]. cbn [obind] in H.
    destruct (resolve_l no_index_access true t y m) as [q|] eqn:Eq; [|discriminate].
    eapply IH; eauto. cbn in Ht. rewrite Forall_forall in Ht. eapply Ht, nth_error_In; eauto.
  - destruct c as [v|l]; [discriminate|]. destruct m as [|i m]; [cbn; eauto|]. cbn in H |- *.
    destruct (nth_error l i) as [y|] eqn:Ey; [|discriminate]. cbn [obind] in H.
    destruct (resolve_l no_index_access true t y m) as [q|] eqn:Eq; [|discriminate].
    eapply IH; eauto. destruct Ht as [_ Ht]. rewrite Forall_forall in Ht. eapply Ht, nth_error_In; eauto.
  - discriminate.
Qed.

(** ** C21 *)

Section Resize.
Context {E : Type}.
Variables (b : bexpr E) (els : E -> Prop) (zero : V).

(** resize(basis) has no undefined behavior, and it returns normally exactly if the
    container can take the shape of the index tree; otherwise an exception is thrown. *)
Theorem C21_resize_returns_iff_compatible t (c : cont) :
  wf els b -> has_ty t c ->
  match backend_resize zero (pb_size (build b)) t c with
  | Undef => False
  | Done _ => compatible zero t c (sp_tree (meaning b))
  | Throw => ~ compatible zero t c (sp_tree (meaning b))
  end.
Proof.
  intros Hwf Ht.
  destruct (resize_spec zero (pb_size (build b)) (sp_tree (meaning b)) (ok_size _ _ _ (build_ok b els Hwf))
              t c [] _ eq_refl Ht) as (A & B & C).
  unfold backend_resize in *. destruct (resize zero (pb_size (build b)) t c []) as [c'| |]; [apply C; eauto| |congruence].
  intros H. apply C in H as (c' & [=]).
Qed.

(** After a normal return every block has the size the basis asks for. *)
Theorem C21_resized_blocks_have_basis_size t (c c' : cont) p n :
  wf els b -> has_ty t c -> backend_resize zero (pb_size (build b)) t c = Done c' ->
  (p = [] \/ exists q, global_index els b (p ++ q)) -> pb_size (build b) p = Some n -> n <> 0 ->
  has_ty t c' /\ exists l, at_path c' p = Some (CBlk l) /\ length l = n.
Proof.
  intros Hwf Ht H Hp Hn Hn0.
  destruct (resize_spec zero (pb_size (build b)) (sp_tree (meaning b)) (ok_size _ _ _ (build_ok b els Hwf))
              t c [] _ eq_refl Ht) as (A & B & C).
  destruct (B c' H) as [Ht' G]. split; auto.
  assert (HT : exists s, subtree (sp_tree (meaning b)) p = Some s).
  { destruct Hp as [->|[q Hq]]; [cbn; eauto|]. apply (prefix_subtree b els p q Hwf) in Hq as (s & Hs & _). eauto. }
  destruct HT as [s Hs]. rewrite (C04_size_is_the_index_tree b els p s Hwf Hs) in Hn. injection Hn as <-.
  destruct (G p s Hs) as (x & Hx & Hl). destruct (Hl Hn0) as (l & -> & HL). eauto.
Qed.

(** Every multi-index of the basis names an entry of the container, and using it gives a
    scalar exactly if first entries lead from there to one. *)
Theorem C21_basis_indices_name_entries t (c c' : cont) m :
  wf els b -> has_ty t c -> backend_resize zero (pb_size (build b)) t c = Done c' ->
  global_index els b m ->
  exists x, at_path c' m = Some x /\
    forall p, backend_at t c' m = Some p <-> exists k, p = m ++ repeat 0 k /\ zeros_to_scalar k x.
Proof.
  intros Hwf Ht H Hm. apply (global_index_iff b els m Hwf) in Hm.
  destruct (resize_spec zero (pb_size (build b)) (sp_tree (meaning b)) (ok_size _ _ _ (build_ok b els Hwf))
              t c [] _ eq_refl Ht) as (A & B & C).
  destruct (B c' H) as [Ht' G]. destruct (G m DOF Hm) as (x & Hx & _). exists x. split; auto.
  intros p. now apply C23_follows_digits_then_zeros.
Qed.

(** The full C21 says this for every container type; proved: if the entries named by
    complete indices are scalars or of fixed size (FieldVector, std::array, tuples). *)
Theorem C21_basis_indices_address_scalars_partial t (c c' : cont) m :
  wf els b -> has_ty t c -> solid_entries t (sp_tree (meaning b)) ->
  backend_resize zero (pb_size (build b)) t c = Done c' ->
  global_index els b m ->
  exists k v, backend_at t c' m = Some (m ++ repeat 0 k) /\ at_path c' (m ++ repeat 0 k) = Some (CVal v).
Proof.
  intros Hwf Ht HS H Hm.
  destruct (C21_basis_indices_name_entries t c c' m Hwf Ht H Hm) as (x & Hx & Hp).
  apply (global_index_iff b els m Hwf) in Hm.
  assert (Ht' : has_ty t c').
  { destruct (resize_spec zero (pb_size (build b)) (sp_tree (meaning b)) (ok_size _ _ _ (build_ok b els Hwf))
              t c [] _ eq_refl Ht) as (A & B & C). apply (B c' H). }
  destruct (at_path_ty t c' x m Ht' Hx) as (u & Hu & Hux).
  destruct (solid_zeros u x (HS m u Hm Hu) Hux) as [k Hk]. destruct (zeros_at_path k x Hk) as [v Hv].
  exists k, v. split; [apply Hp; eauto|]. rewrite at_path_app, Hx. exact Hv.
Qed.

(** Distinct multi-indices of the basis address distinct entries, for every container. *)
Theorem C21_distinct_indices_distinct_entries t (c c' : cont) m m' p :
  wf els b -> has_ty t c -> backend_resize zero (pb_size (build b)) t c = Done c' ->
  global_index els b m -> global_index els b m' ->
  backend_at t c' m = Some p -> backend_at t c' m' = Some p -> m = m'.
Proof.
  intros Hwf Ht H Hm Hm' H1 H2.
  destruct (C21_basis_indices_name_entries t c c' m Hwf Ht H Hm) as (x & _ & Hp).
  destruct (C21_basis_indices_name_entries t c c' m' Hwf Ht H Hm') as (x' & _ & Hp').
  apply Hp in H1 as (k & -> & _). apply Hp' in H2 as (k' & HE & _).
  apply (global_index_iff b els _ Hwf) in Hm. apply (global_index_iff b els _ Hwf) in Hm'.
  clear - HE Hm Hm'. revert m' HE Hm Hm'. generalize (sp_tree (meaning b)). intros T. revert T.
  induction m as [|d m IH]; intros T [|d' m'] HE Hm Hm'; auto.
  - injection Hm as ->. discriminate.
  - injection Hm' as ->. discriminate.
  - cbn in *. injection HE as -> HE. destruct T as [|f]; [discriminate|]. destruct (nth_error f d') as [T'|]; [|discriminate].
    f_equal. eauto.
Qed.
End Resize.

(** ** C22 *)

(** makeContainer succeeds exactly for the descriptors without Unknown. *)
Theorem C22_defined_iff_known (d : desc) (v : V) : known d = true <-> exists c, make_container d v = Some c.
Proof. apply make_defined. Qed.

(** Every complete index of the described tree addresses an entry equal to the value,
    and the container has no other scalars. *)
Theorem C22_container_has_described_shape (d : desc) (v : V) T c :
  typed_desc d -> describes d T -> make_container d v = Some c ->
  shape c = T /\
  (forall m, subtree T m = Some DOF ->
     backend_at (container_type (dtype d)) c m = Some m /\ at_path c m = Some (CVal v)) /\
  (forall p x, at_path c p = Some (CVal x) -> subtree T p = Some DOF /\ x = v).
Proof.
  intros Ht HT H. pose proof (make_shape d v c T H HT) as HS. split; auto. split.
  - intros m Hm. rewrite <- HS, shape_path in Hm. destruct (at_path c m) as [x|] eqn:Ex; [|discriminate].
    destruct x as [x|l]; [|discriminate].
    assert (x = v) as -> by (eapply make_scalars; eauto; apply scalars_path; eauto). split; auto.
    apply (C23_follows_digits_then_zeros _ c (CVal v) m m); auto.
    + now apply (make_typed d v).
    + exists 0. cbn. rewrite app_nil_r. auto.
  - intros p x Hp. split.
    + now rewrite <- HS, shape_path, Hp.
    + eapply make_scalars; eauto. apply scalars_path; eauto.
Qed.

(** For the descriptor of a basis: the entries are exactly those of its multi-indices. *)
Theorem C22_basis_container {E : Type} (b : bexpr E) (els : E -> Prop) d (v : V) c :
  wf els b -> pb_desc (build b) = Some d -> make_container d v = Some c ->
  (forall m, global_index els b m ->
     backend_at (container_type (dtype d)) c m = Some m /\ at_path c m = Some (CVal v)) /\
  (forall p x, at_path c p = Some (CVal x) -> global_index els b p /\ x = v).
Proof.
  intros Hwf Hd H.
  destruct (C22_container_has_described_shape d v (sp_tree (meaning b)) c) as (_ & A & B); auto.
  - now apply (build_typed b).
  - now apply (ok_desc _ _ _ (build_ok b els Hwf)).
  - split; [intros m Hm; apply A; now apply (global_index_iff b els m Hwf)|].
    intros p x Hp. destruct (B p x Hp) as [C D]. split; auto. now apply (global_index_iff b els p Hwf).
Qed.

(** makeISTLVector gives the same container (zero-initialized), provided no array
    descriptor of length one holds a block vector and no array of blocks is empty. *)
Theorem C22_istl_vector_partial (d : desc) (zero : V) c :
  no_unit_array d = true -> make_container d zero = Some c ->
  make_istl zero d = Some (c, block_vector_desc d).
Proof. intros. now apply istl_same. Qed.

(** ** C50 *)

(** A scalar range is mapped to itself, whatever the node. *)
Theorem C50_scalar_to_itself p (x : V) : node_to_range p (CVal x) = Some (CVal x).
Proof. reflexivity. Qed.
(** Otherwise the node's component is the entry at its tree path. *)
Theorem C50_component_is_path p (l : list cont) : node_to_range p (CBlk l) = at_path (CBlk l) p.
Proof. apply C23_static_index_is_path. Qed.
(** Writing the component of one leaf changes it and leaves those of the others (whose
    tree paths are not prefixes or extensions of each other) unchanged. *)
Theorem C50_distinct_leaves_distinct_components p (l : list cont) x y :
  node_to_range p (CBlk l) = Some y -> p <> [] ->
  exists l', put (CBlk l) p x = Some (CBlk l') /\ node_to_range p (CBlk l') = Some x /\
    forall q, (forall r, q <> p ++ r) -> (forall r, p <> q ++ r) ->
      node_to_range q (CBlk l') = node_to_range q (CBlk l).
Proof.
  intros H Hp. rewrite C50_component_is_path in H. destruct (put_spec (CBlk l) x p y H) as (c' & Hc & Hr & Ho).
  destruct c' as [v|l'].
  - destruct p; [congruence|]. cbn in Hc. destruct (nth_error l n) as [z|]; [|discriminate].
    destruct (put z p x); [|discriminate]. destruct (upd l n c); discriminate.
  - exists l'. split; [exact Hc|]. split; [rewrite C50_component_is_path; exact Hr|].
    intros q Hq Hq'. rewrite !C50_component_is_path. now apply Ho.
Qed.
End Props.

(** * What does not hold *)

(** C21, an empty basis: resize() on an empty dynamic vector throws, and a non-empty one
    silently keeps its size although the basis has dimension 0. *)
Definition empty_leaf : leaf nat := LF 0 0 (fun _ => 0) (fun _ => []).
Theorem C21_empty_basis_refuted :
  wf (fun _ : nat => False) (BLeaf empty_leaf) /\ pb_dim (build (BLeaf empty_leaf)) = 0 /\
  backend_resize 0 (pb_size (build (BLeaf empty_leaf))) (TDyn TScalar) (CBlk []) = Throw /\
  backend_resize 0 (pb_size (build (BLeaf empty_leaf))) (TDyn TScalar) (CBlk [CVal 7; CVal 8])
    = Done (CBlk [CVal 7; CVal 8]).
Proof.
  split; [|repeat split].
  cbn. constructor; cbn.
  all: try (intros; contradiction).
  all: try (intros; lia).
  all: reflexivity.
Qed.
(** C21, a scalar basis of dimension one and a deeper dynamic container: resize()
    returns normally and the only index does not address an entry. *)
Theorem C21_deep_container_refuted :
  let size := fun p : mi => match p with [] => Some 1 | [0] => Some 0 | _ => None end in
  let t := TDyn (TDyn (TDyn TScalar)) in
  let c := CBlk [CBlk [CBlk []]] in
  sized size (Blk [DOF]) /\ has_ty t c /\ backend_resize 0 size t c = Done c /\ backend_at t c [0] = None.
Proof.
  cbv zeta. split; [|repeat split; repeat constructor].
  intros [|d p] s H; [injection H as <-; reflexivity|].
  destruct d as [|d]; cbn in H; [|destruct d; discriminate].
  destruct p; [injection H as <-; reflexivity|discriminate].
Qed.
(** C22, makeISTLVector: a one-child blocked composite basis of a scalar basis of
    dimension 2 has indices [0;0] and [0;1]; the vector made from its descriptor has one
    level only, and index [0;1] is not an entry of it. *)
Theorem C22_istl_unit_array_refuted :
  make_istl 0 (DArray [DUVector 2 DValue]) = Some (CBlk [CVal 0; CVal 0], true) /\
  make_istl 0 (DUArray 1 (DUVector 2 DValue)) = Some (CBlk [CVal 0; CVal 0], true) /\
  describes (DArray [DUVector 2 DValue]) (Blk [Blk [DOF; DOF]]) /\
  backend_at (TDyn TScalar) (CBlk [CVal 0; CVal 0]) [0; 1] = None.
Proof.
  repeat split. exists [Blk [DOF; DOF]]. split; auto. split; auto. exists [DOF; DOF]. repeat split. repeat constructor.
Qed.
(** C23, tuples: a digit beyond the tuple is accepted and gives entry 0. *)
Theorem C23_tuple_digit_out_of_range_refuted :
  backend_at (TTup [TScalar; TDyn TScalar]) (CBlk [CVal 1; CBlk [CVal 2]]) [5] = Some [0] /\
  at_path (CBlk [CVal 1; CBlk [CVal 2]]) [5] = None.
Proof. split; reflexivity. Qed.

(** * The hypotheses are met *)
Definition ex_cty : cty := TTup [TDyn (TArr 2 TScalar); TDyn (TArr 1 TScalar); TDyn TScalar].
Definition ex_cont : cont nat := CBlk [CBlk []; CBlk [CBlk [CVal 9]]; CBlk [CVal 5]].
Example C21_hypotheses_met :
  has_ty ex_cty ex_cont /\
  exists c', backend_resize 0 (pb_size (build ex_b)) ex_cty ex_cont = Done c' /\
    backend_at ex_cty c' [0; 2; 1] = Some [0; 2; 1] /\ backend_at ex_cty c' [1; 0] = Some [1; 0; 0] /\
    backend_at ex_cty c' [2; 14] = Some [2; 14].
Proof.
  split; [repeat constructor|]. eexists. split; [vm_compute; reflexivity|]. repeat split.
Qed.
Example C21_solid_entries_met : solid_entries ex_cty (sp_tree (meaning ex_b)).
Proof.
  intros p u H Hu. cbn in H.
  destruct p as [|[|[|[|d]]] p]; cbn in H, Hu; try discriminate; [| | |destruct d; discriminate].
  - destruct p as [|i [|j [|? ?]]]; cbn in *; try discriminate.
    + destruct i as [|[|[|[|?]]]]; discriminate.
    + destruct (j <? 2); [now injection Hu as <-|discriminate].
    + destruct (j <? 2); discriminate.
  - destruct p as [|i [|j p]]; cbn in *; try discriminate.
    + injection Hu as <-. reflexivity.
    + destruct i as [|[|?]]; discriminate.
  - destruct p as [|i p]; cbn in *; try discriminate. destruct p; [now injection Hu as <-|discriminate].
Qed.
Example C21_exception_met : (* a tuple with too few entries *)
  backend_resize 0 (pb_size (build ex_b)) (TTup [TDyn (TArr 2 TScalar)]) (CBlk [CBlk []]) = Throw.
Proof. reflexivity. Qed.
Example C22_hypotheses_met :
  exists d c, pb_desc (build ex_b) = Some d /\ make_container d 4 = Some c /\
    no_unit_array d = true /\ at_path c [0; 2; 1] = Some (CVal 4).
Proof. do 2 eexists. repeat split; vm_compute; reflexivity. Qed.
Example C23_hypotheses_met :
  backend_at (TDyn (TArr 2 (TArr 1 TScalar))) (CBlk [CBlk [CBlk [CVal 1]; CBlk [CVal 2]]; CBlk [CBlk [CVal 3]; CBlk [CVal 4]]]) [1; 1]
  = Some [1; 1; 0].
Proof. reflexivity. Qed.
Example C50_hypotheses_met :
  node_to_range [1] (CBlk [CBlk [CVal 1; CVal 2]; CVal 3]) = Some (CVal 3) /\
  (forall r, [0; 1] <> [1] ++ r) /\ (forall r, [1] <> [0; 1] ++ r).
Proof. split; [reflexivity|]. split; intros r; discriminate. Qed.

Print Assumptions C21_resize_returns_iff_compatible.
Print Assumptions C21_resized_blocks_have_basis_size.
Print Assumptions C21_basis_indices_name_entries.
Print Assumptions C21_basis_indices_address_scalars_partial.
Print Assumptions C21_distinct_indices_distinct_entries.
Print Assumptions C21_empty_basis_refuted.
Print Assumptions C21_deep_container_refuted.
Print Assumptions C22_defined_iff_known.
Print Assumptions C22_container_has_described_shape.
Print Assumptions C22_basis_container.
Print Assumptions C22_istl_vector_partial.
Print Assumptions C22_istl_unit_array_refuted.
Print Assumptions C23_follows_digits_then_zeros.
Print Assumptions C23_hybrid_access_agrees.
Print Assumptions C23_static_index_is_path.
Print Assumptions C23_write_read_back.
Print Assumptions C23_bad_digits_rejected.
Print Assumptions C23_tuple_digit_out_of_range_refuted.
Print Assumptions C50_scalar_to_itself.
Print Assumptions C50_component_is_path.
Print Assumptions C50_distinct_leaves_distinct_components.
