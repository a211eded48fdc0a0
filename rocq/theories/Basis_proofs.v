(** Proofs for Basis_model: buffer operations, local trees, and each
    combinator refines its specification. *)
From Coq Require Import List Arith Bool Lia.
From Verif Require Import Lib Basis_model Basis_spec.
Import ListNotations.

(** * Loops *)

Lemma forl_step {S} k s (body : nat -> S -> option S) st :
  forl (k + 1) s body st = obind (body s st) (forl k (s + 1) body).
Proof. replace (k + 1) with (Datatypes.S k) by lia. reflexivity. Qed.

Lemma forl_split {S} k1 k2 s (body : nat -> S -> option S) st :
  forl (k1 + k2) s body st = obind (forl k1 s body st) (forl k2 (s + k1) body).
Proof.
  revert s st. induction k1; intros; cbn.
  - now rewrite Nat.add_0_r.
  - destruct (body s st); cbn; [|reflexivity].
    rewrite IHk1. destruct (forl k1 (s+1) body s0); cbn; [|reflexivity].
    f_equal. lia.
Qed.

Lemma upd_app_mid {A} (pre : list A) x y post :
  upd (pre ++ x :: post) (length pre) y = Some (pre ++ y :: post).
Proof.
  induction pre; cbn; [reflexivity|]. now rewrite IHpre.
Qed.

Lemma nth_error_mid {A} (pre : list A) x post :
  nth_error (pre ++ x :: post) (length pre) = Some x.
Proof. rewrite nth_error_app2 by lia. now rewrite Nat.sub_diag. Qed.

Lemma upd_at {A} (pre : list A) x y post i :
  i = length pre -> upd (pre ++ x :: post) i y = Some (pre ++ y :: post).
Proof. intros ->. apply upd_app_mid. Qed.
Lemma nth_error_at {A} (pre : list A) x post i :
  i = length pre -> nth_error (pre ++ x :: post) i = Some x.
Proof. intros ->. apply nth_error_mid. Qed.

(** pop front *)
Lemma pop_loop d r : forall pre,
  forl (length r) (length pre)
    (fun i m => obind (digit m (i + 1)) (fun d => set_digit m i d)) (pre ++ d :: r)
  = Some (pre ++ r ++ [last r d]).
Proof.
  revert d. induction r as [|x r IH]; intros d pre; [reflexivity|].
  cbn [length forl].
  unfold digit. change (pre ++ d :: x :: r) with (pre ++ [d] ++ x :: r).
  rewrite app_assoc, nth_error_at by (rewrite app_length; cbn; lia).
  cbn [obind]. unfold set_digit. rewrite <- app_assoc. cbn [app].
  rewrite upd_app_mid. cbn [obind].
  change (pre ++ x :: x :: r) with (pre ++ [x] ++ x :: r). rewrite app_assoc.
  specialize (IH x (pre ++ [x])). rewrite app_length in IH. cbn in IH.
  unfold digit, set_digit in IH. rewrite IH. f_equal. rewrite <- app_assoc. cbn.
  do 3 f_equal. clear. revert x d; induction r as [|y r IH]; intros; cbn; auto. destruct r; auto.
Qed.

Lemma pop_front_cons d r : mi_pop_front (d :: r) = Some r.
Proof.
  unfold mi_pop_front. cbn [length]. replace (S (length r) - 1) with (length r) by lia.
  pose proof (pop_loop d r []) as H. cbn [length app] in H. rewrite H. cbn.
  f_equal. rewrite firstn_app, firstn_all, Nat.sub_diag. cbn. apply app_nil_r.
Qed.

(** push front *)
Lemma push_loop A : forall B x,
  exists y,
  forl (length A) (length B)
    (fun k m => let i := length m - 1 - k in
                obind (digit m (i - 1)) (fun d => set_digit m i d)) (A ++ x :: B)
  = Some (y :: A ++ B).
Proof.
  induction A as [|a A IH] using rev_ind; intros B x.
  - exists x. reflexivity.
  - rewrite app_length. cbn [length]. rewrite Nat.add_1_r. cbn [forl].
    rewrite !app_length. cbn [length].
    replace (length A + 1 + S (length B) - 1 - length B) with (length (A ++ [a]))
      by (rewrite app_length; cbn; lia).
    unfold digit, set_digit. rewrite upd_app_mid || idtac.
    replace (length (A ++ [a]) - 1) with (length A) by (rewrite app_length; cbn; lia).
    rewrite <- app_assoc. cbn [app]. rewrite nth_error_mid. cbn [obind].
    change (A ++ a :: x :: B) with (A ++ [a] ++ x :: B). rewrite app_assoc.
    rewrite upd_app_mid. cbn [obind]. rewrite <- app_assoc. cbn [app].
    destruct (IH (a :: B) a) as [y Hy]. cbn [length] in Hy.
    exists y. rewrite Nat.add_1_r. unfold digit, set_digit in Hy. rewrite Hy.
    now rewrite <- app_assoc.
Qed.

Lemma push_front_eq cap m d :
  length m < cap -> mi_push_front cap m d = Some (d :: m).
Proof.
  intros H. unfold mi_push_front. destruct (Nat.ltb_spec (length m) cap); [|lia].
  destruct (push_loop m [] 0) as [y Hy]. cbn [length] in Hy. rewrite Hy. cbn.
  now rewrite app_nil_r.
Qed.

Lemma push_back_eq cap m d :
  length m < cap -> mi_push_back cap m d = Some (m ++ [d]).
Proof. intros H. unfold mi_push_back. destruct (Nat.ltb_spec (length m) cap); [auto|lia]. Qed.

Lemma set_back_eq m d d' : mi_set_back (m ++ [d]) d' = Some (m ++ [d']).
Proof.
  unfold mi_set_back. rewrite app_length. cbn [length].
  destruct (Nat.eqb_spec (length m + 1) 0); [lia|].
  apply upd_at. lia.
Qed.

(** * Buffer loops *)

Lemma modify_mid pre x post i f y :
  i = length pre -> f x = Some y ->
  buf_modify (pre ++ x :: post) i f = Some (pre ++ y :: post).
Proof.
  intros -> H. unfold buf_modify. rewrite nth_error_mid. cbn. rewrite H. cbn. apply upd_app_mid.
Qed.

(** In-place loop over a region of the buffer. *)
Lemma modify_loop f (g : mi -> mi) : forall mid pre post s it k,
  it + s = length pre -> k = length mid ->
  (forall m, In m mid -> f m = Some (g m)) ->
  forl k s (fun i b => buf_modify b (it + i) f) (pre ++ mid ++ post)
  = Some (pre ++ map g mid ++ post).
Proof.
  induction mid as [|m mid IH]; intros pre post s it k Hs -> Hf; [reflexivity|].
  cbn [length forl app map].
  erewrite modify_mid; [|lia|apply Hf; now left]. cbn [obind].
  change (pre ++ g m :: mid ++ post) with (pre ++ [g m] ++ mid ++ post).
  rewrite app_assoc. rewrite (IH (pre ++ [g m]) post (s + 1) it (length mid)).
  - now rewrite <- app_assoc.
  - rewrite app_length; cbn; lia.
  - reflexivity.
  - intros; apply Hf; now right.
Qed.

(** The same with a body depending on the position in the region. *)
Lemma modify_loop_i (f : nat -> mi -> option mi) (g : nat -> mi -> mi) :
  forall mid pre post s it k,
  it + s = length pre -> k = length mid ->
  (forall i m, nth_error mid i = Some m -> f (s + i) m = Some (g (s + i) m)) ->
  forl k s (fun i b => buf_modify b (it + i) (f i)) (pre ++ mid ++ post)
  = Some (pre ++ map (fun im => g (fst im) (snd im)) (combine (seq s k) mid) ++ post).
Proof.
  induction mid as [|m mid IH]; intros pre post s it k Hs -> Hf; [reflexivity|].
  cbn [length forl app seq combine map].
  erewrite modify_mid; [|lia|]. 2:{ pose proof (Hf 0 m eq_refl) as H0. rewrite Nat.add_0_r in H0. exact H0. }
  cbn [obind].
  change (pre ++ g s m :: mid ++ post) with (pre ++ [g s m] ++ mid ++ post).
  rewrite app_assoc. rewrite (IH (pre ++ [g s m]) post (s + 1) it (length mid)).
  - rewrite <- app_assoc. cbn. now rewrite Nat.add_1_r.
  - rewrite app_length; cbn; lia.
  - reflexivity.
  - intros i m' Hi. specialize (Hf (S i) m' Hi). rewrite <- Nat.add_assoc in *. exact Hf.
Qed.

(** Copy one child. *)
Lemma copy_one fu (g : mi -> mi) : forall src2 src1 pre tgt done rest k s it,
  it = length pre -> s = length src1 -> k = length src2 -> length tgt = k ->
  (forall m, In m src2 -> fu m m = Some (g m)) ->
  forl k s (fun i st =>
      let '(b, next) := st in
      obind (nth_error b (it + i)) (fun src =>
      obind (upd b next src) (fun b1 =>
      obind (buf_modify b1 next (fu src)) (fun b2 => Some (b2, next + 1)))))
    (pre ++ (src1 ++ src2) ++ done ++ tgt ++ rest,
     length pre + length src1 + length src2 + length done)
  = Some (pre ++ (src1 ++ src2) ++ done ++ map g src2 ++ rest,
     length pre + length src1 + length src2 + length done + k).
Proof.
  induction src2 as [|m src2 IH]; intros src1 pre tgt done rest k s it -> -> -> Ht Hf.
  - destruct tgt; [|discriminate]. cbn. f_equal. f_equal. lia.
  - destruct tgt as [|t tgt]; [discriminate|]. cbn [length forl].
    assert (N1 : nth_error (pre ++ (src1 ++ m :: src2) ++ done ++ (t :: tgt) ++ rest)
                   (length pre + length src1) = Some m).
    { replace (pre ++ (src1 ++ m :: src2) ++ done ++ (t :: tgt) ++ rest)
        with ((pre ++ src1) ++ m :: (src2 ++ done ++ (t :: tgt) ++ rest))
        by (rewrite <- !app_assoc; reflexivity).
      apply nth_error_at. now rewrite app_length. }
    rewrite N1. cbn [obind].
    assert (U1 : forall y, upd (pre ++ (src1 ++ m :: src2) ++ done ++ (t :: tgt) ++ rest)
                   (length pre + length src1 + S (length src2) + length done) y
                 = Some ((pre ++ (src1 ++ m :: src2) ++ done) ++ y :: (tgt ++ rest))).
    { intros y.
      replace (pre ++ (src1 ++ m :: src2) ++ done ++ (t :: tgt) ++ rest)
        with ((pre ++ (src1 ++ m :: src2) ++ done) ++ t :: (tgt ++ rest))
        by (rewrite <- !app_assoc; reflexivity).
      apply upd_at. rewrite !app_length. cbn. lia. }
    rewrite U1. cbn [obind].
    erewrite modify_mid; [|rewrite !app_length; cbn; lia | apply Hf; now left].
    cbn [obind].
    specialize (IH (src1 ++ [m]) pre tgt (done ++ [g m]) rest (length src2)
                  (length src1 + 1) (length pre)).
    assert (EqL : (pre ++ (src1 ++ m :: src2) ++ done) ++ g m :: (tgt ++ rest)
            = pre ++ ((src1 ++ [m]) ++ src2) ++ (done ++ [g m]) ++ tgt ++ rest)
      by (rewrite <- !app_assoc; reflexivity).
    rewrite EqL.
    replace (length pre + length src1 + S (length src2) + length done + 1)
      with (length pre + length (src1 ++ [m]) + length src2 + length (done ++ [g m]))
      by (rewrite !app_length; cbn; lia).
    etransitivity; [apply IH; try reflexivity|].
    + rewrite app_length; cbn; lia.
    + cbn in Ht; lia.
    + intros; apply Hf; now right.
    + f_equal. f_equal; [|rewrite !app_length; cbn; lia].
      rewrite <- !app_assoc. reflexivity.
Qed.

(** All copies: region [src] at [it], then [done], then the remaining targets. *)
Lemma copy_loop fu (g : nat -> mi -> mi) : forall k s src pre tgt done rest it subsz,
  it = length pre -> subsz = length src -> length tgt = k * length src ->
  (forall c m, s <= c < s + k -> In m src -> fu c m m = Some (g c m)) ->
  forl k s (fun c st =>
    forl subsz 0 (fun i st =>
      let '(b, next) := st in
      obind (nth_error b (it + i)) (fun src =>
      obind (upd b next src) (fun b1 =>
      obind (buf_modify b1 next (fu c src)) (fun b2 => Some (b2, next + 1))))) st)
    (pre ++ src ++ done ++ tgt ++ rest, length pre + length src + length done)
  = Some (pre ++ src ++ done ++ flat_map (fun c => map (g c) src) (seq s k) ++ rest,
          length pre + length src + length done + k * length src).
Proof.
  induction k as [|k IH]; intros s src pre tgt done rest it subsz -> -> Ht Hf.
  - destruct tgt; [|discriminate]. cbn. f_equal. f_equal. lia.
  - cbn [forl seq flat_map].
    assert (Hsp : exists t1 t2, tgt = t1 ++ t2 /\ length t1 = length src /\ length t2 = k * length src).
    { exists (firstn (length src) tgt), (skipn (length src) tgt). split; [now rewrite firstn_skipn|].
      rewrite firstn_length, skipn_length, Ht. cbn. lia. }
    destruct Hsp as (t1 & t2 & -> & H1 & H2).
    pose proof (copy_one (fu s) (g s) src [] pre t1 done (t2 ++ rest) (length src) 0 (length pre)
                  eq_refl eq_refl eq_refl H1 (fun m Hm => Hf s m ltac:(lia) Hm)) as C.
    cbn [app length] in C. rewrite Nat.add_0_r in C.
    rewrite <- app_assoc in *. etransitivity; [apply (f_equal (fun o => obind o _)); exact C|]. cbn [obind].
    specialize (IH (s + 1) src pre t2 (done ++ map (g s) src) rest (length pre) (length src)
                  eq_refl eq_refl H2 (fun c m Hc Hm => Hf c m ltac:(lia) Hm)).
    rewrite app_length, map_length in IH.
    replace (length pre + length src + length done + length src)
      with (length pre + length src + (length done + length src)) by lia.
    rewrite <- !app_assoc in IH. rewrite <- !app_assoc. etransitivity; [exact IH|]. f_equal.
    rewrite Nat.add_1_r. f_equal. cbn; lia.
Qed.

Lemma leaf_write_eq : forall l pre mid post,
  length mid = length l ->
  leaf_write l (pre ++ mid ++ post, length pre)
  = Some (pre ++ map (fun g => [g]) l ++ post, length pre + length l).
Proof.
  induction l as [|g l IH]; intros pre mid post H.
  - destruct mid; [|discriminate]. cbn. f_equal. f_equal. lia.
  - destruct mid as [|x mid]; [discriminate|]. cbn [leaf_write fst snd].
    change (pre ++ (x :: mid) ++ post) with (pre ++ x :: (mid ++ post)).
    rewrite upd_app_mid. cbn [obind].
    specialize (IH (pre ++ [[g]]) mid post ltac:(cbn in H; lia)).
    rewrite app_length in IH. cbn [length] in IH. rewrite <- app_assoc in IH. cbn [app] in IH.
    etransitivity; [exact IH|]. f_equal. f_equal; [|cbn; lia]. rewrite <- app_assoc. reflexivity.
Qed.

(** * Local trees *)
Section Nodes.
Context {E : Type}.
Notation node := (node E).

Lemma node_ind' (P : node -> Prop) :
  (forall m g fe e, P (NLeaf m g fe e)) ->
  (forall m g cs, Forall P cs -> P (NInner m g cs)) ->
  forall n, P n.
Proof.
  intros HL HI. fix IH 1. intros [m g fe e|m g cs]; [apply HL|].
  apply HI. induction cs as [|c cs IHcs]; constructor; [apply IH|apply IHcs].
Qed.

(** Shape: everything but offsets, sizes, tree indices and bound elements. *)
Fixpoint skel (n : node) : node :=
  match n with
  | NLeaf m g fe e => NLeaf mx0 g fe None
  | NInner m g cs => NInner mx0 g (map skel cs)
  end.

Fixpoint bind_children (e : E) (o : nat) (l : list node) : nat * list node :=
  match l with
  | [] => (o, [])
  | c :: r => let c' := bind_tree e o c in
              let '(o', r') := bind_children e (o + node_size c') r in (o', c' :: r')
  end.

Lemma bind_inner e off m g cs :
  bind_tree e off (NInner m g cs) =
  if forallb (fun c => c e) g then
    NInner (MX off (fst (bind_children e off cs) - off) (mx_tix m)) g
           (snd (bind_children e off cs))
  else zero_tree off (NInner m g cs).
Proof.
  cbn [bind_tree]. destruct (forallb _ g); [|reflexivity].
  match goal with |- context [let '(o, c) := ?f off cs in _] =>
    assert (Hf : forall l o, f o l = bind_children e o l) end.
  { induction l as [|c l IH]; intros o; [reflexivity|]. cbn [bind_children]. now rewrite <- IH. }
  rewrite Hf.
  destruct (bind_children e off cs); reflexivity.
Qed.

Fixpoint init_children (t : nat) (l : list node) : list node * nat :=
  match l with
  | [] => ([], t)
  | c :: r => let '(c', t1) := init_tree t c in
              let '(r', t2) := init_children t1 r in (c' :: r', t2)
  end.
Lemma init_inner t m g cs :
  init_tree t (NInner m g cs) =
  (NInner (MX (mx_offset m) (mx_size m) t) g (fst (init_children (t + 1) cs)),
   snd (init_children (t + 1) cs)).
Proof.
  cbn [init_tree].
  match goal with |- context [let '(o, c) := ?f (t + 1) cs in _] => change f with init_children end.
  destruct (init_children (t + 1) cs); reflexivity.
Qed.

Lemma skel_zero off n : skel (zero_tree off n) = skel n.
Proof.
  induction n as [m g fe e|m g cs IH] using node_ind'; cbn; auto.
  f_equal. rewrite map_map. apply map_ext_in. intros a Ha.
  rewrite Forall_forall in IH. auto.
Qed.

Lemma skel_bind e n : forall off, skel (bind_tree e off n) = skel n.
Proof.
  induction n as [m g fe el|m g cs IH] using node_ind'; intros off.
  - cbn. destruct (forallb _ g); reflexivity.
  - rewrite bind_inner. destruct (forallb _ g); [|apply skel_zero].
    cbn. f_equal. revert off. induction IH as [|c cs Hc Hcs IH]; intros off; [reflexivity|].
    cbn. specialize (IH (off + node_size (bind_tree e off c))).
    destruct (bind_children e (off + node_size (bind_tree e off c)) cs). cbn in *.
    now rewrite Hc, IH.
Qed.

Lemma skel_init n : forall t, skel (fst (init_tree t n)) = skel n.
Proof.
  induction n as [m g fe el|m g cs IH] using node_ind'; intros t; [reflexivity|].
  rewrite init_inner. cbn. f_equal. generalize (t + 1) as u. clear t.
  induction IH as [|c cs Hc Hcs IH]; intros u; [reflexivity|].
  cbn. specialize (Hc u). destruct (init_tree u c) as [c' t1]. cbn in Hc. specialize (IH t1).
  destruct (init_children t1 cs). cbn in *. now rewrite Hc, IH.
Qed.

Lemma skel_leaf n g fe : skel n = NLeaf mx0 g fe None -> exists m e, n = NLeaf m g fe e.
Proof. destruct n; cbn; intros H; inversion H; eauto. Qed.
Lemma skel_inner n g cs : skel n = NInner mx0 g cs -> exists m cs', n = NInner m g cs' /\ map skel cs' = cs.
Proof. destruct n; cbn; intros H; inversion H; eauto. Qed.

Lemma skel_idem n : skel (skel n) = skel n.
Proof.
  induction n as [m g fe e|m g cs IH] using node_ind'; cbn; auto.
  f_equal. rewrite map_map. apply map_ext_in. intros a Ha.
  rewrite Forall_forall in IH. auto.
Qed.

Lemma zero_size off (n : node) : node_size (zero_tree off n) = 0.
Proof. destruct n; reflexivity. Qed.
Lemma zero_offset off (n : node) : node_offset (zero_tree off n) = off.
Proof. destruct n; reflexivity. Qed.
Lemma bind_offset e off (n : node) : node_offset (bind_tree e off n) = off.
Proof.
  destruct n; [cbn|rewrite bind_inner]; destruct (forallb _ _); reflexivity.
Qed.

(** Guards *)
Lemma bind_guard g e off (n : node) :
  bind_tree e off (add_guard g n) =
  if g e then add_guard g (bind_tree e off n) else zero_tree off (add_guard g n).
Proof.
  destruct n as [m gs fe el|m gs cs]; cbn [add_guard].
  - cbn. destruct (g e); cbn; [|reflexivity]. destruct (forallb _ gs); reflexivity.
  - rewrite !bind_inner. cbn [forallb]. destruct (g e); cbn [andb]; [|reflexivity].
    destruct (forallb _ gs); reflexivity.
Qed.
Lemma skel_guard g (n : node) : skel (add_guard g n) = add_guard g (skel n).
Proof. destruct n; reflexivity. Qed.
Lemma skel_guard_inv g n n1 :
  skel n = add_guard g (skel n1) -> exists n', n = add_guard g n' /\ skel n' = skel n1.
Proof.
  destruct n as [m gs fe el|m gs cs], n1 as [m1 gs1 fe1 el1|m1 gs1 cs1]; cbn; intros H; inversion H; subst.
  - exists (NLeaf m gs1 fe1 el). auto.
  - exists (NInner m gs1 cs). split; auto; cbn; congruence.
Qed.
Lemma size_guard g (n : node) : node_size (add_guard g n : node) = node_size n.
Proof. destruct n; reflexivity. Qed.
Lemma child_guard g (n : node) i : child (add_guard g n : node) i = child n i.
Proof. destruct n; reflexivity. Qed.

(** Children of a bound inner node. *)
Lemma bind_children_nth e : forall l off i c,
  nth_error l i = Some c ->
  exists o, nth_error (snd (bind_children e off l)) i = Some (bind_tree e o c).
Proof.
  induction l as [|c0 l IH]; intros off i c H; [destruct i; discriminate|].
  cbn. set (o1 := off + node_size (bind_tree e off c0)).
  destruct (bind_children e o1 l) eqn:B. cbn. destruct i.
  - cbn in *. injection H as ->. eauto.
  - cbn in *. specialize (IH o1 i c H). now rewrite B in IH.
Qed.

Definition sizes_sum (l : list node) : nat := sum_list (map node_size l).
Lemma bind_children_fst e : forall l off,
  fst (bind_children e off l) = off + sizes_sum (snd (bind_children e off l)).
Proof.
  induction l as [|c l IH]; intros off; cbn; [lia|].
  set (c' := bind_tree e off c). specialize (IH (off + node_size c')).
  destruct (bind_children e (off + node_size c') l). cbn in *. unfold sizes_sum in *. cbn. lia.
Qed.
Lemma bind_children_length e : forall l off, length (snd (bind_children e off l)) = length l.
Proof.
  induction l as [|c l IH]; intros off; cbn; auto.
  set (c' := bind_tree e off c). specialize (IH (off + node_size c')).
  destruct (bind_children e (off + node_size c') l). cbn in *. lia.
Qed.


(** Leaf paths and sizes *)
Fixpoint leaf_nodes_from (i : nat) (l : list node) : list (list nat * node) :=
  match l with
  | [] => []
  | c :: r => map (fun pl => (i :: fst pl, snd pl)) (leaf_nodes c) ++ leaf_nodes_from (i + 1) r
  end.
Lemma leaf_nodes_inner m g cs : leaf_nodes (NInner m g cs) = leaf_nodes_from 0 cs.
Proof.
  cbn [leaf_nodes].
  match goal with |- ?f 0 cs = _ => enough (H : forall i, f i cs = leaf_nodes_from i cs) by apply H end.
  induction cs as [|c cs IH]; intros i; [reflexivity|].
  cbn [leaf_nodes_from]. now f_equal.
Qed.
Fixpoint preorder_list (l : list node) : list node :=
  match l with [] => [] | c :: r => preorder c ++ preorder_list r end.
Lemma preorder_inner m g cs : preorder (NInner m g cs) = NInner m g cs :: preorder_list cs.
Proof. reflexivity. Qed.

(** The path of the leaf each local index belongs to. *)
Definition index_paths (n : node) : list (list nat) :=
  flat_map (fun pl => repeat (fst pl) (node_size (snd pl))) (leaf_nodes n).

Fixpoint index_paths_from (i : nat) (l : list node) : list (list nat) :=
  match l with
  | [] => []
  | c :: r => map (cons i) (index_paths c) ++ index_paths_from (i + 1) r
  end.
Lemma index_paths_inner m g cs : index_paths (NInner m g cs) = index_paths_from 0 cs.
Proof.
  unfold index_paths. rewrite leaf_nodes_inner. generalize 0.
  induction cs as [|c cs IH]; intros i; [reflexivity|].
  cbn [leaf_nodes_from index_paths_from]. rewrite flat_map_app, IH. f_equal.
  unfold index_paths. induction (leaf_nodes c) as [|[p l] r IHr]; [reflexivity|].
  cbn. rewrite map_app, IHr. f_equal. clear. induction (node_size l); cbn; congruence.
Qed.

Lemma index_paths_zero off n : index_paths (zero_tree off n) = [].
Proof.
  induction n as [m g fe e|m g cs IH] using node_ind'; [reflexivity|].
  cbn [zero_tree]. rewrite index_paths_inner. generalize 0.
  induction IH as [|c cs Hc _ IHc]; intros i; [reflexivity|].
  cbn. now rewrite Hc, IHc.
Qed.

Lemma index_paths_guard g (n : node) : index_paths (add_guard g n) = index_paths n.
Proof. destruct n; [reflexivity|]. cbn [add_guard]. now rewrite !index_paths_inner. Qed.

End Nodes.
