(** Containers made from descriptors. *)
From Coq Require Import List Arith Bool Lia.
From Verif Require Import Lib Basis_model Basis_spec Basis_proofs Basis_ok Basis_view Container_model Container_spec Container_proofs.
Import ListNotations.
#[local] Arguments Nat.ltb : simpl never.

Lemma map_repeat {A B} (f : A -> B) x n : map f (repeat x n) = repeat (f x) n.
Proof. induction n; cbn; congruence. Qed.
Lemma dty_ind' (P : dty -> Prop) :
  P TyUnknown -> P TyValue -> (forall ts, Forall P ts -> P (TyTuple ts)) -> (forall n t, P t -> P (TyArray n t)) ->
  (forall t, P t -> P (TyVector t)) -> (forall n t, P t -> P (TyUArray n t)) -> (forall t, P t -> P (TyUVector t)) ->
  forall t, P t.
Proof.
  intros HU HV HT HA HVe HUA HUV. fix IH 1. intros [| |ts|n t|t|n t|t];
    [exact HU|exact HV| |apply HA, IH|apply HVe, IH|apply HUA, IH|apply HUV, IH].
  apply HT. induction ts as [|t ts IHts]; constructor; [apply IH|exact IHts].
Qed.
Lemma dty_eqb_eq a : forall b, dty_eqb a b = true <-> a = b.
Proof.
  induction a as [| |ts IH|n t IH|t IH|n t IH|t IH] using dty_ind'; intros b; destruct b; cbn [dty_eqb];
    try (split; [discriminate|discriminate]); try tauto.
  - enough (G : forall ts0, (fix go xs ys := match xs, ys with
                       | [], [] => true
                       | x :: xs', y :: ys' => dty_eqb x y && go xs' ys'
                       | _, _ => false end) ts ts0 = true <-> ts = ts0).
    { rewrite G. split; [intros ->; auto|intros [= ->]; auto]. }
    induction IH as [|t ts H HF IHF]; intros [|y ys]; try (split; discriminate); try tauto.
    rewrite andb_true_iff, H, IHF. split; [intros [-> ->]; auto|intros [= -> ->]; auto].
  - rewrite andb_true_iff, Nat.eqb_eq, IH. split; [intros [-> ->]; auto|intros [= -> ->]; auto].
  - rewrite IH. split; [intros ->; auto|intros [= ->]; auto].
  - rewrite andb_true_iff, Nat.eqb_eq, IH. split; [intros [-> ->]; auto|intros [= -> ->]; auto].
  - rewrite IH. split; [intros ->; auto|intros [= ->]; auto].
Qed.

Lemma typed_list cs :
  (fix go l := match l with [] => True | c :: r => typed_desc c /\ go r end) cs <-> Forall typed_desc cs.
Proof.
  induction cs as [|c cs IH]; split; intros H; auto.
  - constructor; [apply H|]. apply IH, H.
  - inversion H; subst. split; auto. now apply IH.
Qed.

Lemma make_descriptor_typed cs d :
  make_descriptor cs = Some d -> Forall typed_desc cs ->
  typed_desc d /\
  dtype d = match map dtype cs with
            | u :: r => if forallb (dty_eqb u) r then TyArray (length cs) u else TyTuple (map dtype cs)
            | [] => TyUnknown
            end.
Proof.
  destruct cs as [|c cs]; [discriminate|]. cbn [make_descriptor map]. intros H HF.
  replace (forallb (dty_eqb (dtype c)) (map dtype cs)) with (forallb (fun x => dty_eqb (dtype c) (dtype x)) cs).
  2:{ clear. induction cs as [|y cs IHcs]; cbn; auto. now rewrite IHcs. }
  destruct (forallb _ cs) eqn:E; injection H as <-.
  - split; [|reflexivity]. cbn [typed_desc]. split; [discriminate|]. split.
    + inversion HF; subst. split; auto. now apply typed_list.
    + assert (G : forall x, In x (c :: cs) -> dtype x = dtype c).
      { intros x [->|Hx]; auto. rewrite forallb_forall in E. specialize (E x Hx). apply dty_eqb_eq in E. auto. }
      intros x y Hx Hy. rewrite (G x Hx), (G y Hy). reflexivity.
  - split; [|reflexivity]. cbn [typed_desc]. split; [discriminate|]. inversion HF; subst. split; auto. now apply typed_list.
Qed.

Lemma append_list st s : forall cs cs',
  (fix go cs := match cs with
                | [] => Some []
                | c :: r => c' <- append_to_tree st s c ;; r' <- go r ;; Some (c' :: r')
                end) cs = Some cs' -> Forall2 (fun c c' => append_to_tree st s c = Some c') cs cs'.
Proof.
  induction cs as [|c cs IH]; intros cs' H; [injection H as <-; constructor|].
  destruct (append_to_tree st s c) as [c'|] eqn:Ec; [|discriminate]. cbn [obind] in H.
  destruct ((fix go cs := match cs with
                | [] => Some []
                | c :: r => c' <- append_to_tree st s c ;; r' <- go r ;; Some (c' :: r')
                end) cs) as [r|] eqn:Er; [|discriminate]. injection H as <-. constructor; auto.
Qed.

Lemma append_typed st s d : forall d',
  typed_desc d -> append_to_tree st s d = Some d' ->
  typed_desc d' /\ dtype d' = append_ty st s (dtype d).
Proof.
  induction d as [| |cs IH|cs IH|ty cs IH|n c IH|n c IH] using desc_ind'; intros d' Ht H; cbn [append_to_tree] in H.
  - injection H as <-. split; [exact I|reflexivity].
  - injection H as <-. destruct st; split; try exact I; reflexivity.
  - destruct ((fix go cs := match cs with
                | [] => Some []
                | c :: r => c' <- append_to_tree st s c ;; r' <- go r ;; Some (c' :: r')
                end) cs) as [cs'|] eqn:Ec; [|discriminate]. cbn [obind] in H. apply append_list in Ec.
    destruct Ht as [Hne Ht]. apply typed_list in Ht.
    assert (G : Forall typed_desc cs' /\ map dtype cs' = map (append_ty st s) (map dtype cs)).
    { clear H Hne. induction Ec as [|c c' cs cs' Hc Ec IHc]; [split; constructor|].
      inversion IH; inversion Ht; subst. destruct IHc as [A B]; auto. destruct (H1 c' H5 Hc) as [C D].
      split; [constructor; auto|]. cbn. now rewrite B, D. }
    destruct G as [G1 G2]. destruct (make_descriptor_typed cs' d' H G1) as [A B]. split; auto. rewrite B, G2.
    cbn [dtype append_ty]. destruct cs as [|c cs]; [congruence|]. cbn [map].
    cbn [length]. rewrite !map_length. apply Forall2_len in Ec. cbn [length] in Ec. rewrite <- Ec. reflexivity.
  - destruct ((fix go cs := match cs with
                | [] => Some []
                | c :: r => c' <- append_to_tree st s c ;; r' <- go r ;; Some (c' :: r')
                end) cs) as [cs'|] eqn:Ec; [|discriminate]. cbn [obind] in H. apply append_list in Ec.
    destruct Ht as (Hne & Ht & Hsame). apply typed_list in Ht.
    assert (G : Forall typed_desc cs' /\ map dtype cs' = map (append_ty st s) (map dtype cs)).
    { clear H Hne Hsame. induction Ec as [|c c' cs cs' Hc Ec IHc]; [split; constructor|].
      inversion IH; inversion Ht; subst. destruct IHc as [A B]; auto. destruct (H1 c' H5 Hc) as [C D].
      split; [constructor; auto|]. cbn. now rewrite B, D. }
    destruct G as [G1 G2]. destruct (make_descriptor_typed cs' d' H G1) as [A B]. split; auto. rewrite B, G2.
    destruct cs as [|c cs]; [congruence|]. cbn [map dtype append_ty].
    replace (forallb (dty_eqb (append_ty st s (dtype c))) (map (append_ty st s) (map dtype cs))) with true.
    + apply Forall2_len in Ec. cbn [length] in Ec. now rewrite <- Ec.
    + symmetry. apply forallb_forall. intros u Hu. apply dty_eqb_eq. rewrite map_map in Hu.
      apply in_map_iff in Hu as (x & <- & Hx). f_equal. apply Hsame; [now left|now right].
  - destruct ((fix go cs := match cs with
                | [] => Some []
                | c :: r => c' <- append_to_tree st s c ;; r' <- go r ;; Some (c' :: r')
                end) cs) as [cs'|] eqn:Ec; [|discriminate]. cbn [obind] in H. injection H as <-. apply append_list in Ec.
    destruct Ht as (Ht & Hsame). apply typed_list in Ht. split; [|reflexivity]. cbn [typed_desc].
    assert (G : Forall typed_desc cs' /\ map dtype cs' = map (append_ty st s) (map dtype cs)).
    { clear Hsame. induction Ec as [|c c' cs cs' Hc Ec IHc]; [split; constructor|].
      inversion IH; inversion Ht; subst. destruct IHc as [A B]; auto. destruct (H1 c' H5 Hc) as [C D].
      split; [constructor; auto|]. cbn. now rewrite B, D. }
    destruct G as [G1 G2]. split; [now apply typed_list|].
    intros c' Hc'. apply (in_map dtype) in Hc'. rewrite G2, map_map in Hc'. apply in_map_iff in Hc' as (x & <- & Hx).
    now rewrite Hsame.
  - destruct (append_to_tree st s c) as [c'|]; [|discriminate]. injection H as <-.
    destruct (IH c' Ht eq_refl) as [A B]. split; auto. cbn. now rewrite B.
  - destruct (append_to_tree st s c) as [c'|]; [|discriminate]. injection H as <-.
    destruct (IH c' Ht eq_refl) as [A B]. split; auto. cbn. now rewrite B.
Qed.

Lemma typed_concat n cs : Forall typed_desc cs -> Forall typed_desc (concat (repeat cs n)).
Proof. intros H. induction n; cbn; [constructor|]. apply Forall_app. auto. Qed.
Lemma in_concat_repeat {A} (x : A) n cs : In x (concat (repeat cs n)) -> In x cs.
Proof. induction n; cbn; [tauto|]. rewrite in_app_iff. tauto. Qed.
Lemma in_concat_each {A} (x : A) n cs : In x (concat (map (fun y => repeat y n) cs)) -> In x cs.
Proof.
  induction cs as [|c cs IH]; cbn; auto. rewrite in_app_iff. intros [H|H]; auto. apply repeat_spec in H. auto.
Qed.

Lemma flat_lex_typed st n c d : typed_desc c -> flat_lexicographic_n st n c = Some d -> typed_desc d.
Proof.
  destruct c as [| |cs|cs|t cs|m g|m g]; cbn [flat_lexicographic_n]; intros Ht H.
  - injection H as <-. exact I.
  - injection H as <-. exact I.
  - destruct st; [|discriminate]. apply make_descriptor_typed in H as [H _]; auto.
    apply typed_concat. apply typed_list. apply Ht.
  - destruct st; [discriminate|]. injection H as <-. destruct Ht as (Hne & Ht & Hs). apply typed_list in Ht.
    cbn [typed_desc]. split; [apply typed_list, typed_concat, Ht|].
    intros c Hc. apply in_concat_repeat in Hc. destruct cs as [|c0 cs]; [destruct Hc|]. apply Hs; auto. now left.
  - injection H as <-. destruct Ht as (Ht & Hs). apply typed_list in Ht. cbn [typed_desc].
    split; [apply typed_list, typed_concat, Ht|]. intros c Hc. apply in_concat_repeat in Hc. auto.
  - destruct st; injection H as <-; exact Ht.
  - injection H as <-; exact Ht.
Qed.
Lemma flat_int_typed st n c d : typed_desc c -> flat_interleaved_n st n c = Some d -> typed_desc d.
Proof.
  assert (TC : forall cs, Forall typed_desc cs -> Forall typed_desc (concat (map (fun y => repeat y n) cs))).
  { intros cs H. apply Forall_forall. intros x Hx. apply in_concat_each in Hx. rewrite Forall_forall in H. auto. }
  destruct c as [| |cs|cs|t cs|m g|m g]; cbn [flat_interleaved_n]; intros Ht H.
  - injection H as <-. exact I.
  - injection H as <-. exact I.
  - destruct st; [|discriminate]. apply make_descriptor_typed in H as [H _]; auto.
    apply TC. apply typed_list. apply Ht.
  - destruct st; [discriminate|]. injection H as <-. destruct Ht as (Hne & Ht & Hs). apply typed_list in Ht.
    cbn [typed_desc]. split; [apply typed_list, TC, Ht|].
    intros c Hc. apply in_concat_each in Hc. destruct cs as [|c0 cs]; [destruct Hc|]. apply Hs; auto. now left.
  - injection H as <-. destruct Ht as (Ht & Hs). apply typed_list in Ht. cbn [typed_desc].
    split; [apply typed_list, TC, Ht|]. intros c Hc. apply in_concat_each in Hc. auto.
  - destruct st; injection H as <-; exact Ht.
  - injection H as <-; exact Ht.
Qed.

Section Factory.
Context {V : Type}.
Notation cont := (cont V).
Notation mcs v := (fix go l := match l with
                       | [] => Some []
                       | c :: r => x <- make_container c v ;; y <- go r ;; Some (x :: y)
                       end).

Lemma make_list (v : V) : forall cs l, (mcs v) cs = Some l <-> Forall2 (fun c x => make_container c v = Some x) cs l.
Proof.
  induction cs as [|c cs IH]; intros l; split; intros H.
  - injection H as <-. constructor.
  - inversion H. reflexivity.
  - destruct (make_container c v) as [x|] eqn:Ex; [|discriminate]. cbn [obind] in H.
    destruct ((mcs v) cs) as [y|] eqn:Ey; [|discriminate]. injection H as <-. constructor; auto. now apply IH.
  - inversion H; subst. rewrite H2. cbn [obind]. apply IH in H4. now rewrite H4.
Qed.
Lemma make_list_def (v : V) cs :
  Forall (fun c => known c = true <-> exists x, make_container c v = Some x) cs ->
  (forallb known cs = true <-> exists l, (mcs v) cs = Some l).
Proof.
  intros HF. induction HF as [|c cs Hc HF IH]; [split; eauto|]. cbn [forallb]. rewrite andb_true_iff, Hc, IH. split.
  - intros [[x Hx] [l Hl]]. rewrite Hx, Hl. cbn. eauto.
  - intros [l Hl]. destruct (make_container c v) as [x|]; [|discriminate]. cbn [obind] in Hl.
    destruct ((mcs v) cs) as [y|]; [|discriminate]. eauto.
Qed.
Lemma make_defined (d : desc) (v : V) : known d = true <-> exists c, make_container d v = Some c.
Proof.
  induction d as [| |cs IH|cs IH|ty cs IH|n c IH|n c IH] using desc_ind'; cbn [known make_container].
  - split; [discriminate|intros (c & [=])].
  - split; eauto.
  - apply make_list_def in IH. rewrite IH. split; intros [l Hl].
    + rewrite Hl. cbn. eauto.
    + destruct ((mcs v) cs); [eauto|discriminate].
  - apply make_list_def in IH. rewrite IH. split; intros [l Hl].
    + rewrite Hl. cbn. eauto.
    + destruct ((mcs v) cs); [eauto|discriminate].
  - apply make_list_def in IH. rewrite andb_true_iff, IH. destruct (dty_known ty).
    + split; [intros [_ [l Hl]]|intros [l Hl]].
      * rewrite Hl. cbn. eauto.
      * destruct ((mcs v) cs); [eauto|discriminate].
    + split; [intros [[=] _]|intros (l & [=])].
  - rewrite IH. split; intros [l Hl]; [rewrite Hl; cbn; eauto|]. destruct (make_container c v); [eauto|discriminate].
  - rewrite IH. split; intros [l Hl]; [rewrite Hl; cbn; eauto|]. destruct (make_container c v); [eauto|discriminate].
Qed.

Lemma make_block (d : desc) (v : V) (c : cont) cs : make_container d v = Some c ->
  (d = DTuple cs \/ d = DArray cs \/ exists t, d = DVector t cs) ->
  exists l, c = CBlk l /\ Forall2 (fun c x => make_container c v = Some x) cs l.
Proof.
  intros H [->|[->|[t ->]]]; cbn [make_container] in H.
  - destruct ((mcs v) cs) as [l|] eqn:El; [|discriminate]. injection H as <-. exists l. split; auto. now apply make_list.
  - destruct ((mcs v) cs) as [l|] eqn:El; [|discriminate]. injection H as <-. exists l. split; auto. now apply make_list.
  - destruct (dty_known t); [|discriminate].
    destruct ((mcs v) cs) as [l|] eqn:El; [|discriminate]. injection H as <-. exists l. split; auto. now apply make_list.
Qed.

Lemma make_shape_list (v : V) cs :
  Forall (fun d => forall c T, make_container d v = Some c -> describes d T -> shape c = T) cs ->
  forall l f, Forall2 (fun c x => make_container c v = Some x) cs l ->
  (fix go cs f := match cs, f with
                      | [], [] => True
                      | c :: cs', x :: f' => describes c x /\ go cs' f'
                      | _, _ => False
                      end) cs f -> map shape l = f.
Proof.
  intros HF. induction HF as [|d cs Hd HF IH]; intros l f H2 Hf.
  - inversion H2; subst. destruct f; [reflexivity|destruct Hf].
  - inversion H2; subst. destruct f as [|t f]; [destruct Hf|]. destruct Hf as [H Hf]. cbn. f_equal; auto.
Qed.
Lemma make_shape (d : desc) (v : V) : forall c T, make_container d v = Some c -> describes d T -> shape c = T.
Proof.
  induction d as [| |cs IH|cs IH|ty cs IH|n c IH|n c IH] using desc_ind'; intros x T H HT.
  - discriminate.
  - injection H as <-. symmetry. exact HT.
  - destruct (make_block _ v x cs H) as (l & -> & Hl); eauto. destruct HT as (f & -> & Hf).
    cbn [shape]. f_equal. eapply make_shape_list; eauto.
  - destruct (make_block _ v x cs H) as (l & -> & Hl); eauto. destruct HT as (f & -> & Hf).
    cbn [shape]. f_equal. eapply make_shape_list; eauto.
  - destruct (make_block _ v x cs H) as (l & -> & Hl); eauto. destruct HT as (f & -> & Hf).
    cbn [shape]. f_equal. eapply make_shape_list; eauto.
  - cbn [make_container] in H. destruct (make_container c v) as [y|]; [|discriminate]. injection H as <-.
    destruct HT as (f & -> & <- & Hf). cbn [shape]. f_equal. rewrite map_repeat.
    clear - IH Hf. induction Hf as [|t f Ht Hf IHf]; cbn; auto. f_equal; auto.
  - cbn [make_container] in H. destruct (make_container c v) as [y|]; [|discriminate]. injection H as <-.
    destruct HT as (f & -> & <- & Hf). cbn [shape]. f_equal. rewrite map_repeat.
    clear - IH Hf. induction Hf as [|t f Ht Hf IHf]; cbn; auto. f_equal; auto.
Qed.

Lemma make_scalars (d : desc) (v : V) : forall c, make_container d v = Some c -> forall x, In x (scalars c) -> x = v.
Proof.
  assert (G : forall cs l, Forall (fun d => forall c, make_container d v = Some c -> forall x, In x (scalars c) -> x = v) cs ->
    Forall2 (fun c x => make_container c v = Some x) cs l -> forall x, In x (flat_map scalars l) -> x = v).
  { intros cs l HF H2. revert HF. induction H2 as [|c y cs l Hc H2 IH]; intros HF x Hx; [destruct Hx|].
    inversion HF; subst. cbn in Hx. apply in_app_or in Hx as [Hx|Hx]; eauto. }
  induction d as [| |cs IH|cs IH|ty cs IH|n c IH|n c IH] using desc_ind'; intros x H.
  - discriminate.
  - injection H as <-. intros x [->|[]]. reflexivity.
  - destruct (make_block _ v x cs H) as (l & -> & Hl); eauto.
  - destruct (make_block _ v x cs H) as (l & -> & Hl); eauto.
  - destruct (make_block _ v x cs H) as (l & -> & Hl); eauto.
  - cbn [make_container] in H. destruct (make_container c v) as [y|]; [|discriminate]. injection H as <-.
    intros x. cbn [scalars]. rewrite in_flat_map. intros (z & Hz & Hx). apply repeat_spec in Hz. subst. eauto.
  - cbn [make_container] in H. destruct (make_container c v) as [y|]; [|discriminate]. injection H as <-.
    intros x. cbn [scalars]. rewrite in_flat_map. intros (z & Hz & Hx). apply repeat_spec in Hz. subst. eauto.
Qed.

Lemma shape_path (c : cont) p : subtree (shape c) p = option_map shape (at_path c p).
Proof.
  revert c. induction p as [|i p IH]; intros c; [reflexivity|]. destruct c as [x|l]; [reflexivity|].
  cbn [shape subtree at_path]. rewrite nth_error_map. destruct (nth_error l i); cbn; auto.
Qed.
Lemma scalars_path (c : cont) x : In x (scalars c) <-> exists p, at_path c p = Some (CVal x).
Proof.
  split.
  - induction c as [y|l IH] using cont_ind'; cbn [scalars].
    + intros [->|[]]. now exists [].
    + rewrite in_flat_map. intros (z & Hz & Hx). rewrite Forall_forall in IH. destruct (IH z Hz Hx) as [p Hp].
      apply In_nth_error in Hz as [i Hi]. exists (i :: p). cbn. now rewrite Hi.
  - intros [p Hp]. revert c Hp. induction p as [|i p IH]; intros c Hp.
    + injection Hp as ->. now left.
    + destruct c as [y|l]; [discriminate|]. cbn in Hp. destruct (nth_error l i) as [z|] eqn:Ez; [|discriminate].
      cbn. apply in_flat_map. exists z. split; [eapply nth_error_In; eauto|]. auto.
Qed.

Lemma make_typed (d : desc) (v : V) : forall c, typed_desc d -> make_container d v = Some c ->
  has_ty (container_type (dtype d)) c.
Proof.
  induction d as [| |cs IH|cs IH|ty cs IH|n c IH|n c IH] using desc_ind'; intros x Ht H.
  - discriminate.
  - injection H as <-. exact I.
  - destruct (make_block _ v x cs H) as (l & -> & Hl); auto. destruct Ht as [_ Ht]. apply typed_list in Ht.
    cbn [dtype container_type]. apply has_ty_tup. exists l. split; auto. clear H. induction Hl as [|d y cs l Hd Hl IHl]; constructor.
    + inversion IH; inversion Ht; subst. auto.
    + inversion IH; inversion Ht; subst. auto.
  - destruct (make_block _ v x cs H) as (l & -> & Hl); auto. destruct Ht as (Hne & Ht & Hs). apply typed_list in Ht.
    destruct cs as [|d0 cs0] eqn:E; [congruence|]. rewrite <- E in *.
    replace (dtype (DArray cs)) with (TyArray (length cs) (dtype d0)) by now rewrite E.
    cbn [container_type has_ty]. split; [apply Forall2_len in Hl; auto|].
    assert (Hs' : forall d, In d cs -> dtype d = dtype d0) by (intros d Hd; apply Hs; auto; rewrite E; now left).
    clear - IH Ht Hs' Hl. induction Hl as [|d y cs l Hd Hl IHl]; constructor.
    + rewrite <- (Hs' d (or_introl eq_refl)). inversion IH; inversion Ht; subst. auto.
    + inversion IH; inversion Ht; subst. apply IHl; auto. intros d' Hd'. apply Hs'. now right.
  - destruct (make_block _ v x cs H) as (l & -> & Hl); eauto. destruct Ht as (Ht & Hs). apply typed_list in Ht.
    cbn [dtype container_type has_ty]. clear H.
    induction Hl as [|d y cs l Hd Hl IHl]; constructor.
    + rewrite <- (Hs d (or_introl eq_refl)). inversion IH; inversion Ht; subst. auto.
    + inversion IH; inversion Ht; subst. apply IHl; auto. intros d' Hd'. apply Hs. now right.
  - cbn [make_container] in H. destruct (make_container c v) as [y|]; [|discriminate]. injection H as <-.
    cbn [dtype container_type has_ty]. split; [apply repeat_length|]. apply Forall_forall. intros z Hz.
    apply repeat_spec in Hz as ->. auto.
  - cbn [make_container] in H. destruct (make_container c v) as [y|]; [|discriminate]. injection H as <-.
    cbn [dtype container_type has_ty]. apply Forall_forall. intros z Hz.
    apply repeat_spec in Hz as ->. auto.
Qed.

(** makeISTLVector *)
Notation mis zero := (fix go l := match l with
                | [] => Some []
                | c :: r => x <- make_istl zero c ;; y <- go r ;; Some (x :: y)
                end).
Lemma istl_list (zero : V) cs :
  Forall (fun d => forall c, no_unit_array d = true -> make_container d zero = Some c ->
                   make_istl zero d = Some (c, block_vector_desc d)) cs ->
  forallb no_unit_array cs = true ->
  forall l, Forall2 (fun c x => make_container c zero = Some x) cs l ->
  (mis zero) cs = Some (combine l (map block_vector_desc cs)).
Proof.
  intros HF. induction HF as [|d cs Hd HF IH]; intros Hn l Hl; inversion Hl; subst; [reflexivity|].
  cbn [forallb] in Hn. apply andb_true_iff in Hn as [Hn1 Hn2]. rewrite (Hd _ Hn1 H1). cbn [obind].
  rewrite (IH Hn2 _ H3). reflexivity.
Qed.
Lemma combine_fst {A B} (l : list A) (m : list B) : length l = length m -> map fst (combine l m) = l.
Proof. revert m. induction l as [|x l IH]; intros [|y m] H; try discriminate; auto. cbn. f_equal. apply IH. now injection H. Qed.

Lemma block_braced (l : list (cont * bool)) : l <> [] -> (forall c, l <> [(c, true)]) ->
  block_vector_braced l = Some (CBlk (map fst l), true).
Proof.
  intros H1 H2. destruct l as [|[c b] l]; [congruence|]. destruct l; [|destruct b; reflexivity].
  destruct b; [|reflexivity]. exfalso. now apply (H2 c).
Qed.

Lemma istl_same (zero : V) (d : desc) : forall c, no_unit_array d = true -> make_container d zero = Some c ->
  make_istl zero d = Some (c, block_vector_desc d).
Proof.
  induction d as [| |cs IH|cs IH|ty cs IH|n c IH|n c IH] using desc_ind'; intros x Hn H.
  - discriminate.
  - injection H as <-. reflexivity.
  - destruct (make_block _ zero x cs H) as (l & -> & Hl); auto. cbn [make_istl].
    rewrite (istl_list zero cs IH Hn l Hl). cbn [obind block_vector_desc].
    rewrite combine_fst; [reflexivity|]. rewrite map_length. symmetry. now apply Forall2_len in Hl.
  - destruct (make_block _ zero x cs H) as (l & -> & Hl); auto. cbn [make_istl].
    assert (Hf : forallb no_unit_array cs = true).
    { destruct cs as [|c1 [|c2 r]]; auto; cbn [no_unit_array] in Hn; apply andb_true_iff in Hn as [_ Hn]; auto.
      cbn. now rewrite Hn. }
    assert (HL : length l = length (map block_vector_desc cs)) by (rewrite map_length; symmetry; now apply Forall2_len in Hl).
    rewrite (istl_list zero cs IH Hf l Hl). cbn [obind block_vector_desc]. rewrite combine_fst by exact HL.
    destruct (forallb is_flat_array cs); [reflexivity|]. rewrite block_braced; [now rewrite combine_fst| |].
    + destruct cs as [|c1 cs]; [cbn in Hn; discriminate|]. inversion Hl; subst. discriminate.
    + intros y E. destruct cs as [|c1 [|c2 r]]; [cbn in Hn; discriminate| |].
      * cbn [no_unit_array] in Hn. apply andb_true_iff in Hn as [Hn _]. inversion Hl; subst. inversion H4; subst.
        cbn in E. injection E as _ E. rewrite E in Hn. discriminate.
      * inversion Hl; subst. inversion H4; subst. discriminate.
  - destruct (make_block _ zero x cs H) as (l & -> & Hl); eauto. cbn [make_istl]. cbn [make_container] in H.
    destruct (dty_known ty); [|discriminate].
    rewrite (istl_list zero cs IH Hn l Hl). cbn [obind block_vector_desc].
    rewrite combine_fst; [reflexivity|]. rewrite map_length. symmetry. now apply Forall2_len in Hl.
  - assert (G : match c with DValue => True | _ => negb (n =? 0) && negb ((n =? 1) && block_vector_desc c) && no_unit_array c = true end).
    { destruct c; exact I || exact Hn. }
    cbn [make_container] in H. destruct (make_container c zero) as [y|] eqn:Ey; [|discriminate]. injection H as <-.
    assert (Hgen : c <> DValue -> make_istl zero (DUArray n c) = Some (CBlk (repeat y n), true)).
    { intros Hc. replace (make_istl zero (DUArray n c)) with (x <- make_istl zero c ;; block_vector_braced (repeat x n))
        by (destruct c; auto; congruence).
      assert (G' : negb (n =? 0) && negb ((n =? 1) && block_vector_desc c) && no_unit_array c = true) by (destruct c; auto; congruence).
      apply andb_true_iff in G' as [G' G3]. apply andb_true_iff in G' as [G1 G2].
      apply negb_true_iff, Nat.eqb_neq in G1. rewrite (IH y G3 eq_refl). cbn [obind].
      rewrite block_braced; [now rewrite map_repeat| |].
      + destruct n; [congruence|discriminate].
      + intros z E. destruct n as [|[|n]]; [congruence| |discriminate]. cbn in E. injection E as _ E.
        rewrite E in G2. discriminate. }
    destruct c; try (apply Hgen; discriminate). cbn in Ey |- *. now injection Ey as <-.
  - cbn [make_container] in H. destruct (make_container c zero) as [y|] eqn:Ey; [|discriminate]. injection H as <-.
    cbn [make_istl block_vector_desc]. rewrite (IH y Hn eq_refl). reflexivity.
Qed.
End Factory.

Section Built.
Context {E : Type}.
Implicit Types b : bexpr E.
Lemma all_some_In {A} (l : list (option A)) : forall r, all_some l = Some r -> forall x, In x r -> In (Some x) l.
Proof.
  induction l as [|[a|] l IH]; intros r H x Hx.
  - injection H as <-. destruct Hx.
  - cbn in H. destruct (all_some l) as [r'|]; [|discriminate]. injection H as <-. destruct Hx as [->|Hx]; [now left|].
    right. eauto.
  - discriminate.
Qed.
Lemma build_typed b : forall d, pb_desc (build b) = Some d -> typed_desc d.
Proof.
  induction b as [l|st n s b IH|s bs IH|dom b IH|hi dim q2 q1] using bexpr_ind'; intros d H.
  - injection H as <-. exact I.
  - cbn [build power_pb pb_desc power_desc] in H. destruct (pb_desc (build b)) as [c|]; [|discriminate].
    cbn [obind] in H. specialize (IH c eq_refl). destruct s.
    all: cbn [power_desc obind] in H.
    all: first [solve [eapply flat_int_typed; eauto]|solve [eapply flat_lex_typed; eauto]|solve [eapply append_typed; eauto]|idtac].
    injection H as <-. destruct st; exact IH.
  - cbn [build composite_pb pb_desc] in H. destruct (all_some _) as [ds|] eqn:Ed; [|discriminate]. cbn [obind] in H.
    assert (HF : Forall typed_desc ds).
    { apply Forall_forall. intros x Hx. apply (all_some_In _ _ Ed) in Hx. rewrite map_map in Hx.
      apply in_map_iff in Hx as (b & Hb & HI). rewrite Forall_forall in IH. eapply IH; eauto. }
    destruct s.
    + injection H as <-. unfold flat_lexicographic. destruct (all_some (map flat_vector_size ds)); exact I.
    + apply make_descriptor_typed in H as [H _]; auto.
  - apply IH. exact H.
  - cbn [build taylorhood_pb pb_desc] in H. destruct hi.
    + apply make_descriptor_typed in H as [H _]; auto. repeat constructor.
    + injection H as <-. cbn [typed_desc]. split; [discriminate|]. split; [auto|].
      intros c c' [<-|[<-|[]]] [<-|[<-|[]]]; reflexivity.
Qed.
End Built.
