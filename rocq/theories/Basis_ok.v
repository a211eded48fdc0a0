(** Each pre-basis combinator of Basis_model refines the corresponding
    specification of Basis_spec (contract [pb_ok]). *)
From Coq Require Import List Arith Bool Lia.
From Verif Require Import Lib Basis_model Basis_spec Basis_proofs.
Import ListNotations.

(** * Index trees *)
Lemma itree_ind' (P : itree -> Prop) :
  P DOF -> (forall f, Forall P f -> P (Blk f)) -> forall t, P t.
Proof.
  intros HD HB. fix IH 1. intros [|f]; [exact HD|]. apply HB.
  induction f as [|t f IHf]; constructor; [apply IH|apply IHf].
Qed.

Lemma full_Blk f : full (Blk f) <-> f <> [] /\ Forall full f.
Proof.
  cbn. split; intros [H1 H2]; split; auto; clear H1.
  - induction f; constructor; intuition.
  - induction H2; auto.
Qed.

Lemma sum_list_app a b : sum_list (a ++ b) = sum_list a + sum_list b.
Proof. induction a; cbn; lia. Qed.
Lemma sum_list_repeat x n : sum_list (repeat x n) = n * x.
Proof. induction n; cbn; lia. Qed.
Lemma sum_list_concat (l : list (list nat)) : sum_list (concat l) = sum_list (map sum_list l).
Proof. induction l; cbn; rewrite ?sum_list_app; lia. Qed.
Lemma sum_list_map_mul {A} (f : A -> nat) n l :
  sum_list (map (fun x => n * f x) l) = n * sum_list (map f l).
Proof. induction l; cbn; lia. Qed.

Lemma concat_map_map {A B} (f : A -> B) l : map f (concat l) = concat (map (map f) l).
Proof. apply concat_map. Qed.

Lemma map_repeat_eq {A B} (f : A -> B) x n : map f (repeat x n) = repeat (f x) n.
Proof. induction n; cbn; congruence. Qed.

Lemma concat_repeat_length {A} (l : list A) n : length (concat (repeat l n)) = n * length l.
Proof. induction n; cbn; rewrite ?app_length; lia. Qed.

Lemma nth_error_concat_repeat {A} (l : list A) n d :
  nth_error (concat (repeat l n)) d =
  if d <? n * length l then nth_error l (d mod length l) else None.
Proof.
  revert d. induction n as [|n IH]; intros d; cbn [repeat concat].
  - now destruct d.
  - rewrite nth_error_app_eq. destruct (Nat.ltb_spec d (length l)).
    + destruct (Nat.ltb_spec d (S n * length l)); [|cbn in *; lia].
      now rewrite Nat.mod_small.
    + rewrite IH. destruct (Nat.ltb_spec (d - length l) (n * length l)),
        (Nat.ltb_spec d (S n * length l)); cbn in *; try lia; auto.
      f_equal. replace d with (d - length l + 1 * length l) at 2 by lia.
      rewrite Nat.mod_add; lia.
Qed.

Lemma concat_map_repeat_length {A} (l : list A) n :
  length (concat (map (fun t => repeat t n) l)) = n * length l.
Proof. induction l; cbn; rewrite ?app_length, ?repeat_length; lia. Qed.

Lemma nth_error_concat_map_repeat {A} (l : list A) n d :
  0 < n ->
  nth_error (concat (map (fun t => repeat t n) l)) d = nth_error l (d / n).
Proof.
  intros Hn. revert d. induction l as [|x l IH]; intros d; cbn [map concat].
  - destruct d, (_ / n); reflexivity.
  - rewrite nth_error_app_eq, repeat_length. destruct (Nat.ltb_spec d n).
    + rewrite nth_error_repeat_eq, Nat.div_small by lia.
      destruct (Nat.ltb_spec d n); [reflexivity|lia].
    + rewrite IH. replace d with (d - n + 1 * n) at 2 by lia.
      rewrite Nat.div_add by lia. now rewrite Nat.add_1_r.
Qed.

(** Walk through a flat concatenation. *)
Fixpoint locate {A} (ls : list (list A)) (d : nat) : option (nat * nat) :=
  match ls with
  | [] => None
  | l :: r => if d <? length l then Some (0, d)
              else match locate r (d - length l) with
                   | Some (i, k) => Some (S i, k)
                   | None => None
                   end
  end.
Lemma locate_spec {A} (ls : list (list A)) d i k :
  locate ls d = Some (i, k) <->
  exists l, nth_error ls i = Some l /\ k < length l /\ d = length (concat (firstn i ls)) + k.
Proof.
  revert d i k. induction ls as [|l ls IH]; intros d i k; cbn [locate].
  - split; [discriminate|]. intros (l & H & _). now destruct i.
  - destruct (Nat.ltb_spec d (length l)).
    + split.
      * intros [= <- <-]. exists l. cbn. auto.
      * intros (l' & H1 & H2 & H3). destruct i; cbn in *.
        { f_equal. f_equal. lia. }
        rewrite app_length in H3. lia.
    + destruct (locate ls (d - length l)) as [[i' k']|] eqn:L.
      * apply IH in L. destruct L as (l' & H1 & H2 & H3). split.
        { intros [= <- <-]. exists l'. cbn. rewrite app_length. repeat split; auto. lia. }
        intros (l'' & H1' & H2' & H3'). destruct i; cbn in *.
        { injection H1' as ->. lia. }
        rewrite app_length in H3'.
        assert (L2 : locate ls (d - length l) = Some (i, k)) by (apply IH; exists l''; repeat split; auto; lia).
        assert (L1 : locate ls (d - length l) = Some (i', k')) by (apply IH; exists l'; auto).
        congruence.
      * split; [discriminate|]. intros (l'' & H1' & H2' & H3'). destruct i; cbn in *.
        { injection H1' as ->. lia. }
        rewrite app_length in H3'.
        assert (L2 : locate ls (d - length l) = Some (i, k)) by (apply IH; exists l''; repeat split; auto; lia).
        congruence.
Qed.
Lemma nth_error_concat {A} (ls : list (list A)) d :
  nth_error (concat ls) d =
  match locate ls d with
  | Some (i, k) => match nth_error ls i with Some l => nth_error l k | None => None end
  | None => None
  end.
Proof.
  revert d. induction ls as [|l ls IH]; intros d; cbn [concat locate].
  - now destruct d.
  - rewrite nth_error_app_eq. destruct (d <? length l); [reflexivity|].
    rewrite IH. destruct (locate ls (d - length l)) as [[i k]|]; reflexivity.
Qed.

Lemma subtree_app t p q :
  subtree t (p ++ q) = match subtree t p with Some t' => subtree t' q | None => None end.
Proof.
  revert t. induction p as [|d p IH]; intros t; [reflexivity|].
  cbn. destruct t; [reflexivity|]. destruct (nth_error f d); [apply IH|reflexivity].
Qed.

Lemma subtree_Blk_cons f d p :
  subtree (Blk f) (d :: p) = match nth_error f d with Some t => subtree t p | None => None end.
Proof. reflexivity. Qed.

Lemma ndofs_refine n t : ndofs (refine_dofs n t) = n * ndofs t.
Proof.
  induction t as [|f IH] using itree_ind'; cbn.
  - rewrite map_repeat_eq, sum_list_repeat. cbn. lia.
  - rewrite map_map, <- sum_list_map_mul. f_equal. apply map_ext_in. intros a Ha.
    rewrite Forall_forall in IH. auto.
Qed.

(** Walks in a tree with refined DOFs. *)
Lemma subtree_refine n t p :
  subtree (refine_dofs n t) p =
  match subtree t p with
  | Some t' => Some (refine_dofs n t')
  | None => match p with
            | [] => None
            | _ => match subtree t (removelast p) with
                   | Some DOF => if last p 0 <? n then Some DOF else None
                   | _ => None
                   end
            end
  end.
Proof.
  revert t. induction p as [|d p IH]; intros t; [reflexivity|].
  destruct t as [|f].
  - cbn [refine_dofs subtree]. rewrite nth_error_repeat_eq. destruct p as [|d' p].
    + cbn [subtree removelast last]. destruct (d <? n); reflexivity.
    + change (removelast (d :: d' :: p)) with (d :: removelast (d' :: p)). cbn [subtree].
      destruct (d <? n); reflexivity.
  - cbn [refine_dofs subtree]. rewrite nth_error_map_eq.
    destruct (nth_error f d) as [t'|] eqn:N; cbn [option_map].
    + rewrite IH. destruct (subtree t' p) eqn:T; [reflexivity|].
      destruct p as [|d' p]; [discriminate T|].
      change (removelast (d :: d' :: p)) with (d :: removelast (d' :: p)).
      change (last (d :: d' :: p) 0) with (last (d' :: p) 0).
      cbn [subtree]. now rewrite N.
    + destruct p as [|d' p]; [reflexivity|].
      change (removelast (d :: d' :: p)) with (d :: removelast (d' :: p)).
      cbn [subtree]. now rewrite N.
Qed.

(** * Index trees of power bases *)
Lemma mod_mul_add c q d : d < q -> (c * q + d) mod q = d.
Proof. intros. rewrite Nat.add_comm, Nat.mod_add by lia. now apply Nat.mod_small. Qed.
Lemma div_mul_add c q d : d < q -> (c * q + d) / q = c.
Proof. intros. rewrite Nat.div_add_l by lia. rewrite Nat.div_small; lia. Qed.

Lemma power_dof n s F m :
  0 < n ->
  subtree (Blk (power_forest n s F)) m = Some DOF <->
  exists c m', c < n /\ subtree (Blk F) m' = Some DOF /\ m = power_glob n s F c m'.
Proof.
  intros Hn. destruct s; cbn [power_forest power_glob].
  - (* FlatLex *) split.
    + destruct m as [|d r]; [discriminate|]. cbn [subtree].
      rewrite nth_error_concat_repeat. destruct (Nat.ltb_spec d (n * length F)); [|discriminate].
      destruct (nth_error F (d mod length F)) as [t|] eqn:N; [|discriminate]. intros H1.
      assert (length F <> 0) by (destruct F; [now destruct (d mod _) in N|cbn; lia]).
      exists (d / length F), (d mod length F :: r). repeat split.
      * apply Nat.div_lt_upper_bound; lia.
      * cbn. now rewrite N.
      * cbn. f_equal. rewrite (Nat.div_mod d (length F)) at 1 by lia. lia.
    + intros (c & m' & Hc & Hm & ->). destruct m' as [|d r]; [discriminate|]. cbn in *.
      destruct (nth_error F d) as [t|] eqn:N; [|discriminate].
      pose proof (nth_error_Some_lt _ _ _ N).
      rewrite nth_error_concat_repeat, mod_mul_add by auto.
      destruct (Nat.ltb_spec (c * length F + d) (n * length F)) as [L|L]; [now rewrite N|nia].
  - (* FlatInter *) split.
    + destruct m as [|d r]; [discriminate|]. cbn [subtree].
      rewrite nth_error_concat_map_repeat by auto.
      destruct (nth_error F (d / n)) as [t|] eqn:N; [|discriminate]. intros H1.
      exists (d mod n), (d / n :: r). repeat split.
      * apply Nat.mod_upper_bound; lia.
      * cbn. now rewrite N.
      * cbn. f_equal. rewrite (Nat.div_mod d n) at 1 by lia. lia.
    + intros (c & m' & Hc & Hm & ->). destruct m' as [|d r]; [discriminate|]. cbn in *.
      rewrite nth_error_concat_map_repeat, div_mul_add by auto. exact Hm.
  - (* BlockedLex *) split.
    + destruct m as [|c r]; [discriminate|]. cbn [subtree].
      rewrite nth_error_repeat_eq. destruct (Nat.ltb_spec c n); [|discriminate].
      intros H1. exists c, r. auto.
    + intros (c & m' & Hc & Hm & ->). cbn [subtree]. rewrite nth_error_repeat_eq.
      destruct (Nat.ltb_spec c n); [auto|lia].
  - (* BlockedInter *)
    change (Blk (map (refine_dofs n) F)) with (refine_dofs n (Blk F)). split.
    + rewrite subtree_refine. destruct (subtree (Blk F) m) as [t|] eqn:T.
      * destruct t; discriminate.
      * destruct m as [|d r]; [discriminate|].
        destruct (subtree (Blk F) (removelast (d :: r))) as [[|]|] eqn:T2; try discriminate.
        destruct (Nat.ltb_spec (last (d :: r) 0) n); [|discriminate].
        intros _. exists (last (d :: r) 0), (removelast (d :: r)). repeat split; auto.
        apply app_removelast_last. discriminate.
    + intros (c & m' & Hc & Hm & ->). rewrite subtree_app, subtree_refine, Hm. cbn.
      rewrite nth_error_repeat_eq. destruct (Nat.ltb_spec c n); [auto|lia].
Qed.

Lemma power_glob_inj n s F c c' m m' :
  c < n -> c' < n ->
  subtree (Blk F) m = Some DOF -> subtree (Blk F) m' = Some DOF ->
  power_glob n s F c m = power_glob n s F c' m' -> c = c' /\ m = m'.
Proof.
  intros Hc Hc' Hm Hm'.
  destruct m as [|d r]; [discriminate|]. destruct m' as [|d' r']; [discriminate|].
  cbn in Hm, Hm'.
  destruct (nth_error F d) as [t|] eqn:N; [|discriminate].
  destruct (nth_error F d') as [t'|] eqn:N'; [|discriminate].
  apply nth_error_Some_lt in N, N'.
  destruct s; cbn; intros H.
  - injection H as H ->.
    assert (D : d = d') by (rewrite <- (mod_mul_add c _ d N), H; now apply mod_mul_add).
    assert (c = c') by (rewrite <- (div_mul_add c _ d N), H; now apply div_mul_add).
    now subst.
  - injection H as H ->.
    assert (D : c = c') by (rewrite <- (mod_mul_add d _ c Hc), H; now apply mod_mul_add).
    assert (d = d') by (rewrite <- (div_mul_add d _ c Hc), H; now apply div_mul_add).
    now subst.
  - now injection H as -> -> ->.
  - change (d :: r ++ [c]) with ((d :: r) ++ [c]) in H.
    change (d' :: r' ++ [c']) with ((d' :: r') ++ [c']) in H.
    apply app_inj_tail in H as [H ->]. auto.
Qed.

Lemma power_ndofs n s F :
  ndofs (Blk (power_forest n s F)) = ndofs (Blk F) * n.
Proof.
  destruct s; cbn [power_forest].
  - cbn. rewrite concat_map, map_repeat_eq, sum_list_concat, map_repeat_eq, sum_list_repeat. lia.
  - cbn. rewrite concat_map, map_map, sum_list_concat, map_map.
    rewrite (map_ext _ (fun x => n * ndofs x)), sum_list_map_mul; [lia|].
    intros. now rewrite map_repeat_eq, sum_list_repeat.
  - cbn. rewrite map_repeat_eq, sum_list_repeat. cbn. lia.
  - change (Blk (map (refine_dofs n) F)) with (refine_dofs n (Blk F)). rewrite ndofs_refine. lia.
Qed.

Lemma full_subtree t p f : full t -> subtree t p = Some (Blk f) -> f <> [].
Proof.
  revert t. induction p as [|d p IH]; intros t Hf; cbn.
  - intros [= ->]. apply full_Blk in Hf. tauto.
  - destruct t as [|g]; [discriminate|]. destruct (nth_error g d) eqn:N; [|discriminate].
    apply full_Blk in Hf as [_ Hf]. rewrite Forall_forall in Hf. apply IH, Hf.
    now apply nth_error_In in N.
Qed.

Lemma power_size_ok n s F size :
  0 < n -> (s = BlockedInterleaved -> Forall full F) ->
  (forall p t, subtree (Blk F) p = Some t -> size p = Some (degree t)) ->
  forall p t, subtree (Blk (power_forest n s F)) p = Some t -> power_size n s size p = Some (degree t).
Proof.
  intros Hn Hfull Hs p t. destruct s; cbn [power_forest power_size].
  - destruct p as [|d r].
    + intros [= <-]. rewrite (Hs [] _ eq_refl). cbn. now rewrite concat_repeat_length.
    + cbn [subtree]. rewrite nth_error_concat_repeat.
      destruct (Nat.ltb_spec d (n * length F)); [|discriminate].
      rewrite (Hs [] _ eq_refl). cbn [obind degree].
      destruct (Nat.eqb_spec (length F) 0); [nia|]. intros Ht. apply Hs. exact Ht.
  - destruct p as [|d r].
    + intros [= <-]. rewrite (Hs [] _ eq_refl). cbn. now rewrite concat_map_repeat_length.
    + cbn [subtree]. rewrite nth_error_concat_map_repeat by auto.
      destruct (Nat.eqb_spec n 0); [lia|]. intros Ht. apply Hs. exact Ht.
  - destruct p as [|d r].
    + intros [= <-]. cbn. now rewrite repeat_length.
    + cbn [subtree]. rewrite nth_error_repeat_eq. destruct (d <? n); [|discriminate].
      rewrite pop_front_cons. cbn [obind]. apply Hs.
  - specialize (Hfull eq_refl).
    change (Blk (map (refine_dofs n) F)) with (refine_dofs n (Blk F)).
    destruct p as [|d r] eqn:P.
    + intros [= <-]. rewrite (Hs [] _ eq_refl). cbn. now rewrite map_length.
    + rewrite <- P. assert (NE : p <> []) by congruence. clear P d r.
      rewrite (app_removelast_last 0 NE). set (q := removelast p). set (x := last p 0).
      unfold digit. rewrite app_length. cbn [length].
      replace (length q + 1 - 1) with (length q) by lia. rewrite nth_error_at by auto.
      cbn [obind]. rewrite firstn_app, firstn_all, Nat.sub_diag. cbn [firstn]. rewrite app_nil_r.
      rewrite subtree_refine. rewrite removelast_last, last_last.
      destruct (subtree (Blk F) (q ++ [x])) as [t'|] eqn:T.
      * intros [= <-]. rewrite (Hs _ _ T).
        rewrite subtree_app in T. destruct (subtree (Blk F) q) as [[|g]|] eqn:Q; try discriminate.
        rewrite (Hs _ _ Q). cbn [obind degree]. cbn in T.
        destruct (nth_error g x) eqn:N; [|discriminate]. injection T as ->.
        apply nth_error_Some_lt in N as L.
        destruct (Nat.eqb_spec (length g) 0); [lia|]. f_equal.
        destruct t' as [|g']; cbn [degree refine_dofs].
        { now rewrite repeat_length. }
        rewrite map_length. destruct (Nat.eqb_spec (length g') 0) as [Z|Z]; [|reflexivity].
        apply length_zero_iff_nil in Z. subst g'. exfalso.
        (* an empty block below a full forest *)
        assert (subtree (Blk F) (q ++ [x]) = Some (Blk [])) as B
          by (rewrite subtree_app, Q; cbn; now rewrite N).
        destruct (q ++ [x]) as [|d r] eqn:QX; [now destruct q|].
        cbn in B. destruct (nth_error F d) as [u|] eqn:FN; [|discriminate].
        rewrite Forall_forall in Hfull. eapply full_subtree; [|exact B|reflexivity].
        apply Hfull. now apply nth_error_In in FN.
      * destruct (q ++ [x]) eqn:QX; [discriminate|].
        destruct (subtree (Blk F) q) as [[|g]|] eqn:Q; try discriminate.
        destruct (x <? n); [|discriminate]. intros [= <-].
        rewrite (Hs _ _ Q). reflexivity.
Qed.

(** * Descriptors *)
Lemma desc_ind' (P : desc -> Prop) :
  P DUnknown -> P DValue -> (forall cs, Forall P cs -> P (DTuple cs)) ->
  (forall cs, Forall P cs -> P (DArray cs)) -> (forall t cs, Forall P cs -> P (DVector t cs)) ->
  (forall n c, P c -> P (DUArray n c)) -> (forall n c, P c -> P (DUVector n c)) -> forall d, P d.
Proof.
  intros HU HV HT HA HVe HUA HUV. fix IH 1. intros [| |cs|cs|t cs|n c|n c].
  - exact HU.
  - exact HV.
  - apply HT. induction cs as [|c cs IHcs]; constructor; [apply IH|apply IHcs].
  - apply HA. induction cs as [|c cs IHcs]; constructor; [apply IH|apply IHcs].
  - apply HVe. induction cs as [|c cs IHcs]; constructor; [apply IH|apply IHcs].
  - apply HUA, IH.
  - apply HUV, IH.
Qed.

Definition desc_children (d : desc) : option (list desc) :=
  match d with DTuple cs | DArray cs | DVector _ cs => Some cs | _ => None end.

Lemma describes_list d cs t :
  desc_children d = Some cs ->
  describes d t <-> exists f, t = Blk f /\ Forall2 describes cs f.
Proof.
  assert (K : forall cs f, (fix go cs f := match cs, f with
                      | [], [] => True
                      | c :: cs', x :: f' => describes c x /\ go cs' f'
                      | _, _ => False
                      end) cs f <-> Forall2 describes cs f).
  { induction cs0 as [|c cs0 IH]; intros [|x f]; split; intros H; try inversion H; auto.
    - constructor; [apply H|]. apply IH, H.
    - subst. split; auto. now apply IH. }
  destruct d; cbn; intros [= ->]; split; intros (f & -> & H); exists f; split; auto; now apply K.
Qed.

Lemma make_descriptor_children cs d :
  make_descriptor cs = Some d -> desc_children d = Some cs.
Proof.
  destruct cs; [discriminate|]. cbn. destruct (forallb _ cs); intros [= <-]; reflexivity.
Qed.

Lemma Forall2_len {A B} (R : A -> B -> Prop) l l' : Forall2 R l l' -> length l = length l'.
Proof. induction 1; cbn; auto. Qed.
Lemma Forall2_concat {A B} (R : A -> B -> Prop) l l' :
  Forall2 (Forall2 R) l l' -> Forall2 R (concat l) (concat l').
Proof. induction 1; cbn; [constructor|]. now apply Forall2_app. Qed.
Lemma Forall2_repeat {A B} (R : A -> B -> Prop) x y n :
  R x y -> Forall2 R (repeat x n) (repeat y n).
Proof. induction n; cbn; constructor; auto. Qed.
Lemma Forall2_map_map {A B C D} (R : C -> D -> Prop) (f : A -> C) (g : B -> D) l l' :
  Forall2 (fun a b => R (f a) (g b)) l l' -> Forall2 R (map f l) (map g l').
Proof. induction 1; cbn; constructor; auto. Qed.
Lemma Forall2_weaken {A B} (R R' : A -> B -> Prop) l l' :
  (forall a b, R a b -> R' a b) -> Forall2 R l l' -> Forall2 R' l l'.
Proof. intros H. induction 1; constructor; auto. Qed.

Lemma describes_uniform st n c f :
  describes (make_uniform st n c) (Blk f) <-> length f = n /\ Forall (describes c) f.
Proof.
  destruct st; cbn; split.
  - intros (f' & [= <-] & H). exact H.
  - intros H. eauto.
  - intros (f' & [= <-] & H). exact H.
  - intros H. eauto.
Qed.

Lemma Forall_concat_repeat {A} (P : A -> Prop) l n : Forall P l -> Forall P (concat (repeat l n)).
Proof. intros H. induction n; cbn; [constructor|]. apply Forall_app. auto. Qed.
Lemma Forall_concat_map_repeat {A} (P : A -> Prop) l n :
  Forall P l -> Forall P (concat (map (fun x => repeat x n) l)).
Proof.
  induction 1; cbn; [constructor|]. apply Forall_app. split; auto.
  apply Forall_forall. intros y Hy. apply repeat_spec in Hy. now subst.
Qed.

Lemma desc_flat_lex_n st n c d F :
  describes c (Blk F) -> flat_lexicographic_n st n c = Some d ->
  describes d (Blk (concat (repeat F n))).
Proof.
  intros Hc Hd.
  assert (LC : forall cs, desc_children c = Some cs -> Forall2 describes (concat (repeat cs n)) (concat (repeat F n))).
  { intros cs Hcs. apply (describes_list _ _ _ Hcs) in Hc as (f & [= <-] & H).
    apply Forall2_concat, Forall2_repeat, H. }
  destruct c as [| |cs|cs|t cs|m g|m g]; cbn [flat_lexicographic_n] in Hd.
  - injection Hd as <-. exact I.
  - discriminate Hc.
  - destruct st; [|discriminate]. apply make_descriptor_children in Hd.
    apply (describes_list _ _ _ Hd). eauto.
  - destruct st; [discriminate|]. injection Hd as <-. eapply describes_list; [reflexivity|]. eauto.
  - injection Hd as <-. eapply describes_list; [reflexivity|]. eauto.
  - apply (describes_uniform true) in Hc as [HL HF]. 
    assert (L : length (concat (repeat F n)) = n * m) by (rewrite concat_repeat_length; now rewrite HL).
    destruct st; injection Hd as <-.
    + apply (describes_uniform true). split; auto. now apply Forall_concat_repeat.
    + apply (describes_uniform false). split; auto. now apply Forall_concat_repeat.
  - apply (describes_uniform false) in Hc as [HL HF].
    injection Hd as <-. apply (describes_uniform false). split; [|now apply Forall_concat_repeat].
    rewrite concat_repeat_length, HL. lia.
Qed.

Lemma desc_flat_inter_n st n c d F :
  describes c (Blk F) -> flat_interleaved_n st n c = Some d ->
  describes d (Blk (concat (map (fun t => repeat t n) F))).
Proof.
  intros Hc Hd.
  assert (LC : forall cs, desc_children c = Some cs ->
    Forall2 describes (concat (map (fun x => repeat x n) cs)) (concat (map (fun t => repeat t n) F))).
  { intros cs Hcs. apply (describes_list _ _ _ Hcs) in Hc as (f & [= <-] & H).
    apply Forall2_concat, Forall2_map_map. eapply Forall2_weaken; [|exact H].
    intros. now apply Forall2_repeat. }
  destruct c as [| |cs|cs|t cs|m g|m g]; cbn [flat_interleaved_n] in Hd.
  - injection Hd as <-. exact I.
  - discriminate Hc.
  - destruct st; [|discriminate]. apply make_descriptor_children in Hd.
    apply (describes_list _ _ _ Hd). eauto.
  - destruct st; [discriminate|]. injection Hd as <-. eapply describes_list; [reflexivity|]. eauto.
  - injection Hd as <-. eapply describes_list; [reflexivity|]. eauto.
  - apply (describes_uniform true) in Hc as [HL HF].
    assert (L : length (concat (map (fun t => repeat t n) F)) = n * m)
      by (rewrite concat_map_repeat_length; now rewrite HL).
    destruct st; injection Hd as <-.
    + apply (describes_uniform true). split; auto. now apply Forall_concat_map_repeat.
    + apply (describes_uniform false). split; auto. now apply Forall_concat_map_repeat.
  - apply (describes_uniform false) in Hc as [HL HF].
    injection Hd as <-. apply (describes_uniform false). split; [|now apply Forall_concat_map_repeat].
    rewrite concat_map_repeat_length, HL. lia.
Qed.

Fixpoint append_list st s (cs : list desc) : option (list desc) :=
  match cs with
  | [] => Some []
  | c :: r => c' <- append_to_tree st s c ;; r' <- append_list st s r ;; Some (c' :: r')
  end.
Lemma append_list_eq st s cs :
  (fix go cs := match cs with
                | [] => Some []
                | c :: r => c' <- append_to_tree st s c ;; r' <- go r ;; Some (c' :: r')
                end) cs = append_list st s cs.
Proof. induction cs as [|c cs IH]; [reflexivity|]. cbn [append_list]. now rewrite <- IH. Qed.

Lemma desc_append st n c : forall d t,
  describes c t -> append_to_tree st n c = Some d -> describes d (refine_dofs n t).
Proof.
  induction c as [| |cs IH|cs IH|ty cs IH|m c IH|m c IH] using desc_ind'; intros d t Hc Hd.
  - injection Hd as <-. exact I.
  - cbn in Hc. subst t. injection Hd as <-. cbn [refine_dofs].
    apply describes_uniform. rewrite repeat_length. split; auto.
    apply Forall_forall. intros x Hx. now apply repeat_spec in Hx.
  - assert (HL : forall f cs', Forall2 describes cs f -> append_list st n cs = Some cs' ->
       Forall2 describes cs' (map (refine_dofs n) f)).
    { clear Hc Hd. intros f. revert IH. revert f. induction cs as [|c cs IHcs]; intros f IH cs' H2 HA;
        inversion H2; subst; cbn in HA.
      - injection HA as <-. constructor.
      - apply obind_Some in HA as (c' & A1 & HA). apply obind_Some in HA as (r' & A2 & HA).
        injection HA as <-. inversion IH; subst. constructor; eauto. }
    apply (describes_list (DTuple cs) cs) in Hc as (f & -> & H2); [|reflexivity].
    cbn [append_to_tree] in Hd. rewrite append_list_eq in Hd.
    apply obind_Some in Hd as (cs' & A & Hd). apply make_descriptor_children in Hd.
    apply (describes_list _ _ _ Hd). eexists. split; [reflexivity|]. eauto.
  - assert (HL : forall f cs', Forall2 describes cs f -> append_list st n cs = Some cs' ->
       Forall2 describes cs' (map (refine_dofs n) f)).
    { clear Hc Hd. intros f. revert IH. revert f. induction cs as [|c cs IHcs]; intros f IH cs' H2 HA;
        inversion H2; subst; cbn in HA.
      - injection HA as <-. constructor.
      - apply obind_Some in HA as (c' & A1 & HA). apply obind_Some in HA as (r' & A2 & HA).
        injection HA as <-. inversion IH; subst. constructor; eauto. }
    apply (describes_list (DArray cs) cs) in Hc as (f & -> & H2); [|reflexivity].
    cbn [append_to_tree] in Hd. rewrite append_list_eq in Hd.
    apply obind_Some in Hd as (cs' & A & Hd). apply make_descriptor_children in Hd.
    apply (describes_list _ _ _ Hd). eexists. split; [reflexivity|]. eauto.
  - assert (HL : forall f cs', Forall2 describes cs f -> append_list st n cs = Some cs' ->
       Forall2 describes cs' (map (refine_dofs n) f)).
    { clear Hc Hd. intros f. revert IH. revert f. induction cs as [|c cs IHcs]; intros f IH cs' H2 HA;
        inversion H2; subst; cbn in HA.
      - injection HA as <-. constructor.
      - apply obind_Some in HA as (c' & A1 & HA). apply obind_Some in HA as (r' & A2 & HA).
        injection HA as <-. inversion IH; subst. constructor; eauto. }
    apply (describes_list (DVector ty cs) cs) in Hc as (f & -> & H2); [|reflexivity].
    cbn [append_to_tree] in Hd. rewrite append_list_eq in Hd.
    apply obind_Some in Hd as (cs' & A & Hd). injection Hd as <-.
    eapply describes_list; [reflexivity|]. eexists. split; [reflexivity|]. eauto.
  - cbn in Hc. destruct Hc as (f & -> & HL & HF). cbn in Hd. apply obind_Some in Hd as (c' & A & Hd).
    injection Hd as <-. cbn. eexists. split; [reflexivity|]. rewrite map_length. split; auto.
    apply Forall_forall. intros x Hx. apply in_map_iff in Hx as (y & <- & Hy).
    rewrite Forall_forall in HF. eauto.
  - cbn in Hc. destruct Hc as (f & -> & HL & HF). cbn in Hd. apply obind_Some in Hd as (c' & A & Hd).
    injection Hd as <-. cbn. eexists. split; [reflexivity|]. rewrite map_length. split; auto.
    apply Forall_forall. intros x Hx. apply in_map_iff in Hx as (y & <- & Hy).
    rewrite Forall_forall in HF. eauto.
Qed.

Lemma power_desc_ok st n s F cd d :
  (forall c, cd = Some c -> describes c (Blk F)) ->
  power_desc st n s cd = Some d -> describes d (Blk (power_forest n s F)).
Proof.
  intros Hc Hd. unfold power_desc in Hd. apply obind_Some in Hd as (c & Ec & Hd). specialize (Hc c Ec).
  destruct s; cbn [power_forest].
  - eapply desc_flat_lex_n; eauto.
  - eapply desc_flat_inter_n; eauto.
  - injection Hd as <-. apply describes_uniform. rewrite repeat_length. split; auto.
    apply Forall_forall. intros x Hx. apply repeat_spec in Hx. now subst.
  - change (Blk (map (refine_dofs n) F)) with (refine_dofs n (Blk F)). eapply desc_append; eauto.
Qed.

(** * The contract *)
Section Contract.
Context {E : Type}.
Notation node := (node E).
Notation prebasis := (prebasis E).

Record pb_ok (els : E -> Prop) (pb : prebasis) (W : bspec E) : Prop := {
  ok_size : forall p t, subtree (sp_tree W) p = Some t -> pb_size pb p = Some (degree t);
  ok_dim : pb_dim pb = ndofs (sp_tree W);
  ok_nsize : forall n0 e off, els e -> skel n0 = skel (pb_node pb) ->
      node_size (bind_tree e off n0) = length (sp_keys W e);
  ok_align : forall n0 e off, els e -> skel n0 = skel (pb_node pb) ->
      index_paths (bind_tree e off n0) = map fst (sp_keys W e);
  ok_ind : forall cap n0 e off pre mid post, els e -> skel n0 = skel (pb_node pb) ->
      pb_bufmi pb <= cap -> length mid = length (sp_keys W e) ->
      pb_indices pb cap (bind_tree e off n0) (pre ++ mid ++ post, length pre)
      = Some (pre ++ map (sp_glob W) (sp_keys W e) ++ post, length pre + length mid);
  ok_guard : forall cap g n st, pb_indices pb cap (add_guard g n) st = pb_indices pb cap n st;
  ok_valid : forall e k, els e -> In k (sp_keys W e) ->
      subtree (sp_tree W) (sp_glob W k) = Some DOF;
  ok_inj : forall e e' k k', els e -> els e' -> In k (sp_keys W e) -> In k' (sp_keys W e') ->
      sp_glob W k = sp_glob W k' -> k = k';
  ok_surj : forall m, subtree (sp_tree W) m = Some DOF ->
      exists e k, els e /\ In k (sp_keys W e) /\ sp_glob W k = m;
  ok_maxn : forall e, els e -> length (sp_keys W e) <= pb_maxnode pb;
  ok_len : forall m, subtree (sp_tree W) m = Some DOF ->
      pb_minmi pb <= length m <= pb_maxmi pb;
  ok_buf : pb_maxmi pb <= pb_bufmi pb;
  ok_desc : forall d, pb_desc pb = Some d -> describes d (sp_tree W)
}.

(** ** Leaf *)
Lemma ndofs_flat n : ndofs (Blk (repeat DOF n)) = n.
Proof. cbn. rewrite map_repeat_eq, sum_list_repeat. cbn. lia. Qed.

Lemma leaf_pb_ok els l : leaf_ok els l -> pb_ok els (leaf_pb l) (leaf_spec l).
Proof.
  intros [Hs Hm Hr Hc]. constructor; cbn.
  - intros [|d [|d' p]] t; cbn.
    + intros [= <-]. cbn. now rewrite repeat_length.
    + rewrite nth_error_repeat_eq. destruct (d <? lf_dim l); [|discriminate].
      intros [= <-]. reflexivity.
    + rewrite nth_error_repeat_eq. destruct (d <? lf_dim l); discriminate.
  - symmetry. apply ndofs_flat.
  - intros n0 e off He Hn. apply skel_leaf in Hn as (m & el & ->). cbn.
    now rewrite map_length, Hs.
  - intros n0 e off He Hn. apply skel_leaf in Hn as (m & el & ->). cbn.
    rewrite app_nil_r, map_map, <- (Hs e He). cbn.
    induction (lf_indices l e); cbn; congruence.
  - intros cap n0 e off pre mid post He Hn Hcap Hmid. apply skel_leaf in Hn as (m & el & ->).
    destruct cap as [|cap]; [lia|]. cbn [Nat.leb]. cbn [bind_tree forallb].
    rewrite map_length in Hmid. rewrite leaf_write_eq by auto.
    rewrite map_map. cbn. now rewrite Hmid.
  - intros cap g n st. destruct n; reflexivity.
  - intros e k He Hk. apply in_map_iff in Hk as (g & <- & Hg). cbn.
    rewrite nth_error_repeat_eq. specialize (Hr e g He Hg).
    destruct (Nat.ltb_spec g (lf_dim l)); [reflexivity|lia].
  - intros e e' k k' He He' Hk Hk'. apply in_map_iff in Hk as (g & <- & Hg).
    apply in_map_iff in Hk' as (g' & <- & Hg'). cbn. congruence.
  - intros [|d [|d' p]]; cbn; [discriminate| |].
    + rewrite nth_error_repeat_eq. destruct (Nat.ltb_spec d (lf_dim l)); [|discriminate].
      intros _. destruct (Hc d) as (e & He & Hin); [lia|].
      exists e, ([], d). repeat split; auto. apply in_map_iff. eauto.
    + rewrite nth_error_repeat_eq. destruct (d <? lf_dim l); discriminate.
  - intros e He. rewrite map_length, Hs; auto.
  - intros [|d [|d' p]]; cbn; [discriminate|lia|].
    rewrite nth_error_repeat_eq. destruct (d <? lf_dim l); discriminate.
  - lia.
  - intros d [= <-]. cbn. exists (repeat DOF (lf_dim l)). split; [reflexivity|]. rewrite repeat_length. split; auto.
    apply Forall_forall. intros x Hx. now apply repeat_spec in Hx.
Qed.

(** ** Restricted *)
Lemma restricted_pb_ok els dom pb W :
  pb_ok (fun e => els e /\ dom e = true) pb W ->
  pb_ok els (restricted_pb dom pb) (restricted_spec dom W).
Proof.
  intros [Hsz Hdim Hns Hal Hind Hg Hval Hinj Hsur Hmax Hlen Hbuf Hdesc].
  constructor; cbn; auto.
  - intros n0 e off He Hn. rewrite skel_guard in Hn.
    apply skel_guard_inv in Hn as (n1 & -> & Hn). rewrite bind_guard.
    destruct (dom e) eqn:D; [|apply zero_size]. rewrite size_guard. auto.
  - intros n0 e off He Hn. rewrite skel_guard in Hn.
    apply skel_guard_inv in Hn as (n1 & -> & Hn). rewrite bind_guard.
    destruct (dom e) eqn:D; [|apply index_paths_zero]. rewrite index_paths_guard. auto.
  - intros cap n0 e off pre mid post He Hn Hcap Hmid. rewrite skel_guard in Hn.
    apply skel_guard_inv in Hn as (n1 & -> & Hn). rewrite bind_guard.
    destruct (dom e) eqn:D.
    + rewrite size_guard, Hns by auto.
      destruct (Nat.eqb_spec (length (sp_keys W e)) 0) as [Z|Z].
      * apply length_zero_iff_nil in Z. rewrite Z in *. cbn in Hmid.
        apply length_zero_iff_nil in Hmid. subst mid. cbn. now rewrite Nat.add_0_r.
      * rewrite Hg. auto.
    + rewrite zero_size. cbn. cbn in Hmid. apply length_zero_iff_nil in Hmid. subst mid.
      cbn. now rewrite Nat.add_0_r.
  - intros. rewrite size_guard, Hg. reflexivity.
  - intros e k He Hk. destruct (dom e) eqn:D; [eauto|destruct Hk].
  - intros e e' k k' He He' Hk Hk'. destruct (dom e) eqn:D, (dom e') eqn:D'; try easy. eauto.
  - intros m Hm. destruct (Hsur m Hm) as (e & k & (He & D) & Hk & Hgl).
    exists e, k. now rewrite D.
  - intros e He. destruct (dom e) eqn:D; cbn; [auto|lia].
Qed.

(** ** Facts for inner nodes *)
Lemma glob_cons els pb W e k :
  pb_ok els pb W -> els e -> In k (sp_keys W e) ->
  exists d r t, sp_glob W k = d :: r /\ nth_error (sp_forest W) d = Some t /\ subtree t r = Some DOF.
Proof.
  intros H He Hk. pose proof (ok_valid _ _ _ H e k He Hk) as V.
  destruct (sp_glob W k) as [|d r]; [discriminate|].
  cbn in V. destruct (nth_error (sp_forest W) d) as [t|] eqn:N; [|discriminate]. eauto 6.
Qed.

Lemma glob_len els pb W e k :
  pb_ok els pb W -> els e -> In k (sp_keys W e) -> length (sp_glob W k) <= pb_bufmi pb.
Proof.
  intros H He Hk. pose proof (ok_len _ _ _ H _ (ok_valid _ _ _ H e k He Hk)).
  pose proof (ok_buf _ _ _ H). lia.
Qed.

Lemma sizes_sum_const (e : E) K : forall cs off,
  (forall c o, In c cs -> node_size (bind_tree e o c) = K) ->
  sizes_sum (snd (bind_children e off cs)) = length cs * K.
Proof.
  induction cs as [|c cs IH]; intros off H; [reflexivity|].
  cbn. set (c' := bind_tree e off c).
  specialize (IH (off + node_size c') (fun c o Hc => H c o (or_intror Hc))).
  destruct (bind_children e (off + node_size c') cs). unfold sizes_sum in *. cbn in *.
  rewrite IH. unfold c'. rewrite H by now left. lia.
Qed.

Lemma inner_size (e : E) off m cs :
  node_size (bind_tree e off (NInner m [] cs)) = sizes_sum (snd (bind_children e off cs)).
Proof.
  rewrite bind_inner. cbn. rewrite bind_children_fst. lia.
Qed.

Lemma map_repeat_in {A B} (f : A -> B) l x n :
  map f l = repeat x n -> length l = n /\ forall a, In a l -> f a = x.
Proof.
  intros H. split.
  - apply (f_equal (@length _)) in H. now rewrite map_length, repeat_length in H.
  - intros a Ha. apply (in_map f) in Ha. rewrite H in Ha. now apply repeat_spec in Ha.
Qed.

Lemma flat_map_const_length {A B} (f : A -> list B) K l :
  (forall a, In a l -> length (f a) = K) -> length (flat_map f l) = length l * K.
Proof.
  induction l as [|a l IH]; intros H; [reflexivity|].
  cbn. rewrite app_length, IH, H; [lia|now left|]. intros; apply H; now right.
Qed.

(** ** Power *)
Lemma power_keys_length n s W (e : E) :
  length (sp_keys (power_spec n s W) e) = n * length (sp_keys W e).
Proof.
  cbn. rewrite (flat_map_const_length _ (length (sp_keys W e))).
  - now rewrite seq_length.
  - intros. now rewrite map_length.
Qed.

Lemma power_globs n s W (e : E) :
  map (sp_glob (power_spec n s W)) (sp_keys (power_spec n s W) e)
  = flat_map (fun c => map (power_glob n s (sp_forest W) c) (map (sp_glob W) (sp_keys W e))) (seq 0 n).
Proof.
  cbn. induction (seq 0 n) as [|c l IH]; [reflexivity|].
  cbn. rewrite map_app, IH. f_equal. rewrite !map_map. apply map_ext. intros [p k]. reflexivity.
Qed.

(** First child in place, then the copies. *)
Lemma power_core n (G : list mi) (g0 : mi -> mi) (gc : nat -> mi -> mi) f0 fu
    (pg : nat -> mi -> mi) pre tgt post it :
  0 < n -> it = length pre ->
  (forall m, In m G -> f0 m = Some (g0 m)) ->
  (forall c m, 1 <= c < n -> In m G -> fu c (g0 m) (g0 m) = Some (gc c (g0 m))) ->
  (forall m, In m G -> g0 m = pg 0 m) ->
  (forall c m, 1 <= c < n -> In m G -> gc c (g0 m) = pg c m) ->
  length tgt = (n - 1) * length G ->
  obind (forl (length G) 0 (fun i b => buf_modify b (it + i) f0) (pre ++ G ++ tgt ++ post))
    (fun b1 => copy_children n (length G) it fu (b1, length pre + length G))
  = Some (pre ++ flat_map (fun c => map (pg c) G) (seq 0 n) ++ post, length pre + n * length G).
Proof.
  intros Hn -> H0 Hc Hp0 Hpc Ht.
  rewrite (modify_loop f0 g0 G pre (tgt ++ post) 0 (length pre) (length G)); try lia; auto.
  cbn [obind]. unfold copy_children.
  pose proof (copy_loop fu gc (n - 1) 1 (map g0 G) pre tgt [] post (length pre) (length G)
                eq_refl) as C.
  rewrite map_length in C. specialize (C eq_refl Ht). cbn [app length] in C.
  rewrite Nat.add_0_r in C. rewrite C.
  - f_equal. destruct n as [|n]; [lia|]. cbn [seq flat_map].
    replace (S n - 1) with n by lia. f_equal; [|lia].
    rewrite <- app_assoc. f_equal.
    rewrite (map_ext_in g0 (pg 0) G) by auto. f_equal. f_equal.
    rewrite !flat_map_concat_map. f_equal. apply map_ext_in. intros c Hc'.
    apply in_seq in Hc'. rewrite <- (map_ext_in g0 (pg 0) G) by auto.
    rewrite map_map. apply map_ext_in. intros m Hm. apply Hpc; auto; lia.
  - intros c m Hc' Hm. apply in_map_iff in Hm as (m' & <- & Hm'). apply Hc; auto. lia.
Qed.

Lemma first_digit f d r : obind (digit (d :: r) 0) (fun x => set_digit (d :: r) 0 (f x)) = Some (first f (d :: r)).
Proof. reflexivity. Qed.

Lemma power_ind els n s pb W :
  0 < n -> pb_ok els pb W ->
  forall cap n0 (e : E) off pre mid post, els e ->
  skel n0 = skel (NInner mx0 [] (repeat (pb_node pb) n)) ->
  pb_bufmi pb + Nat.b2n (is_blocked s) <= cap ->
  length mid = length (sp_keys (power_spec n s W) e) ->
  power_indices n s pb cap (bind_tree e off n0) (pre ++ mid ++ post, length pre)
  = Some (pre ++ map (sp_glob (power_spec n s W)) (sp_keys (power_spec n s W) e) ++ post,
          length pre + length mid).
Proof.
  intros Hn OK cap n0 e off pre mid post He Hsk Hcap Hmid.
  rewrite power_globs. rewrite power_keys_length in Hmid.
  cbn in Hsk. rewrite map_repeat_eq in Hsk. apply skel_inner in Hsk as (m & cs & -> & Hcs).
  apply map_repeat_in in Hcs as [Hlen Hcs].
  destruct cs as [|c0 cs]; [cbn in Hlen; lia|].
  rewrite bind_inner. cbn [forallb]. unfold power_indices.
  assert (C0 : child (NInner (MX off (fst (bind_children e off (c0 :: cs)) - off) (mx_tix m)) []
             (snd (bind_children e off (c0 :: cs)))) 0 = Some (bind_tree e off c0)).
  { unfold child. cbn. destruct (bind_children e _ cs). reflexivity. }
  rewrite C0. cbn [obind snd].
  assert (S0 : skel c0 = skel (pb_node pb)) by (apply Hcs; now left).
  pose proof (ok_nsize _ _ _ OK c0 e off He S0) as NS. rewrite NS.
  set (K := length (sp_keys W e)) in *.
  set (G := map (sp_glob W) (sp_keys W e)).
  assert (LG : length G = K) by (unfold G; now rewrite map_length).
  assert (HG : forall x, In x G -> exists d r, x = d :: r).
  { intros x Hx. apply in_map_iff in Hx as (k & <- & Hk).
    destruct (glob_cons _ _ _ _ _ OK He Hk) as (d & r & t & -> & _). eauto. }
  assert (HL : forall x, In x G -> length x <= pb_bufmi pb).
  { intros x Hx. apply in_map_iff in Hx as (k & <- & Hk). eapply glob_len; eauto. }
  assert (Hsp : exists m0 t, mid = m0 ++ t /\ length m0 = K /\ length t = (n - 1) * K).
  { exists (firstn K mid), (skipn K mid). split; [now rewrite firstn_skipn|].
    rewrite firstn_length, skipn_length, Hmid. destruct n; [lia|]. cbn. split; [lia|].
    replace (n - 0) with n by lia. lia. }
  destruct Hsp as (m0 & tgt & -> & Hm0 & Ht).
  assert (SI : pb_indices pb cap (bind_tree e off c0) (pre ++ (m0 ++ tgt) ++ post, length pre)
               = Some (pre ++ G ++ tgt ++ post, length pre + length G)).
  { rewrite <- app_assoc. rewrite (ok_ind _ _ _ OK cap c0 e off pre m0 (tgt ++ post)); auto.
    - f_equal. f_equal. lia.
    - lia. }
  rewrite Hmid, <- LG. rewrite <- LG in Ht.
  destruct s; cbn [power_glob].
  - (* FlatLexicographic *)
    rewrite (ok_size _ _ _ OK [] (sp_tree W) eq_refl). cbn [obind degree sp_tree]. rewrite SI. cbn [obind].
    pose proof (power_core n G (fun m => m) (fun c m => first (fun d => d + c * length (sp_forest W)) m)
                  (fun m => Some m) (fun c _ m => obind (digit m 0) (fun d => set_digit m 0 (d + c * length (sp_forest W))))
                  (power_glob n FlatLexicographic (sp_forest W)) pre tgt post (length pre) Hn eq_refl) as PC.
    rewrite (modify_loop (fun m => Some m) (fun m => m) G pre (tgt ++ post) 0 (length pre) (length G)) in PC
      by (try lia; auto).
    rewrite map_id in PC. cbn [obind] in PC. apply PC; auto.
    + intros c x Hc Hx. destruct (HG x Hx) as (d & r & ->). reflexivity.
    + intros x Hx. destruct (HG x Hx) as (d & r & ->). reflexivity.
    + intros c x Hc Hx. destruct (HG x Hx) as (d & r & ->). cbn. f_equal. lia.
  - (* FlatInterleaved *)
    rewrite SI. cbn [obind].
    apply (power_core n G (fun m => first (fun d => d * n) m) (fun c m => first (fun d => d + c) m)
             _ _ (power_glob n FlatInterleaved (sp_forest W))); auto.
    + intros x Hx. destruct (HG x Hx) as (d & r & ->). reflexivity.
    + intros c x Hc Hx. destruct (HG x Hx) as (d & r & ->). reflexivity.
    + intros x Hx. destruct (HG x Hx) as (d & r & ->). cbn. f_equal. lia.
    + intros c x Hc Hx. destruct (HG x Hx) as (d & r & ->). reflexivity.
  - (* BlockedLexicographic *)
    rewrite SI. cbn [obind]. cbn in Hcap.
    apply (power_core n G (fun m => 0 :: m) (fun c m => first (fun _ => c) m)
             _ _ (power_glob n BlockedLexicographic (sp_forest W))); auto.
    + intros x Hx. apply push_front_eq. specialize (HL x Hx). lia.
  - (* BlockedInterleaved *)
    rewrite SI. cbn [obind]. cbn in Hcap.
    apply (power_core n G (fun m => m ++ [0]) (fun c m => removelast m ++ [c])
             _ _ (power_glob n BlockedInterleaved (sp_forest W))); auto.
    + intros x Hx. apply push_back_eq. specialize (HL x Hx). lia.
    + intros c x Hc Hx. rewrite set_back_eq. now rewrite removelast_last.
    + intros c x Hc Hx. now rewrite removelast_last.
Qed.

Lemma in_power_keys n s W (e : E) k :
  In k (sp_keys (power_spec n s W) e) <->
  exists c k', c < n /\ In k' (sp_keys W e) /\ k = down c k'.
Proof.
  cbn. rewrite in_flat_map. split.
  - intros (c & Hc & Hk). apply in_seq in Hc. apply in_map_iff in Hk as (k' & <- & Hk').
    exists c, k'. repeat split; auto. lia.
  - intros (c & k' & Hc & Hk & ->). exists c. split; [apply in_seq; lia|]. now apply in_map.
Qed.

Lemma power_glob_down n s (W : bspec E) c k :
  sp_glob (power_spec n s W) (down c k) = power_glob n s (sp_forest W) c (sp_glob W k).
Proof. destruct k; reflexivity. Qed.

Lemma first_length f m : length (first f m) = length m.
Proof. destruct m; reflexivity. Qed.

Lemma power_pb_ok els st n s pb (W : bspec E) :
  0 < n -> (s = BlockedInterleaved -> Forall full (sp_forest W)) ->
  pb_ok els pb W -> pb_ok els (power_pb st n s pb) (power_spec n s W).
Proof.
  intros Hn Hfull OK. constructor.
  - intros p t Ht. cbn [pb_size power_pb]. revert Ht. apply power_size_ok; auto.
    exact (ok_size _ _ _ OK).
  - cbn [pb_dim power_pb]. rewrite (ok_dim _ _ _ OK). symmetry. apply power_ndofs.
  - intros n0 e off He Hsk. cbn in Hsk. rewrite map_repeat_eq in Hsk.
    apply skel_inner in Hsk as (m & cs & -> & Hcs). apply map_repeat_in in Hcs as [Hlen Hcs].
    rewrite inner_size, power_keys_length.
    rewrite (sizes_sum_const e (length (sp_keys W e))); [now rewrite Hlen|].
    intros c o Hc. apply (ok_nsize _ _ _ OK); auto.
  - intros n0 e off He Hsk. cbn in Hsk. rewrite map_repeat_eq in Hsk.
    apply skel_inner in Hsk as (m & cs & -> & Hcs). apply map_repeat_in in Hcs as [Hlen Hcs].
    rewrite bind_inner. cbn [forallb]. rewrite index_paths_inner. cbn [power_spec sp_keys].
    rewrite <- Hlen. clear Hlen. generalize 0 as i. revert off.
    induction cs as [|c cs IH]; intros off i; [reflexivity|].
    cbn [bind_children]. specialize (IH (fun a Ha => Hcs a (or_intror Ha)) (off + node_size (bind_tree e off c)) (S i)).
    destruct (bind_children e (off + node_size (bind_tree e off c)) cs) as [o' r'].
    cbn [snd index_paths_from length seq flat_map] in *. rewrite map_app.
    rewrite (ok_align _ _ _ OK c e off He (Hcs c (or_introl eq_refl))), Nat.add_1_r, IH.
    f_equal. rewrite !map_map. reflexivity.
  - intros. cbn [pb_indices power_pb pb_node pb_bufmi] in *. eapply power_ind; eauto.
  - intros. cbn. unfold power_indices. now rewrite child_guard.
  - intros e k He Hk. apply in_power_keys in Hk as (c & k' & Hc & Hk & ->).
    rewrite power_glob_down. apply power_dof; auto. exists c, (sp_glob W k').
    repeat split; auto. apply (ok_valid _ _ _ OK e); auto.
  - intros e e' k k' He He' Hk Hk'.
    apply in_power_keys in Hk as (c & k1 & Hc & Hk & ->).
    apply in_power_keys in Hk' as (c' & k1' & Hc' & Hk' & ->).
    rewrite !power_glob_down. intros H.
    apply power_glob_inj in H as [-> H]; auto.
    + now rewrite (ok_inj _ _ _ OK e e' k1 k1' He He' Hk Hk' H).
    + apply (ok_valid _ _ _ OK e); auto.
    + apply (ok_valid _ _ _ OK e'); auto.
  - intros m Hm. apply power_dof in Hm as (c & m' & Hc & Hm' & ->); auto.
    destruct (ok_surj _ _ _ OK m' Hm') as (e & k & He & Hk & <-).
    exists e, (down c k). repeat split; auto.
    + apply in_power_keys. eauto.
    + apply power_glob_down.
  - intros e He. rewrite power_keys_length. cbn [pb_maxnode power_pb].
    pose proof (ok_maxn _ _ _ OK e He). nia.
  - intros m Hm. apply power_dof in Hm as (c & m' & Hc & Hm' & ->); auto.
    pose proof (ok_len _ _ _ OK m' Hm') as L. cbn [pb_minmi pb_maxmi power_pb].
    destruct s; cbn [power_glob is_blocked Nat.b2n]; rewrite ?first_length, ?app_length; cbn [length]; lia.
  - cbn. pose proof (ok_buf _ _ _ OK). lia.
  - intros d Hd. eapply power_desc_ok; [|exact Hd]. exact (ok_desc _ _ _ OK).
Qed.

(** ** Composite *)
Lemma in_composite_keys (Ws : list (bspec E)) (e : E) k : forall i,
  In k (composite_keys i Ws e) <->
  exists c W k', nth_error Ws c = Some W /\ In k' (sp_keys W e) /\ k = down (i + c) k'.
Proof.
  induction Ws as [|W Ws IH]; intros i; cbn [composite_keys].
  - split; [intros []|]. intros (c & W & k' & H & _). now destruct c.
  - rewrite in_app_iff, IH, in_map_iff. split.
    + intros [(k' & <- & Hk)|(c & W' & k' & H & Hk & ->)].
      * exists 0, W, k'. now rewrite Nat.add_0_r.
      * exists (S c), W', k'. repeat split; auto. f_equal. lia.
    + intros (c & W' & k' & H & Hk & ->). destruct c as [|c].
      * left. injection H as ->. exists k'. now rewrite Nat.add_0_r.
      * right. exists c, W', k'. repeat split; auto. f_equal. lia.
Qed.

Lemma concat_firstn_le {A} (ls : list (list A)) c l :
  nth_error ls c = Some l -> forall d, d < length l ->
  length (concat (firstn c ls)) + d < length (concat ls).
Proof.
  revert c. induction ls as [|l0 ls IH]; intros [|c] H d Hd; try discriminate; cbn in *.
  - injection H as ->. rewrite app_length. lia.
  - rewrite !app_length. specialize (IH c H d Hd). lia.
Qed.

Lemma composite_dof s (Ws : list (bspec E)) m :
  subtree (Blk (composite_forest s Ws)) m = Some DOF <->
  exists c W m', nth_error Ws c = Some W /\ subtree (sp_tree W) m' = Some DOF /\
                 m = composite_glob s Ws c m'.
Proof.
  destruct s; cbn [composite_forest composite_glob].
  - split.
    + destruct m as [|d r]; [discriminate|]. cbn [subtree]. rewrite nth_error_concat.
      destruct (locate (map sp_forest Ws) d) as [[c k]|] eqn:L; [|discriminate].
      apply locate_spec in L as (l & N & Hk & ->). rewrite N.
      rewrite nth_error_map_eq in N. destruct (nth_error Ws c) as [W|] eqn:NW; [|discriminate].
      injection N as <-. destruct (nth_error (sp_forest W) k) as [t|] eqn:NT; [|discriminate].
      intros H. exists c, W, (k :: r). repeat split; auto.
      * cbn. now rewrite NT.
      * cbn. now rewrite firstn_map.
    + intros (c & W & m' & NW & Hm & ->). destruct m' as [|d r]; [discriminate|]. cbn in Hm.
      destruct (nth_error (sp_forest W) d) as [t|] eqn:NT; [|discriminate].
      cbn [first subtree]. rewrite nth_error_concat.
      assert (L : locate (map sp_forest Ws) (length (concat (map sp_forest (firstn c Ws))) + d) = Some (c, d)).
      { apply locate_spec. exists (sp_forest W). rewrite nth_error_map_eq, NW.
        repeat split; auto. { now apply nth_error_Some_lt in NT. } now rewrite firstn_map. }
      rewrite L, nth_error_map_eq, NW. cbn [option_map]. now rewrite NT.
  - split.
    + destruct m as [|c r]; [discriminate|]. cbn [subtree]. rewrite nth_error_map_eq.
      destruct (nth_error Ws c) as [W|] eqn:NW; [|discriminate]. cbn [option_map]. intros H.
      exists c, W, r. auto.
    + intros (c & W & m' & NW & Hm & ->). cbn [subtree]. rewrite nth_error_map_eq, NW. exact Hm.
Qed.

Lemma composite_glob_inj s (Ws : list (bspec E)) c c' W W' m m' :
  nth_error Ws c = Some W -> nth_error Ws c' = Some W' ->
  subtree (sp_tree W) m = Some DOF -> subtree (sp_tree W') m' = Some DOF ->
  composite_glob s Ws c m = composite_glob s Ws c' m' -> c = c' /\ m = m'.
Proof.
  intros N N' Hm Hm'.
  destruct m as [|d r]; [discriminate|]. destruct m' as [|d' r']; [discriminate|].
  cbn in Hm, Hm'.
  destruct (nth_error (sp_forest W) d) as [t|] eqn:D; [|discriminate].
  destruct (nth_error (sp_forest W') d') as [t'|] eqn:D'; [|discriminate].
  apply nth_error_Some_lt in D, D'.
  destruct s; cbn; intros H.
  - injection H as H ->.
    assert (L : locate (map sp_forest Ws) (length (concat (map sp_forest (firstn c Ws))) + d) = Some (c, d)).
    { apply locate_spec. exists (sp_forest W). rewrite nth_error_map_eq, N.
      repeat split; auto. now rewrite firstn_map. }
    assert (L' : locate (map sp_forest Ws) (length (concat (map sp_forest (firstn c' Ws))) + d') = Some (c', d')).
    { apply locate_spec. exists (sp_forest W'). rewrite nth_error_map_eq, N'.
      repeat split; auto. now rewrite firstn_map. }
    rewrite H, L' in L. now injection L as -> ->.
  - now injection H as -> -> ->.
Qed.

Lemma composite_flat_size_ok els subs (Ws : list (bspec E)) :
  Forall2 (pb_ok els) subs Ws -> forall d r t,
  subtree (Blk (concat (map sp_forest Ws))) (d :: r) = Some t ->
  composite_flat_size subs d r = Some (degree t).
Proof.
  induction 1 as [|pb W subs Ws OK _ IH]; intros d r t; cbn [map concat].
  - cbn. now destruct d.
  - cbn [subtree composite_flat_size]. rewrite (ok_size _ _ _ OK [] (sp_tree W) eq_refl).
    cbn [obind degree sp_tree]. rewrite nth_error_app_eq.
    destruct (d <? length (sp_forest W)).
    + intros H. now apply (ok_size _ _ _ OK).
    + intros H. now apply IH.
Qed.

Lemma composite_size_ok els s subs (Ws : list (bspec E)) :
  Forall2 (pb_ok els) subs Ws -> forall p t,
  subtree (Blk (composite_forest s Ws)) p = Some t ->
  composite_size s subs p = Some (degree t).
Proof.
  intros OK p t. destruct s; cbn [composite_forest composite_size].
  - destruct p as [|d r].
    + intros [= <-]. cbn [degree]. induction OK as [|pb W subs Ws OK1 _ IH]; [reflexivity|].
      cbn [map osum concat]. rewrite (ok_size _ _ _ OK1 [] (sp_tree W) eq_refl), IH. cbn.
      now rewrite app_length.
    + apply composite_flat_size_ok with (els := els). exact OK.
  - destruct p as [|d r].
    + intros [= <-]. cbn. rewrite map_length. f_equal. now apply Forall2_len in OK.
    + rewrite pop_front_cons. cbn [obind subtree]. rewrite nth_error_map_eq.
      revert d. induction OK as [|pb W subs Ws OK1 _ IH]; intros d; [now destruct d|].
      destruct d as [|d]; cbn; [|apply IH]. apply (ok_size _ _ _ OK1).
Qed.

Definition comp_fix (s : cims) (i fo : nat) (m : mi) : mi :=
  match s with CFlatLexicographic => first (fun d => d + fo) m | CBlockedLexicographic => i :: m end.
Definition comp_off (s : cims) (W : bspec E) : nat :=
  match s with CFlatLexicographic => length (sp_forest W) | CBlockedLexicographic => 0 end.
Fixpoint composite_globs (s : cims) (i fo : nat) (Ws : list (bspec E)) (e : E) : list mi :=
  match Ws with
  | [] => []
  | W :: r => map (comp_fix s i fo) (map (sp_glob W) (sp_keys W e))
              ++ composite_globs s (i + 1) (fo + comp_off s W) r e
  end.

Lemma composite_ind (els : E -> Prop) s cap (e : E) : els e -> forall subs Ws,
  Forall2 (pb_ok els) subs Ws ->
  forall nd i fo pre mid post,
  (forall j sb, nth_error subs j = Some sb ->
     exists c o, child nd (i + j) = Some (bind_tree e o c) /\ skel c = skel (pb_node sb)) ->
  (forall sb, In sb subs -> pb_bufmi sb + Nat.b2n (cis_blocked s) <= cap) ->
  length mid = length (composite_keys i Ws e) ->
  composite_indices s subs cap nd i fo (pre ++ mid ++ post, length pre)
  = Some (pre ++ composite_globs s i fo Ws e ++ post, length pre + length mid).
Proof.
  intros He. induction 1 as [|pb W subs Ws OK _ IH]; intros nd i fo pre mid post Hch Hcap Hmid.
  - destruct mid; [|discriminate]. cbn. now rewrite Nat.add_0_r.
  - cbn [composite_indices].
    destruct (Hch 0 pb eq_refl) as (c & o & Hc & Hsk). rewrite Nat.add_0_r in Hc. rewrite Hc.
    cbn [obind snd]. pose proof (ok_nsize _ _ _ OK c e o He Hsk) as NS. rewrite NS.
    set (K := length (sp_keys W e)) in *.
    set (G := map (sp_glob W) (sp_keys W e)).
    assert (LG : length G = K) by (unfold G; now rewrite map_length).
    cbn [composite_keys] in Hmid. rewrite app_length, map_length in Hmid. fold K in Hmid.
    assert (Hsp : exists m0 t, mid = m0 ++ t /\ length m0 = K /\ length t = length (composite_keys (i + 1) Ws e)).
    { exists (firstn K mid), (skipn K mid). split; [now rewrite firstn_skipn|].
      rewrite firstn_length, skipn_length, Hmid. lia. }
    destruct Hsp as (m0 & tl & -> & Hm0 & Ht). rewrite <- app_assoc.
    pose proof (Hcap pb (or_introl eq_refl)) as Hcap0.
    rewrite (ok_ind _ _ _ OK cap c e o pre m0 (tl ++ post)); auto; [|lia].
    fold G. cbn [obind].
    assert (HL : forall x, In x G -> length x <= pb_bufmi pb).
    { intros x Hx. apply in_map_iff in Hx as (k & <- & Hk). eapply glob_len; eauto. }
    assert (HG : forall x, In x G -> exists d r, x = d :: r).
    { intros x Hx. apply in_map_iff in Hx as (k & <- & Hk).
      destruct (glob_cons _ _ _ _ _ OK He Hk) as (d & r & t & -> & _). eauto. }
    assert (LC : length (map (comp_fix s i fo) G) = K) by now rewrite map_length.
    assert (Hch' : forall j sb, nth_error subs j = Some sb ->
     exists c o, child nd (i + 1 + j) = Some (bind_tree e o c) /\ skel c = skel (pb_node sb)).
    { intros j sb Hj. specialize (Hch (S j) sb Hj). now replace (i + 1 + j) with (i + S j) by lia. }
    specialize (IH nd (i + 1) (fo + comp_off s W) (pre ++ map (comp_fix s i fo) G) tl post Hch'
                  (fun sb Hsb => Hcap sb (or_intror Hsb)) Ht).
    rewrite app_length, LC, <- !app_assoc in IH.
    assert (Fin : pre ++ map (comp_fix s i fo) G ++ composite_globs s (i + 1) (fo + comp_off s W) Ws e ++ post
        = pre ++ composite_globs s i fo (W :: Ws) e ++ post).
    { cbn [composite_globs]. fold G. now rewrite <- !app_assoc. }
    rewrite Fin in IH.
    assert (Fin2 : length pre + K + length tl = length pre + length (m0 ++ tl))
      by (rewrite app_length; lia).
    rewrite Fin2 in IH.
    destruct s; cbn [comp_fix comp_off cis_blocked Nat.b2n] in *.
    + rewrite (modify_loop _ (first (fun d => d + fo)) G pre (tl ++ post) 0 (length pre) K); try lia.
      * cbn [obind]. rewrite (ok_size _ _ _ OK [] (sp_tree W) eq_refl). cbn [obind degree sp_tree].
        exact IH.
      * intros x Hx. destruct (HG x Hx) as (d & r & ->). reflexivity.
    + rewrite (modify_loop _ (fun m => i :: m) G pre (tl ++ post) 0 (length pre) K); try lia.
      * cbn [obind]. rewrite Nat.add_0_r in IH. exact IH.
      * intros x Hx. apply push_front_eq. specialize (HL x Hx). lia.
Qed.

Lemma composite_globs_eq s (e : E) rest : forall done,
  (forall W k, In W rest -> In k (sp_keys W e) -> sp_glob W k <> []) ->
  composite_globs s (length done)
    (match s with CFlatLexicographic => length (concat (map sp_forest done)) | _ => 0 end) rest e
  = map (sp_glob (composite_spec s (done ++ rest))) (composite_keys (length done) rest e).
Proof.
  induction rest as [|W rest IH]; intros done Hne; [reflexivity|].
  cbn [composite_globs composite_keys]. rewrite map_app. f_equal.
  - rewrite !map_map. apply map_ext_in. intros [p k] Hk.
    cbn [sp_glob composite_spec down fst snd]. rewrite nth_error_mid.
    destruct s; cbn; [|reflexivity].
    rewrite firstn_app, firstn_all, Nat.sub_diag. cbn [firstn]. rewrite app_nil_r.
    destruct (sp_glob W (p, k)); cbn; [reflexivity|]. f_equal. lia.
  - specialize (IH (done ++ [W])). rewrite app_length in IH. cbn [length] in IH.
    rewrite <- app_assoc in IH. cbn [app] in IH. rewrite <- IH.
    + f_equal. destruct s; [|reflexivity]. cbn. rewrite map_app, concat_app, app_length. cbn.
      now rewrite app_nil_r.
    + intros; apply Hne; auto. now right.
Qed.

Lemma composite_keys_length (Ws : list (bspec E)) e : forall i,
  length (composite_keys i Ws e) = sum_list (map (fun W => length (sp_keys W e)) Ws).
Proof.
  induction Ws as [|W Ws IH]; intros i; [reflexivity|].
  cbn. rewrite app_length, map_length, IH. reflexivity.
Qed.

Lemma composite_glob_down s (Ws : list (bspec E)) c W k :
  nth_error Ws c = Some W ->
  sp_glob (composite_spec s Ws) (down c k) = composite_glob s Ws c (sp_glob W k).
Proof. intros H. destruct k. cbn. now rewrite H. Qed.

Lemma Forall2_nth_l {A B} (R : A -> B -> Prop) l l' i a :
  Forall2 R l l' -> nth_error l i = Some a -> exists b, nth_error l' i = Some b /\ R a b.
Proof.
  intros H. revert i. induction H; intros [|i] N; try discriminate; cbn in *.
  - injection N as ->. eauto.
  - eauto.
Qed.
Lemma Forall2_nth_r {A B} (R : A -> B -> Prop) l l' i b :
  Forall2 R l l' -> nth_error l' i = Some b -> exists a, nth_error l i = Some a /\ R a b.
Proof.
  intros H. revert i. induction H; intros [|i] N; try discriminate; cbn in *.
  - injection N as ->. eauto.
  - eauto.
Qed.

Lemma max_list_in x l : In x l -> x <= max_list l.
Proof. unfold max_list. induction l; cbn; [intros []|]. intros [->|H]; [lia|]. specialize (IHl H). lia. Qed.
Lemma max_list_map_le {A} (f g : A -> nat) l :
  (forall a, In a l -> f a <= g a) -> max_list (map f l) <= max_list (map g l).
Proof.
  unfold max_list. induction l as [|a l IH]; intros H; cbn; [lia|].
  pose proof (H a (or_introl eq_refl)). specialize (IH (fun b Hb => H b (or_intror Hb))). lia.
Qed.
Lemma min_list_in x l : In x l -> min_list l <= x.
Proof.
  destruct l as [|y l]; [intros []|]. cbn [min_list]. intros [<-|H].
  - induction l; cbn; lia.
  - revert H. induction l; cbn; [intros []|]. intros [->|H]; [lia|]. specialize (IHl H). lia.
Qed.

Lemma skel_map_nth (cs : list node) l : forall j c,
  map skel cs = map skel l -> nth_error l j = Some c ->
  exists c', nth_error cs j = Some c' /\ skel c' = skel c.
Proof.
  intros j c H N. apply (f_equal (fun l => nth_error l j)) in H.
  rewrite !nth_error_map_eq, N in H. cbn in H.
  destruct (nth_error cs j); [|discriminate]. injection H as H. eauto.
Qed.

Lemma composite_nsize (els : E -> Prop) subs (Ws : list (bspec E)) (e : E) : els e ->
  Forall2 (pb_ok els) subs Ws -> forall cs off,
  map skel cs = map skel (map pb_node subs) ->
  sizes_sum (snd (bind_children e off cs)) = sum_list (map (fun W => length (sp_keys W e)) Ws).
Proof.
  intros He. induction 1 as [|pb W subs Ws OK _ IH]; intros cs off Hcs.
  - destruct cs; [reflexivity|discriminate].
  - destruct cs as [|c cs]; [discriminate|]. cbn in Hcs. injection Hcs as Hc Hcs.
    cbn [bind_children]. pose proof (ok_nsize _ _ _ OK c e off He Hc) as NS.
    specialize (IH cs (off + node_size (bind_tree e off c)) Hcs).
    destruct (bind_children e (off + node_size (bind_tree e off c)) cs).
    unfold sizes_sum in *. cbn in *. lia.
Qed.

Lemma composite_align els subs (Ws : list (bspec E)) (e : E) : (els e : Prop) ->
  Forall2 (pb_ok els) subs Ws -> forall cs off i,
  map skel cs = map skel (map pb_node subs) ->
  index_paths_from i (snd (bind_children e off cs)) = map fst (composite_keys i Ws e).
Proof.
  intros He. induction 1 as [|pb W subs Ws OK _ IH]; intros cs off i Hcs.
  - destruct cs; [reflexivity|discriminate].
  - destruct cs as [|c cs]; [discriminate|]. cbn in Hcs. injection Hcs as Hc Hcs.
    cbn [bind_children]. pose proof (ok_align _ _ _ OK c e off He Hc) as NS.
    specialize (IH cs (off + node_size (bind_tree e off c)) (i + 1) Hcs).
    destruct (bind_children e (off + node_size (bind_tree e off c)) cs).
    cbn [snd index_paths_from composite_keys] in *. rewrite map_app, IH, NS, !map_map. reflexivity.
Qed.

Lemma all_some_Forall2 {A} (l : list (option A)) r :
  all_some l = Some r -> Forall2 (fun o a => o = Some a) l r.
Proof.
  revert r. induction l as [|[a|] l IH]; intros r; cbn; try discriminate.
  - intros [= <-]. constructor.
  - intros H. apply obind_Some in H as (r' & H & E1). injection E1 as <-. constructor; auto.
Qed.

Lemma desc_flat_lex ds (fs : list (list itree)) :
  Forall2 describes ds (map Blk fs) -> describes (flat_lexicographic ds) (Blk (concat fs)).
Proof.
  unfold flat_lexicographic. destruct (all_some (map flat_vector_size ds)) as [ns|] eqn:A; [|intros; exact I].
  apply all_some_Forall2 in A. revert ns A fs.
  enough (HH : forall ds ns, Forall2 (fun o a => o = Some a) (map flat_vector_size ds) ns -> forall fs,
     Forall2 describes ds (map Blk fs) ->
     length (concat fs) = sum_list ns /\ Forall (describes DValue) (concat fs)).
  { intros ns A fs H. destruct (HH ds ns A fs H) as [H1 H2].
    apply (describes_uniform false). auto. }
  clear ds. induction ds as [|d ds IH]; intros ns A [|f fs] H; inversion H; subst; inversion A; subst.
  - cbn. auto.
  - cbn [concat].
    match goal with H : flat_vector_size d = Some _ |- _ => rename H into FV end.
    destruct d as [| | | | | |n0 [| | | | | |]]; try discriminate. cbn in FV. injection FV as ->.
    match goal with H : describes _ (Blk f) |- _ => apply (describes_uniform false) in H as [L1 L2] end.
    match goal with H : Forall2 describes ds _, A : Forall2 _ (map flat_vector_size ds) _ |- _ =>
      destruct (IH _ A _ H) as [I1 I2] end.
    rewrite app_length. cbn. split; [lia|]. apply Forall_app. auto.
Qed.

Lemma composite_pb_ok els s subs (Ws : list (bspec E)) :
  subs <> [] -> Forall2 (pb_ok els) subs Ws -> pb_ok els (composite_pb s subs) (composite_spec s Ws).
Proof.
  intros Hne OKs. constructor.
  - intros p t Ht. cbn [pb_size composite_pb]. revert Ht. now apply composite_size_ok with (els := els).
  - cbn [pb_dim composite_pb composite_spec sp_tree sp_forest]. clear Hne.
    assert (HD : sum_list (map pb_dim subs) = sum_list (map (fun W => ndofs (sp_tree W)) Ws)).
    { induction OKs as [|pb W subs Ws OK _ IH]; [reflexivity|]. cbn [map sum_list].
      now rewrite (ok_dim _ _ _ OK), IH. }
    rewrite HD. unfold sp_tree. cbn. destruct s; cbn [composite_forest].
    + rewrite concat_map, sum_list_concat, !map_map. reflexivity.
    + rewrite map_map. reflexivity.
  - intros n0 e off He Hsk. cbn in Hsk. apply skel_inner in Hsk as (m & cs & -> & Hcs).
    rewrite inner_size. cbn [composite_spec sp_keys]. rewrite composite_keys_length.
    eapply composite_nsize; eauto.
  - intros n0 e off He Hsk. cbn in Hsk. apply skel_inner in Hsk as (m & cs & -> & Hcs).
    rewrite bind_inner. cbn [forallb]. rewrite index_paths_inner. cbn [composite_spec sp_keys].
    eapply composite_align; eauto.
  - intros cap n0 e off pre mid post He Hsk Hcap Hmid. cbn in Hsk.
    apply skel_inner in Hsk as (m & cs & -> & Hcs). rewrite bind_inner. cbn [forallb].
    cbn [pb_indices composite_pb composite_spec sp_keys] in *.
    rewrite (composite_ind els s cap e He subs Ws OKs); auto.
    + pose proof (composite_globs_eq s e Ws []) as G. cbn [length map concat app] in G.
      replace (match s with CFlatLexicographic => 0 | CBlockedLexicographic => 0 end) with 0 in G by now destruct s.
      rewrite G; [reflexivity|]. intros W k HW Hk Hnil.
      apply In_nth_error in HW as [j HW]. destruct (Forall2_nth_r _ _ _ _ _ OKs HW) as (pb & _ & OK).
      destruct (glob_cons _ _ _ _ _ OK He Hk) as (d & r & t & EQ & _). congruence.
    + intros j sb Hj. cbn [Nat.add].
      destruct (skel_map_nth cs (map pb_node subs) j (pb_node sb) Hcs) as (c' & N & Sk).
      { now rewrite nth_error_map_eq, Hj. }
      destruct (bind_children_nth e cs off j c' N) as (o & No). exists c', o. auto.
    + intros sb Hsb. cbn in Hcap.
      pose proof (max_list_in (pb_bufmi sb) (map pb_bufmi subs) (in_map _ _ _ Hsb)). lia.
  - intros cap g n st. cbn. generalize 0 at 1 3. generalize 0. revert st.
    clear Hne OKs. induction subs as [|sb subs IH]; intros st fo i; [reflexivity|].
    cbn [composite_indices]. rewrite child_guard. destruct (child n i); [|reflexivity]. cbn [obind].
    destruct (pb_indices sb cap n0 st) as [[b ?]|]; [|reflexivity]. cbn [obind].
    destruct s; (match goal with |- obind ?x _ = _ => destruct x; [|reflexivity] end); cbn [obind].
    + destruct (pb_size sb []); [|reflexivity]. cbn [obind]. apply IH.
    + apply IH.
  - intros e k He Hk. cbn [composite_spec sp_keys] in Hk.
    apply in_composite_keys in Hk as (c & W & k' & NW & Hk & ->). cbn [Nat.add].
    rewrite (composite_glob_down s Ws c W k' NW). apply composite_dof.
    exists c, W, (sp_glob W k'). repeat split; auto.
    destruct (Forall2_nth_r _ _ _ _ _ OKs NW) as (pb & _ & OK). eapply (ok_valid _ _ _ OK); eauto.
  - intros e e' k k' He He' Hk Hk'. cbn [composite_spec sp_keys] in Hk, Hk'.
    apply in_composite_keys in Hk as (c & W & k1 & NW & Hk & ->).
    apply in_composite_keys in Hk' as (c' & W' & k1' & NW' & Hk' & ->). cbn [Nat.add].
    rewrite (composite_glob_down s Ws c W k1 NW), (composite_glob_down s Ws c' W' k1' NW').
    destruct (Forall2_nth_r _ _ _ _ _ OKs NW) as (pb & _ & OK).
    destruct (Forall2_nth_r _ _ _ _ _ OKs NW') as (pb' & _ & OK').
    intros H. apply (composite_glob_inj s Ws c c' W W') in H as [-> H]; auto.
    + assert (W = W') by congruence. subst W'.
      now rewrite (ok_inj _ _ _ OK e e' k1 k1' He He' Hk Hk' H).
    + exact (ok_valid _ _ _ OK e k1 He Hk).
    + exact (ok_valid _ _ _ OK' e' k1' He' Hk').
  - intros m Hm. cbn [composite_spec sp_tree sp_forest] in Hm.
    apply composite_dof in Hm as (c & W & m' & NW & Hm & ->).
    destruct (Forall2_nth_r _ _ _ _ _ OKs NW) as (pb & _ & OK).
    destruct (ok_surj _ _ _ OK m' Hm) as (e & k & He & Hk & <-).
    exists e, (down c k). repeat split; auto.
    + cbn. apply in_composite_keys. exists c, W, k. auto.
    + now apply composite_glob_down.
  - intros e He. cbn [composite_spec sp_keys]. rewrite composite_keys_length. cbn.
    clear Hne. induction OKs as [|pb W subs Ws OK _ IH]; [cbn; lia|]. cbn.
    pose proof (ok_maxn _ _ _ OK e He). lia.
  - intros m Hm. cbn [composite_spec sp_tree sp_forest] in Hm.
    apply composite_dof in Hm as (c & W & m' & NW & Hm & ->).
    destruct (Forall2_nth_r _ _ _ _ _ OKs NW) as (pb & NP & OK).
    pose proof (ok_len _ _ _ OK m' Hm) as L. apply nth_error_In in NP.
    pose proof (max_list_in _ _ (in_map pb_maxmi _ _ NP)).
    pose proof (min_list_in _ _ (in_map pb_minmi _ _ NP)). cbn.
    destruct s; cbn [composite_glob cis_blocked Nat.b2n]; rewrite ?first_length; cbn [length]; lia.
  - cbn. assert (max_list (map pb_maxmi subs) <= max_list (map pb_bufmi subs)); [|lia].
    apply max_list_map_le. intros a Ha. apply In_nth_error in Ha as [j Ha].
    destruct (Forall2_nth_l _ _ _ _ _ OKs Ha) as (W & _ & OK). apply (ok_buf _ _ _ OK).
  - intros d Hd. cbn in Hd. apply obind_Some in Hd as (ds & A & Hd).
    assert (HD : Forall2 describes ds (map sp_tree Ws)).
    { clear Hd d Hne. revert ds A. induction OKs as [|pb W subs Ws OK _ IH]; intros ds A; cbn in A.
      - injection A as <-. constructor.
      - destruct (pb_desc pb) as [c|] eqn:D; [|discriminate].
        apply obind_Some in A as (r & A & EQ). injection EQ as <-. constructor; auto.
        now apply (ok_desc _ _ _ OK). }
    cbn [composite_spec sp_tree sp_forest]. destruct s; cbn [composite_forest].
    + injection Hd as <-. apply desc_flat_lex. rewrite map_map. exact HD.
    + apply make_descriptor_children in Hd. apply (describes_list _ _ _ Hd).
      exists (map sp_tree Ws). split; [reflexivity|exact HD].
Qed.

(** ** Taylor-Hood (HI = false) *)
Lemma th_velocity_eq els dim (q2 : leaf E) cap e c00 o :
  leaf_ok els q2 -> els e -> 2 <= cap -> skel c00 = NLeaf mx0 [] (lf_fe q2) None ->
  forall k s pre mid post,
  length mid = k * length (lf_indices q2 e) ->
  forl k s (fun c st =>
    let subsz := node_size (bind_tree e o c00) in
    let it := snd st in
    obind (pb_indices (leaf_pb q2) cap (bind_tree e o c00) st) (fun x => let '(b, _) := x in
    obind (forl subsz 0 (fun i b => buf_modify b (it + i) (fun m =>
            obind (mi_push_front cap m 0) (fun m1 =>
            obind (digit m1 1) (fun d => set_digit m1 1 (d * dim + c))))) b) (fun b1 =>
    Some (b1, it + subsz)))) (pre ++ mid ++ post, length pre)
  = Some (pre ++ flat_map (fun c => map (fun g => [0; g * dim + c]) (lf_indices q2 e)) (seq s k) ++ post,
          length pre + length mid).
Proof.
  intros OK He Hcap Hsk. pose proof (leaf_pb_ok els q2 OK) as LO.
  assert (Hsk' : skel c00 = skel (pb_node (leaf_pb q2))) by exact Hsk.
  pose proof (ok_nsize _ _ _ LO c00 e o He Hsk') as NS.
  cbn [leaf_spec sp_keys] in NS. rewrite map_length in NS.
  set (K := length (lf_indices q2 e)) in *.
  induction k as [|k IH]; intros s pre mid post Hmid.
  - destruct mid; [|discriminate]. cbn. now rewrite Nat.add_0_r.
  - cbn [forl seq flat_map]. rewrite NS. cbn zeta. cbn [snd].
    assert (Hsp : exists m0 t, mid = m0 ++ t /\ length m0 = K /\ length t = k * K).
    { exists (firstn K mid), (skipn K mid). split; [now rewrite firstn_skipn|].
      rewrite firstn_length, skipn_length, Hmid. cbn. lia. }
    destruct Hsp as (m0 & tl & -> & Hm0 & Ht). rewrite <- !app_assoc.
    rewrite (ok_ind _ _ _ LO cap c00 e o pre m0 (tl ++ post)); auto.
    2:{ cbn. lia. }
    2:{ cbn. now rewrite map_length. }
    cbn [obind]. cbn [leaf_spec sp_keys sp_glob]. rewrite map_map. cbn [snd].
    rewrite (modify_loop _ (fun m => match m with d :: _ => [0; d * dim + s] | [] => [] end)
               (map (fun g => [g]) (lf_indices q2 e)) pre (tl ++ post) 0 (length pre) K); try lia.
    2:{ now rewrite map_length. }
    2:{ intros m Hm. apply in_map_iff in Hm as (g & <- & _).
        rewrite push_front_eq by (cbn; lia). reflexivity. }
    cbn [obind]. rewrite map_map.
    set (X := map (fun g => [0; g * dim + s]) (lf_indices q2 e)).
    assert (LX : length X = K) by (unfold X; now rewrite map_length).
    specialize (IH (s + 1) (pre ++ X) tl post Ht).
    rewrite NS in IH. cbn zeta in IH. rewrite app_length, LX, <- !app_assoc in IH.
    etransitivity; [exact IH|]. f_equal. rewrite Nat.add_1_r. f_equal.
    rewrite app_length. lia.
Qed.

Definition th_as_composite dim (q2 q1 : leaf E) : prebasis :=
  composite_pb CBlockedLexicographic [power_pb false dim FlatInterleaved (leaf_pb q2); leaf_pb q1].

Lemma th_composite_ok els dim (q2 q1 : leaf E) :
  0 < dim -> leaf_ok els q2 -> leaf_ok els q1 ->
  pb_ok els (th_as_composite dim q2 q1) (taylorhood_spec false dim q2 q1).
Proof.
  intros Hd H2 H1. apply composite_pb_ok; [discriminate|].
  constructor; [|constructor; [|constructor]].
  - apply power_pb_ok; auto; [discriminate|]. now apply leaf_pb_ok.
  - now apply leaf_pb_ok.
Qed.

Lemma taylorhood_pb_ok els dim (q2 q1 : leaf E) :
  0 < dim -> leaf_ok els q2 -> leaf_ok els q1 ->
  pb_ok els (taylorhood_pb false dim q2 q1) (taylorhood_spec false dim q2 q1).
Proof.
  intros Hd H2 H1. pose proof (th_composite_ok els dim q2 q1 Hd H2 H1) as C.
  constructor.
  - intros p t Ht. rewrite <- (ok_size _ _ _ C p t Ht). revert Ht.
    cbn [pb_size taylorhood_pb th_as_composite composite_pb].
    change (sp_tree (taylorhood_spec false dim q2 q1)) with
      (Blk [Blk (concat (map (fun t => repeat t dim) (repeat DOF (lf_dim q2)))); Blk (repeat DOF (lf_dim q1))]).
    destruct p as [|a p]; [reflexivity|]. unfold composite_size. rewrite pop_front_cons. cbn [obind].
    destruct a as [|[|a]]; cbn [nth_error]; cbn [subtree nth_error].
    + destruct p as [|b [|c p]]; [reflexivity| |].
      * intros Ht. cbn. destruct dim; [lia|]. reflexivity.
      * cbn [subtree].
        rewrite nth_error_concat_map_repeat by lia. rewrite nth_error_repeat_eq.
        destruct (b / dim <? lf_dim q2); discriminate.
    + destruct p as [|b [|c p]]; [reflexivity|reflexivity|].
      cbn [subtree]. rewrite nth_error_repeat_eq.
      destruct (b <? lf_dim q1); discriminate.
    + now destruct a.
  - rewrite <- (ok_dim _ _ _ C). cbn. lia.
  - intros n0 e off He Hn. apply (ok_nsize _ _ _ C); auto.
  - intros n0 e off He Hn. apply (ok_align _ _ _ C); auto.
  - intros cap n0 e off pre mid post He Hsk Hcap Hmid.
    cbn [pb_bufmi taylorhood_pb] in Hcap.
    cbn in Hsk. apply skel_inner in Hsk as (m & cs & -> & Hcs).
    destruct cs as [|v [|c1 [|]]]; try discriminate. cbn in Hcs. injection Hcs as Hv Hc1.
    apply skel_inner in Hv as (mv & vs & -> & Hvs).
    destruct dim as [|dim']; [lia|]. destruct vs as [|c00 vs]; [discriminate|].
    cbn in Hvs. injection Hvs as Hc00 Hvs.
    rewrite bind_inner. cbn [forallb pb_indices taylorhood_pb]. unfold th_indices.
    set (D := S dim') in *.
    assert (exists o1 o2, exists ms,
      snd (bind_children e off [NInner mv [] (c00 :: vs); c1]) =
      [NInner ms [] (bind_tree e o1 c00 :: snd (bind_children e (o1 + node_size (bind_tree e o1 c00)) vs));
       bind_tree e o2 c1]) as (o1 & o2 & ms & EB).
    { cbn [bind_children snd]. rewrite bind_inner. cbn [forallb bind_children].
      destruct (bind_children e (off + node_size (bind_tree e off c00)) vs) eqn:B. cbn [snd fst].
      exists off. eexists. eexists. rewrite B. reflexivity. }
    rewrite EB. cbn [child children nth_error obind].
    set (K := length (lf_indices q2 e)).
    set (K1 := length (lf_indices q1 e)).
    assert (LM : length mid = D * K + K1).
    { rewrite Hmid. unfold taylorhood_spec. cbn [composite_spec sp_keys].
      rewrite composite_keys_length. cbn [map sum_list].
      change (fun e0 => length (sp_keys ?a e0)) with (fun e0 => length (sp_keys a e0)).
      rewrite power_keys_length. cbn [leaf_spec sp_keys]. rewrite !map_length. fold K K1. lia. }
    assert (Hsp : exists m0 t, mid = m0 ++ t /\ length m0 = D * K /\ length t = K1).
    { exists (firstn (D * K) mid), (skipn (D * K) mid). split; [now rewrite firstn_skipn|].
      rewrite firstn_length, skipn_length, LM. lia. }
    destruct Hsp as (m0 & tl & -> & Hm0 & Ht). rewrite <- !app_assoc.
    pose proof (th_velocity_eq els D q2 cap e c00 o1 H2 He Hcap Hc00 D 0 pre m0 (tl ++ post) Hm0) as TV.
    match type of TV with _ = ?r =>
      assert (TV' : th_velocity false D q2 cap (bind_tree e o1 c00) (pre ++ m0 ++ tl ++ post, length pre) = r)
        by exact TV end.
    rewrite TV'. clear TV TV'. cbn [obind snd].
    pose proof (leaf_pb_ok els q1 H1) as LO.
    assert (Hsk1 : skel c1 = skel (pb_node (leaf_pb q1))) by exact Hc1.
    rewrite (ok_nsize _ _ _ LO c1 e o2 He Hsk1). cbn [leaf_spec sp_keys]. rewrite map_length. fold K1.
    set (V := flat_map _ (seq 0 D)).
    assert (LV : length V = D * K).
    { unfold V. rewrite (flat_map_const_length _ K); [now rewrite seq_length|].
      intros; now rewrite map_length. }
    replace (length pre + length m0) with (length (pre ++ V)) by (rewrite app_length; lia).
    rewrite app_assoc.
    rewrite (ok_ind _ _ _ LO cap c1 e o2 (pre ++ V) tl post); auto.
    2:{ cbn. lia. }
    2:{ cbn. now rewrite map_length. }
    cbn [obind leaf_spec sp_keys sp_glob]. rewrite map_map. cbn [snd].
    rewrite (modify_loop _ (fun m => 1 :: m) (map (fun g => [g]) (lf_indices q1 e)) (pre ++ V) post 0
               (length (pre ++ V)) K1); try lia.
    2:{ now rewrite map_length. }
    2:{ intros x Hx. apply in_map_iff in Hx as (g & <- & _). apply push_front_eq. cbn. lia. }
    cbn [obind]. f_equal. f_equal.
    + rewrite <- app_assoc. f_equal. rewrite app_assoc. f_equal.
      unfold taylorhood_spec. cbn [composite_spec sp_keys composite_keys].
      rewrite map_app, app_nil_r. f_equal.
      * cbn [power_spec sp_keys leaf_spec]. unfold V.
        rewrite !flat_map_concat_map, !concat_map, !map_map. f_equal. apply map_ext. intros c.
        rewrite !map_map. reflexivity.
      * cbn [leaf_spec sp_keys]. rewrite !map_map. reflexivity.
    + rewrite !app_length. lia.
  - intros. cbn. unfold th_indices. now rewrite !child_guard.
  - exact (ok_valid _ _ _ C).
  - exact (ok_inj _ _ _ C).
  - exact (ok_surj _ _ _ C).
  - intros e He. pose proof (ok_maxn _ _ _ C e He) as M. cbn in M |- *. lia.
  - intros m Hm. pose proof (ok_len _ _ _ C m Hm) as M. cbn in M |- *. lia.
  - cbn. lia.
  - intros d [= <-]. eapply describes_list; [reflexivity|].
    eexists. split; [reflexivity|]. constructor; [|constructor; [|constructor]].
    + apply (describes_uniform false). cbn [power_spec sp_forest power_forest leaf_spec].
      rewrite concat_map_repeat_length, repeat_length. split; [lia|].
      apply Forall_concat_map_repeat, Forall_forall. intros x Hx. now apply repeat_spec in Hx.
    + apply (describes_uniform false). cbn. rewrite repeat_length. split; auto.
      apply Forall_forall. intros x Hx. now apply repeat_spec in Hx.
Qed.

(** ** Index transformations *)
(** A transformation relates the raw index set to that of the new tree [F'] by the
    map [phi] on indices. *)
Record transformation_ok (t : transformation) (W : bspec E) (F' : list itree) (phi : mi -> mi) : Prop := {
  tok_index : forall cap m, tr_max t <= cap -> subtree (sp_tree W) m = Some DOF ->
      tr_index t cap m = Some (phi m);
  tok_size : forall p u, subtree (Blk F') p = Some u -> tr_size t p = Some (degree u);
  tok_dim : tr_dim t = ndofs (Blk F');
  tok_valid : forall m, subtree (sp_tree W) m = Some DOF -> subtree (Blk F') (phi m) = Some DOF;
  tok_surj : forall m', subtree (Blk F') m' = Some DOF ->
      exists m, subtree (sp_tree W) m = Some DOF /\ phi m = m';
  tok_len : forall m, subtree (Blk F') m = Some DOF -> tr_min t <= length m <= tr_max t;
  tok_desc : forall d, tr_desc t = Some d -> describes d (Blk F')
}.
Definition transformed_spec (F' : list itree) (phi : mi -> mi) (W : bspec E) : bspec E := {|
  sp_forest := F'; sp_keys := sp_keys W; sp_glob := fun k => phi (sp_glob W k) |}.

Lemma tr_loop (f : mi -> option mi) g : forall mid pre post,
  (forall m, In m mid -> f m = Some (g m)) ->
  forall s, forl (length mid) s (fun _ st =>
      obind (buf_modify (fst st) (snd st) f) (fun b' => Some (b', snd st + 1)))
    (pre ++ mid ++ post, length pre)
  = Some (pre ++ map g mid ++ post, length pre + length mid).
Proof.
  induction mid as [|m mid IH]; intros pre post H s; cbn [length forl app map].
  - now rewrite Nat.add_0_r.
  - cbn [fst snd]. erewrite modify_mid; [|reflexivity|apply H; now left]. cbn [obind].
    specialize (IH (pre ++ [g m]) post (fun m Hm => H m (or_intror Hm)) (s + 1)).
    rewrite app_length in IH. cbn [length] in IH. rewrite <- !app_assoc in IH. cbn [app] in IH.
    rewrite IH. f_equal. f_equal. lia.
Qed.

Lemma transformed_pb_ok els t raw (W : bspec E) F' phi :
  pb_ok els raw W -> transformation_ok t W F' phi ->
  (forall m m', subtree (sp_tree W) m = Some DOF -> subtree (sp_tree W) m' = Some DOF ->
     phi m = phi m' -> m = m') ->
  pb_ok els (transformed_pb t raw) (transformed_spec F' phi W).
Proof.
  intros OK [Ti Ts Td Tv Tsu Tl Tde] Tinj. constructor; cbn [pb_size pb_dim pb_node pb_desc pb_minmi pb_maxmi transformed_pb].
  - exact Ts.
  - exact Td.
  - exact (ok_nsize _ _ _ OK).
  - exact (ok_align _ _ _ OK).
  - intros cap n0 e off pre mid post He Hsk Hcap Hmid.
    cbn [transformed_pb pb_node pb_bufmi transformed_spec sp_keys] in *. cbn [pb_indices transformed_pb].
    rewrite (ok_ind _ _ _ OK cap n0 e off pre mid post); auto; [|lia]. cbn [obind snd].
    rewrite (ok_nsize _ _ _ OK n0 e off He Hsk).
    rewrite <- (map_length (sp_glob W) (sp_keys W e)).
    rewrite (tr_loop _ phi).
    + rewrite map_map. f_equal. f_equal. rewrite map_length. lia.
    + intros m Hm. apply in_map_iff in Hm as (k & <- & Hk). apply Ti; [lia|].
      now apply (ok_valid _ _ _ OK e).
  - intros cap g n st. cbn [pb_indices transformed_pb]. now rewrite (ok_guard _ _ _ OK), size_guard.
  - intros e k He Hk. apply Tv. now apply (ok_valid _ _ _ OK e).
  - intros e e' k k' He He' Hk Hk' H. apply (ok_inj _ _ _ OK e e'); auto.
    apply Tinj; auto; [now apply (ok_valid _ _ _ OK e)|now apply (ok_valid _ _ _ OK e')].
  - intros m Hm. destruct (Tsu m Hm) as (m0 & Hm0 & <-).
    destruct (ok_surj _ _ _ OK m0 Hm0) as (e & k & He & Hk & <-). exists e, k. auto.
  - exact (ok_maxn _ _ _ OK).
  - exact Tl.
  - cbn. lia.
  - exact Tde.
Qed.

(** ** Every well-formed nesting *)
Lemma bexpr_ind' (P : bexpr E -> Prop) :
  (forall l, P (BLeaf l)) ->
  (forall st n s b, P b -> P (BPower st n s b)) ->
  (forall s bs, Forall P bs -> P (BComposite s bs)) ->
  (forall dom b, P b -> P (BRestricted dom b)) ->
  (forall hi dim q2 q1, P (BTaylorHood hi dim q2 q1)) ->
  forall b, P b.
Proof.
  intros HL HP HC HR HT. fix IH 1. intros [l|st n s b|s bs|dom b|hi dim q2 q1].
  - apply HL.
  - apply HP, IH.
  - apply HC. induction bs as [|b bs IHbs]; constructor; [apply IH|apply IHbs].
  - apply HR, IH.
  - apply HT.
Qed.

Theorem build_ok b : forall els, wf els b -> pb_ok els (build b) (meaning b).
Proof.
  induction b as [l|st n s b IH|s bs IH|dom b IH|hi dim q2 q1] using bexpr_ind'; intros els H.
  - now apply leaf_pb_ok.
  - destruct H as (Hn & Hb & Hf). cbn [build meaning]. apply power_pb_ok; auto.
  - destruct H as (Hne & H). cbn [build meaning]. apply composite_pb_ok.
    + destruct bs; [congruence|discriminate].
    + clear Hne. induction IH as [|b bs Hb _ IHbs]; cbn; constructor.
      * apply Hb, H.
      * apply IHbs, H.
  - cbn [build meaning]. apply restricted_pb_ok, IH, H.
  - destruct H as (-> & Hd & H2 & H1). now apply taylorhood_pb_ok.
Qed.

End Contract.
