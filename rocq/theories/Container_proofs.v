From Coq Require Import List Arith Bool Lia.
From Verif Require Import Lib Basis_model Basis_spec Basis_proofs Basis_ok Basis_view Container_model Container_spec.
Import ListNotations.
#[local] Arguments Nat.ltb : simpl never.
#[local] Arguments Nat.eqb : simpl nomatch.

Lemma cty_ind' (P : cty -> Prop) :
  P TScalar -> (forall t, P t -> P (TDyn t)) -> (forall n t, P t -> P (TArr n t)) ->
  (forall ts, Forall P ts -> P (TTup ts)) -> forall t, P t.
Proof.
  intros H1 H2 H3 H4. fix IH 1. intros [|t|n t|ts]; [exact H1|apply H2, IH|apply H3, IH|].
  apply H4. induction ts as [|t ts IHts]; constructor; [apply IH|exact IHts].
Qed.

Section Proofs.
Context {V : Type}.
Notation cont := (cont V).

Lemma cont_ind' (P : cont -> Prop) :
  (forall x, P (CVal x)) -> (forall l, Forall P l -> P (CBlk l)) -> forall c, P c.
Proof.
  intros H1 H2. fix IH 1. intros [x|l]; [apply H1|]. apply H2. induction l as [|x l IHl]; constructor; [apply IH|exact IHl].
Qed.

Lemma has_ty_tup ts (c : cont) : has_ty (TTup ts) c <-> exists l, c = CBlk l /\ Forall2 has_ty ts l.
Proof.
  cbn. destruct c as [x|l]; [split; [tauto|intros (l & [=] & _)]|].
  assert (G : forall ts l, (fix go ts (l : list cont) := match ts, l with
                                       | [], [] => True
                                       | t :: ts', x :: l' => has_ty t x /\ go ts' l'
                                       | _, _ => False
                                       end) ts l <-> Forall2 has_ty ts l).
  { induction ts0 as [|t ts0 IH]; intros [|x l0]; split; intros H; auto; try (now inversion H); try contradiction.
    - destruct H as [H1 H2]. constructor; auto. now apply IH.
    - inversion H; subst. split; auto. now apply IH. }
  rewrite G. split; [eauto|]. intros (l' & [= ->] & H). exact H.
Qed.

Lemma default_ty (zero : V) t : has_ty t (default zero t).
Proof.
  induction t as [|t IH|n t IH|ts IH] using cty_ind'; cbn [has_ty default].
  - exact I.
  - constructor.
  - split; [apply repeat_length|]. apply Forall_forall. intros x Hx. apply repeat_spec in Hx. now subst.
  - apply (proj2 (has_ty_tup ts (CBlk (map (default zero) ts)))). exists (map (default zero) ts). split; auto.
    induction IH; cbn; constructor; auto.
Qed.

(** ** Shifted indices *)
Lemma shifted_size_skipn idx off : shifted_size idx off = length (skipn off idx).
Proof. unfold shifted_size. rewrite skipn_length. destruct (Nat.ltb_spec off (length idx)); lia. Qed.
Lemma shifted_at_skipn idx off : shifted_at idx off 0 = Some (hd 0 (skipn off idx)).
Proof.
  unfold shifted_at. rewrite shifted_size_skipn. cbn [Nat.add].
  rewrite <- (Nat.add_0_r off) at 2. rewrite <- (nth_error_skipn_eq idx off 0).
  destruct (skipn off idx); reflexivity.
Qed.
Lemma skipn_step (idx : mi) off : skipn (off + 1) idx = tl (skipn off idx).
Proof.
  revert idx. induction off as [|off IH]; intros idx; cbn; [destruct idx; reflexivity|].
  destruct idx; cbn; auto.
Qed.

(** resolve, on the list of remaining digits *)
Fixpoint resolve_l (final : cty -> bool) (strict : bool) (t : cty) (c : cont) (m : mi) : option (list nat) :=
  if final t then (if negb strict || (length m =? 0) then Some [] else None) else
  match t with
  | TScalar => None
  | TDyn t' | TArr _ t' =>
      match c with
      | CVal _ => None
      | CBlk l => x <- nth_error l (hd 0 m) ;; p <- resolve_l final strict t' x (tl m) ;; Some (hd 0 m :: p)
      end
  | TTup ts =>
      match c with
      | CVal _ => None
      | CBlk l =>
          let j := if hd 0 m <? length ts then hd 0 m else 0 in
          (fix pick ts l k :=
             match ts, l, k with
             | t' :: _, x :: _, 0 => p <- resolve_l final strict t' x (tl m) ;; Some (j :: p)
             | _ :: ts', _ :: l', S k' => pick ts' l' k'
             | _, _, _ => None
             end) ts l j
      end
  end.
Lemma resolve_l_eq final t : forall (c : cont) idx off,
  resolve final t c idx off = resolve_l final true t c (skipn off idx).
Proof.
  induction t as [|t IH|n t IH|ts IH] using cty_ind'; intros c idx off; cbn [resolve resolve_l negb orb];
    rewrite shifted_size_skipn; (destruct (final _); [reflexivity|]); auto; destruct c as [x|l]; auto;
    rewrite shifted_at_skipn; cbn [obind].
  - destruct (nth_error l _); cbn [obind]; auto. now rewrite IH, skipn_step.
  - destruct (nth_error l _); cbn [obind]; auto. now rewrite IH, skipn_step.
  - rewrite <- skipn_step. set (j := if hd 0 (skipn off idx) <? length ts then hd 0 (skipn off idx) else 0).
    clearbody j. generalize j at 2 4 as k. revert l. induction IH as [|t ts H HF IHF]; intros [|x l] k; auto.
    destruct k; [now rewrite H|]. apply IHF.
Qed.
Lemma hybrid_l_eq final t : forall (c : cont) idx off,
  hybrid_access final t c idx off = resolve_l final false t c (skipn off idx).
Proof.
  induction t as [|t IH|n t IH|ts IH] using cty_ind'; intros c idx off; cbn [hybrid_access resolve_l negb orb];
    (destruct (final _); [reflexivity|]); auto; destruct c as [x|l]; auto;
    rewrite shifted_at_skipn; cbn [obind].
  - destruct (nth_error l _); cbn [obind]; auto. now rewrite IH, skipn_step.
  - destruct (nth_error l _); cbn [obind]; auto. now rewrite IH, skipn_step.
  - rewrite <- skipn_step. set (j := if hd 0 (skipn off idx) <? length ts then hd 0 (skipn off idx) else 0).
    clearbody j. generalize j at 2 4 as k. revert l. induction IH as [|t ts H HF IHF]; intros [|x l] k; auto.
    destruct k; [now rewrite H|]. apply IHF.
Qed.

(** The tuple case as one child access. *)
Lemma pick_eq {A B} (F : A -> B -> option (list nat)) : forall ts l k,
  (fix pick ts l k :=
             match ts, l, k with
             | t' :: _, x :: _, 0 => F t' x
             | _ :: ts', _ :: l', S k' => pick ts' l' k'
             | _, _, _ => None
             end) ts l k = (t' <- nth_error ts k ;; x <- nth_error l k ;; F t' x).
Proof.
  induction ts as [|t ts IH]; intros l k; [destruct k; reflexivity|].
  destruct l as [|x l].
  - destruct k; cbn; auto. destruct (nth_error ts k); reflexivity.
  - destruct k; cbn; auto.
Qed.
Lemma resolve_tup final strict ts l m :
  final (TTup ts) = false ->
  let j := if hd 0 m <? length ts then hd 0 m else 0 in
  resolve_l final strict (TTup ts) (CBlk l) m =
  (t' <- nth_error ts j ;; x <- nth_error l j ;; p <- resolve_l final strict t' x (tl m) ;; Some (j :: p)).
Proof.
  intros Hf j. cbn [resolve_l]. rewrite Hf. fold j.
  apply (pick_eq (fun t' x => p <- resolve_l final strict t' x (tl m) ;; Some (j :: p))).
Qed.

(** ** Paths *)
Lemma at_path_app (c : cont) p q :
  at_path c (p ++ q) = (x <- at_path c p ;; at_path x q).
Proof.
  revert c. induction p as [|i p IH]; intros c; cbn; auto. destruct c as [x|l]; auto.
  destruct (nth_error l i); cbn; auto.
Qed.
Lemma Forall2_len {A B} (R : A -> B -> Prop) la lb : Forall2 R la lb -> length la = length lb.
Proof. induction 1; cbn; auto. Qed.
Lemma Forall2_nth_l {A B} (R : A -> B -> Prop) la lb i a :
  Forall2 R la lb -> nth_error la i = Some a -> exists b, nth_error lb i = Some b /\ R a b.
Proof.
  intros H. revert i. induction H as [|x y la lb Hxy H IH]; intros [|i]; cbn; try discriminate.
  - intros [= <-]. eauto.
  - apply IH.
Qed.
Lemma Forall2_nth_r {A B} (R : A -> B -> Prop) la lb i b :
  Forall2 R la lb -> nth_error lb i = Some b -> exists a, nth_error la i = Some a /\ R a b.
Proof.
  intros H. revert i. induction H as [|x y la lb Hxy H IH]; intros [|i]; cbn; try discriminate.
  - intros [= <-]. eauto.
  - apply IH.
Qed.
(** One step into a typed container. *)
Definition ty_step (t : cty) (i : nat) : option cty := ty_at t [i].
Lemma ty_at_cons t i r : ty_at t (i :: r) = (u <- ty_step t i ;; ty_at u r).
Proof.
  unfold ty_step. destruct t as [|t|n t|ts]; cbn [ty_at obind]; auto; [destruct (i <? n); reflexivity|].
  destruct (nth_error ts i); reflexivity.
Qed.
Lemma has_ty_step t (l : list cont) i x :
  has_ty t (CBlk l) -> nth_error l i = Some x -> exists u, ty_step t i = Some u /\ has_ty u x.
Proof.
  unfold ty_step. destruct t as [|t|n t|ts]; intros H Hx.
  - destruct H.
  - exists t. split; auto. cbn in H. rewrite Forall_forall in H. apply H. eapply nth_error_In; eauto.
  - destruct H as [HL HF]. exists t. split.
    + cbn. apply nth_error_Some_lt in Hx. destruct (Nat.ltb_spec i n); [reflexivity|lia].
    + rewrite Forall_forall in HF. apply HF. eapply nth_error_In; eauto.
  - apply has_ty_tup in H as (l' & [= <-] & H). destruct (Forall2_nth_r _ _ _ _ _ H Hx) as (u & Hu & Ht).
    exists u. cbn. rewrite Hu. auto.
Qed.
Lemma at_path_ty t (c x : cont) p :
  has_ty t c -> at_path c p = Some x -> exists u, ty_at t p = Some u /\ has_ty u x.
Proof.
  revert t c. induction p as [|i p IH]; intros t c Ht H.
  - injection H as <-. exists t. auto.
  - cbn [at_path] in H. destruct c as [v|l]; [discriminate|].
    destruct (nth_error l i) as [y|] eqn:Ey; [|discriminate].
    destruct (has_ty_step t l i y Ht Ey) as (u & Hu & Hy). rewrite ty_at_cons, Hu. cbn [obind]. eauto.
Qed.

(** One step of resolve, when the digit is in range. *)
Lemma resolve_step final strict t (l : list cont) m u x :
  final t = false -> ty_step t (hd 0 m) = Some u -> nth_error l (hd 0 m) = Some x ->
  resolve_l final strict t (CBlk l) m = option_map (cons (hd 0 m)) (resolve_l final strict u x (tl m)).
Proof.
  unfold ty_step. intros Hf Hu Hx. destruct t as [|t|n t|ts].
  - discriminate.
  - cbn in Hu. injection Hu as ->. cbn [resolve_l]. rewrite Hf, Hx. cbn. now destruct (resolve_l _ _ _ _ _).
  - cbn in Hu. destruct (hd 0 m <? n); [|discriminate]. injection Hu as ->.
    cbn [resolve_l]. rewrite Hf, Hx. cbn. now destruct (resolve_l _ _ _ _ _).
  - rewrite resolve_tup by exact Hf. cbn in Hu. destruct (nth_error ts (hd 0 m)) as [u'|] eqn:En; [|discriminate].
    injection Hu as ->. pose proof (nth_error_Some_lt _ _ _ En).
    destruct (Nat.ltb_spec (hd 0 m) (length ts)); [|lia]. rewrite En, Hx. cbn.
    now destruct (resolve_l _ _ _ _ _).
Qed.
Lemma resolve_follow final strict m : forall t (c x : cont) u,
  has_ty t c -> at_path c m = Some x -> ty_at t m = Some u ->
  (forall p d q w, m = p ++ d :: q -> ty_at t p = Some w -> final w = false) ->
  resolve_l final strict t c m = option_map (app m) (resolve_l final strict u x []).
Proof.
  induction m as [|d m IH]; intros t c x u Ht Hx Hu Hf.
  - injection Hx as <-. injection Hu as <-. now destruct (resolve_l _ _ _ _ _).
  - cbn [at_path] in Hx. destruct c as [v|l]; [discriminate|].
    destruct (nth_error l d) as [y|] eqn:Ey; [|discriminate].
    destruct (has_ty_step t l d y Ht Ey) as (w & Hw & Hy).
    rewrite (resolve_step final strict t l (d :: m) w y); auto; [|eapply (Hf []); reflexivity].
    cbn [hd tl]. rewrite ty_at_cons, Hw in Hu. cbn [obind] in Hu.
    rewrite (IH w y x u); auto.
    + now destruct (resolve_l _ _ _ _ _).
    + intros p d' q w' -> Hw'. apply (Hf (d :: p) d' q w'); auto. now rewrite ty_at_cons, Hw.
Qed.

(** Padding with zeros. *)
Lemma resolve_pad strict k : forall u (x : cont),
  has_ty u x -> zeros_to_scalar k x -> resolve_l no_index_access strict u x [] = Some (repeat 0 k).
Proof.
  induction k as [|k IH]; intros u x Hu Hz.
  - destruct x as [v|l]; [|destruct l; contradiction]. destruct u; try contradiction.
    cbn. now rewrite orb_true_r.
  - destruct x as [v|[|y l]]; try contradiction. cbn [zeros_to_scalar] in Hz.
    destruct (has_ty_step u (y :: l) 0 y Hu eq_refl) as (w & Hw & Hy).
    rewrite (resolve_step _ strict u (y :: l) [] w y); auto.
    + cbn [hd tl]. rewrite (IH w y Hy Hz). reflexivity.
    + destruct u; auto. destruct Hu.
Qed.
Lemma resolve_pad_inv strict : forall u (x : cont) p,
  has_ty u x -> resolve_l no_index_access strict u x [] = Some p -> exists k, p = repeat 0 k /\ zeros_to_scalar k x.
Proof.
  induction u as [|t IH|n t IH|ts IH] using cty_ind'; intros x p Hu H.
  - destruct x; [|destruct Hu]. exists 0. split; [|exact I]. cbn in H. rewrite orb_true_r in H. now injection H as <-.
  - destruct x as [v|[|y l]]; try discriminate. cbn in H.
    destruct (resolve_l no_index_access strict t y []) as [q|] eqn:Eq; [|discriminate]. injection H as <-.
    cbn in Hu. inversion Hu; subst. destruct (IH y q H1 Eq) as (k & -> & Hz). exists (S k). auto.
  - destruct x as [v|[|y l]]; try discriminate. cbn in H.
    destruct (resolve_l no_index_access strict t y []) as [q|] eqn:Eq; [|discriminate]. injection H as <-.
    destruct Hu as [_ Hu]. inversion Hu; subst. destruct (IH y q H1 Eq) as (k & -> & Hz). exists (S k). auto.
  - destruct x as [v|l]; [discriminate|]. rewrite resolve_tup in H by reflexivity. cbn [hd tl] in H.
    replace (if 0 <? length ts then 0 else 0) with 0 in H by now destruct (0 <? length ts).
    apply has_ty_tup in Hu as (l' & [= <-] & Hu).
    destruct ts as [|t ts]; [discriminate|]. destruct l as [|y l]; [discriminate|]. cbn in H.
    destruct (resolve_l no_index_access strict t y []) as [q|] eqn:Eq; [|discriminate]. injection H as <-.
    inversion IH as [|? ? IHt _]; inversion Hu as [|? ? ? ? Hty _]; subst. destruct (IHt y q Hty Eq) as (k & -> & Hz). exists (S k). auto.
Qed.
Lemma zeros_at_path k : forall c : cont, zeros_to_scalar k c -> exists v, at_path c (repeat 0 k) = Some (CVal v).
Proof.
  induction k as [|k IH]; intros [v|[|y l]] H; try contradiction; cbn; eauto.
Qed.
Lemma zeros_unique k k' : forall c : cont, zeros_to_scalar k c -> zeros_to_scalar k' c -> k = k'.
Proof.
  revert k'. induction k as [|k IH]; intros [|k'] [v|[|y l]] H H'; try contradiction; auto.
  f_equal. eapply IH; eauto.
Qed.

Lemma no_final_above t (c x : cont) m : has_ty t c -> at_path c m = Some x ->
  forall p d q w, m = p ++ d :: q -> ty_at t p = Some w -> no_index_access w = false.
Proof.
  intros Ht Hx p d q w -> Hw. rewrite at_path_app in Hx.
  destruct (at_path c p) as [y|] eqn:Ey; [|discriminate]. cbn in Hx.
  destruct (at_path_ty t c y p Ht Ey) as (w' & Hw' & Hy). rewrite Hw in Hw'. injection Hw' as <-.
  destruct w; auto. destruct y; [discriminate|destruct Hy].
Qed.

Lemma solid_zeros u : forall x : cont, solid u = true -> has_ty u x -> exists k, zeros_to_scalar k x.
Proof.
  induction u as [|t IH|n t IH|ts IH] using cty_ind'; intros x Hs Hu.
  - destruct x; [|destruct Hu]. exists 0. exact I.
  - discriminate.
  - cbn in Hs. apply andb_true_iff in Hs as [H1 H2]. apply Nat.ltb_lt in H1.
    destruct x as [v|l]; [destruct Hu|]. destruct Hu as [HL HF].
    destruct l as [|y l]; cbn in HL; [lia|]. inversion HF; subst. destruct (IH y H2 H3) as [k Hk]. now exists (S k).
  - destruct ts as [|t ts]; [discriminate|]. apply has_ty_tup in Hu as (l & -> & Hu).
    inversion Hu as [|? y ? ? Hty _]; subst. inversion IH as [|? ? IHt _]; subst. destruct (IHt y Hs Hty) as [k Hk]. now exists (S k).
Qed.

(** ** put *)
Lemma put_spec (c x : cont) p : forall y, at_path c p = Some y ->
  exists c', put c p x = Some c' /\ at_path c' p = Some x /\
    forall q, (forall r, q <> p ++ r) -> (forall r, p <> q ++ r) -> at_path c' q = at_path c q.
Proof.
  revert c. induction p as [|i p IH]; intros c y H.
  - exists x. split; [reflexivity|]. split; [reflexivity|]. intros q Hq. exfalso. now apply (Hq q).
  - cbn in H |- *. destruct c as [v|l]; [discriminate|]. destruct (nth_error l i) as [z|] eqn:Ez; [|discriminate].
    destruct (IH z y H) as (z' & P1 & P2 & P3). rewrite P1.
    destruct (upd_Some l i z' (nth_error_Some_lt _ _ _ Ez)) as [l' Hl']. rewrite Hl'. cbn.
    exists (CBlk l'). split; auto. split.
    + rewrite (upd_nth_error _ _ _ _ i Hl'), Nat.eqb_refl. exact P2.
    + intros [|j q] Hq1 Hq2; [exfalso; now apply (Hq2 (i :: p))|]. cbn.
      rewrite (upd_nth_error _ _ _ _ j Hl'). destruct (Nat.eqb_spec j i) as [->|]; auto. rewrite Ez.
      apply P3; intros r Hr; [apply (Hq1 r)|apply (Hq2 r)]; cbn; now f_equal.
Qed.
(** Two scalar positions are never nested. *)
Lemma scalar_paths (c : cont) p q v w : at_path c p = Some (CVal v) -> at_path c q = Some (CVal w) -> p <> q ->
  (forall r, q <> p ++ r) /\ (forall r, p <> q ++ r).
Proof.
  intros Hp Hq Hn. split; intros r ->.
  - rewrite at_path_app, Hp in Hq. destruct r; cbn in Hq; [|discriminate]. rewrite app_nil_r in Hn. congruence.
  - rewrite at_path_app, Hq in Hp. destruct r; cbn in Hp; [|discriminate]. rewrite app_nil_r in Hn. congruence.
Qed.

(** ** resize *)
Lemma each_Done (f : nat -> cont -> res cont) l : forall i l',
  each f i l = Done l' <->
  length l' = length l /\
  forall j x, nth_error l j = Some x -> exists y, nth_error l' j = Some y /\ f (i + j) x = Done y.
Proof.
  induction l as [|x l IH]; intros i l'; cbn.
  - split; [intros [= <-]; split; auto; intros [|j] x; discriminate|]. intros [H _]. destruct l'; [reflexivity|discriminate].
  - destruct (f i x) as [y| |] eqn:Ef; cbn.
    + destruct (each f (i + 1) l) as [r| |] eqn:Er; cbn.
      * apply IH in Er as [L H]. split.
        -- intros [= <-]. split; [cbn; lia|]. intros [|j] z; cbn.
           ++ intros [= <-]. exists y. rewrite Nat.add_0_r. auto.
           ++ intros Hz. replace (i + S j) with (i + 1 + j) by lia. auto.
        -- intros [L' H']. destruct l' as [|y' l']; [discriminate|].
           destruct (H' 0 x eq_refl) as (y'' & [= <-] & Hy). rewrite Nat.add_0_r, Ef in Hy. injection Hy as <-.
           do 2 f_equal. apply nth_error_ext. intros j.
           destruct (nth_error l j) as [z|] eqn:Ez.
           ++ destruct (H j z Ez) as (u & Hu & Hfu). destruct (H' (S j) z Ez) as (w & Hw & Hfw).
              cbn in Hw. replace (i + S j) with (i + 1 + j) in Hfw by lia. congruence.
           ++ assert (length l <= j) by now apply nth_error_None.
              rewrite (proj2 (nth_error_None r j)) by lia. symmetry. apply nth_error_None. cbn in L'. lia.
      * split; [discriminate|]. intros [L' H']. destruct l' as [|y' l']; [discriminate|]. exfalso.
        assert (E : each f (i + 1) l = Done l'); [|congruence]. apply IH. split; [cbn in L'; lia|].
        intros j z Hz. destruct (H' (S j) z Hz) as (w & Hw & Hf). exists w. split; auto.
        now replace (i + 1 + j) with (i + S j) by lia.
      * split; [discriminate|]. intros [L' H']. destruct l' as [|y' l']; [discriminate|]. exfalso.
        assert (E : each f (i + 1) l = Done l'); [|congruence]. apply IH. split; [cbn in L'; lia|].
        intros j z Hz. destruct (H' (S j) z Hz) as (w & Hw & Hf). exists w. split; auto.
        now replace (i + 1 + j) with (i + S j) by lia.
    + split; [discriminate|]. intros [_ H]. destruct (H 0 x eq_refl) as (y & _ & Hy). rewrite Nat.add_0_r in Hy. congruence.
    + split; [discriminate|]. intros [_ H]. destruct (H 0 x eq_refl) as (y & _ & Hy). rewrite Nat.add_0_r in Hy. congruence.
Qed.
Lemma each_defined (f : nat -> cont -> res cont) l : forall i,
  (forall j x, nth_error l j = Some x -> f (i + j) x <> Undef) -> each f i l <> Undef.
Proof.
  induction l as [|x l IH]; intros i H; cbn; [discriminate|].
  pose proof (H 0 x eq_refl) as H0. rewrite Nat.add_0_r in H0.
  destruct (f i x); cbn; try congruence.
  assert (H1 : each f (i + 1) l <> Undef).
  { apply IH. intros j z Hz. replace (i + 1 + j) with (i + S j) by lia. now apply H. }
  destruct (each f (i + 1) l); cbn; congruence.
Qed.
Lemma each_complete (f : nat -> cont -> res cont) l : forall i,
  (forall j x, nth_error l j = Some x -> exists y, f (i + j) x = Done y) -> exists l', each f i l = Done l'.
Proof.
  induction l as [|x l IH]; intros i H; cbn; [eauto|].
  destruct (H 0 x eq_refl) as [y Hy]. rewrite Nat.add_0_r in Hy. rewrite Hy. cbn.
  destruct (IH (i + 1)) as [r Hr]; [|rewrite Hr; cbn; eauto].
  intros j z Hz. replace (i + 1 + j) with (i + S j) by lia. now apply H.
Qed.

(** The tuple loop is [each] with the type looked up by position. *)
Definition tup_body (G : cty -> cont -> nat -> res cont) (ts : list cty) (i : nat) (x : cont) : res cont :=
  match nth_error ts i with Some t' => G t' x i | None => Undef end.
Lemma tup_each (G : cty -> cont -> nat -> res cont) ts0 : forall ts pre l i,
  ts0 = pre ++ ts -> length pre = i -> length ts = length l ->
  (fix go ts l i := match ts, l with
                    | [], [] => Done []
                    | t' :: ts', x :: l' =>
                        rbind (G t' x i) (fun y => rbind (go ts' l' (i + 1)) (fun r => Done (y :: r)))
                    | _, _ => Undef
                    end) ts l i = each (tup_body G ts0) i l.
Proof.
  induction ts as [|t ts IH]; intros pre [|x l] i H0 HL Hl; try discriminate; auto. cbn.
  unfold tup_body at 1. rewrite H0, nth_error_app2 by lia. replace (i - length pre) with 0 by lia. cbn.
  destruct (G t x i); cbn; auto. rewrite <- H0.
  rewrite <- (IH (pre ++ [t]) l (i + 1)); auto.
  - now rewrite <- app_assoc.
  - rewrite app_length. cbn. lia.
Qed.

Lemma compat_tup zero ts : forall (l : list cont) f, length ts = length l -> length l = length f ->
  ((fix go ts l f := match ts, l, f with
                    | t' :: ts', x :: l', s :: f' => compatible zero t' x s /\ go ts' l' f'
                    | _, _, _ => True
                    end) ts l f <->
  forall i t' x s, nth_error ts i = Some t' -> nth_error l i = Some x -> nth_error f i = Some s ->
                   compatible zero t' x s).
Proof.
  induction ts as [|t ts IH]; intros [|x l] [|s f] H1 H2; try discriminate.
  - split; auto. intros _ [|i]; discriminate.
  - rewrite (IH l f) by (cbn in *; lia). split.
    + intros [A B] [|i] t' x' s'; cbn; [intros [= <-] [= <-] [= <-]; exact A|eauto].
    + intros H. split; [apply (H 0); reflexivity|]. intros i. apply (H (S i)).
Qed.

Lemma vresize_nth {A} (l : list A) n d i :
  nth_error (vresize l n d) i = if i <? n then Some (nth i l d) else None.
Proof.
  unfold vresize. rewrite nth_error_app_eq, nth_error_firstn_eq, firstn_length, nth_error_repeat_eq.
  destruct (Nat.ltb_spec i n) as [Hi|Hi].
  - destruct (Nat.ltb_spec i (min n (length l))) as [H|H].
    + apply nth_error_nth'. lia.
    + destruct (Nat.ltb_spec (i - min n (length l)) (n - length l)); [|lia].
      now rewrite nth_overflow by lia.
  - destruct (Nat.ltb_spec i (min n (length l))) as [H|H]; [lia|].
    destruct (Nat.ltb_spec (i - min n (length l)) (n - length l)); [lia|reflexivity].
Qed.

Definition resize_good (t : cty) (s : itree) (c' : cont) : Prop :=
  has_ty t c' /\
  forall q s', subtree s q = Some s' ->
    exists x, at_path c' q = Some x /\ (degree s' <> 0 -> exists l, x = CBlk l /\ length l = degree s').

Lemma good_block t f (l' : list cont) :
  has_ty t (CBlk l') -> length l' = length f ->
  (forall i s y, nth_error f i = Some s -> nth_error l' i = Some y ->
     forall q s', subtree s q = Some s' ->
       exists x, at_path y q = Some x /\ (degree s' <> 0 -> exists l, x = CBlk l /\ length l = degree s')) ->
  resize_good t (Blk f) (CBlk l').
Proof.
  intros Ht HL H. split; auto. intros [|d q] s' Hs.
  - injection Hs as <-. exists (CBlk l'). split; auto. intros _. exists l'. auto.
  - cbn in Hs. destruct (nth_error f d) as [s|] eqn:Ed; [|discriminate].
    destruct (nth_error_lt_Some l' d) as [y Hy]; [rewrite HL; eapply nth_error_Some_lt; eauto|].
    cbn. rewrite Hy. eauto.
Qed.
Lemma good_leaf t s (c : cont) : has_ty t c -> degree s = 0 -> resize_good t s c.
Proof.
  intros Ht Hd. split; auto. intros [|d q] s' Hs.
  - injection Hs as <-. exists c. split; auto. congruence.
  - destruct s as [|[|x f]]; cbn in *; try discriminate. destruct d; discriminate.
Qed.

Theorem resize_spec (zero : V) size T : sized size T -> forall t (c : cont) p s,
  subtree T p = Some s -> has_ty t c ->
  resize zero size t c p <> Undef /\
  (forall c', resize zero size t c p = Done c' -> resize_good t s c') /\
  ((exists c', resize zero size t c p = Done c') <-> compatible zero t c s).
Proof.
  intros HS. induction t as [|t IH|n t IH|ts IH] using cty_ind'; intros c p s Hs Ht;
    pose proof (HS p s Hs) as Hsz.
  - destruct c as [v|l]; [|destruct Ht]. cbn [resize]. rewrite Hsz.
    destruct (Nat.eqb_spec (degree s) 0) as [E|E].
    + split; [discriminate|]. split; [intros c' [= <-]; now apply good_leaf|].
      split; [|eauto]. intros _. destruct s as [|[|x f]]; [exact I|exact I|discriminate].
    + split; [discriminate|]. split; [discriminate|]. split; [intros [c' [=]]|].
      destruct s as [|[|x f]]; cbn in *; try congruence. tauto.
  - destruct c as [v|l]; [destruct Ht|]. cbn [resize]. rewrite Hsz.
    destruct (Nat.eqb_spec (degree s) 0) as [E|E].
    + destruct (Nat.eqb_spec (length l) 0) as [El|El].
      * split; [discriminate|]. split; [discriminate|]. destruct l; [|discriminate].
        split; [intros [c' [=]]|]. destruct s as [|[|x f]]; cbn in *; try congruence; tauto.
      * split; [discriminate|]. split; [intros c' [= <-]; now apply good_leaf|]. split; [|eauto].
        intros _. destruct l; [cbn in El; congruence|]. destruct s as [|[|x f]]; cbn in *; try congruence; exact I.
    + destruct s as [|f]; [cbn in E; congruence|]. cbn [degree] in *.
      assert (Hch : forall j x, nth_error (vresize l (length f) (default zero t)) j = Some x ->
                 x = nth j l (default zero t) /\ has_ty t x /\
                 exists sj, nth_error f j = Some sj /\ subtree T (p ++ [j]) = Some sj).
      { intros j x. rewrite vresize_nth. destruct (Nat.ltb_spec j (length f)) as [Hj|]; [|discriminate].
        intros [= <-]. split; auto. split.
        - destruct (nth_in_or_default j l (default zero t)) as [Hin|Heq]; [|rewrite Heq; apply default_ty].
          cbn in Ht. rewrite Forall_forall in Ht. auto.
        - destruct (nth_error_lt_Some f j Hj) as [sj Hsj]. exists sj. split; auto.
          rewrite subtree_app, Hs. cbn. now rewrite Hsj. }
      set (L := vresize l (length f) (default zero t)) in *.
      assert (HLL : length L = length f) by apply vresize_length.
      set (F := fun i x => resize zero size t x (p ++ [i])).
      split; [|split].
      * assert (D : each F 0 L <> Undef).
        { apply each_defined. intros j x Hx. destruct (Hch j x Hx) as (_ & Hty & sj & _ & Hsj).
          cbn [Nat.add]. now apply (IH x (p ++ [j]) sj Hsj Hty). }
        destruct (each F 0 L); cbn; congruence.
      * intros c' H. destruct (each F 0 L) as [l'| |] eqn:Ee; cbn in H; try discriminate. injection H as <-.
        apply each_Done in Ee as [L' H].
        assert (G : forall j y, nth_error l' j = Some y -> exists sj, nth_error f j = Some sj /\ resize_good t sj y).
        { intros j y Hy. destruct (nth_error_lt_Some L j) as [x Hx]; [rewrite <- L'; eapply nth_error_Some_lt; eauto|].
          destruct (H j x Hx) as (y' & Hy' & Hf). rewrite Hy in Hy'. injection Hy' as <-.
          destruct (Hch j x Hx) as (_ & Hty & sj & Hfj & Hsj). exists sj. split; auto.
          cbn [Nat.add] in Hf. now apply (IH x (p ++ [j]) sj Hsj Hty). }
        apply good_block; [|congruence|].
        -- cbn. apply Forall_forall. intros y Hy. apply In_nth_error in Hy as [j Hj].
           destruct (G j y Hj) as (sj & _ & [Hty _]). exact Hty.
        -- intros i si y Hsi Hy. destruct (G i y Hy) as (sj & Hsj & [_ Hg]). rewrite Hsi in Hsj. injection Hsj as <-. exact Hg.
      * split.
        -- intros [c' H]. destruct (each F 0 L) as [l'| |] eqn:Ee; cbn in H; try discriminate.
           apply each_Done in Ee as [L' HE]. cbn [compatible]. destruct f as [|s0 f]; [cbn in E; congruence|].
           intros i si Hsi. destruct (nth_error_lt_Some L i) as [x Hx]; [rewrite HLL; eapply nth_error_Some_lt; eauto|].
           destruct (Hch i x Hx) as (-> & Hty & sj & Hfj & Hsj). rewrite Hsi in Hfj. injection Hfj as <-.
           apply (IH _ (p ++ [i]) si Hsj Hty). destruct (HE i _ Hx) as (y & _ & Hy). eauto.
        -- intros HC. cbn [compatible] in HC. destruct f as [|s0 f]; [cbn in E; congruence|].
           destruct (each_complete F L 0) as [l' Hl'].
           { intros j x Hx. destruct (Hch j x Hx) as (-> & Hty & sj & Hfj & Hsj). cbn [Nat.add].
             apply (IH _ (p ++ [j]) sj Hsj Hty). now apply HC. }
           rewrite Hl'. cbn. eauto.
  - destruct c as [v|l]; [destruct Ht|]. destruct Ht as [HLn HF]. cbn [resize]. rewrite Hsz.
    destruct (Nat.eqb_spec (degree s) 0) as [E|E].
    + split; [discriminate|]. split; [intros c' [= <-]; now apply good_leaf|]. split; [|eauto].
      intros _. destruct s as [|[|x f]]; cbn in *; try congruence; exact I.
    + destruct s as [|f]; [cbn in E; congruence|]. cbn [degree] in *.
      destruct (Nat.eqb_spec (length l) (length f)) as [El|El]; cbn [negb].
      2:{ split; [discriminate|]. split; [discriminate|]. split; [intros [c' [=]]|].
          cbn [compatible]. destruct f; [cbn in E; congruence|]. tauto. }
      assert (Hch : forall j x, nth_error l j = Some x -> has_ty t x /\
                 exists sj, nth_error f j = Some sj /\ subtree T (p ++ [j]) = Some sj).
      { intros j x Hx. split; [rewrite Forall_forall in HF; apply HF; eapply nth_error_In; eauto|].
        destruct (nth_error_lt_Some f j) as [sj Hsj]; [rewrite <- El; eapply nth_error_Some_lt; eauto|].
        exists sj. split; auto. rewrite subtree_app, Hs. cbn. now rewrite Hsj. }
      set (F := fun i x => resize zero size t x (p ++ [i])).
      split; [|split].
      * assert (D : each F 0 l <> Undef).
        { apply each_defined. intros j x Hx. destruct (Hch j x Hx) as (Hty & sj & _ & Hsj).
          cbn [Nat.add]. now apply (IH x (p ++ [j]) sj Hsj Hty). }
        destruct (each F 0 l); cbn; congruence.
      * intros c' H. destruct (each F 0 l) as [l'| |] eqn:Ee; cbn in H; try discriminate. injection H as <-.
        apply each_Done in Ee as [L' H].
        assert (G : forall j y, nth_error l' j = Some y -> exists sj, nth_error f j = Some sj /\ resize_good t sj y).
        { intros j y Hy. destruct (nth_error_lt_Some l j) as [x Hx]; [rewrite <- L'; eapply nth_error_Some_lt; eauto|].
          destruct (H j x Hx) as (y' & Hy' & Hf). rewrite Hy in Hy'. injection Hy' as <-.
          destruct (Hch j x Hx) as (Hty & sj & Hfj & Hsj). exists sj. split; auto.
          cbn [Nat.add] in Hf. now apply (IH x (p ++ [j]) sj Hsj Hty). }
        apply good_block; [|congruence|].
        -- cbn. split; [congruence|]. apply Forall_forall. intros y Hy. apply In_nth_error in Hy as [j Hj].
           destruct (G j y Hj) as (sj & _ & [Hty _]). exact Hty.
        -- intros i si y Hsi Hy. destruct (G i y Hy) as (sj & Hsj & [_ Hg]). rewrite Hsi in Hsj. injection Hsj as <-. exact Hg.
      * cbn [compatible]. destruct f as [|s0 f]; [cbn in E; congruence|]. split.
        -- intros [c' H]. destruct (each F 0 l) as [l'| |] eqn:Ee; cbn in H; try discriminate.
           apply each_Done in Ee as [L' HE]. split; auto.
           intros i si x Hsi Hx. destruct (Hch i x Hx) as (Hty & sj & Hfj & Hsj). rewrite Hsi in Hfj. injection Hfj as <-.
           apply (IH _ (p ++ [i]) si Hsj Hty). destruct (HE i _ Hx) as (y & _ & Hy). eauto.
        -- intros [_ HC]. destruct (each_complete F l 0) as [l' Hl'].
           { intros j x Hx. destruct (Hch j x Hx) as (Hty & sj & Hfj & Hsj). cbn [Nat.add].
             apply (IH _ (p ++ [j]) sj Hsj Hty). eauto. }
           rewrite Hl'. cbn. eauto.
  - destruct c as [v|l]; [destruct Ht|]. pose proof Ht as Ht0. apply has_ty_tup in Ht as (l0 & [= <-] & HF).
    assert (Lts : length ts = length l) by (eapply Forall2_len; eauto).
    cbn [resize]. rewrite Hsz.
    destruct (Nat.eqb_spec (degree s) 0) as [E|E].
    + split; [discriminate|]. split; [intros c' [= <-]; now apply good_leaf|]. split; [|eauto].
      intros _. destruct s as [|[|x f]]; cbn in *; try congruence; exact I.
    + destruct s as [|f]; [cbn in E; congruence|]. cbn [degree] in *.
      destruct (Nat.eqb_spec (length l) (length f)) as [El|El]; cbn [negb].
      2:{ split; [discriminate|]. split; [discriminate|]. split; [intros [c' [=]]|].
          cbn [compatible]. destruct f; [cbn in E; congruence|]. tauto. }
      rewrite (tup_each (fun t' x i => resize zero size t' x (p ++ [i])) ts ts [] l 0 eq_refl eq_refl Lts).
      assert (Hch : forall j x, nth_error l j = Some x -> exists t', nth_error ts j = Some t' /\ has_ty t' x /\
                 (exists sj, nth_error f j = Some sj /\ subtree T (p ++ [j]) = Some sj) /\
                 (forall (c : cont) p s, subtree T p = Some s -> has_ty t' c ->
                    resize zero size t' c p <> Undef /\
                    (forall c', resize zero size t' c p = Done c' -> resize_good t' s c') /\
                    ((exists c', resize zero size t' c p = Done c') <-> compatible zero t' c s))).
      { intros j x Hx. destruct (Forall2_nth_r _ _ _ _ _ HF Hx) as (t' & Ht' & Hty). exists t'. split; auto. split; auto.
        split.
        - destruct (nth_error_lt_Some f j) as [sj Hsj]; [rewrite <- El; eapply nth_error_Some_lt; eauto|].
          exists sj. split; auto. rewrite subtree_app, Hs. cbn. now rewrite Hsj.
        - rewrite Forall_forall in IH. apply IH. eapply nth_error_In; eauto. }
      set (F := tup_body (fun t' x i => resize zero size t' x (p ++ [i])) ts).
      split; [|split].
      * assert (D : each F 0 l <> Undef).
        { apply each_defined. intros j x Hx. destruct (Hch j x Hx) as (t' & Ht' & Hty & (sj & _ & Hsj) & IH').
          cbn [Nat.add]. unfold F, tup_body. rewrite Ht'. now apply (IH' x (p ++ [j]) sj Hsj Hty). }
        destruct (each F 0 l); cbn; congruence.
      * intros c' H. destruct (each F 0 l) as [l'| |] eqn:Ee; cbn in H; try discriminate. injection H as <-.
        apply each_Done in Ee as [L' H].
        assert (G : forall j y, nth_error l' j = Some y -> exists t' sj,
           nth_error ts j = Some t' /\ nth_error f j = Some sj /\ resize_good t' sj y).
        { intros j y Hy. destruct (nth_error_lt_Some l j) as [x Hx]; [rewrite <- L'; eapply nth_error_Some_lt; eauto|].
          destruct (H j x Hx) as (y' & Hy' & Hf). rewrite Hy in Hy'. injection Hy' as <-.
          destruct (Hch j x Hx) as (t' & Ht' & Hty & (sj & Hfj & Hsj) & IH'). exists t', sj. split; auto. split; auto.
          cbn [Nat.add] in Hf. unfold F, tup_body in Hf. rewrite Ht' in Hf. now apply (IH' x (p ++ [j]) sj Hsj Hty). }
        apply good_block; [|congruence|].
        -- apply has_ty_tup. exists l'. split; auto.
           assert (Lts' : length ts = length l') by congruence.
           assert (G' : forall j t' y, nth_error ts j = Some t' -> nth_error l' j = Some y -> has_ty t' y).
           { intros j t' y H1 H2. destruct (G j y H2) as (t'' & sj & H3 & _ & [H4 _]). congruence. }
           clear -Lts' G'. revert l' Lts' G'. induction ts as [|t ts IHts]; intros [|y l'] HL G'; try discriminate; constructor.
           ++ apply (G' 0); reflexivity.
           ++ apply IHts; [cbn in HL; lia|]. intros j. apply (G' (S j)).
        -- intros i si y Hsi Hy. destruct (G i y Hy) as (t' & sj & _ & Hsj & [_ Hg]). rewrite Hsi in Hsj. injection Hsj as <-. exact Hg.
      * cbn [compatible]. destruct f as [|s0 f]; [cbn in E; congruence|].
        rewrite (compat_tup zero ts l (s0 :: f) Lts El). split.
        -- intros [c' H]. destruct (each F 0 l) as [l'| |] eqn:Ee; cbn in H; try discriminate.
           apply each_Done in Ee as [L' HE]. split; auto.
           intros i t' x si Ht' Hx Hsi. destruct (Hch i x Hx) as (t'' & Ht'' & Hty & (sj & Hfj & Hsj) & IH').
           rewrite Ht' in Ht''. injection Ht'' as <-. rewrite Hsi in Hfj. injection Hfj as <-.
           apply (IH' _ (p ++ [i]) si Hsj Hty). destruct (HE i _ Hx) as (y & _ & Hy). cbn [Nat.add] in Hy.
           unfold F, tup_body in Hy. rewrite Ht' in Hy. eauto.
        -- intros [_ HC]. destruct (each_complete F l 0) as [l' Hl'].
           { intros j x Hx. destruct (Hch j x Hx) as (t' & Ht' & Hty & (sj & Hfj & Hsj) & IH'). cbn [Nat.add].
             unfold F, tup_body. rewrite Ht'. apply (IH' _ (p ++ [j]) sj Hsj Hty). eauto. }
           rewrite Hl'. cbn. eauto.
Qed.
End Proofs.
