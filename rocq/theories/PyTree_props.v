(** Bases made from trees in Python (C87). *)
From Coq Require Import String Ascii List ZArith Bool Lia DecimalString DecimalZ.
From Verif Require Import Lib Basis_model PyTree_model PyTree_spec PyTree_proofs.
Import ListNotations.
Local Open Scope string_scope.

(** A text is at most one type. *)
Theorem C87_texts_are_unambiguous s t t' : is_type s t -> is_type s t' -> t = t'.
Proof. unfold is_type. intros H H'. apply written_inj. congruence. Qed.

Lemma is_type_T s t : is_type s t -> T s = written t. Proof. auto. Qed.
Lemma number_unique t m n : is_number t m -> is_number t n -> m = n.
Proof. intros (w & d & -> & Hd & <-) (w' & d' & E & Hd' & <-). injection E as <-. congruence. Qed.
Lemma size_unique t m n : is_size t m -> is_size t n -> m = n.
Proof. intros [H _] [H' _]. pose proof (number_unique t _ _ H H'). lia. Qed.

Lemma strategy_text blocked layout i : strategy blocked layout i ->
  exists s, indexMergingStrategy blocked layout = Some s /\ power_strategy (Plain s) i.
Proof. destruct i; intros [-> ->]; cbn; eexists; split; try reflexivity; constructor. Qed.
Lemma strategy_texts blocked layout s i : indexMergingStrategy blocked layout = Some s -> power_strategy (Plain s) i -> strategy blocked layout i.
Proof.
  unfold indexMergingStrategy, duneFunctionsLayouts. intros H HP. apply obind_Some in H as (x & Hx & H). injection H as <-.
  destruct (String.eqb_spec layout "lexicographic") as [->|_].
  - injection Hx as <-. destruct blocked; inversion HP; subst; cbn; auto.
  - destruct (String.eqb_spec layout "interleaved") as [->|_]; [|discriminate].
    injection Hx as <-. destruct blocked; inversion HP; subst; cbn; auto.
Qed.
Lemma composite_as_power s i : composite_strategy s i <-> power_strategy s (as_composite i).
Proof. split; intros H; [destruct H; constructor|]. destruct i; inversion H; constructor. Qed.

Section Names.
Context {E : Type}.
Variables (gvname : string) (gv : cpp).
(** the name of the type of the grid view is one *)
Hypothesis Hgv : is_type gvname gv.
Variables (lagrange : Z -> option (leaf E)) (nedelec : Z -> Z -> option (leaf E)) (raviartthomas : Z -> option (leaf E)).
Notation pbt := (prebasis_type gv lagrange nedelec raviartthomas).
Notation bt := (basis_type gv lagrange nedelec raviartthomas).
Notation desc := (describes lagrange nedelec raviartthomas).


Lemma forall2_forall {A B} (R : A -> B -> Prop) (Q : A -> Prop) l l' :
  Forall2 R l l' -> Forall (fun x => forall y, R x y -> Q x) l -> Forall Q l.
Proof.
  intros H. induction H as [|x y l l' Hx H IH]; intros HF; constructor.
  - exact (Forall_inv HF y Hx).
  - exact (IH (Forall_inv_tail HF)).
Qed.
Lemma describes_constructed t : forall b, desc t b -> constructed t.
Proof.
  induction t as [k|k d|i k|k|cs b l IH|c n b l IH|n cs] using tree_rec'; intros x H; try (constructor; fail).
  - inversion H; subst. apply (KComposite cs (Some b) (Some l)).
    + eapply forall2_forall; [eassumption|exact IH].
    + destruct cs; [congruence|reflexivity].
  - inversion H; subst. apply (KPower c _ (Some b) (Some l)). eapply IH; eauto.
  - inversion H.
Qed.

Lemma pbt_name w args b : pbt (Template w args) b ->
  (w = "Dune::Functions::LagrangePreBasis" /\ exists a k l, args = [gv; a] /\ is_int a k /\ (0 <= k)%Z /\ lagrange k = Some l /\ b = BLeaf l) \/
  (w = "Dune::Functions::NedelecPreBasis" /\ exists a c i k l, args = [gv; Plain "double"; a; c] /\ is_size a i /\ is_int c k /\ nedelec (Z.of_nat i) k = Some l /\ b = BLeaf l) \/
  (w = "Dune::Functions::RaviartThomasPreBasis" /\ exists a k l, args = [gv; a] /\ is_int a k /\ raviartthomas k = Some l /\ b = BLeaf l) \/
  (w = "Dune::Functions::CompositePreBasis" /\ exists s i ts bs, args = s :: ts /\ composite_strategy s i /\ ts <> [] /\ Forall2 pbt ts bs /\ b = BComposite i bs) \/
  (w = "Dune::Functions::PowerPreBasis" /\ exists s i t c a n, args = [s; t; a] /\ power_strategy s i /\ pbt t c /\ is_size a n /\ b = BPower true n i c).
Proof.
  intros H. inversion H; subst.
  - left. split; auto. do 3 eexists. eauto 10.
  - right; left. split; auto. do 5 eexists. eauto 10.
  - right; right; left. split; auto. do 3 eexists. eauto 10.
  - right; right; right; left. split; auto. do 4 eexists. eauto 10.
  - right; right; right; right. split; auto. do 6 eexists. eauto 12.
Qed.
Ltac cases H := apply pbt_name in H; destruct H as [[Hw H]|[[Hw H]|[[Hw H]|[[Hw H]|[Hw H]]]]]; try discriminate Hw; clear Hw.

Lemma sequence_map {A B} (f : A -> option B) l l' : sequence (map f l) = Some l' <-> Forall2 (fun x y => f x = Some y) l l'.
Proof.
  split.
  - revert l'. induction l as [|x l IH]; cbn; intros l' H.
    + injection H as <-. constructor.
    + apply obind_Some in H as (y & Hy & H). apply obind_Some in H as (r & Hr & H). injection H as <-. constructor; auto.
  - intros H. induction H as [|x y l l' Hx H IH]; [reflexivity|]. cbn. now rewrite Hx, IH.
Qed.

Lemma ctype_describes t : forall T b, constructed t -> ctype gv t = Some T -> pbt T b -> desc t b.
Proof.
  induction t as [k|k d|i k|k|cs bl l IH|c n bl l IH|n cs] using tree_rec'; intros T b HK HT Hb; cbn in HT; apply constructed_parts in HK.
  - injection HT as <-. cases Hb. destruct Hb as (a & k' & l & Ha & [Hn Hi] & Hk & Hl & ->). injection Ha as <-.
    apply str_only in Hn as ->. constructor; auto. lia.
  - discriminate.
  - injection HT as <-. cases Hb. destruct Hb as (a & c & i' & k' & l & Ha & [Hn Hi] & [Hn' Hi'] & Hl & ->). injection Ha as <- <-.
    apply str_only in Hn as <-. apply str_only in Hn' as ->. constructor; auto. lia.
  - injection HT as <-. cases Hb. destruct Hb as (a & k' & l & Ha & [Hn Hi] & Hl & ->). injection Ha as <-.
    apply str_only in Hn as ->. constructor; auto.
  - apply obind_Some in HT as (i & Hi & HT). apply obind_Some in HT as (ts & Hts & HT). injection HT as <-.
    cases Hb. destruct Hb as (s & j & ts' & bs & Ha & Hs & Hne & HF & ->). injection Ha as <- <-.
    apply composite_as_power in Hs. pose proof (strategy_texts _ _ _ _ Hi Hs) as HS. destruct HK as [HKn HK].
    constructor; auto. clear Hs HS HKn Hne Hi. apply sequence_map in Hts. revert bs HF.
    induction Hts as [|c t cs ts Hc Hts IHts]; intros bs HF; inversion HF; subst; constructor.
    + eapply (Forall_inv IH); [exact (Forall_inv HK)|exact Hc|assumption].
    + apply IHts; [exact (Forall_inv_tail IH)|exact (Forall_inv_tail HK)|assumption].
  - apply obind_Some in HT as (i & Hi & HT). apply obind_Some in HT as (t & Ht & HT). injection HT as <-.
    cases Hb. destruct Hb as (s & j & t' & c' & a & m & Ha & Hs & Hc & [Hn Hm] & ->). injection Ha as <- <- <-.
    apply str_only in Hn as <-. constructor; [exact (strategy_texts _ _ _ _ Hi Hs)| |exact Hm]. eapply IH; eauto.
  - discriminate.
Qed.
Lemma describes_ctype t : forall b, desc t b -> exists T, ctype gv t = Some T /\ pbt T b.
Proof.
  induction t as [k|k d|i k|k|cs bl l IH|c n bl l IH|n cs] using tree_rec'; intros b H; inversion H; subst; cbn [ctype].
  - eexists. split; [reflexivity|]. eapply TLagrange; eauto; try lia. split; [apply str_number|lia].
  - eexists. split; [reflexivity|]. eapply (TNedelec _ _ _ _ _ _ (Z.to_nat i)); [|split; [apply str_number|lia]|rewrite Z2Nat.id by lia; eassumption].
    split; rewrite Z2Nat.id by lia; [apply str_number|lia].
  - eexists. split; [reflexivity|]. eapply TRaviartThomas; eauto. split; [apply str_number|lia].
  - match goal with HS : strategy _ _ _ |- _ => destruct (strategy_text _ _ _ HS) as (s & Hs & HP) end.
    assert (HT : exists ts, sequence (map (ctype gv) cs) = Some ts /\ Forall2 pbt ts bs /\ length ts = length cs).
    { match goal with HF : Forall2 _ cs bs |- _ => clear -HF IH; induction HF as [|c x cs bs Hc HF IHF] end.
      - exists []. repeat constructor.
      - destruct (Forall_inv IH _ Hc) as (t & Ht & Hx). destruct (IHF (Forall_inv_tail IH)) as (ts & Hts & HFx & HL).
        exists (t :: ts). cbn. rewrite Ht. cbn. rewrite Hts. repeat split; [now constructor|cbn; congruence]. }
    destruct HT as (ts & Hts & HF & HL). rewrite Hs, Hts. cbn. eexists. split; [reflexivity|]. apply TComposite; auto.
    + now apply composite_as_power.
    + destruct ts; [destruct cs; [congruence|discriminate]|discriminate].
  - match goal with HS : strategy _ _ _ |- _ => destruct (strategy_text _ _ _ HS) as (s & Hs & HP) end.
    match goal with Hc : desc c _ |- _ => destruct (IH _ Hc) as (t & Ht & Hx) end. rewrite Hs, Ht. cbn. eexists. split; [reflexivity|].
    apply TPower; auto. split; [apply str_number|assumption].
Qed.

(** Every tree that describes a basis gets the name of a type that stands for it. *)
Theorem C87_described_bases_are_built t b : desc t b ->
  exists s T, globalBasisTypeName t gvname = Some s /\ is_type s T /\ bt T b [].
Proof.
  intros H. destruct (describes_ctype t b H) as (T & HT & Hb). pose proof (name_type gvname gv Hgv t (describes_constructed t b H)) as HN.
  rewrite HT in HN. unfold globalBasisTypeName. destruct (preBasisTypeName t gvname) as [s|]; [|destruct HN]. cbn.
  eexists. exists (Template "Dune::Functions::DefaultGlobalBasis" [T]). split; [reflexivity|]. split; [|now constructor].
  cbn in HN. apply is_type_T in HN. unfold is_type.
  match goal with |- tokens [] (LA ?x) = _ => change (PyTree_proofs.T ("Dune::Functions::DefaultGlobalBasis< " ++ s ++ " >") = written (Template "Dune::Functions::DefaultGlobalBasis" [T])) end.
  rewrite T_app by (first [left; reflexivity|right; reflexivity]). rewrite T_app by (first [left; reflexivity|right; reflexivity]).
  rewrite HN. reflexivity.
Qed.
(** And no other tree does: the basis that is built is the one that was described. *)
Theorem C87_only_described_bases_are_built t s T b p : constructed t ->
  globalBasisTypeName t gvname = Some s -> is_type s T -> bt T b p -> p = [] /\ desc t b.
Proof.
  intros HK Hs HT Hb. unfold globalBasisTypeName in Hs. apply obind_Some in Hs as (x & Hx & Hs). injection Hs as Hs.
  pose proof (name_type gvname gv Hgv t HK) as HN. rewrite Hx in HN. destruct (ctype gv t) as [U|] eqn:EU; [|destruct HN]. cbn in HN.
  assert (HTU : is_type s (Template "Dune::Functions::DefaultGlobalBasis" [U])).
  { unfold is_type. rewrite <- Hs. change (PyTree_proofs.T ("Dune::Functions::DefaultGlobalBasis< " ++ x ++ " >") = written (Template "Dune::Functions::DefaultGlobalBasis" [U])).
    rewrite T_app by (first [left; reflexivity|right; reflexivity]). rewrite T_app by (first [left; reflexivity|right; reflexivity]).
    rewrite (is_type_T _ _ HN). reflexivity. }
  rewrite (C87_texts_are_unambiguous s T _ HT HTU) in Hb. inversion Hb; subst. split; auto. eapply ctype_describes; eauto.
Qed.

(** Python raises an exception exactly for trees with unsupported parts. *)
Theorem C87_exceptions t : globalBasisTypeName t gvname = None <-> unsupported t.
Proof.
  assert (HO : globalBasisTypeName t gvname = None <-> preBasisTypeName t gvname = None).
  { unfold globalBasisTypeName. destruct (preBasisTypeName t gvname); cbn; split; congruence. }
  rewrite HO. clear HO.
  assert (HI : forall b l, indexMergingStrategy b l = None <-> l <> "lexicographic" /\ l <> "interleaved").
  { intros b l. unfold indexMergingStrategy, duneFunctionsLayouts.
    destruct (String.eqb_spec l "lexicographic") as [->|H1]; [cbn; split; [discriminate|intros [H _]; congruence]|].
    destruct (String.eqb_spec l "interleaved") as [->|H2]; [cbn; split; [discriminate|intros [_ H]; congruence]|]. cbn. split; auto. }
  induction t as [k|k d|i k|k|cs bl l IH|c n bl l IH|n cs] using tree_rec'; cbn [preBasisTypeName].
  - split; [discriminate|intros H; inversion H].
  - split; [constructor|auto].
  - split; [discriminate|intros H; inversion H].
  - split; [discriminate|intros H; inversion H].
  - assert (HS : sequence (map (fun c => preBasisTypeName c gvname) cs) = None <-> exists c, In c cs /\ unsupported c).
    { clear -IH. induction IH as [|c cs Hc HF IHF]; cbn.
      - split; [discriminate|intros (c & [] & _)].
      - destruct (preBasisTypeName c gvname) as [s|] eqn:Ec; cbn.
        + destruct (sequence (map (fun c => preBasisTypeName c gvname) cs)) as [r|] eqn:Er; cbn.
          * split; [discriminate|]. intros (x & [<-|Hx] & Hu); [apply Hc in Hu; discriminate|].
            enough (Some r = None) by discriminate. apply IHF. eauto.
          * split; auto. intros _. destruct (proj1 IHF eq_refl) as (x & Hx & Hu). eauto.
        + split; auto. intros _. exists c. split; auto. now apply Hc. }
    split.
    + destruct (indexMergingStrategy bl l) as [i|] eqn:Ei; cbn.
      * destruct (sequence (map (fun c => preBasisTypeName c gvname) cs)) as [r|] eqn:Er; [discriminate|].
        intros _. destruct (proj1 HS eq_refl) as (c & Hc & Hu). eapply UChild; eauto.
      * intros _. apply HI in Ei as [H1 H2]. now constructor.
    + intros H. inversion H; subst.
      * assert (indexMergingStrategy bl l = None) as -> by (apply HI; auto). reflexivity.
      * destruct (indexMergingStrategy bl l); [|reflexivity]. cbn. assert (sequence (map (fun c => preBasisTypeName c gvname) cs) = None) as ->; [|reflexivity]. apply HS. eauto.
  - split.
    + destruct (indexMergingStrategy bl l) as [i|] eqn:Ei; cbn.
      * destruct (preBasisTypeName c gvname); [discriminate|]. intros _. apply UPowerChild. now apply IH.
      * intros _. apply HI in Ei as [H1 H2]. now constructor.
    + intros H. inversion H; subst.
      * assert (indexMergingStrategy bl l = None) as -> by (apply HI; auto). reflexivity.
      * destruct (indexMergingStrategy bl l); [|reflexivity]. cbn. assert (preBasisTypeName c gvname = None) as ->; [|reflexivity]. now apply IH.
  - split; [constructor|auto].
Qed.

(** Different trees get different types, so the basis of one is never used for the
    other. *)
Theorem C87_different_trees_different_types t t' s : constructed t -> constructed t' ->
  globalBasisTypeName t gvname = Some s -> globalBasisTypeName t' gvname = Some s -> t = t'.
Proof.
  intros HK HK' Hs Hs'. unfold globalBasisTypeName in *. apply obind_Some in Hs as (x & Hx & Hs), Hs' as (x' & Hx' & Hs'). injection Hs as Hs. injection Hs' as Hs'.
  pose proof (name_type gvname gv Hgv t HK) as HN. rewrite Hx in HN. destruct (ctype gv t) as [U|] eqn:EU; [|destruct HN]. cbn in HN.
  pose proof (name_type gvname gv Hgv t' HK') as HN'. rewrite Hx' in HN'. destruct (ctype gv t') as [U'|] eqn:EU'; [|destruct HN']. cbn in HN'.
  assert (HUU : U = U').
  { assert (HT : forall x U, is_type x U -> PyTree_proofs.T ("Dune::Functions::DefaultGlobalBasis< " ++ x ++ " >") = written (Template "Dune::Functions::DefaultGlobalBasis" [U])).
    { intros y V HV. rewrite T_app by (first [left; reflexivity|right; reflexivity]). rewrite T_app by (first [left; reflexivity|right; reflexivity]).
      rewrite (is_type_T _ _ HV). reflexivity. }
    pose proof (HT x U HN) as H1. pose proof (HT x' U' HN') as H2.
    assert (Hxx : "Dune::Functions::DefaultGlobalBasis< " ++ x ++ " >" = "Dune::Functions::DefaultGlobalBasis< " ++ x' ++ " >") by (cbn; rewrite Hs, Hs'; reflexivity).
    rewrite Hxx, H2 in H1. apply written_inj in H1. now injection H1. }
  subst U'. clear Hs Hs' Hx Hx' HN HN' x x' s.
  assert (HI : forall b l b' l' i, indexMergingStrategy b l = Some i -> indexMergingStrategy b' l' = Some i -> b = b' /\ l = l').
  { unfold indexMergingStrategy, duneFunctionsLayouts. intros b l b' l' i H H'. apply obind_Some in H as (y & Hy & H), H' as (y' & Hy' & H'). injection H as H. injection H' as H'. subst i.
    destruct (String.eqb_spec l "lexicographic"), (String.eqb_spec l' "lexicographic");
      [|destruct (String.eqb_spec l' "interleaved"); [|discriminate]|destruct (String.eqb_spec l "interleaved"); [|discriminate]|
       destruct (String.eqb_spec l "interleaved"), (String.eqb_spec l' "interleaved"); try discriminate];
      injection Hy as <-; injection Hy' as <-; destruct b, b'; try discriminate; subst; auto. }
  revert t' U HK HK' EU EU'. induction t as [k|k d|i k|k|cs bl l IH|c n bl l IH|n cs] using tree_rec';
    intros t' U HK HK' EU EU'; cbn in EU; apply constructed_parts in HK; apply constructed_parts in HK'; try discriminate.
  - injection EU as <-. destruct t'; cbn in EU'; try discriminate;
      repeat match goal with H : obind _ _ = Some _ |- _ => apply obind_Some in H as (? & ? & H) end; try discriminate EU'.
    injection EU' as Hk. apply str_inj in Hk. congruence.
  - injection EU as <-. destruct t'; cbn in EU'; try discriminate;
      repeat match goal with H : obind _ _ = Some _ |- _ => apply obind_Some in H as (? & ? & H) end; try discriminate EU'.
    injection EU' as Hi Hk. apply str_inj in Hi, Hk. congruence.
  - injection EU as <-. destruct t'; cbn in EU'; try discriminate;
      repeat match goal with H : obind _ _ = Some _ |- _ => apply obind_Some in H as (? & ? & H) end; try discriminate EU'.
    injection EU' as Hk. apply str_inj in Hk. congruence.
  - apply obind_Some in EU as (i & Hi & EU). apply obind_Some in EU as (ts & Hts & EU). injection EU as <-.
    destruct t' as [k'|k' d'|i' k'|k'|cs' bl' l'|c' n' bl' l'|n' cs']; cbn in EU'; try discriminate;
      repeat match goal with H : obind _ _ = Some _ |- _ => apply obind_Some in H as (? & ? & H) end; try discriminate EU'.
    injection EU' as -> ->. destruct (HI _ _ _ _ _ Hi H) as [-> ->]. f_equal. apply sequence_map in Hts, H0. destruct HK as [_ HK], HK' as [_ HK'].
    clear Hi H. revert cs' H0 HK'. induction Hts as [|c t cs ts Hc Hts IHts]; intros cs' H0 HK'; inversion H0; subst; [reflexivity|]. f_equal.
    + eapply (Forall_inv IH); [exact (Forall_inv HK)|exact (Forall_inv HK')|exact Hc|assumption].
    + apply IHts; [exact (Forall_inv_tail IH)|exact (Forall_inv_tail HK)|assumption|exact (Forall_inv_tail HK')].
  - apply obind_Some in EU as (i & Hi & EU). apply obind_Some in EU as (t & Ht & EU). injection EU as <-.
    destruct t' as [k'|k' d'|i' k'|k'|cs' bl' l'|c' n' bl' l'|n' cs']; cbn in EU'; try discriminate;
      repeat match goal with H : obind _ _ = Some _ |- _ => apply obind_Some in H as (? & ? & H) end; try discriminate EU'.
    injection EU' as -> -> Hn. apply str_inj in Hn as ->. destruct (HI _ _ _ _ _ Hi H) as [-> ->]. f_equal. eapply IH; eauto.
Qed.

(** A type stands for one basis. *)
Lemma prebasis_unique T : forall b b', pbt T b -> pbt T b' -> b = b'.
Proof.
  induction T as [w|w args IH] using cpp_rec'; intros b b' H H'; [inversion H|].
  apply pbt_name in H, H'.
  destruct H as [[-> H]|[[-> H]|[[-> H]|[[-> H]|[-> H]]]]]; destruct H' as [[Hw H']|[[Hw H']|[[Hw H']|[[Hw H']|[Hw H']]]]]; try discriminate Hw.
  - destruct H as (a & k & l & -> & [Hn _] & _ & Hl & ->), H' as (a' & k' & l' & Ha & [Hn' _] & _ & Hl' & ->). injection Ha as <-.
    rewrite (number_unique _ _ _ Hn Hn') in Hl. congruence.
  - destruct H as (a & c & i & k & l & -> & Hi & [Hn _] & Hl & ->), H' as (a' & c' & i' & k' & l' & Ha & Hi' & [Hn' _] & Hl' & ->). injection Ha as <- <-.
    rewrite (number_unique _ _ _ Hn Hn'), (size_unique _ _ _ Hi Hi') in Hl. congruence.
  - destruct H as (a & k & l & -> & [Hn _] & Hl & ->), H' as (a' & k' & l' & Ha & [Hn' _] & Hl' & ->). injection Ha as <-.
    rewrite (number_unique _ _ _ Hn Hn') in Hl. congruence.
  - destruct H as (s & i & ts & bs & -> & Hs & _ & HF & ->), H' as (s' & i' & ts' & bs' & Ha & Hs' & _ & HF' & ->). injection Ha as <- <-.
    assert (i = i') as <- by (destruct Hs; inversion Hs'; reflexivity). f_equal. apply Forall_inv_tail in IH. clear Hs Hs'.
    revert bs' HF'. induction HF as [|t x ts bs Ht HF IHF]; intros bs' HF'; inversion HF'; subst; [reflexivity|]. f_equal.
    + eapply (Forall_inv IH); eauto.
    + apply IHF; [exact (Forall_inv_tail IH)|assumption].
  - destruct H as (s & i & t & c & a & n & -> & Hs & Ht & Hn & ->), H' as (s' & i' & t' & c' & a' & n' & Ha & Hs' & Ht' & Hn' & ->). injection Ha as <- <- <-.
    assert (i = i') as <- by (destruct Hs; inversion Hs'; reflexivity). rewrite (size_unique _ _ _ Hn Hn'). f_equal.
    apply Forall_inv_tail, Forall_inv in IH. eapply IH; eauto.
Qed.
Theorem C87_types_stand_for_one_basis T b p b' p' : bt T b p -> bt T b' p' -> b = b' /\ p = p'.
Proof.
  intros H. revert b' p'. induction H as [t b Hb|t b p a q Hb IH Hq]; intros b' p' H'; inversion H'; subst.
  - split; auto. eapply prebasis_unique; eauto.
  - match goal with HB : bt t _ _ |- _ => destruct (IH _ _ HB) as [-> ->] end. split; auto. f_equal.
    match goal with HP : path_type a _ |- _ => rename HP into Hq' end.
    clear -Hq Hq'. destruct Hq as [args q HF]. inversion Hq' as [args' q' HF']; subst. clear Hq'. revert q0 HF'.
    induction HF as [|t i args q (x & -> & Hx) HF IHF]; intros q' HF'; inversion HF' as [|t' i' args' q'' (x' & Hxx & Hx') HF'']; subst; [reflexivity|].
    injection Hxx as <-. f_equal; [exact (size_unique _ _ _ Hx Hx')|auto].
Qed.

(** subspaceBasis(basis, i, j, ...) stands for the subspace at i, j, ... below the one that
    the basis stands for; so nested calls join the paths. *)
Theorem C87_subspace_bases name T b p q : is_type name T -> bt T b p -> Forall (fun i => (Z.of_nat i < 2 ^ 64)%Z) q ->
  exists U, is_type (subspaceTypeName name (map Z.of_nat q)) U /\ bt U b (p ++ q)%list /\
    forall U' b' p', is_type (subspaceTypeName name (map Z.of_nat q)) U' -> bt U' b' p' -> b' = b /\ p' = (p ++ q)%list.
Proof.
  intros HT Hb Hq.
  set (args := map (fun i => Template "Dune::index_constant" [Plain (str (Z.of_nat i))]) q).
  assert (HJ : PyTree_proofs.T (join "," (map (fun i => "Dune::index_constant<" ++ str i ++ ">") (map Z.of_nat q))) = with_commas (map written args)).
  { unfold args. clear Hq. induction q as [|i q IH]; [reflexivity|].
    assert (HI : PyTree_proofs.T ("Dune::index_constant<" ++ str (Z.of_nat i) ++ ">") = written (Template "Dune::index_constant" [Plain (str (Z.of_nat i))])).
    { rewrite T_app by (first [left; reflexivity|right; reflexivity]). rewrite T_app by (first [left; reflexivity|right; reflexivity]). rewrite T_str. reflexivity. }
    destruct q as [|i2 q]; [exact HI|]. cbn [map join with_commas]. cbn [map join with_commas] in IH.
    rewrite T_app by (first [left; reflexivity|right; reflexivity]). rewrite HI. f_equal.
    rewrite T_app by (first [left; reflexivity|right; reflexivity]). change (PyTree_proofs.T ",") with [Comma]. cbn [app]. f_equal. exact IH. }
  set (U := Template "Dune::Functions::SubspaceBasis" [T; Template "Dune::TypeTree::TreePath" args]).
  assert (HU : is_type (subspaceTypeName name (map Z.of_nat q)) U).
  { unfold is_type, subspaceTypeName, U. match goal with |- tokens [] (LA ?x) = _ => fold (PyTree_proofs.T x) end.
    rewrite T_app by (first [left; reflexivity|right; reflexivity]). rewrite T_app by (first [left; reflexivity|right; reflexivity]).
    rewrite T_app by (first [left; reflexivity|right; reflexivity]). rewrite T_app by (first [left; reflexivity|right; reflexivity]).
    rewrite T_app by (first [left; reflexivity|right; reflexivity]). rewrite T_app by (first [left; reflexivity|right; reflexivity]).
    rewrite HJ, (is_type_T _ _ HT). cbn. rewrite <- !app_assoc. cbn. rewrite <- !app_assoc. reflexivity. }
  assert (HB : bt U b (p ++ q)%list).
  { unfold U. constructor; auto. constructor. unfold args. clear -Hq. induction Hq as [|i q Hi Hq IH]; constructor; auto.
    eexists. split; [reflexivity|]. split; [apply str_number|exact Hi]. }
  exists U. split; auto. split; auto. intros U' b' p' HU' HB'. rewrite (C87_texts_are_unambiguous _ _ _ HU' HU) in HB'.
  destruct (C87_types_stand_for_one_basis _ _ _ _ _ HB HB') as [-> ->]. auto.
Qed.

(** Composites with layout "interleaved": there is a type, but it stands for no basis (the
    generated module does not compile). *)
Theorem C87_interleaved_composites_refuted : exists t s T, constructed t /\ ~ unsupported t /\
  globalBasisTypeName t gvname = Some s /\ is_type s T /\ forall b p, ~ bt T b p.
Proof.
  set (t := Composite [Lagrange 1; Lagrange 1] false "interleaved").
  assert (HK : constructed t).
  { apply (KComposite [Lagrange 1; Lagrange 1] None (Some "interleaved")); [repeat constructor|reflexivity]. }
  assert (HN : ~ unsupported t).
  { intros H. inversion H; subst; [congruence|]. match goal with H : In _ _ |- _ => destruct H as [<-|[<-|[]]] end;
      match goal with H : unsupported (Lagrange _) |- _ => inversion H end. }
  destruct (globalBasisTypeName t gvname) as [s|] eqn:Es; [|exfalso; apply HN; now apply (C87_exceptions t)].
  pose proof (name_type gvname gv Hgv t HK) as HX. unfold globalBasisTypeName in Es. apply obind_Some in Es as (x & Hx & Es). injection Es as Es.
  rewrite Hx in HX. destruct (ctype gv t) as [U|] eqn:EU; [|destruct HX]. cbn [corresponds] in HX.
  exists t, s, (Template "Dune::Functions::DefaultGlobalBasis" [U]). split; auto. split; auto. split; [unfold globalBasisTypeName; rewrite Hx; cbn; now rewrite Es|].
  assert (HTU : is_type s (Template "Dune::Functions::DefaultGlobalBasis" [U])).
  { unfold is_type. rewrite <- Es. change (PyTree_proofs.T ("Dune::Functions::DefaultGlobalBasis< " ++ x ++ " >") = written (Template "Dune::Functions::DefaultGlobalBasis" [U])).
    rewrite T_app by (first [left; reflexivity|right; reflexivity]). rewrite T_app by (first [left; reflexivity|right; reflexivity]).
    rewrite (is_type_T _ _ HX). reflexivity. }
  split; auto. intros b p Hb. inversion Hb; subst.
  match goal with HP : pbt U _ |- _ => pose proof (ctype_describes t U _ HK EU HP) as HD end.
  inversion HD; subst. match goal with HS : strategy _ _ (as_composite ?i) |- _ => destruct i; destruct HS; discriminate end.
Qed.
End Names.

(** The hypotheses are met: a mixed basis on some grid view, whose type has arguments. *)
Definition example_gv : cpp := Template "Dune::GridView" [Template "Dune::Grid" [Plain "2"; Plain "double"]].
Definition example_tree : tree := Composite [Power (Lagrange 2) 3 true "interleaved"; Nedelec 1 1; RaviartThomas 0] false "lexicographic".
Example C87_hypotheses_met (l : leaf nat) :
  is_type "Dune::GridView< Dune::Grid< 2, double > >" example_gv /\ constructed example_tree /\
  describes (fun _ => Some l) (fun _ _ => Some l) (fun _ => Some l) example_tree
    (BComposite CFlatLexicographic [BPower true 3 BlockedInterleaved (BLeaf l); BLeaf l; BLeaf l]) /\
  pow (Lagrange 1) 2 = Power (Lagrange 1) 2 false "lexicographic" /\
  mul (Lagrange 1) (Lagrange 0) = Some (Composite [Lagrange 1; Lagrange 0] false "lexicographic").
Proof.
  split; [reflexivity|]. split; [|split; [|split; reflexivity]].
  - apply (KComposite [Power (Lagrange 2) 3 true "interleaved"; Nedelec 1 1; RaviartThomas 0] None None); [|reflexivity].
    constructor; [apply (KPower (Lagrange 2) 3 (Some true) (Some "interleaved")); constructor|]. repeat constructor.
  - apply DComposite; [split; reflexivity|discriminate|]. constructor; [apply (DPower _ _ _ (Lagrange 2) 3); [split; reflexivity|constructor; [lia|reflexivity]|lia]|].
    constructor; [constructor; [lia|lia|reflexivity]|]. constructor; [constructor; [lia|reflexivity]|constructor].
Qed.

Print Assumptions C87_texts_are_unambiguous.
Print Assumptions C87_described_bases_are_built.
Print Assumptions C87_only_described_bases_are_built.
Print Assumptions C87_exceptions.
Print Assumptions C87_different_trees_different_types.
Print Assumptions C87_types_stand_for_one_basis.
Print Assumptions C87_subspace_bases.
Print Assumptions C87_interleaved_composites_refuted.
