(** Reading the type names made in Python. *)
From Coq Require Import String Ascii List ZArith Bool Lia DecimalString DecimalZ.
From Verif Require Import Lib Basis_model PyTree_model PyTree_spec.
Import ListNotations.
Local Open Scope string_scope.

(** * Texts *)
Notation LA := list_ascii_of_string.
Definition T (s : string) : list token := tokens [] (LA s).
Definition delimiter (c : ascii) : bool :=
  (c =? " ")%char || match punctuation c with Some _ => true | None => false end.
Definition starts (s : list ascii) : bool := match s with c :: _ => delimiter c | [] => false end.
Definition ends (s : list ascii) : bool := starts (rev s).

Lemma LA_app a b : LA (a ++ b) = (LA a ++ LA b)%list.
Proof. induction a as [|c a IH]; cbn; congruence. Qed.
Lemma tokens_delimiter a c b : forall w, delimiter c = true ->
  tokens w (a ++ c :: b)%list = (tokens w a ++ tokens [] (c :: b))%list.
Proof.
  induction a as [|d a IH]; intros w Hc.
  - cbn. unfold delimiter in Hc. destruct (c =? " ")%char; [reflexivity|]. cbn in Hc. destruct (punctuation c); [reflexivity|discriminate].
  - cbn. destruct (d =? " ")%char; [now rewrite IH, app_assoc|]. destruct (punctuation d) as [p|]; [|now rewrite IH].
    rewrite IH by auto. now rewrite <- app_assoc.
Qed.
Lemma T_app a b : starts (LA b) = true \/ ends (LA a) = true -> T (a ++ b) = (T a ++ T b)%list.
Proof.
  unfold T, ends. rewrite LA_app. intros [Eb|H].
  - destruct (LA b) as [|c r]; [discriminate|]. now apply tokens_delimiter.
  - destruct (rev (LA a)) as [|c r] eqn:Er; [discriminate|]. cbn in H.
    assert (HA : LA a = (rev r ++ [c])%list) by (rewrite <- (rev_involutive (LA a)), Er; reflexivity).
    rewrite HA, <- app_assoc. cbn [app]. rewrite !tokens_delimiter by auto. rewrite <- app_assoc. f_equal.
    cbn. unfold delimiter in H. destruct (c =? " ")%char; [reflexivity|]. cbn in H. destruct (punctuation c); [reflexivity|discriminate].
Qed.
Lemma tokens_plain s : forall w, forallb (fun c => negb (delimiter c)) s = true -> tokens w s = word (w ++ s).
Proof.
  induction s as [|c s IH]; intros w H; cbn in *; [now rewrite app_nil_r|].
  apply andb_true_iff in H as [Hc Hs]. unfold delimiter in Hc. destruct (c =? " ")%char; [discriminate|]. cbn in Hc.
  destruct (punctuation c); [discriminate|]. rewrite IH by auto. now rewrite <- app_assoc.
Qed.
Lemma T_word s : s <> "" -> forallb (fun c => negb (delimiter c)) (LA s) = true -> T s = [Word s].
Proof.
  intros Hn H. unfold T. rewrite tokens_plain by auto. cbn [app]. destruct s as [|c s]; [congruence|]. cbn.
  now rewrite string_of_list_ascii_of_string.
Qed.
Lemma str_plain k : str k <> "" /\ forallb (fun c => negb (delimiter c)) (LA (str k)) = true.
Proof.
  assert (HU : forall d, forallb (fun c => negb (delimiter c)) (LA (NilEmpty.string_of_uint d)) = true).
  { induction d; cbn; auto. }
  assert (HZ : forall d, forallb (fun c => negb (delimiter c)) (LA (NilZero.string_of_uint d)) = true).
  { intros d. unfold NilZero.string_of_uint. destruct d; try exact (HU _). reflexivity. }
  unfold str, NilZero.string_of_int. destruct (Z.to_int k) as [d|d].
  - split; auto. destruct d; cbn; discriminate.
  - split; [discriminate|]. cbn. apply HZ.
Qed.
Lemma T_str k : T (str k) = [Word (str k)].
Proof. destruct (str_plain k). now apply T_word. Qed.
Lemma Zto_int_nonnil k : Z.to_int k <> Decimal.Neg Decimal.Nil /\ Z.to_int k <> Decimal.Pos Decimal.Nil.
Proof.
  split; intros H; pose proof (DecimalZ.of_to k) as Hk.
  - rewrite H in Hk. cbn in Hk. subst k. discriminate.
  - rewrite H in Hk. cbn in Hk. subst k. discriminate.
Qed.
Lemma str_number k : is_number (Plain (str k)) k.
Proof.
  exists (str k), (Z.to_int k). split; auto. split; [|apply DecimalZ.of_to].
  unfold str. destruct (Zto_int_nonnil k). apply NilZero.isi; auto.
Qed.
Lemma str_only k n : is_number (Plain (str k)) n -> n = k.
Proof.
  intros (w & d & Hw & Hd & Hn). injection Hw as <-. unfold str in Hd. destruct (Zto_int_nonnil k).
  rewrite NilZero.isi in Hd by auto. injection Hd as <-. now rewrite DecimalZ.of_to in Hn.
Qed.
Lemma str_inj j k : str j = str k -> j = k.
Proof. intros H. pose proof (str_number j) as Hj. rewrite H in Hj. now apply str_only in Hj. Qed.

(** * Types *)
Section CppInd.
Variable P : cpp -> Prop.
Hypothesis HP : forall w, P (Plain w).
Hypothesis HT : forall w args, Forall P args -> P (Template w args).
Fixpoint cpp_rec' (t : cpp) : P t :=
  match t with
  | Plain w => HP w
  | Template w args => HT w args ((fix go l : Forall P l := match l with [] => Forall_nil _ | x :: r => Forall_cons _ (cpp_rec' x) (go r) end) args)
  end.
End CppInd.

Definition no_less (r : list token) : Prop := forall r', r <> Less :: r'.
Lemma written_prefix t : forall t' r r', no_less r -> no_less r' ->
  (written t ++ r)%list = (written t' ++ r')%list -> t = t' /\ r = r'.
Proof.
  induction t as [w|w args IH] using cpp_rec'; intros [w'|w' args'] r r' Hr Hr' H; cbn in H.
  - injection H as -> ->. auto.
  - injection H as -> ->. now destruct (Hr _ eq_refl).
  - injection H as -> H. subst r'. now destruct (Hr' _ eq_refl).
  - injection H as -> H. rewrite <- !app_assoc in H. cbn in H.
    assert (args = args' /\ r = r') as [-> ->]; [|auto]. clear Hr Hr'.
    revert args' H. induction IH as [|x l Hx HF IHl]; intros [|y l'] H; cbn in H.
    + injection H as ->. auto.
    + destruct y as [u|u a], l'; discriminate.
    + destruct x as [u|u a], l; discriminate.
    + destruct l as [|x2 l].
      * destruct l' as [|y2 l'].
        -- cbn in H. destruct (Hx y (Greater :: r) (Greater :: r')) as [-> HE]; [intros q; discriminate..|exact H|]. injection HE as ->. auto.
        -- cbn [map with_commas] in H. rewrite <- app_assoc in H. cbn [app] in H.
           destruct (Hx y (Greater :: r) (Comma :: with_commas (map written (y2 :: l')) ++ Greater :: r')%list) as [_ HE];
             [intros q; discriminate..|exact H|]. discriminate.
      * destruct l' as [|y2 l'].
        -- cbn [map with_commas] in H. rewrite <- app_assoc in H. cbn [app] in H.
           destruct (Hx y (Comma :: with_commas (map written (x2 :: l)) ++ Greater :: r)%list (Greater :: r')) as [_ HE];
             [intros q; discriminate..|exact H|]. discriminate.
        -- cbn [map with_commas] in H. rewrite <- !app_assoc in H. cbn [app] in H.
           destruct (Hx y (Comma :: with_commas (map written (x2 :: l)) ++ Greater :: r)%list
                          (Comma :: with_commas (map written (y2 :: l')) ++ Greater :: r')%list) as [-> HE];
             [intros q; discriminate..|exact H|].
           injection HE as HE. destruct (IHl (y2 :: l') HE) as [-> ->]. auto.
Qed.
Lemma written_inj t t' : written t = written t' -> t = t'.
Proof.
  intros H. destruct (written_prefix t t' [] []) as [E _]; [intros r; discriminate..|now rewrite H|exact E].
Qed.

(** * The type made from a tree *)
Section TreeInd.
Variable P : tree -> Prop.
Hypotheses (HL : forall k, P (Lagrange k)) (HD : forall k d, P (DG k d)) (HN : forall i k, P (Nedelec i k)) (HR : forall k, P (RaviartThomas k)).
Hypothesis HC : forall cs b l, Forall P cs -> P (Composite cs b l).
Hypothesis HW : forall c n b l, P c -> P (Power c n b l).
Hypothesis HO : forall n cs, P (OtherTree n cs).
Fixpoint tree_rec' (t : tree) : P t :=
  match t with
  | Lagrange k => HL k
  | DG k d => HD k d
  | Nedelec i k => HN i k
  | RaviartThomas k => HR k
  | Composite cs b l => HC cs b l ((fix go l : Forall P l := match l with [] => Forall_nil _ | x :: r => Forall_cons _ (tree_rec' x) (go r) end) cs)
  | Power c n b l => HW c n b l (tree_rec' c)
  | OtherTree n cs => HO n cs
  end.
End TreeInd.

Section Names.
Variables (gvname : string) (gv : cpp).
Hypothesis Hgv : is_type gvname gv.

Fixpoint ctype (t : tree) : option cpp :=
  match t with
  | Lagrange k => Some (Template "Dune::Functions::LagrangePreBasis" [gv; Plain (str k)])
  | DG _ _ => None
  | Nedelec i k => Some (Template "Dune::Functions::NedelecPreBasis" [gv; Plain "double"; Plain (str i); Plain (str k)])
  | RaviartThomas k => Some (Template "Dune::Functions::RaviartThomasPreBasis" [gv; Plain (str k)])
  | Composite cs b l =>
      i <- indexMergingStrategy b l ;; ts <- sequence (map ctype cs) ;;
      Some (Template "Dune::Functions::CompositePreBasis" (Plain i :: ts))
  | Power c n b l =>
      i <- indexMergingStrategy b l ;; t <- ctype c ;;
      Some (Template "Dune::Functions::PowerPreBasis" [Plain i; t; Plain (str n)])
  | OtherTree _ _ => None
  end.

Lemma strategy_word b l i : indexMergingStrategy b l = Some i -> T i = [Word i].
Proof.
  unfold indexMergingStrategy, duneFunctionsLayouts. intros H. apply obind_Some in H as (x & Hx & H). injection H as <-.
  destruct (l =? "lexicographic"); [injection Hx as <-; now destruct b|].
  destruct (l =? "interleaved"); [injection Hx as <-; now destruct b|discriminate].
Qed.
Definition corresponds (a : option string) (b : option cpp) : Prop :=
  match a, b with Some s, Some t => is_type s t | None, None => True | _, _ => False end.
Lemma T_join names ts : Forall2 is_type names ts -> T (join " , " names) = with_commas (map written ts).
Proof.
  intros HF. induction HF as [|s t names ts Hs HF IH]; [reflexivity|]. destruct HF as [|s2 t2 names ts Hs2 HF]; [exact Hs|].
  cbn [join map with_commas]. cbn [join map with_commas] in IH.
  rewrite T_app by (first [left; reflexivity|right; reflexivity]). rewrite T_app by (first [left; reflexivity|right; reflexivity]). unfold is_type in Hs. fold (T s) in Hs. rewrite Hs. f_equal.
  change (T " , ") with [Comma]. cbn [app]. f_equal. exact IH.
Qed.
Lemma constructed_parts t : constructed t ->
  match t with Composite cs _ _ => cs <> [] /\ Forall constructed cs | Power c _ _ _ => constructed c | _ => True end.
Proof.
  intros H. destruct H as [ | | | |cs b l t HF Ht| | ]; auto. unfold composite in Ht. destruct cs as [|c cs]; [discriminate|].
  injection Ht as <-. split; [discriminate|exact HF].
Qed.
Lemma name_type t : constructed t -> corresponds (preBasisTypeName t gvname) (ctype t).
Proof.
  unfold is_type in Hgv. fold (T gvname) in Hgv. induction t as [k|k d|i k|k|cs b l IH|c n b l IH|n cs] using tree_rec'; intros HK; apply constructed_parts in HK; cbn [preBasisTypeName ctype].
  - unfold corresponds, is_type. match goal with |- tokens [] (LA ?x) = _ => fold (T x) end.
    rewrite T_app by (first [left; reflexivity|right; reflexivity]). rewrite T_app by (first [left; reflexivity|right; reflexivity]). rewrite T_app by (first [left; reflexivity|right; reflexivity]). rewrite T_app by (first [left; reflexivity|right; reflexivity]).
    rewrite Hgv, T_str. cbn. rewrite <- app_assoc. reflexivity.
  - exact I.
  - unfold corresponds, is_type. match goal with |- tokens [] (LA ?x) = _ => fold (T x) end.
    rewrite T_app by (first [left; reflexivity|right; reflexivity]). rewrite T_app by (first [left; reflexivity|right; reflexivity]). rewrite T_app by (first [left; reflexivity|right; reflexivity]). rewrite T_app by (first [left; reflexivity|right; reflexivity]).
    rewrite T_app by (first [left; reflexivity|right; reflexivity]). rewrite T_app by (first [left; reflexivity|right; reflexivity]).
    rewrite Hgv, !T_str. cbn. rewrite <- app_assoc. reflexivity.
  - unfold corresponds, is_type. match goal with |- tokens [] (LA ?x) = _ => fold (T x) end.
    rewrite T_app by (first [left; reflexivity|right; reflexivity]). rewrite T_app by (first [left; reflexivity|right; reflexivity]). rewrite T_app by (first [left; reflexivity|right; reflexivity]). rewrite T_app by (first [left; reflexivity|right; reflexivity]).
    rewrite Hgv, T_str. cbn. rewrite <- app_assoc. reflexivity.
  - destruct (indexMergingStrategy b l) as [i|] eqn:Ei; [|exact I]. cbn [obind].
    assert (HS : match sequence (map (fun c => preBasisTypeName c gvname) cs), sequence (map ctype cs) with
                 | Some names, Some ts => Forall2 is_type names ts | None, None => True | _, _ => False end).
    { clear Ei. destruct HK as [_ HK]. induction IH as [|c cs Hc HF IHcs]; [constructor|]. cbn.
      specialize (Hc (Forall_inv HK)). specialize (IHcs (Forall_inv_tail HK)).
      destruct (preBasisTypeName c gvname) as [s|], (ctype c) as [t|]; cbn in Hc; try contradiction; [|exact I]. cbn.
      destruct (sequence (map (fun c => preBasisTypeName c gvname) cs)) as [ns|], (sequence (map ctype cs)) as [ts|];
        try contradiction; [|exact I]. now constructor. }
    assert (HL : match sequence (map ctype cs) with Some ts => length ts = length cs | None => True end).
    { clear. induction cs as [|c cs IH]; [reflexivity|]. cbn. destruct (ctype c); [|exact I]. cbn. destruct (sequence (map ctype cs)); [|exact I]. cbn. congruence. }
    destruct (sequence (map (fun c => preBasisTypeName c gvname) cs)) as [ns|], (sequence (map ctype cs)) as [ts|]; try contradiction; [|exact I].
    cbn [obind corresponds]. unfold is_type. match goal with |- tokens [] (LA ?x) = _ => fold (T x) end.
    rewrite T_app by (first [left; reflexivity|right; reflexivity]). rewrite T_app by (first [left; reflexivity|right; reflexivity]). rewrite T_app by (first [left; reflexivity|right; reflexivity]). rewrite T_app by (first [left; reflexivity|right; reflexivity]).
    rewrite (strategy_word _ _ _ Ei), (T_join _ _ HS). cbn [written map].
    destruct ts as [|t ts]; [destruct cs; [now destruct HK|discriminate]|]. reflexivity.
  - destruct (indexMergingStrategy b l) as [i|] eqn:Ei; [|exact I]. cbn [obind]. specialize (IH HK).
    destruct (preBasisTypeName c gvname) as [s|], (ctype c) as [t|]; cbn in IH; try contradiction; [|exact I].
    cbn [obind corresponds]. unfold is_type in *. fold (T s) in IH. match goal with |- tokens [] (LA ?x) = _ => fold (T x) end.
    rewrite T_app by (first [left; reflexivity|right; reflexivity]). rewrite T_app by (first [left; reflexivity|right; reflexivity]). rewrite T_app by (first [left; reflexivity|right; reflexivity]). rewrite T_app by (first [left; reflexivity|right; reflexivity]).
    rewrite T_app by (first [left; reflexivity|right; reflexivity]). rewrite T_app by (first [left; reflexivity|right; reflexivity]).
    rewrite (strategy_word _ _ _ Ei), IH, T_str. cbn. rewrite <- app_assoc. reflexivity.
  - exact I.
Qed.
End Names.
