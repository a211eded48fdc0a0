(** C35: numbering of B-spline bases. *)
From Coq Require Import List Arith Lia Reals Lra Bool Sorted.
From Verif Require Import Lib Basis_model Basis_spec BSpline_model BSpline_spec.
Import ListNotations.
Local Open Scope nat_scope.
#[local] Arguments Nat.ltb : simpl never.

(** * Mixed radix numbers *)

Lemma prod_cons n l : prod (n :: l) = n * prod l.
Proof.
  unfold prod. cbn [fold_left]. rewrite Nat.mul_1_l.
  enough (H : forall l a, fold_left Nat.mul l a = a * fold_left Nat.mul l 1) by apply H.
  clear. induction l as [|b l IH]; intros a; cbn [fold_left]; [lia|]. rewrite (IH (a * b)), (IH (1 * b)). lia.
Qed.
Lemma lexi_bound sizes ijk : Forall2 (fun n i => i < n) sizes ijk -> lexi sizes ijk < prod sizes.
Proof.
  induction 1 as [|n i ns is H F IH]; [cbn; lia|]. cbn [lexi]. rewrite prod_cons. nia.
Qed.
Lemma getIJK_lexi sizes ijk : Forall2 (fun n i => i < n) sizes ijk -> getIJK (lexi sizes ijk) sizes = ijk.
Proof.
  induction 1 as [|n i ns is H F IH]; [reflexivity|]. cbn [lexi getIJK].
  rewrite (Nat.mul_comm n), Nat.mod_add, Nat.div_add, Nat.mod_small, Nat.div_small by lia. cbn [Nat.add]. rewrite IH. reflexivity.
Qed.
Lemma lexi_getIJK sizes e : e < prod sizes -> lexi sizes (getIJK e sizes) = e /\ Forall2 (fun n i => i < n) sizes (getIJK e sizes).
Proof.
  revert e; induction sizes as [|n ns IH]; intros e H.
  - cbn in *. split; [lia|constructor].
  - rewrite prod_cons in H. assert (n <> 0) by nia. cbn [getIJK lexi].
    destruct (IH (e / n)) as [E F]; [apply Nat.div_lt_upper_bound; lia|]. rewrite E. split.
    + pose proof (Nat.div_mod e n ltac:(lia)). lia.
    + constructor; [apply Nat.mod_upper_bound; lia|exact F].
Qed.
Lemma lexi_inj sizes ijk ijk' : Forall2 (fun n i => i < n) sizes ijk -> Forall2 (fun n i => i < n) sizes ijk' ->
  lexi sizes ijk = lexi sizes ijk' -> ijk = ijk'.
Proof. intros F F' H. rewrite <- (getIJK_lexi _ _ F), <- (getIJK_lexi _ _ F'), H. reflexivity. Qed.
Lemma flatIndex_lexi sizes ijk : length sizes = length ijk -> flatIndex sizes ijk = lexi sizes ijk.
Proof.
  revert ijk; induction sizes as [|n ns IH]; intros ijk L; (destruct ijk as [|g gs]; try discriminate L); [reflexivity|].
  cbn [length] in L. destruct gs as [|g' gs].
  - destruct ns; [|discriminate L]. cbn. lia.
  - change (flatIndex (n :: ns) (g :: g' :: gs)) with (flatIndex ns (g' :: gs) * n + g).
    rewrite IH by lia. cbn [lexi]. lia.
Qed.

(** * Knot spans *)

Lemma nonempty_dec knots s : s + 1 < length knots ->
  exists a b, nth_error knots s = Some a /\ nth_error knots (s + 1) = Some b /\
    ((b < a + tol8)%R /\ ~ nonempty_span knots s \/ ~ (b < a + tol8)%R /\ nonempty_span knots s).
Proof.
  intros L. destruct (nth_error_lt_Some knots s ltac:(lia)) as (a & Ha). destruct (nth_error_lt_Some knots (s + 1) L) as (b & Hb).
  exists a, b. split; [exact Ha|]. split; [exact Hb|]. destruct (Rlt_dec b (a + tol8)) as [H|H]; [left|right].
  - split; [exact H|]. intros (a' & b' & Ha' & Hb' & Q). rewrite Ha in Ha'. rewrite Hb in Hb'. injection Ha' as <-. injection Hb' as <-.
    unfold tol8 in H. lra.
  - split; [exact H|]. exists a, b. split; [exact Ha|]. split; [exact Hb|]. unfold tol8 in H. lra.
Qed.
Lemma nonempty_range knots s : nonempty_span knots s -> s + 1 < length knots.
Proof. intros (a & b & _ & H & _). apply nth_error_Some. congruence. Qed.

Lemma skip_find knots fuel s s' : s <= s' < s + fuel -> nonempty_span knots s' -> (forall q, s <= q < s' -> ~ nonempty_span knots q) ->
  skip knots fuel s = Some s'.
Proof.
  revert s; induction fuel as [|fuel IH]; intros s H N Q; [lia|]. cbn [skip].
  pose proof (nonempty_range _ _ N) as R.
  destruct (nonempty_dec knots s ltac:(lia)) as (a & b & Ha & Hb & C). rewrite Ha, Hb. cbn [obind].
  destruct C as [[C NE]|[C NE]]; destruct (Rlt_dec b (a + tol8)) as [D|D]; try contradiction.
  - apply IH; [|exact N|intros q Hq; apply Q; lia].
    assert (s <> s') by (intros ->; contradiction). lia.
  - destruct (Nat.eq_dec s s') as [->|Hne]; [reflexivity|]. exfalso. apply (Q s); [lia|exact NE].
Qed.

Lemma forl_const {A} (f : A -> option A) k s st :
  forl (S k) s (fun _ => f) st = (x <- forl k s (fun _ => f) st ;; f x).
Proof.
  revert s st; induction k as [|k IH]; intros s st.
  - cbn. destruct (f st); reflexivity.
  - change (forl (S (S k)) s (fun _ => f) st) with (y <- f st ;; forl (S k) (s + 1) (fun _ => f) y).
    change (forl (S k) s (fun _ => f) st) with (y <- f st ;; forl k (s + 1) (fun _ => f) y).
    destruct (f st) as [y|]; [|reflexivity]. cbn [obind]. apply IH.
Qed.

Lemma sorted_nth l i j a b : StronglySorted lt l -> nth_error l i = Some a -> nth_error l j = Some b -> i < j -> a < b.
Proof.
  intros S. revert i j. induction S as [|x l S IH F]; intros i j Ha Hb L; [destruct i; discriminate|].
  destruct j as [|j]; [lia|]. cbn in Hb. destruct i as [|i].
  - cbn in Ha. injection Ha as ->. rewrite Forall_forall in F. apply F. eapply nth_error_In, Hb.
  - cbn in Ha. apply (IH i j Ha Hb). lia.
Qed.

Lemma bind1_span knots l j s : spans_of knots l -> nth_error l j = Some s -> bind1 knots j = Some s.
Proof.
  intros [SS I]. revert s. induction j as [|j IH]; intros s H.
  - unfold bind1. 
    assert (N : nonempty_span knots s) by (apply I; eapply nth_error_In, H).
    pose proof (nonempty_range _ _ N).
    rewrite (skip_find knots (length knots) 0 s); [reflexivity|lia|exact N|].
    intros q Hq Nq. apply I, In_nth_error in Nq as (i & Hi).
    destruct i as [|i]; [rewrite H in Hi; injection Hi; lia|].
    pose proof (sorted_nth l 0 (S i) s q SS H Hi ltac:(lia)). lia.
  - destruct (nth_error_lt_Some l j) as (s0 & H0); [assert (S j < length l) by (apply nth_error_Some; congruence); lia|].
    specialize (IH s0 H0). unfold bind1 in *. destruct (skip knots (length knots) 0) as [z|]; [|discriminate IH]. cbn [obind] in *.
    rewrite forl_const, IH. cbn [obind].
    assert (N : nonempty_span knots s) by (apply I; eapply nth_error_In, H).
    pose proof (nonempty_range _ _ N). pose proof (sorted_nth l j (S j) s0 s SS H0 H ltac:(lia)).
    apply skip_find; [lia|exact N|]. intros q Hq Nq. apply I, In_nth_error in Nq as (i & Hi).
    destruct (lt_eq_lt_dec i j) as [[C|C]|C].
    + pose proof (sorted_nth l i j q s0 SS Hi H0 C). lia.
    + subst i. rewrite H0 in Hi. injection Hi. lia.
    + destruct (Nat.eq_dec i (S j)) as [->|]; [rewrite H in Hi; injection Hi; lia|].
      pose proof (sorted_nth l (S j) i s q SS H Hi ltac:(lia)). lia.
Qed.
(** beyond the last element the code leaves the knot vector *)
Lemma skip_none knots fuel s : (forall q, s <= q -> ~ nonempty_span knots q) -> skip knots fuel s = None.
Proof.
  revert s; induction fuel as [|fuel IH]; intros s Q; [reflexivity|]. cbn [skip].
  destruct (nth_error knots s) as [a|] eqn:Ha; [|reflexivity]. destruct (nth_error knots (s + 1)) as [b|] eqn:Hb; [|reflexivity]. cbn [obind].
  destruct (Rlt_dec b (a + tol8)) as [D|D]; [apply IH; intros q Hq; apply Q; lia|]. exfalso. apply (Q s); [lia|].
  exists a, b. split; [exact Ha|]. split; [exact Hb|]. unfold tol8 in D. lra.
Qed.
Lemma bind1_last knots l : spans_of knots l -> bind1 knots (length l) = None.
Proof.
  intros H. assert (SP := H). destruct H as [SS I]. destruct (length l) as [|n] eqn:L.
  - unfold bind1. rewrite skip_none; [reflexivity|]. intros q _ N. apply I in N. destruct l; [exact N|discriminate L].
  - destruct (nth_error_lt_Some l n ltac:(lia)) as (s & Hs). pose proof (bind1_span knots l n s SP Hs) as B.
    unfold bind1 in *. destruct (skip knots (length knots) 0) as [z|]; [|reflexivity]. cbn [obind] in *. rewrite forl_const, B. cbn [obind].
    apply skip_none. intros q Hq N. apply I, In_nth_error in N as (i & Hi).
    assert (i < length l) by (apply nth_error_Some; congruence).
    destruct (Nat.eq_dec i n) as [->|]; [rewrite Hs in Hi; injection Hi; lia|].
    pose proof (sorted_nth l i n q s SS Hi Hs ltac:(lia)). lia.
Qed.

Lemma spans_unique knots l l' : spans_of knots l -> spans_of knots l' -> l = l'.
Proof.
  intros [S I] [S' I'].
  assert (Q : forall x, In x l <-> In x l') by (intros x; rewrite I, I'; reflexivity). clear I I'.
  revert l' S' Q; induction S as [|a l S IH F]; intros l' S' Q.
  - destruct l' as [|b l']; [reflexivity|]. exfalso. apply (Q b). left. reflexivity.
  - destruct S' as [|b l' S' F']; [exfalso; apply (Q a); left; reflexivity|].
    rewrite Forall_forall in F, F'.
    assert (a = b).
    { destruct (proj1 (Q a) (or_introl eq_refl)) as [E|I1]; [auto|]. destruct (proj2 (Q b) (or_introl eq_refl)) as [E|I2]; [auto|].
      specialize (F _ I2). specialize (F' _ I1). lia. }
    subst b. f_equal. apply IH; [exact S'|]. intros x. split; intros Hx.
    + destruct (proj1 (Q x) (or_intror Hx)) as [->|]; [specialize (F _ Hx); lia|assumption].
    + destruct (proj2 (Q x) (or_intror Hx)) as [->|]; [specialize (F' _ Hx); lia|assumption].
Qed.

(** * Local functions *)

Lemma fe_size_active d s j : d_order d + 2 <= length (d_knots d) -> s + 1 < length (d_knots d) ->
  (active d s j <-> exists l, l < fe_size d s /\ j = s - d_order d + l).
Proof.
  intros H1 H2. unfold active, fe_size, knots_size. set (p := d_order d) in *. set (K := length (d_knots d)) in *.
  destruct (Nat.ltb_spec s p), (Nat.ltb_spec (K - s - 2) p); split.
  all: try (intros [A B]; exists (j - (s - p)); lia).
  all: intros (l & L & ->); lia.
Qed.
Lemma fe_size_le d s : fe_size d s <= d_order d + 1.
Proof. unfold fe_size. destruct (_ <? _), (_ <? _); lia. Qed.

Lemma Forall2_combine_map {A B C} (P : C -> B -> Prop) (f : A -> C) l l' :
  Forall2 P (map f l) l' <-> Forall2 (fun a b => P (f a) b) l l'.
Proof.
  revert l'; induction l as [|a l IH]; intros l'; split; intros H; inversion H; subst; constructor; trivial; apply IH; trivial.
Qed.
Lemma Forall2_len {A B} (P : A -> B -> Prop) l l' : Forall2 P l l' -> length l = length l'.
Proof. induction 1; cbn; congruence. Qed.

Definition span_ok (d : dir) (s : nat) : Prop := d_order d + 2 <= length (d_knots d) /\ s + 1 < length (d_knots d).

Lemma bind_spans dirs e spans : element_spans dirs e spans -> bind dirs e = Some spans.
Proof.
  intros (ijk & -> & F & S). unfold bind. rewrite getIJK_lexi by (apply Forall2_combine_map; exact F). clear F.
  remember (combine dirs ijk) as q eqn:Eq. clear Eq. induction S as [|[d i] s q ss (l & Hl & Hs) S IH]; [reflexivity|].
  cbn [map_opt fst snd] in *. rewrite (bind1_span _ _ _ _ Hl Hs), IH. reflexivity.
Qed.

Lemma element_spans_ok dirs e spans : Forall dir_ok dirs -> element_spans dirs e spans ->
  Forall2 (fun d s => span_ok d s /\ nonempty_span (d_knots d) s) dirs spans.
Proof.
  intros D (ijk & _ & F & S). revert spans S. induction F as [|d i ds is Hi F IH]; intros spans S; inversion S as [|? s ? ss (l & Hl & Hs) S']; subst; constructor.
  - cbn [fst snd] in *. inversion D as [|? ? D1 D2]; subst. destruct Hl as [_ I].
    assert (N : nonempty_span (d_knots d) s) by (apply I; eapply nth_error_In, Hs).
    split; [|exact N]. split; [apply (do_size _ D1)|apply nonempty_range, N].
  - inversion D; subst. apply IH; trivial.
Qed.

(** existence: every element index belongs to a product of knot spans *)
Lemma element_exists dirs e : Forall dir_ok dirs -> e < prod (map d_elements dirs) -> exists spans, element_spans dirs e spans.
Proof.
  intros D H. destruct (lexi_getIJK _ _ H) as [E F]. set (ijk := getIJK e (map d_elements dirs)) in *. clearbody ijk.
  apply (proj1 (Forall2_combine_map (fun n i => i < n) _ _ _)) in F.
  enough (exists spans, Forall2 (fun di s => exists l, spans_of (d_knots (fst di)) l /\ nth_error l (snd di) = Some s) (combine dirs ijk) spans) as (spans & S).
  { exists spans, ijk. split; [symmetry; exact E|]. split; [exact F|exact S]. }
  clear E H. induction F as [|d i ds is Hi F IH]; [exists []; constructor|].
  inversion D as [|? ? D1 D2]; subst. destruct (IH D2) as (ss & S). destruct (do_spans _ D1) as (l & Hl & L).
  destruct (nth_error_lt_Some l i ltac:(lia)) as (s & Hs). exists (s :: ss). cbn [combine]. constructor; [|exact S].
  exists l. auto.
Qed.
(** every product of nonempty knot spans is an element *)
Lemma spans_element dirs spans : Forall dir_ok dirs -> Forall2 (fun d s => nonempty_span (d_knots d) s) dirs spans ->
  exists e, e < prod (map d_elements dirs) /\ element_spans dirs e spans.
Proof.
  intros D F.
  enough (exists ijk, Forall2 (fun d i => i < d_elements d) dirs ijk /\
     Forall2 (fun di s => exists l, spans_of (d_knots (fst di)) l /\ nth_error l (snd di) = Some s) (combine dirs ijk) spans) as (ijk & A & B).
  { exists (lexi (map d_elements dirs) ijk). split; [apply lexi_bound, Forall2_combine_map, A|]. exists ijk. auto. }
  induction F as [|d s ds ss N F IH]; [exists []; split; constructor|].
  inversion D as [|? ? D1 D2]; subst. destruct (IH D2) as (ijk & A & B). destruct (do_spans _ D1) as (l & Hl & L).
  assert (I := proj2 (proj2 Hl s) N). apply In_nth_error in I as (i & Hi). exists (i :: ijk). split.
  - constructor; [|exact A]. rewrite <- L. apply nth_error_Some. congruence.
  - cbn [combine]. constructor; [|exact B]. exists l. auto.
Qed.

(** the tuple of local function [i] *)
Lemma node_sizes_F dirs spans l : length dirs = length spans ->
  Forall2 (fun n i => i < n) (node_sizes dirs spans) l <->
  (length l = length dirs /\ forall k d s i, nth_error dirs k = Some d -> nth_error spans k = Some s -> nth_error l k = Some i -> i < fe_size d s).
Proof.
  unfold node_sizes. revert spans l. induction dirs as [|d ds IH]; intros spans l L; (destruct spans as [|s ss]; try discriminate L).
  - cbn. split; [intros H; inversion H; split; [reflexivity|intros [|]; discriminate]|intros [H _]; destruct l; [constructor|discriminate]].
  - cbn [length] in L. cbn [combine map fst snd]. split.
    + intros H. inversion H as [|? i ? is Hi F]; subst. apply IH in F as [Fl F]; [|lia]. split; [cbn [length]; lia|].
      intros [|k] d' s' i' A B C; cbn in A, B, C; [congruence|]. apply (F k); trivial.
    + intros [Hl H]. destruct l as [|i is]; [discriminate|]. constructor; [apply (H 0 d s i); reflexivity|]. apply IH; [lia|].
      cbn [length] in Hl. split; [lia|]. intros k d' s' i' A B C. apply (H (S k) d' s' i'); trivial.
Qed.

Definition globalIJK (dirs : list dir) (spans l : list nat) : list nat :=
  map (fun dsl => match dsl with (d, s, l) => (s - d_order d) + l end) (combine (combine dirs spans) l).

Lemma globalIJK_active dirs spans js : Forall2 span_ok dirs spans ->
  (Forall2 (fun ds j => active (fst ds) (snd ds) j) (combine dirs spans) js <->
   exists l, Forall2 (fun n i => i < n) (node_sizes dirs spans) l /\ js = globalIJK dirs spans l).
Proof.
  intros F. revert js. induction F as [|d s ds ss [H1 H2] F IH]; intros js; cbn [combine].
  - split; [intros H; inversion H; exists []; split; [constructor|reflexivity]|].
    intros (l & H & ->). inversion H. constructor.
  - unfold node_sizes. cbn [combine map fst snd]. fold (node_sizes ds ss). split.
    + intros H. inversion H as [|? j ? js' A B]; subst. apply IH in B as (l & Fl & ->).
      cbn [fst snd] in A. apply (fe_size_active d s j H1 H2) in A as (i & Hi & ->).
      exists (i :: l). split; [constructor; trivial|reflexivity].
    + intros (l & H & ->). inversion H as [|? i ? is Hi Fl]; subst. unfold globalIJK. cbn [combine map]. constructor.
      * cbn [fst snd]. apply fe_size_active; trivial. eauto.
      * apply IH. exists is. split; [exact Fl|reflexivity].
Qed.

Lemma globalIJK_length dirs spans l : length dirs = length spans -> length l = length dirs -> length (globalIJK dirs spans l) = length dirs.
Proof. intros H H'. unfold globalIJK. rewrite map_length, !combine_length. lia. Qed.
Lemma globalIJK_inj dirs spans l l' : length dirs = length spans -> length l = length dirs -> length l' = length dirs ->
  globalIJK dirs spans l = globalIJK dirs spans l' -> l = l'.
Proof.
  revert spans l l'; induction dirs as [|d ds IH]; intros spans l l' A B C; (destruct spans as [|s ss]; try discriminate A);
    (destruct l as [|i l]; try discriminate B); (destruct l' as [|i' l']; try discriminate C); [reflexivity|].
  cbn [length] in *. unfold globalIJK. cbn [combine map]. intros H. injection H as H1 H2.
  f_equal; [lia|]. apply (IH ss); trivial; lia.
Qed.

Lemma active_size dirs spans js : length dirs = length spans ->
  Forall2 (fun ds j => active (fst ds) (snd ds) j) (combine dirs spans) js -> Forall2 (fun n j => j < n) (map size1 dirs) js.
Proof.
  revert spans js; induction dirs as [|d ds IH]; intros spans js L F; (destruct spans as [|s ss]; try discriminate L); inversion F as [|? j ? js' A B]; subst.
  - constructor.
  - cbn [map]. cbn [length] in L. constructor; [|apply (IH ss); trivial; lia].
    cbn [fst snd] in A. unfold active in A. unfold size1, knots_size. lia.
Qed.

Lemma indices_nth dirs spans i : length dirs = length spans -> i < node_size dirs spans ->
  nth_error (indices dirs spans) i = Some (lexi (map size1 dirs) (globalIJK dirs spans (getIJK i (node_sizes dirs spans)))).
Proof.
  intros L H. unfold indices. rewrite nth_error_map_eq, nth_error_seq. destruct (Nat.ltb_spec i (node_size dirs spans)); [|lia].
  cbn [option_map Nat.add]. f_equal. unfold node_size in H. destruct (lexi_getIJK _ _ H) as [_ F].
  pose proof (Forall2_len _ _ _ F) as Lg. unfold node_sizes in Lg. rewrite map_length, combine_length in Lg.
  apply flatIndex_lexi. rewrite map_length. fold (globalIJK dirs spans (getIJK i (node_sizes dirs spans))).
  symmetry. apply globalIJK_length; [exact L|]. unfold node_sizes. lia.
Qed.

Lemma in_indices dirs spans n : Forall2 span_ok dirs spans ->
  (In n (indices dirs spans) <->
   exists js, Forall2 (fun ds j => active (fst ds) (snd ds) j) (combine dirs spans) js /\ n = lexi (map size1 dirs) js).
Proof.
  intros F. pose proof (Forall2_len _ _ _ F) as L. split.
  - intros I. apply In_nth_error in I as (i & Hi).
    assert (Li : i < node_size dirs spans).
    { assert (i < length (indices dirs spans)) by (apply nth_error_Some; congruence). unfold indices in H. rewrite map_length, seq_length in H. exact H. }
    rewrite (indices_nth dirs spans i L Li) in Hi. injection Hi as <-.
    eexists. split; [|reflexivity]. apply globalIJK_active; [exact F|]. eexists. split; [|reflexivity].
    apply (lexi_getIJK _ _ Li).
  - intros (js & A & ->). apply globalIJK_active in A as (l & Fl & ->); [|exact F].
    pose proof (lexi_bound _ _ Fl) as B. apply nth_error_In with (n := lexi (node_sizes dirs spans) l).
    rewrite indices_nth by trivial. rewrite getIJK_lexi by exact Fl. reflexivity.
Qed.

Lemma indices_nodup dirs spans : Forall2 span_ok dirs spans -> NoDup (indices dirs spans).
Proof.
  intros F. pose proof (Forall2_len _ _ _ F) as L. apply NoDup_nth_error. intros i j Hi H.
  assert (Li : i < node_size dirs spans) by (unfold indices in Hi; rewrite map_length, seq_length in Hi; exact Hi).
  assert (Lj : j < node_size dirs spans).
  { assert (j < length (indices dirs spans)) as Hj by (apply nth_error_Some; rewrite <- H; apply nth_error_Some; exact Hi).
    unfold indices in Hj. rewrite map_length, seq_length in Hj. exact Hj. }
  rewrite !indices_nth in H by trivial. injection H as H.
  destruct (lexi_getIJK _ _ Li) as [Ei Fi]. destruct (lexi_getIJK _ _ Lj) as [Ej Fj].
  assert (N : forall l, Forall2 (fun n i => i < n) (node_sizes dirs spans) l -> length l = length dirs).
  { intros l Fl. apply Forall2_len in Fl. unfold node_sizes in Fl. rewrite map_length, combine_length in Fl. lia. }
  apply lexi_inj in H.
  - apply globalIJK_inj in H; [|exact L|apply N, Fi|apply N, Fj]. rewrite <- Ei, <- Ej, H. reflexivity.
  - apply (active_size dirs spans); [exact L|]. apply globalIJK_active; [exact F|]. eauto.
  - apply (active_size dirs spans); [exact L|]. apply globalIJK_active; [exact F|]. eauto.
Qed.

(** * C35 *)

(** the elements of the grid, by index *)
Definition bs_els (dirs : list dir) (e : nat) : Prop := e < prod (map d_elements dirs).

Theorem C35_bspline_numbering : forall dirs,
  Forall dir_ok dirs ->
  let l := bspline_leaf dirs in
  leaf_ok (bs_els dirs) l /\
  (* distinct on an element *)
  (forall e, bs_els dirs e -> NoDup (lf_indices l e)) /\
  (* the indices of an element are those of the B-splines with that element in their support *)
  (forall e, bs_els dirs e -> exists spans, element_spans dirs e spans /\
     forall n, In n (lf_indices l e) <->
       exists js, Forall2 (fun ds j => active (fst ds) (snd ds) j) (combine dirs spans) js /\
         n = lexi (map (fun d => length (d_knots d) - d_order d - 1) dirs) js) /\
  lf_dim l = prod (map (fun d => length (d_knots d) - d_order d - 1) dirs).
Proof.
  intros dirs D l.
  assert (EL : forall e, bs_els dirs e -> exists spans, element_spans dirs e spans /\ bind dirs e = Some spans /\ Forall2 span_ok dirs spans).
  { intros e He. destruct (element_exists dirs e D He) as (spans & S). exists spans. split; [exact S|]. split; [apply bind_spans, S|].
    pose proof (element_spans_ok dirs e spans D S) as F. clear -F. induction F as [|? ? ? ? [A B] F IH]; constructor; trivial. }
  assert (IN : forall e, bs_els dirs e -> exists spans, element_spans dirs e spans /\ Forall2 span_ok dirs spans /\
     lf_indices l e = indices dirs spans /\ lf_fe l e = node_size dirs spans).
  { intros e He. destruct (EL e He) as (spans & S & B & F). exists spans. split; [exact S|]. split; [exact F|].
    cbn [l bspline_leaf lf_indices lf_fe]. rewrite B. auto. }
  split; [|split; [|split; [|reflexivity]]].
  - constructor.
    + intros e He. destruct (IN e He) as (spans & _ & _ & -> & ->). unfold indices. rewrite map_length, seq_length. reflexivity.
    + intros e He. destruct (IN e He) as (spans & _ & F & _ & ->). cbn [l bspline_leaf lf_maxnode]. unfold node_size, maxNodeSize, node_sizes.
      clear -F. induction F as [|d s ds ss H F IH]; [cbn; lia|]. cbn [combine map fst snd]. rewrite !prod_cons.
      apply Nat.mul_le_mono; [apply fe_size_le|exact IH].
    + intros e n He I. destruct (IN e He) as (spans & _ & F & E & _). rewrite E in I.
      apply (in_indices dirs spans n F) in I as (js & A & ->). cbn [l bspline_leaf lf_dim]. unfold dimension.
      apply lexi_bound. apply (active_size dirs spans); [apply (Forall2_len _ _ _ F)|exact A].
    + intros n Hn. cbn [l bspline_leaf lf_dim] in Hn. unfold dimension in Hn. destruct (lexi_getIJK _ _ Hn) as [E F].
      set (js := getIJK n (map size1 dirs)) in *. clearbody js.
      apply (proj1 (Forall2_combine_map (fun n i => i < n) _ _ _)) in F.
      assert (exists spans, Forall2 (fun d s => nonempty_span (d_knots d) s) dirs spans /\
         Forall2 (fun ds j => active (fst ds) (snd ds) j) (combine dirs spans) js) as (spans & N & A).
      { clear E Hn EL IN l. induction F as [|d j ds js Hj F IH]; [exists []; split; constructor|].
        inversion D as [|? ? D1 D2]; subst. destruct (IH D2) as (ss & N & A).
        destruct (do_support _ D1 j) as (s & Ns & As); [unfold size1, knots_size in Hj; lia|].
        exists (s :: ss). split; constructor; trivial. }
      destruct (spans_element dirs spans D N) as (e & He & S). exists e. split; [exact He|].
      destruct (EL e He) as (spans' & S' & B & F').
      rewrite (bind_spans dirs e spans S) in B. injection B as <-.
      cbn [l bspline_leaf lf_indices]. rewrite (bind_spans dirs e spans S). apply in_indices; [exact F'|]. exists js. auto.
  - intros e He. destruct (IN e He) as (spans & _ & F & -> & _). apply indices_nodup, F.
  - intros e He. destruct (IN e He) as (spans & S & F & E & _). exists spans. split; [exact S|]. intros n. rewrite E. apply in_indices, F.
Qed.
Print Assumptions C35_bspline_numbering.

(** * The constructors *)

Definition spaced (kv : list R) : Prop :=
  forall i a b, nth_error kv i = Some a -> nth_error kv (i + 1) = Some b -> (a + / 10 ^ 8 <= b)%R.

Lemma tol_pos : (0 < / 10 ^ 8)%R.
Proof. apply Rinv_0_lt_compat, pow_lt. lra. Qed.

Lemma last_nth_error (l : list R) : l <> [] -> nth_error l (length l - 1) = Some (last l 0%R).
Proof.
  induction l as [|a l IH]; intros H; [contradiction|]. destruct l as [|b l]; [reflexivity|].
  change (length (a :: b :: l) - 1) with (S (length l)). cbn [nth_error]. change (last (a :: b :: l) 0%R) with (last (b :: l) 0%R).
  rewrite <- IH by discriminate. cbn [length]. f_equal. lia.
Qed.

(** knot spans of an open knot vector: those of the given one, shifted *)
Lemma open_span kv k0 p s : nth_error kv 0 = Some k0 ->
  nonempty_span (repeat k0 p ++ kv ++ repeat (last kv 0%R) p) s <-> (p <= s /\ nonempty_span kv (s - p)).
Proof.
  intros H0. assert (Hne : kv <> []) by (intros ->; discriminate H0). pose proof (last_nth_error kv Hne) as HL.
  assert (LK : 0 < length kv) by (destruct kv; [contradiction|cbn; lia]). pose proof tol_pos as TP.
  assert (A : forall i, i < p -> nth_error (repeat k0 p ++ kv ++ repeat (last kv 0%R) p) i = Some k0).
  { intros i Hi. rewrite nth_error_app1 by (rewrite repeat_length; lia). rewrite nth_error_repeat_eq. destruct (Nat.ltb_spec i p); [reflexivity|lia]. }
  assert (B : forall i, p <= i < p + length kv -> nth_error (repeat k0 p ++ kv ++ repeat (last kv 0%R) p) i = nth_error kv (i - p)).
  { intros i Hi. rewrite nth_error_app2 by (rewrite repeat_length; lia). rewrite repeat_length. rewrite nth_error_app1 by lia. reflexivity. }
  assert (C : forall i, p + length kv <= i -> nth_error (repeat k0 p ++ kv ++ repeat (last kv 0%R) p) i =
     if i <? p + length kv + p then Some (last kv 0%R) else None).
  { intros i Hi. rewrite nth_error_app2 by (rewrite repeat_length; lia). rewrite repeat_length. rewrite nth_error_app2 by lia.
    rewrite nth_error_repeat_eq. destruct (Nat.ltb_spec (i - p - length kv) p), (Nat.ltb_spec i (p + length kv + p)); trivial; lia. }
  unfold nonempty_span. split.
  - intros (a & b & Ha & Hb & Q).
    destruct (Nat.lt_ge_cases s p) as [H|H].
    { exfalso. rewrite A in Ha by lia. injection Ha as <-. destruct (Nat.lt_ge_cases (s + 1) p) as [H'|H'].
      - rewrite A in Hb by lia. injection Hb as <-. lra.
      - rewrite B in Hb by lia. replace (s + 1 - p) with 0 in Hb by lia. rewrite H0 in Hb. injection Hb as <-. lra. }
    split; [exact H|]. destruct (Nat.lt_ge_cases (s + 1) (p + length kv)) as [H'|H'].
    { rewrite B in Ha, Hb by lia. exists a, b. split; [exact Ha|]. split; [|exact Q]. rewrite <- Hb. f_equal. lia. }
    exfalso. rewrite C in Hb by lia. destruct (s + 1 <? _); [|discriminate]. injection Hb as <-.
    destruct (Nat.lt_ge_cases s (p + length kv)) as [H2|H2].
    + rewrite B in Ha by lia. replace (s - p) with (length kv - 1) in Ha by lia. rewrite HL in Ha. injection Ha as <-. lra.
    + rewrite C in Ha by lia. destruct (s <? _); [|discriminate]. injection Ha as <-. lra.
  - intros [H (a & b & Ha & Hb & Q)]. exists a, b.
    assert (s - p + 1 < length kv) by (apply nth_error_Some; congruence).
    rewrite !B by lia. split; [exact Ha|]. split; [|exact Q]. rewrite <- Hb. f_equal. lia.
Qed.

Lemma sorted_seq a n : StronglySorted lt (seq a n).
Proof.
  revert a; induction n as [|n IH]; intros a; cbn; constructor; [apply IH|].
  apply Forall_forall. intros x H. apply in_seq in H. lia.
Qed.

Lemma spaced_span kv s : spaced kv -> (nonempty_span kv s <-> s + 1 < length kv).
Proof.
  intros H. split; [apply nonempty_range|]. intros L.
  destruct (nth_error_lt_Some kv s ltac:(lia)) as (a & Ha). destruct (nth_error_lt_Some kv (s + 1) L) as (b & Hb).
  exists a, b. eauto.
Qed.

(** A knot vector without repeated knots, opened or not, gives a basis matching the
    grid with one element per knot span. *)
Theorem C35_ctor_knots : forall kv p (makeOpen : bool),
  spaced kv -> 2 <= length kv -> (makeOpen = false -> p + 2 <= length kv) ->
  exists d, ctor_knots kv p makeOpen = Some d /\ d_order d = p /\ d_elements d = length kv - 1 /\ dir_ok d.
Proof.
  intros kv p o SP L HO. destruct kv as [|k0 kv']; [cbn in L; lia|]. set (kv := k0 :: kv') in *.
  eexists. split; [reflexivity|]. split; [reflexivity|]. split; [reflexivity|]. destruct o.
  - assert (Q : forall s, nonempty_span (repeat k0 p ++ kv ++ repeat (last kv 0%R) p) s <-> p <= s /\ s - p + 1 < length kv).
    { intros s. rewrite (open_span kv k0 p s eq_refl), (spaced_span kv _ SP). reflexivity. }
    assert (LL : length (repeat k0 p ++ kv ++ repeat (last kv 0%R) p) = p + length kv + p) by (rewrite !app_length, !repeat_length; lia).
    constructor; cbn [d_knots d_order d_elements].
    + exists (seq p (length kv - 1)). split; [|apply seq_length]. split; [apply sorted_seq|]. intros s. rewrite Q, in_seq. lia.
    + fold kv. rewrite LL. lia.
    + fold kv. unfold active. cbn [d_knots d_order]. rewrite LL. intros j Hj. exists (Nat.max j p). rewrite Q. lia.
  - specialize (HO eq_refl). rewrite app_nil_r. cbn [app]. fold kv.
    constructor; cbn [d_knots d_order d_elements].
    + exists (seq 0 (length kv - 1)). split; [|apply seq_length]. split; [apply sorted_seq|]. intros s. rewrite spaced_span, in_seq by exact SP. lia.
    + exact HO.
    + unfold active. cbn [d_knots d_order]. intros j Hj. exists j. rewrite spaced_span by exact SP. lia.
Qed.

(** The same for the constructor with a uniform grid. *)
Theorem C35_ctor_uniform : forall ll ur n p (makeOpen : bool),
  1 <= n -> (ll + INR n * / 10 ^ 8 <= ur)%R -> (makeOpen = false -> p + 1 <= n) ->
  let d := ctor_uniform ll ur n p makeOpen in
  d_order d = p /\ d_elements d = n /\ dir_ok d.
Proof.
  intros ll ur n p o Hn HR HO d. split; [reflexivity|]. split; [reflexivity|].
  set (kv := map (fun j => (ll + INR j * (ur - ll) / INR n)%R) (seq 0 (n + 1))).
  assert (Pn : (0 < INR n)%R) by (apply lt_0_INR; lia).
  assert (G : (/ 10 ^ 8 <= (ur - ll) / INR n)%R).
  { apply Rmult_le_reg_r with (INR n); [exact Pn|]. unfold Rdiv. rewrite (Rmult_assoc (ur - ll)), Rinv_l by lra. lra. }
  assert (E : forall i, nth_error kv i = if i <? n + 1 then Some (ll + INR i * (ur - ll) / INR n)%R else None).
  { intros i. unfold kv. rewrite nth_error_map_eq, nth_error_seq. destruct (i <? n + 1); reflexivity. }
  assert (LK : length kv = n + 1) by (unfold kv; rewrite map_length, seq_length; reflexivity).
  assert (SP : spaced kv).
  { intros i a b Ha Hb. rewrite E in Ha, Hb. destruct (Nat.ltb_spec i (n + 1)); [|discriminate].
    destruct (Nat.ltb_spec (i + 1) (n + 1)); [|discriminate]. injection Ha as <-. injection Hb as <-.
    rewrite plus_INR. change (INR 1) with 1%R. unfold Rdiv in *. rewrite !Rmult_assoc. lra. }
  destruct (C35_ctor_knots kv p o SP ltac:(lia)) as (d' & Hd & _ & _ & OK); [intros Ho; specialize (HO Ho); lia|].
  enough (d = d') as -> by exact OK.
  assert (E0 : nth_error kv 0 = Some ll).
  { rewrite E. destruct (Nat.ltb_spec 0 (n + 1)); [|lia]. f_equal. cbn [INR]. unfold Rdiv. ring. }
  assert (EL : last kv 0%R = ur).
  { pose proof (last_nth_error kv) as H. rewrite LK, E in H. replace (n + 1 - 1) with n in H by lia.
    destruct (Nat.ltb_spec n (n + 1)); [|lia]. assert (kv <> []) as Hne by (intros Hq; rewrite Hq in LK; cbn in LK; lia).
    specialize (H Hne). injection H as H. rewrite <- H. field. lra. }
  unfold ctor_knots in Hd. destruct kv as [|k0 kv'] eqn:Hkv; [cbn in LK; lia|]. cbn [nth_error] in E0. injection E0 as ->.
  rewrite EL, LK in Hd. replace (n + 1 - 1) with n in Hd by lia. injection Hd as <-. unfold d, ctor_uniform. fold kv. rewrite Hkv. reflexivity.
Qed.

(** the non-empty spans of any knot vector *)
Definition spans_list (knots : list R) : list nat :=
  filter (fun s => match nth_error knots s, nth_error knots (s + 1) with
                   | Some a, Some b => if Rlt_dec b (a + tol8) then false else true
                   | _, _ => false end) (seq 0 (length knots)).
Lemma spans_list_ok knots : spans_of knots (spans_list knots).
Proof.
  unfold spans_list. split.
  - match goal with |- StronglySorted lt (filter ?f _) => generalize f end. intros f.
    generalize (length knots) 0. intros n. induction n as [|n IH]; intros a; cbn; [constructor|].
    destruct (f a); [|apply IH]. constructor; [apply IH|].
    apply Forall_forall. intros x Hx. apply filter_In in Hx as [Hx _]. apply in_seq in Hx. lia.
  - intros s. rewrite filter_In, in_seq. split.
    + intros [_ H]. destruct (nth_error knots s) as [a|] eqn:Ha; [|discriminate]. destruct (nth_error knots (s + 1)) as [b|] eqn:Hb; [|discriminate].
      destruct (Rlt_dec b (a + tol8)) as [|D]; [discriminate|]. exists a, b. unfold tol8 in D. repeat split; trivial. lra.
    + intros N. pose proof (nonempty_range _ _ N). split; [lia|]. destruct N as (a & b & Ha & Hb & Q). rewrite Ha, Hb.
      destruct (Rlt_dec b (a + tol8)) as [D|]; [|reflexivity]. unfold tol8 in D. lra.
Qed.

Lemma bind1_none_mono knots j k : j <= k -> bind1 knots j = None -> bind1 knots k = None.
Proof.
  intros L H. induction L as [|k L IH]; [exact H|]. unfold bind1 in *. destruct (skip knots (length knots) 0) as [z|]; [|reflexivity].
  cbn [obind] in *. rewrite forl_const, IH. reflexivity.
Qed.

(** Every valid knot vector has a grid?  No: with a repeated knot the constructor
    counts an element for the empty span, and binding to the last element of the
    grid it expects reads past the end of the knot vector. *)
Theorem C35_repeated_knot_refuted : forall kv p (makeOpen : bool) d i a b,
  ctor_knots kv p makeOpen = Some d ->
  nth_error kv i = Some a -> nth_error kv (i + 1) = Some b -> (b < a + / 10 ^ 8)%R ->
  exists e, e < d_elements d /\ bind [d] e = None.
Proof.
  intros kv p o d i a b Hd Ha Hb Q. assert (LK : i + 1 < length kv) by (apply nth_error_Some; congruence).
  destruct kv as [|k0 kv'] eqn:Hkv; [cbn in LK; lia|]. rewrite <- Hkv in *.
  assert (De : d_elements d = length kv - 1) by (rewrite Hkv in Hd; injection Hd as <-; rewrite Hkv; reflexivity).
  assert (D : exists q, forall s, nonempty_span (d_knots d) s -> q <= s /\ nonempty_span kv (s - q)).
  { assert (Hd' : d = DIR ((if o then repeat k0 p else []) ++ kv ++ (if o then repeat (last kv 0%R) p else [])) p (length kv - 1)).
    { rewrite Hkv in Hd |- *. unfold ctor_knots in Hd. congruence. }
    rewrite Hd'. cbn [d_knots]. destruct o.
    - exists p. intros s. apply open_span. rewrite Hkv. reflexivity.
    - exists 0. intros s. rewrite app_nil_r, Nat.sub_0_r. cbn [app]. intros H. split; [lia|exact H]. }
  destruct D as (q & D). exists (length kv - 2). split; [lia|].
  assert (N : bind1 (d_knots d) (length kv - 2) = None).
  { apply (bind1_none_mono _ (length (spans_list (d_knots d)))); [|apply bind1_last, spans_list_ok].
    pose proof (spans_list_ok (d_knots d)) as [SS I].
    assert (ND : NoDup ((q + i) :: spans_list (d_knots d))).
    { constructor.
      - intros H. apply I, D in H as [_ (a' & b' & Ha' & Hb' & Q')]. replace (q + i - q) with i in * by lia.
        rewrite Ha in Ha'. rewrite Hb in Hb'. injection Ha' as <-. injection Hb' as <-. lra.
      - clear -SS. induction SS as [|x l SS IH F]; constructor; [|exact IH]. intros H. rewrite Forall_forall in F. specialize (F _ H). lia. }
    pose proof (NoDup_incl_length ND (l' := seq q (length kv - 1))) as H. rewrite seq_length in H. cbn [length] in H.
    enough (S (length (spans_list (d_knots d))) <= length kv - 1) by lia. apply H.
    intros x [<-|Hx]; apply in_seq; [lia|]. apply I, D in Hx as [Hx N]. apply nonempty_range in N. lia. }
  unfold bind. cbn [map getIJK combine map_opt fst snd]. rewrite De, Nat.mod_small by lia. rewrite N. reflexivity.
Qed.

(** a 2-D basis of orders 2 and 1 on 2 x 3 elements *)
Example C35_ex :
  let dirs := [ctor_uniform 0 1 2 2 true; ctor_uniform 0 3 3 1 true] in
  Forall dir_ok dirs /\ prod (map d_elements dirs) = 6 /\ lf_dim (bspline_leaf dirs) = 16 /\
  lf_indices (bspline_leaf dirs) 3 = [5; 6; 7; 9; 10; 11].
Proof.
  intros dirs.
  assert (D : Forall dir_ok dirs).
  { constructor; [|constructor; [|constructor]]; apply C35_ctor_uniform; try lia; try discriminate; cbn [INR]; lra. }
  split; [exact D|]. split; [reflexivity|]. split; [reflexivity|].
  assert (S : element_spans dirs 3 [3; 2]).
  { exists [1; 1]. split; [reflexivity|]. split; [constructor; [|constructor; [|constructor]]; cbn; lia|].
    constructor; [|constructor; [|constructor]]; cbn [fst snd].
    - exists [2; 3]. split; [|reflexivity]. destruct (do_spans _ (Forall_inv D)) as (l & Hl & L).
      pose proof (spans_list_ok (d_knots (ctor_uniform 0 1 2 2 true))) as _.
      split; [repeat constructor|]. intros s.
      change (d_knots (ctor_uniform 0 1 2 2 true)) with
        (repeat 0 2 ++ [0 + INR 0 * (1 - 0) / INR 2; 0 + INR 1 * (1 - 0) / INR 2; 0 + INR 2 * (1 - 0) / INR 2] ++ repeat 1 2)%R.
      split.
      + intros [<-|[<-|[]]]; eexists; eexists; (split; [reflexivity|split; [reflexivity|cbn [INR]; lra]]).
      + intros N. pose proof (nonempty_range _ _ N) as R. destruct N as (a & b & Ha & Hb & Q). cbn [repeat app length] in R.
        do 6 (destruct s as [|s]; [cbn in Ha, Hb; injection Ha as <-; injection Hb as <-; cbn [INR] in Q; first [cbn; tauto|exfalso; lra]|]). lia.
    - exists [1; 2; 3]. split; [|reflexivity]. split; [repeat constructor|]. intros s.
      change (d_knots (ctor_uniform 0 3 3 1 true)) with
        (repeat 0 1 ++ [0 + INR 0 * (3 - 0) / INR 3; 0 + INR 1 * (3 - 0) / INR 3; 0 + INR 2 * (3 - 0) / INR 3; 0 + INR 3 * (3 - 0) / INR 3] ++ repeat 3 1)%R.
      split.
      + intros [<-|[<-|[<-|[]]]]; eexists; eexists; (split; [reflexivity|split; [reflexivity|cbn [INR]; lra]]).
      + intros N. pose proof (nonempty_range _ _ N) as R. destruct N as (a & b & Ha & Hb & Q). cbn [repeat app length] in R.
        do 5 (destruct s as [|s]; [cbn in Ha, Hb; injection Ha as <-; injection Hb as <-; cbn [INR] in Q; first [cbn; tauto|exfalso; lra]|]). lia. }
  change (lf_indices (bspline_leaf dirs) 3) with (match bind dirs 3 with Some spans => indices dirs spans | None => [] end).
  rewrite (bind_spans _ _ _ S). reflexivity.
Qed.

(** an interior knot given twice *)
Example C35_repeated_ex :
  exists d, ctor_knots [0; 1; 1; 2]%R 1 true = Some d /\ d_elements d = 3 /\ exists e, e < 3 /\ bind [d] e = None.
Proof.
  eexists. split; [reflexivity|]. split; [reflexivity|].
  exact (C35_repeated_knot_refuted [0; 1; 1; 2]%R 1 true _ 1 1%R 1%R eq_refl eq_refl eq_refl ltac:(lra)).
Qed.
Print Assumptions C35_ctor_knots.
Print Assumptions C35_ctor_uniform.
Print Assumptions C35_repeated_knot_refuted.
