(** C46 and C47: orientation bits select matching finite elements on both sides. *)
From Coq Require Import List Arith Bool NArith Lia.
From Verif Require Import Lib Basis_model Basis_proofs Basis_view Container_proofs DiscreteFunction_proofs
  Orientation_model Orientation_spec.
Import ListNotations.

#[local] Arguments Nat.ltb : simpl never.
#[local] Arguments Nat.eqb : simpl never.
#[local] Arguments Nat.pow : simpl never.
#[local] Arguments N.of_nat : simpl never.

(** * Bits *)
Definition addbit (w : N) (p : bool * nat) : N :=
  if fst p then N.lor w (N.shiftl 1 (N.of_nat (snd p))) else w.
Lemma addbits_test l : forall w i,
  N.testbit (fold_left addbit l w) (N.of_nat i) =
  N.testbit w (N.of_nat i) || existsb (fun p => fst p && (snd p =? i)) l.
Proof.
  induction l as [|[b f] l IH]; intros w i; cbn [fold_left existsb]; [now rewrite orb_false_r|].
  rewrite IH. unfold addbit. cbn [fst snd]. destruct b; cbn [andb orb]; auto.
  rewrite N.lor_spec, N.shiftl_1_l, N.pow2_bits_eqb, <- orb_assoc. f_equal. f_equal.
  destruct (Nat.eqb_spec f i) as [->|]; [apply N.eqb_refl|].
  apply N.eqb_neq. intros C. apply n. now apply Nnat.Nat2N.inj.
Qed.
Lemma lor_bound a n f : (a < 2 ^ N.of_nat n)%N -> f < n -> (N.lor a (N.shiftl 1 (N.of_nat f)) < 2 ^ N.of_nat n)%N.
Proof.
  intros H Hf.
  assert (P : (2 ^ N.of_nat n <> 0)%N) by (apply N.pow_nonzero; discriminate).
  apply N.div_small_iff; auto. rewrite <- N.shiftr_div_pow2, N.shiftr_lor.
  rewrite (N.shiftr_div_pow2 a), (proj2 (N.div_small_iff a _ P) H), N.shiftl_1_l, N.shiftr_div_pow2.
  rewrite (proj2 (N.div_small_iff (2 ^ N.of_nat f) _ P)); auto.
  apply N.pow_lt_mono_r; lia.
Qed.
Lemma addbits_bound n l : (forall p, In p l -> snd p < n) -> forall w, (w < 2 ^ N.of_nat n)%N ->
  (fold_left addbit l w < 2 ^ N.of_nat n)%N.
Proof.
  induction l as [|[b f] l IH]; intros H w Hw; cbn; auto.
  apply IH; [intros; apply H; now right|]. unfold addbit; cbn. destruct b; auto.
  apply lor_bound; auto. apply (H (true, f)). now left.
Qed.
Lemma pow_N n : N.to_nat (2 ^ N.of_nat n) = 2 ^ n.
Proof. rewrite Nnat.N2Nat.inj_pow, Nnat.Nat2N.id. reflexivity. Qed.

(** * Loops that change one cell *)
(** o' is o with cell c changed to w. *)
Definition cell {W} (c : nat) (w : W) (o o' : list W) : Prop :=
  length o' = length o /\ nth_error o' c = Some w /\ forall j, j <> c -> nth_error o' j = nth_error o j.
Lemma cell_upd {W} c (w : W) o : c < length o -> exists o', upd o c w = Some o' /\ cell c w o o'.
Proof.
  intros H. destruct (upd_Some o c w H) as (o' & U). exists o'. split; auto. split; [|split].
  - eapply upd_length; eauto.
  - rewrite (upd_nth_error _ _ _ _ c U), Nat.eqb_refl. reflexivity.
  - intros j Hj. rewrite (upd_nth_error _ _ _ _ j U). destruct (Nat.eqb_spec j c); congruence.
Qed.
Lemma cell_trans {W} c (w w' : W) o o1 o2 : cell c w o o1 -> cell c w' o1 o2 -> cell c w' o o2.
Proof.
  intros (L1 & N1 & H1) (L2 & N2 & H2). split; [congruence|]. split; auto.
  intros j Hj. rewrite H2, H1; auto.
Qed.
Lemma cell_lt {W} c (w : W) o o' : cell c w o o' -> c < length o'.
Proof. intros (_ & N1 & _). apply nth_error_Some. congruence. Qed.
Lemma cell_step {W} c (w : W) (f : W -> W) o o1 : cell c w o o1 ->
  exists o2, (w' <- nth_error o1 c ;; upd o1 c (f w')) = Some o2 /\ cell c (f w) o o2.
Proof.
  intros H. pose proof H as (_ & N1 & _). rewrite N1. cbn [obind].
  destruct (cell_upd c (f w) o1 (cell_lt _ _ _ _ H)) as (o2 & -> & C). exists o2. split; auto.
  eapply cell_trans; eauto.
Qed.

Lemma foreach_cells_P {E W} (P : W -> Prop) (idx : E -> nat) (code : E -> W) (body : E -> list W -> option (list W)) l :
  (forall e e', In e l -> In e' l -> idx e = idx e' -> e = e') -> (forall e, In e l -> P (code e)) ->
  forall o, (forall e, In e l -> idx e < length o) -> Forall P o ->
  (forall e o1, In e l -> length o1 = length o -> Forall P o1 -> exists o2, body e o1 = Some o2 /\ cell (idx e) (code e) o1 o2) ->
  exists o', foreach l body o = Some o' /\ length o' = length o /\
    (forall e, In e l -> nth_error o' (idx e) = Some (code e)) /\
    (forall j, (forall e, In e l -> j <> idx e) -> nth_error o' j = nth_error o j).
Proof.
  induction l as [|a l IH]; intros inj Pc o Hl Po Hb; cbn [foreach].
  - exists o. repeat split; auto. intros e [].
  - destruct (Hb a o (or_introl eq_refl) eq_refl Po) as (o1 & -> & L & N1 & H1). cbn [obind].
    destruct (IH (fun e e' A B => inj e e' (or_intror A) (or_intror B)) (fun e A => Pc e (or_intror A)) o1)
      as (o' & -> & L' & N' & H').
    { intros e He. rewrite L. apply Hl. now right. }
    { apply Forall_forall. intros w Hw. apply In_nth_error in Hw as (j & Hj).
      destruct (Nat.eq_dec j (idx a)) as [->|ne]; [rewrite N1 in Hj; injection Hj as <-; apply Pc; now left|].
      rewrite H1 in Hj by auto. eapply Forall_forall; [apply Po|]. eapply nth_error_In; eauto. }
    { intros e o2 He L2. apply Hb; [now right|congruence]. }
    exists o'. split; auto. split; [congruence|]. split.
    + intros e [<-|He]; auto.
      destruct (in_dec Nat.eq_dec (idx a) (map idx l)) as [i|n].
      * apply in_map_iff in i as (e & E1 & He). rewrite <- E1, (N' e He). f_equal. f_equal.
        apply inj; auto; [now right|now left].
      * rewrite H'; auto. intros e He C. apply n. rewrite C. now apply in_map.
    + intros j Hj. rewrite H', H1; auto; intros; apply Hj; [now left|now right].
Qed.
Lemma foreach_cells {E W} (idx : E -> nat) (code : E -> W) (body : E -> list W -> option (list W)) l :
  (forall e e', In e l -> In e' l -> idx e = idx e' -> e = e') ->
  forall o, (forall e, In e l -> idx e < length o) ->
  (forall e o1, In e l -> length o1 = length o -> exists o2, body e o1 = Some o2 /\ cell (idx e) (code e) o1 o2) ->
  exists o', foreach l body o = Some o' /\ length o' = length o /\
    (forall e, In e l -> nth_error o' (idx e) = Some (code e)) /\
    (forall j, (forall e, In e l -> j <> idx e) -> nth_error o' j = nth_error o j).
Proof.
  intros H o Ho Hb. apply (foreach_cells_P (fun _ => True)); auto.
  apply Forall_forall. auto.
Qed.

(** * Variants *)
Lemma fill_ok t off n (a : list (option fe)) : off + n <= length a ->
  exists a', fill t off n a = Some a' /\ length a' = length a /\
    forall j, nth_error a' j = if (off <=? j) && (j <? off + n) then Some (Some (FE t (j - off))) else nth_error a j.
Proof.
  intros H. unfold fill.
  destruct (forl_inv (fun i a' => length a' = length a /\ forall j, nth_error a' j =
     if (off <=? j) && (j <? off + i) then Some (Some (FE t (j - off))) else nth_error a j) n 0
     (fun i a => upd a (i + off) (Some (FE t i))) a) as (a' & F & L & P).
  - split; auto. intros j. destruct (Nat.leb_spec off j), (Nat.ltb_spec j (off + 0)); cbn; auto; lia.
  - intros i a1 Hi (L & P). destruct (upd_Some a1 (i + off) (Some (FE t i))) as (a2 & U); [lia|].
    exists a2. split; auto. split; [now rewrite (upd_length _ _ _ _ U)|].
    intros j. rewrite (upd_nth_error _ _ _ _ j U), P.
    destruct (Nat.eqb_spec j (i + off)) as [->|ne].
    + destruct (Nat.leb_spec off (i + off)), (Nat.ltb_spec (i + off) (off + (i + 1))); cbn; try lia.
      do 3 f_equal. lia.
    + destruct (Nat.leb_spec off j), (Nat.ltb_spec j (off + i)), (Nat.ltb_spec j (off + (i + 1))); cbn; auto; lia.
  - exists a'. auto.
Qed.

Ltac numN := repeat match goal with
  | |- context [N.of_nat ?x] => let y := eval vm_compute in (N.of_nat x) in progress change (N.of_nat x) with y
  | H : context [(2 ^ N.of_nat ?x)%N] |- _ =>
      let y := eval vm_compute in (2 ^ N.of_nat x)%N in progress change (2 ^ N.of_nat x)%N with y in H
  end.

Section Props.
Context {E : Type} (g : fgrid E).
Notation dim := (fg_dim g).
Hypothesis ok : fgrid_ok g.

Lemma facets_bound e : In e (fg_elements g) -> facets dim (fg_type g e) <= 6.
Proof.
  intros He. destruct (go_dim g ok) as [D|D]; rewrite D.
  - destruct (go_type g ok e He D) as [-> | ->]; cbn; lia.
  - destruct (fg_type g e); cbn; lia.
Qed.

Definition u8_small (n : N) : (n < 256)%N -> u8 n = n := N.mod_small n 256.
Lemma pow_le_N a b : a <= b -> (2 ^ N.of_nat a <= 2 ^ N.of_nat b)%N.
Proof. intros. apply N.pow_le_mono_r; lia. Qed.

(** The bit loop of one cell, for a test [tst] on intersections. *)
Lemma bit_loop (tst : inter E -> bool) (body : inter E -> list N -> option (list N)) c n l :
  n <= 6 -> (forall x, In x l -> i_face x < n) ->
  (forall x o, In x l -> body x o = if tst x then set_bit c (i_face x) o else Some o) ->
  forall w o o1, (w < 2 ^ N.of_nat n)%N -> cell c w o o1 ->
  exists o2, foreach l body o1 = Some o2 /\
    cell c (fold_left addbit (map (fun x => (tst x, i_face x)) l) w) o o2.
Proof.
  intros Hn. induction l as [|x l IH]; intros Hf Hb w o o1 Hw Hc; cbn [foreach map fold_left].
  - exists o1. auto.
  - rewrite Hb by now left.
    assert (W : (addbit w (tst x, i_face x) < 2 ^ N.of_nat n)%N).
    { unfold addbit; cbn. destruct (tst x); auto. apply lor_bound; auto. apply Hf. now left. }
    assert (T : exists o2, (if tst x then set_bit c (i_face x) o1 else Some o1) = Some o2 /\
                           cell c (addbit w (tst x, i_face x)) o o2).
    { destruct (tst x) eqn:T.
      - destruct (cell_step c w (fun w => u8 (N.lor w (N.shiftl 1 (N.of_nat (i_face x))))) o o1 Hc) as (o2 & S & C).
        exists o2. split; auto. rewrite u8_small in C; auto.
        eapply N.lt_le_trans; [apply W|]. apply (N.le_trans _ (2 ^ N.of_nat 6)); [now apply pow_le_N|].
        now vm_compute.
      - exists o1. auto. }
    destruct T as (o2 & -> & C2). cbn [obind].
    apply IH; auto; [intros; apply Hf|intros; apply Hb]; now right.
Qed.

(** * C46: Raviart-Thomas *)
Definition rt_up (e : E) (x : inter E) : bool :=
  i_neighbor x && match i_outside x with Some o => fg_contains g o && (fg_idx g e <? fg_idx g o) | None => false end.
Definition rt_bits (e : E) : N := fold_left addbit (map (fun x => (rt_up e x, i_face x)) (fg_inters g e)) 0%N.
Definition rt_off (fixed : option gtype) (t : gtype) : nat :=
  match fixed, t with
  | Some _, _ => 0
  | None, Simplex => 0
  | None, Cube => rt_num g Simplex
  | None, Pyramid => rt_num g Simplex + rt_num g Cube
  | None, Prism => rt_num g Simplex + rt_num g Cube + rt_num g Pyramid
  end.

Lemma rt_bits_bound e : In e (fg_elements g) -> (rt_bits e < 2 ^ N.of_nat (facets dim (fg_type g e)))%N.
Proof.
  intros He. apply addbits_bound.
  - intros p H. apply in_map_iff in H as (x & <- & Hx). cbn. eapply go_face; eauto.
  - apply N.neq_0_lt_0. now apply N.pow_nonzero.
Qed.
Lemma rt_code_bound fixed e : In e (fg_elements g) -> (rt_bits e + N.of_nat (rt_off fixed (fg_type g e)) < 256)%N.
Proof.
  intros He. pose proof (rt_bits_bound e He) as B. unfold rt_off, rt_num.
  destruct (go_dim g ok) as [D|D]; rewrite D in B |- *.
  - destruct (go_type g ok e He D) as [T | T]; rewrite T in *; destruct fixed; numN; lia.
  - destruct (fg_type g e), fixed; numN; lia.
Qed.
Lemma rt_cell_ok fixed e o : In e (fg_elements g) -> fg_idx g e < length o ->
  exists o', rt_cell g fixed e o = Some o' /\
    cell (fg_idx g e) (rt_bits e + N.of_nat (rt_off fixed (fg_type g e)))%N o o'.
Proof.
  intros He Hl. unfold rt_cell. destruct (cell_upd (fg_idx g e) 0%N o Hl) as (o1 & -> & C1). cbn [obind].
  destruct (bit_loop (rt_up e) (rt_inter g e) (fg_idx g e) (facets dim (fg_type g e)) (fg_inters g e))
    with (w := 0%N) (o := o) (o1 := o1) as (o2 & -> & C2); auto.
  { now apply facets_bound. }
  { intros x Hx. eapply go_face; eauto. }
  { intros x o2 Hx. unfold rt_inter, rt_test, rt_up. destruct (i_neighbor x) eqn:Nb; cbn; auto.
    destruct (go_nb g ok e x He Hx Nb) as (y & ->). reflexivity. }
  { apply N.neq_0_lt_0. now apply N.pow_nonzero. }
  cbn [obind]. fold (rt_bits e) in C2.
  pose proof (rt_code_bound fixed e He) as B.
  destruct fixed as [t|]; cbn [rt_off] in *.
  { exists o2. split; auto. now rewrite N.add_0_r. }
  unfold rt_offset. unfold add_off.
  assert (S : forall off, (rt_bits e + N.of_nat off < 256)%N -> exists o3,
     (w <- nth_error o2 (fg_idx g e) ;; upd o2 (fg_idx g e) (u8 (w + N.of_nat off))) = Some o3 /\
     cell (fg_idx g e) (rt_bits e + N.of_nat off)%N o o3).
  { intros off Ho. destruct (cell_step _ _ (fun w => u8 (w + N.of_nat off)) o o2 C2) as (o3 & S & C3).
    exists o3. split; auto. now rewrite u8_small in C3. }
  destruct (go_dim g ok) as [D|D]; rewrite D.
  - destruct (go_type g ok e He D) as [T | T]; rewrite T in *; cbn [gtype_eqb obind Nat.eqb].
    + exists o2. split; auto. now rewrite N.add_0_r.
    + destruct (S _ B) as (o3 & -> & C3). exists o3. auto.
  - destruct (fg_type g e); cbn [gtype_eqb obind Nat.eqb].
    + exists o2. split; auto. now rewrite N.add_0_r.
    + destruct (S _ B) as (o3 & -> & C3). exists o3. auto.
    + destruct (S _ B) as (o3 & -> & C3). exists o3. auto.
    + destruct (S _ B) as (o3 & -> & C3). exists o3. auto.
Qed.

Lemma rt_variants_ok fixed old : types_match g fixed -> exists v, rt_variants g fixed old = Some v /\
  forall e i, In e (fg_elements g) -> i < rt_num g (fg_type g e) ->
  nth_error v (rt_off fixed (fg_type g e) + i) = Some (Some (FE (fg_type g e) i)).
Proof.
  intros M. unfold rt_variants. destruct fixed as [t|].
  - destruct M as (M & T).
    destruct (fill_ok (fixed_class t) 0 (rt_num g t) (vresize old (rt_num g t) None)) as (v & -> & L & P).
    { now rewrite vresize_length. }
    exists v. split; auto. intros e i He Hi. rewrite (T e He) in *. cbn [rt_off]. rewrite P.
    destruct (Nat.ltb_spec (0 + i) (0 + rt_num g t)); [|lia].
    cbn. rewrite Nat.sub_0_r. destruct M as [-> | ->]; reflexivity.
  - clear M. cbn [obind].
    set (ns := rt_num g Simplex). set (nc := rt_num g Cube). set (ny := rt_num g Pyramid). set (nr := rt_num g Prism).
    destruct (fill_ok Simplex 0 ns (vresize old (ns + nc) None)) as (a1 & -> & L1 & P1).
    { rewrite vresize_length. lia. }
    rewrite vresize_length in L1. cbn [obind].
    destruct (fill_ok Cube ns nc a1) as (a2 & -> & L2 & P2); [lia|]. cbn [obind].
    assert (Q : forall i, (i < ns -> nth_error a2 i = Some (Some (FE Simplex i))) /\
                          (i < nc -> nth_error a2 (ns + i) = Some (Some (FE Cube i)))).
    { intros i. split; intros Hi.
      - rewrite P2, P1. destruct (Nat.leb_spec ns i); [lia|]. cbn [andb].
        destruct (Nat.ltb_spec i (0 + ns)); [|lia]. cbn [andb Nat.leb]. now rewrite Nat.sub_0_r.
      - rewrite P2. destruct (Nat.leb_spec ns (ns + i)), (Nat.ltb_spec (ns + i) (ns + nc)); try lia. cbn [andb].
        do 3 f_equal. lia. }
    destruct (go_dim g ok) as [D|D]; rewrite D; cbn [Nat.eqb].
    + exists a2. split; auto. intros e i He Hi. cbn [rt_off].
      destruct (go_type g ok e He D) as [T | T]; rewrite T in *; now apply Q.
    + destruct (fill_ok Pyramid (ns + nc) ny (vresize a2 (ns + nc + ny + nr) None)) as (a3 & -> & L3 & P3).
      { rewrite vresize_length. lia. }
      rewrite vresize_length in L3. cbn [obind].
      destruct (fill_ok Prism (ns + nc + ny) nr a3) as (a4 & -> & L4 & P4); [lia|].
      exists a4. split; auto. intros e i He Hi. cbn [rt_off]. rewrite P4, P3, vresize_nth.
      destruct (fg_type g e); fold ns nc ny nr in Hi |- *;
      repeat match goal with
      | |- context [?a <=? ?b] => destruct (Nat.leb_spec a b); try lia
      | |- context [?a <? ?b] => destruct (Nat.ltb_spec a b); try lia
      end; cbn [andb]; try (f_equal; apply nth_error_nth; now apply Q); do 3 f_equal; lia.
Qed.

(** Bits, in terms of the grid. *)
Lemma rt_bits_test e i : In e (fg_elements g) ->
  N.testbit (rt_bits e) (N.of_nat i) = true <-> exists o, neighbour_at g e i o /\ fg_idx g e < fg_idx g o.
Proof.
  intros He. unfold rt_bits. rewrite addbits_test, N.bits_0. cbn [orb]. rewrite existsb_exists. split.
  - intros (p & H & T). apply in_map_iff in H as (x & <- & Hx). cbn in T. unfold rt_up in T.
    apply andb_prop in T as (T & F). apply Nat.eqb_eq in F. apply andb_prop in T as (Nb & T).
    destruct (i_outside x) as [o|] eqn:O; [|discriminate]. apply andb_prop in T as (C & T). apply Nat.ltb_lt in T.
    exists o. split; auto. exists x. auto.
  - intros (o & (x & Hx & F & Nb & O & C) & T). exists (rt_up e x, i_face x). split; [now apply (in_map (fun x => (rt_up e x, i_face x)))|].
    cbn. unfold rt_up. rewrite Nb, O, C, F, Nat.eqb_refl. cbn. now rewrite (proj2 (Nat.ltb_lt _ _) T).
Qed.

Theorem C46_raviart_thomas fixed old : types_match g fixed ->
  exists m, rt_update g fixed old = Some m /\ forall e, In e (fg_elements g) ->
  exists n, fm_find g m e = Some (FE (fg_type g e) n) /\ n < 2 ^ facets dim (fg_type g e) /\
    forall i, bit n i = true <-> exists o, neighbour_at g e i o /\ fg_idx g e < fg_idx g o.
Proof.
  intros M. unfold rt_update. destruct (rt_variants_ok fixed (fm_variants old) M) as (v & -> & V). cbn [obind].
  destruct (foreach_cells (fg_idx g) (fun e => (rt_bits e + N.of_nat (rt_off fixed (fg_type g e)))%N)
     (rt_cell g fixed) (fg_elements g) (go_inj g ok) (vresize (fm_orient old) (fg_size g) 0%N))
     as (o & -> & L & C & _).
  { intros e He. rewrite vresize_length. now apply go_idx. }
  { intros e o1 He L. apply rt_cell_ok; auto. rewrite L, vresize_length. now apply go_idx. }
  cbn [obind]. exists (FM v o). split; auto. intros e He. exists (N.to_nat (rt_bits e)).
  pose proof (rt_bits_bound e He) as B.
  assert (B' : N.to_nat (rt_bits e) < 2 ^ facets dim (fg_type g e)) by (rewrite <- pow_N; lia).
  split; [|split; auto].
  - unfold fm_find. cbn [fm_orient fm_variants]. rewrite (C e He). cbn [obind].
    rewrite Nnat.N2Nat.inj_add, Nnat.Nat2N.id, Nat.add_comm, (V e _ He); auto.
  - intros i. unfold bit. rewrite Nnat.N2Nat.id. now apply rt_bits_test.
Qed.

(** Two different elements meeting in a conforming facet: exactly one of the two
    has the bit set, and facets without a neighbour have none. *)
Theorem C46_exactly_one_side fixed old m e e' i j n n' : types_match g fixed -> rt_update g fixed old = Some m ->
  In e (fg_elements g) -> In e' (fg_elements g) -> e <> e' ->
  neighbour_at g e i e' -> neighbour_at g e' j e -> conforming_at g e i -> conforming_at g e' j ->
  fm_find g m e = Some (FE (fg_type g e) n) -> fm_find g m e' = Some (FE (fg_type g e') n') ->
  bit n i = negb (bit n' j).
Proof.
  intros M U He He' ne H H' C C' F F'. destruct (C46_raviart_thomas fixed old M) as (m' & U' & P).
  rewrite U in U'. injection U' as <-.
  destruct (P e He) as (n1 & F1 & _ & B). rewrite F in F1. injection F1 as <-.
  destruct (P e' He') as (n2 & F2 & _ & B'). rewrite F' in F2. injection F2 as <-.
  assert (X : fg_idx g e <> fg_idx g e') by (intros X; apply ne; now apply (go_inj g ok)).
  destruct (Nat.lt_ge_cases (fg_idx g e) (fg_idx g e')) as [L|L].
  - rewrite (proj2 (B i)); [|exists e'; auto]. symmetry. apply negb_true_iff.
    destruct (bit n' j) eqn:Z; auto. apply B' in Z as (o & Ho & T). rewrite (C' o e Ho H') in T. lia.
  - rewrite (proj2 (B' j)); [|exists e; split; auto; lia].
    destruct (bit n i) eqn:Z; auto. apply B in Z as (o & Ho & T). rewrite (C o e' Ho H) in T. lia.
Qed.
Theorem C46_boundary_facets fixed old m e i n : types_match g fixed -> rt_update g fixed old = Some m ->
  In e (fg_elements g) -> (forall o, ~ neighbour_at g e i o) ->
  fm_find g m e = Some (FE (fg_type g e) n) -> bit n i = false.
Proof.
  intros M U He H F. destruct (C46_raviart_thomas fixed old M) as (m' & U' & P).
  rewrite U in U'. injection U' as <-.
  destruct (P e He) as (n1 & F1 & _ & B). rewrite F in F1. injection F1 as <-.
  destruct (bit n i) eqn:Z; auto. apply B in Z as (o & Ho & _). now apply H in Ho.
Qed.

(** An element that is its own neighbour through two different facets (a periodic
    grid, one element wide) gets neither bit. *)
Theorem C46_self_neighbour_refuted fixed old m e i j n : types_match g fixed -> rt_update g fixed old = Some m ->
  In e (fg_elements g) -> neighbour_at g e i e -> neighbour_at g e j e ->
  conforming_at g e i -> conforming_at g e j ->
  fm_find g m e = Some (FE (fg_type g e) n) -> bit n i = bit n j.
Proof.
  intros M U He H H' C C' F. destruct (C46_raviart_thomas fixed old M) as (m' & U' & P).
  rewrite U in U'. injection U' as <-.
  destruct (P e He) as (n1 & F1 & _ & B). rewrite F in F1. injection F1 as <-.
  transitivity false; [|symmetry].
  - destruct (bit n i) eqn:Z; auto. apply B in Z as (o & Ho & T). rewrite (C o e Ho H) in T. lia.
  - destruct (bit n j) eqn:Z; auto. apply B in Z as (o & Ho & T). rewrite (C' o e Ho H') in T. lia.
Qed.

(** A grid type with prisms (or pyramids) only: every element gets a finite element
    of the simplex class. *)
Theorem C46_single_prism_type_refuted t old m e : t = Prism \/ t = Pyramid -> dim = 3 ->
  (forall e, In e (fg_elements g) -> fg_type g e = t) ->
  rt_update g (Some t) old = Some m -> In e (fg_elements g) ->
  exists n, fm_find g m e = Some (FE Simplex n).
Proof.
  intros T D A U He. unfold rt_update in U. cbn [rt_variants] in U.
  destruct (fill_ok (fixed_class t) 0 (rt_num g t) (vresize (fm_variants old) (rt_num g t) None)) as (v & V & L & P).
  { now rewrite vresize_length. }
  rewrite V in U. cbn [obind] in U.
  destruct (foreach_cells (fg_idx g) (fun e => (rt_bits e + N.of_nat (rt_off (Some t) (fg_type g e)))%N)
     (rt_cell g (Some t)) (fg_elements g) (go_inj g ok) (vresize (fm_orient old) (fg_size g) 0%N))
     as (o & O & _ & C & _).
  { intros e1 He1. rewrite vresize_length. now apply go_idx. }
  { intros e1 o1 He1 L1. apply rt_cell_ok; auto. rewrite L1, vresize_length. now apply go_idx. }
  rewrite O in U. injection U as <-. exists (N.to_nat (rt_bits e)).
  unfold fm_find. cbn [fm_orient fm_variants]. rewrite (C e He). cbn [obind rt_off]. rewrite N.add_0_r, P.
  pose proof (rt_bits_bound e He) as B.
  assert (B' : N.to_nat (rt_bits e) < 2 ^ facets dim (fg_type g e)) by (rewrite <- pow_N; lia).
  rewrite (A e He) in B'. fold (rt_num g t) in B'.
  destruct (Nat.ltb_spec (N.to_nat (rt_bits e)) (0 + rt_num g t)); [|lia]. cbn [andb Nat.leb]. rewrite Nat.sub_0_r.
  destruct T as [-> | ->]; reflexivity.
Qed.

(** * C46: Brezzi-Douglas-Marini (2-D) *)
Definition bdm_up (e : E) (x : inter E) : bool :=
  i_neighbor x && match i_outside x with Some o => fg_idx g e <? fg_idx g o | None => false end.
Definition bdm_bits (e : E) : N := fold_left addbit (map (fun x => (bdm_up e x, i_face x)) (fg_inters g e)) 0%N.
Theorem C46_brezzi_douglas_marini old : dim = 2 -> (forall e, fg_contains g e = true) ->
  exists m, bdm_update g old = Some m /\ forall e, In e (fg_elements g) ->
  exists n, bdm_find g m e = Some (FE (fg_type g e) n) /\ n < 2 ^ facets dim (fg_type g e) /\
    forall i, bit n i = true <-> exists o, neighbour_at g e i o /\ fg_idx g e < fg_idx g o.
Proof.
  intros D Cont. unfold bdm_update, bdm_cube_variants, bdm_simplex_variants. rewrite D. cbn [Nat.eqb].
  change (2 =? 3) with false. cbn iota.
  destruct (fill_ok Cube 0 16 (vresize (bm_cube old) 16 None)) as (c & -> & Lc & Pc); [now rewrite vresize_length|].
  destruct (fill_ok Simplex 0 8 (vresize (bm_simplex old) 8 None)) as (s & -> & Ls & Ps); [now rewrite vresize_length|].
  cbn [obind].
  assert (Bd : forall e, In e (fg_elements g) -> (bdm_bits e < 2 ^ N.of_nat (facets dim (fg_type g e)))%N).
  { intros e He. apply addbits_bound.
    - intros p H. apply in_map_iff in H as (x & <- & Hx). cbn. eapply go_face; eauto.
    - apply N.neq_0_lt_0. now apply N.pow_nonzero. }
  assert (Eq : forall e, bdm_bits e = rt_bits e).
  { intros e. unfold bdm_bits, rt_bits. f_equal. apply map_ext. intros x. f_equal. unfold bdm_up, rt_up.
    destruct (i_outside x); auto. now rewrite Cont. }
  destruct (foreach_cells (fg_idx g) bdm_bits
     (bdm_cell g) (fg_elements g) (go_inj g ok) (vresize (bm_orient old) (fg_size g) 0%N))
     as (o & -> & L & C & _).
  { intros e He. rewrite vresize_length. now apply go_idx. }
  { intros e o1 He L. unfold bdm_cell.
    assert (Hl : fg_idx g e < length o1) by (rewrite L, vresize_length; now apply go_idx).
    destruct (cell_upd (fg_idx g e) 0%N o1 Hl) as (o2 & -> & C1). cbn [obind].
    apply (bit_loop (bdm_up e) (bdm_inter g e) (fg_idx g e) (facets dim (fg_type g e)) (fg_inters g e)); auto.
    { now apply facets_bound. }
    { intros x Hx. eapply go_face; eauto. }
    { intros x o3 Hx. unfold bdm_inter, bdm_test, bdm_up. destruct (i_neighbor x) eqn:Nb; cbn; auto.
      destruct (go_nb g ok e x He Hx Nb) as (y & ->). reflexivity. }
    { apply N.neq_0_lt_0. now apply N.pow_nonzero. } }
  cbn [obind]. eexists. split; [reflexivity|]. intros e He. exists (N.to_nat (bdm_bits e)).
  pose proof (Bd e He) as B.
  assert (B' : N.to_nat (bdm_bits e) < 2 ^ facets dim (fg_type g e)) by (rewrite <- pow_N; lia).
  split; [|split; [rewrite D in B'; exact B'|]].
  - unfold bdm_find. cbn [bm_orient bm_cube bm_simplex]. rewrite (C e He). cbn [obind].
    rewrite D in B'. destruct (go_type g ok e He D) as [T | T]; rewrite T in *; cbn [gtype_eqb];
      [rewrite Ps|rewrite Pc]; change (2 ^ facets 2 Simplex) with 8 in B'; change (2 ^ facets 2 Cube) with 16 in B';
      cbn [Nat.leb andb].
    + destruct (Nat.ltb_spec (N.to_nat (bdm_bits e)) (0 + 8)); [|lia]. now rewrite Nat.sub_0_r.
    + destruct (Nat.ltb_spec (N.to_nat (bdm_bits e)) (0 + 16)); [|lia]. now rewrite Nat.sub_0_r.
  - intros i. unfold bit. rewrite Nnat.N2Nat.id, Eq. now apply rt_bits_test.
Qed.

(** * C47: Nedelec *)
Definition nd_bits (e : E) : N :=
  fold_left addbit (map (fun i => (nd_flip g e i, i)) (seq 0 (edges dim (fg_type g e)))) 0%N.
Definition nd_off (fixed : option gtype) (t : gtype) : nat :=
  match fixed, t with None, Cube => nd_num g Simplex | _, _ => 0 end.

Lemma nd_bits_bound e : (nd_bits e < 2 ^ N.of_nat (edges dim (fg_type g e)))%N.
Proof.
  apply addbits_bound.
  - intros p H. apply in_map_iff in H as (x & <- & Hx). apply in_seq in Hx. cbn. lia.
  - apply N.neq_0_lt_0. now apply N.pow_nonzero.
Qed.
Lemma edges_bound e : edges dim (fg_type g e) <= 12.
Proof. destruct (go_dim g ok) as [D|D]; rewrite D; destruct (fg_type g e); cbn; lia. Qed.
Lemma nd_code_bound fixed e : In e (fg_elements g) -> nd_types g ->
  (nd_bits e + N.of_nat (nd_off fixed (fg_type g e)) < 65536)%N.
Proof.
  intros He T. pose proof (nd_bits_bound e) as B.
  destruct (go_dim g ok) as [D|D]; destruct (T e He) as [Te | Te]; unfold nd_off, nd_num; rewrite D, Te in *;
    destruct fixed; numN; lia.
Qed.
Lemma nd_loop e o : forall n w o1 s, s + n <= 12 -> (w < 2 ^ 12)%N -> cell (fg_idx g e) w o o1 ->
  exists o2, forl n s (nd_edge g e) o1 = Some o2 /\
    cell (fg_idx g e) (fold_left addbit (map (fun i => (nd_flip g e i, i)) (seq s n)) w) o o2.
Proof.
  induction n as [|n IH]; intros w o1 s Hs Hw Hc; cbn [forl seq map fold_left].
  - exists o1. auto.
  - assert (W : (addbit w (nd_flip g e s, s) < 2 ^ 12)%N).
    { unfold addbit; cbn [fst snd]. destruct (nd_flip g e s); auto. apply (lor_bound w 12 s); auto. lia. }
    assert (T : exists o2, nd_edge g e s o1 = Some o2 /\ cell (fg_idx g e) (addbit w (nd_flip g e s, s)) o o2).
    { unfold nd_edge. destruct (nd_flip g e s) eqn:F; [|exists o1; auto].
      destruct (cell_step (fg_idx g e) w (fun w => u16 (N.lor w (N.shiftl 1 (N.of_nat s)))) o o1 Hc) as (o2 & S2 & C).
      exists o2. split; auto. unfold u16 in C. rewrite N.mod_small in C; auto.
      eapply N.lt_trans; [apply W|reflexivity]. }
    destruct T as (o2 & -> & C2). cbn [obind]. rewrite Nat.add_1_r. apply IH; auto. lia.
Qed.
Lemma nd_cell_ok fixed e o : In e (fg_elements g) -> nd_types g -> fg_idx g e < length o ->
  exists o', nd_cell g fixed e o = Some o' /\
    cell (fg_idx g e) (nd_bits e + N.of_nat (nd_off fixed (fg_type g e)))%N o o'.
Proof.
  intros He T Hl. unfold nd_cell. destruct (cell_upd (fg_idx g e) 0%N o Hl) as (o1 & -> & C1). cbn [obind].
  destruct (nd_loop e o (edges dim (fg_type g e)) 0%N o1 0) as (o2 & -> & C2); auto.
  { apply edges_bound. }
  { reflexivity. }
  cbn [obind]. fold (nd_bits e) in C2. pose proof (nd_code_bound fixed e He T) as B.
  unfold nd_off in *. destruct fixed as [t|].
  { exists o2. split; auto. now rewrite N.add_0_r. }
  destruct (T e He) as [Te | Te]; rewrite Te in *; cbn [gtype_eqb].
  - exists o2. split; auto. now rewrite N.add_0_r.
  - destruct (cell_step _ _ (fun w => u16 (w + N.of_nat (nd_num g Simplex))) o o2 C2) as (o3 & S3 & C3).
    exists o3. split; auto. unfold u16 in C3. now rewrite N.mod_small in C3.
Qed.
Lemma nd_variants_ok fixed old : types_match g fixed -> nd_types g -> exists v, nd_variants g fixed old = Some v /\
  forall e i, In e (fg_elements g) -> i < nd_num g (fg_type g e) ->
  nth_error v (nd_off fixed (fg_type g e) + i) = Some (Some (FE (fg_type g e) i)).
Proof.
  intros M Ty. unfold nd_variants. destruct fixed as [t|].
  - destruct M as (M & T).
    destruct (fill_ok (fixed_class t) 0 (nd_num g t) (vresize old (nd_num g t) None)) as (v & -> & L & P).
    { now rewrite vresize_length. }
    exists v. split; auto. intros e i He Hi. rewrite (T e He) in *. cbn [nd_off]. rewrite P.
    destruct (Nat.ltb_spec (0 + i) (0 + nd_num g t)); [|lia].
    cbn. rewrite Nat.sub_0_r. destruct M as [-> | ->]; reflexivity.
  - clear M.
    set (ns := nd_num g Simplex). set (nc := nd_num g Cube).
    destruct (fill_ok Simplex 0 ns (vresize old (ns + nc) None)) as (a1 & -> & L1 & P1).
    { rewrite vresize_length. lia. }
    rewrite vresize_length in L1. cbn [obind].
    destruct (fill_ok Cube ns nc a1) as (a2 & -> & L2 & P2); [lia|].
    exists a2. split; auto. intros e i He Hi. unfold nd_off.
    destruct (Ty e He) as [T | T]; rewrite T in *; fold ns nc in Hi |- *; rewrite P2.
    + rewrite P1. cbn [Nat.add]. destruct (Nat.leb_spec ns i); [lia|]. cbn [andb].
      destruct (Nat.ltb_spec i ns); [|lia]. cbn [andb Nat.leb]. now rewrite Nat.sub_0_r.
    + destruct (Nat.leb_spec ns (ns + i)), (Nat.ltb_spec (ns + i) (ns + nc)); try lia. cbn [andb].
      do 3 f_equal. lia.
Qed.

Lemma nd_bits_test e i : i < edges dim (fg_type g e) ->
  N.testbit (nd_bits e) (N.of_nat i) = nd_flip g e i.
Proof.
  intros Hi. unfold nd_bits. rewrite addbits_test, N.bits_0. cbn [orb].
  apply eq_true_iff_eq. rewrite existsb_exists. split.
  - intros (p & H & T). apply in_map_iff in H as (x & <- & Hx). cbn in T.
    apply andb_prop in T as (T & F). apply Nat.eqb_eq in F. now subst.
  - intros H. exists (nd_flip g e i, i). split; [|cbn; now rewrite H, Nat.eqb_refl].
    apply (in_map (fun i => (nd_flip g e i, i))). apply in_seq. lia.
Qed.

(** The direction given to an edge is from its smaller to its larger vertex. *)
Lemma flip_dir e i : fg_ev g e i 0 <> fg_ev g e i 1 -> fst (edge_ends g e i) <> snd (edge_ends g e i) ->
  edge_dir g e i (nd_flip g e i) =
  (Nat.min (fst (edge_ends g e i)) (snd (edge_ends g e i)), Nat.max (fst (edge_ends g e i)) (snd (edge_ends g e i))).
Proof.
  unfold edge_ends, edge_dir, nd_flip. cbn [fst snd].
  set (l0 := fg_ev g e i 0). set (l1 := fg_ev g e i 1). intros L G.
  destruct (Nat.lt_ge_cases l0 l1) as [H|H].
  - rewrite (Nat.min_l l0 l1), (Nat.max_r l0 l1) by lia.
    destruct (Nat.ltb_spec l0 l1), (Nat.ltb_spec l1 l0); try lia.
    destruct (Nat.ltb_spec (fg_vidx g e l1) (fg_vidx g e l0)); cbn;
      [rewrite Nat.min_r, Nat.max_l by lia|rewrite Nat.min_l, Nat.max_r by lia]; reflexivity.
  - rewrite (Nat.min_r l0 l1), (Nat.max_l l0 l1) by lia.
    destruct (Nat.ltb_spec l0 l1), (Nat.ltb_spec l1 l0); try lia.
    destruct (Nat.ltb_spec (fg_vidx g e l0) (fg_vidx g e l1)); cbn;
      [rewrite Nat.min_l, Nat.max_r by lia|rewrite Nat.min_r, Nat.max_l by lia]; reflexivity.
Qed.

Theorem C47_nedelec fixed old : types_match g fixed -> nd_types g -> edges_ok g ->
  exists m, nd_update g fixed old = Some m /\ forall e, In e (fg_elements g) ->
  exists n, fm_find g m e = Some (FE (fg_type g e) n) /\ n < 2 ^ edges dim (fg_type g e) /\
    forall i, i < edges dim (fg_type g e) ->
    let '(a, b) := edge_ends g e i in edge_dir g e i (bit n i) = (Nat.min a b, Nat.max a b).
Proof.
  intros M Ty Eo. unfold nd_update. destruct (nd_variants_ok fixed (fm_variants old) M Ty) as (v & -> & V). cbn [obind].
  destruct (foreach_cells (fg_idx g) (fun e => (nd_bits e + N.of_nat (nd_off fixed (fg_type g e)))%N)
     (nd_cell g fixed) (fg_elements g) (go_inj g ok) (vresize (fm_orient old) (fg_size g) 0%N))
     as (o & -> & L & C & _).
  { intros e He. rewrite vresize_length. now apply go_idx. }
  { intros e o1 He L. apply nd_cell_ok; auto. rewrite L, vresize_length. now apply go_idx. }
  cbn [obind]. exists (FM v o). split; auto. intros e He. exists (N.to_nat (nd_bits e)).
  pose proof (nd_bits_bound e) as B.
  assert (B' : N.to_nat (nd_bits e) < 2 ^ edges dim (fg_type g e)) by (rewrite <- pow_N; lia).
  split; [|split; auto].
  - unfold fm_find. cbn [fm_orient fm_variants]. rewrite (C e He). cbn [obind].
    rewrite Nnat.N2Nat.inj_add, Nnat.Nat2N.id, Nat.add_comm, (V e _ He); auto.
  - intros i Hi. destruct (Eo e i He Hi) as (L0 & G). rewrite (surjective_pairing (edge_ends g e i)).
    unfold bit. rewrite Nnat.N2Nat.id, nd_bits_test by auto. now apply flip_dir.
Qed.

(** Elements that share an edge give it the same direction. *)
Theorem C47_shared_edges_agree fixed old m e e' i j n n' : types_match g fixed -> nd_types g -> edges_ok g ->
  nd_update g fixed old = Some m -> In e (fg_elements g) -> In e' (fg_elements g) ->
  i < edges dim (fg_type g e) -> j < edges dim (fg_type g e') ->
  edge_ends g e i = edge_ends g e' j \/ edge_ends g e i = (snd (edge_ends g e' j), fst (edge_ends g e' j)) ->
  fm_find g m e = Some (FE (fg_type g e) n) -> fm_find g m e' = Some (FE (fg_type g e') n') ->
  edge_dir g e i (bit n i) = edge_dir g e' j (bit n' j).
Proof.
  intros M Ty Eo U He He' Hi Hj Sh F F'. destruct (C47_nedelec fixed old M Ty Eo) as (m' & U' & P).
  rewrite U in U'. injection U' as <-.
  destruct (P e He) as (n1 & F1 & _ & B). rewrite F in F1. injection F1 as <-.
  destruct (P e' He') as (n2 & F2 & _ & B'). rewrite F' in F2. injection F2 as <-.
  specialize (B i Hi). specialize (B' j Hj). destruct (edge_ends g e i) as (a, b), (edge_ends g e' j) as (a', b').
  rewrite B, B'. cbn in Sh. destruct Sh as [S1 | S1]; injection S1 as -> ->; auto.
  f_equal; [apply Nat.min_comm|apply Nat.max_comm].
Qed.

(** * C47: edge orientations of the 2-D simplex elements (Morley, Argyris) *)
Theorem C47_edge_orientations : dim = 2 -> (forall e, In e (fg_elements g) -> fg_type g e = Simplex) ->
  edges_ok g -> local_order g ->
  exists os, compute_edge_orientations g = Some os /\ length os = fg_size g /\
  forall e, In e (fg_elements g) -> exists b, nth_error os (fg_idx g e) = Some b /\ length b = 3 /\
    forall i, i < 3 -> exists f, nth_error b i = Some f /\
    let '(v, w) := edge_ends g e i in edge_dir g e i f = (Nat.min v w, Nat.max v w).
Proof.
  intros D Ty Eo Lo. unfold compute_edge_orientations.
  destruct (foreach_cells_P (fun w : list bool => length w = 3) (fg_idx g) (fun e => map (nd_flip g e) (seq 0 3))
     (fun e => forl (edges dim (fg_type g e)) 0 (ce_edge g e)) (fg_elements g) (go_inj g ok) ltac:(reflexivity)
     (repeat [false; false; false] (fg_size g)))
     as (o & -> & L & C & _).
  { intros e He. rewrite repeat_length. now apply go_idx. }
  { apply Forall_forall. intros w Hw. now rewrite (repeat_spec _ _ _ Hw). }
  2:{ exists o. split; auto. split; [now rewrite L, repeat_length|]. intros e He. eexists. split; [now apply C|].
      split; [reflexivity|]. intros i Hi. exists (nd_flip g e i). split.
      - rewrite nth_error_map, nth_error_seq. destruct (Nat.ltb_spec i 3); [reflexivity|lia].
      - destruct (Eo e i He) as (L0 & G); [now rewrite D, (Ty e He)|].
        rewrite (surjective_pairing (edge_ends g e i)). now apply flip_dir. }
  intros e o1 He L3 P3. rewrite D, (Ty e He).
  assert (Hl : fg_idx g e < length o1) by (rewrite L3, repeat_length; now apply go_idx).
  destruct (nth_error o1 (fg_idx g e)) as [w|] eqn:W; [|apply nth_error_None in W; lia].
  assert (L0 : length w = 3) by (rewrite Forall_forall in P3; apply P3; eapply nth_error_In; eauto).
  assert (FL : forall i, i < 3 -> (fg_vidx g e (fg_ev g e i 1) <? fg_vidx g e (fg_ev g e i 0)) = nd_flip g e i).
  { intros i Hi. unfold nd_flip. specialize (Lo e i He). rewrite D, (Ty e He) in Lo. specialize (Lo Hi).
    destruct (Nat.ltb_spec (fg_ev g e i 0) (fg_ev g e i 1)), (Nat.ltb_spec (fg_ev g e i 1) (fg_ev g e i 0)); try lia.
    cbn. now rewrite orb_false_r. }
  destruct (forl_inv (fun i o2 => exists v, length v = 3 /\ cell (fg_idx g e) v o1 o2 /\
     forall j, j < i -> nth_error v j = Some (nd_flip g e j)) 3 0 (ce_edge g e) o1) as (o2 & F & v & Lv & Cv & Pv).
  - exists w. split; auto. split; [|lia]. repeat split; auto.
  - intros i o2 Hi (v & Lv & Cv & Pv). unfold ce_edge. pose proof Cv as (_ & Nv & _). rewrite Nv. cbn [obind].
    destruct (upd_Some v i (nd_flip g e i)) as (v' & U); [lia|]. rewrite FL by lia. rewrite U. cbn [obind].
    destruct (cell_upd (fg_idx g e) v' o2 (cell_lt _ _ _ _ Cv)) as (o3 & -> & C3). exists o3. split; auto.
    exists v'. split; [now rewrite (upd_length _ _ _ _ U)|]. split; [eapply cell_trans; eauto|].
    intros j Hj. rewrite (upd_nth_error _ _ _ _ j U). destruct (Nat.eqb_spec j i) as [->|]; auto. apply Pv. lia.
  - exists o2. split; [exact F|]. replace (map (nd_flip g e) (seq 0 3)) with v; auto.
    apply nth_error_ext. intros j. destruct (Nat.lt_ge_cases j 3) as [H|H].
    + rewrite Pv by lia. rewrite nth_error_map, nth_error_seq. destruct (Nat.ltb_spec j 3); [reflexivity|lia].
    + rewrite (proj2 (nth_error_None v j)) by lia. symmetry. apply nth_error_None. now rewrite map_length, seq_length.
Qed.
End Props.

(** * Examples *)
(** Two squares side by side, the left one (index 0) to the left of the right one,
    together with a triangle on top of the left square: faces of the square are
    left 0, right 1, bottom 2, top 3. *)
Definition ex_inters (e : nat) : list (inter nat) :=
  match e with
  | 0 => [In_ nat 0 false None; In_ nat 1 true (Some 1); In_ nat 2 false None; In_ nat 3 true (Some 2)]
  | 1 => [In_ nat 0 true (Some 0); In_ nat 1 false None; In_ nat 2 false None; In_ nat 3 false None]
  | _ => [In_ nat 0 true (Some 0); In_ nat 1 false None; In_ nat 2 false None]
  end.
Definition sq_ev (i j : nat) : nat :=
  match i, j with 0, 0 => 0 | 0, _ => 2 | 1, 0 => 1 | 1, _ => 3 | 2, 0 => 0 | 2, _ => 1 | _, 0 => 2 | _, _ => 3 end.
Definition tr_ev (i j : nat) : nat :=
  match i, j with 0, 0 => 0 | 0, _ => 1 | 1, 0 => 0 | 1, _ => 2 | _, 0 => 1 | _, _ => 2 end.
Definition ex_fg : fgrid nat :=
  FG nat 2 3 [0; 1; 2] (fun e => e) (fun e => if e =? 2 then Simplex else Cube) (fun _ => true) ex_inters
     (fun e => if e =? 2 then tr_ev else sq_ev)
     (fun e v => nth v (nth e [[0; 1; 2; 3]; [1; 5; 3; 4]; [3; 2; 6]] []) 0).
Lemma ex_fg_ok : fgrid_ok ex_fg.
Proof.
  constructor; cbn [fg_dim fg_elements fg_idx fg_size fg_type fg_inters ex_fg]; auto.
  - intros e _ _. destruct (e =? 2); auto.
  - intros e [<-|[<-|[<-|[]]]]; lia.
  - intros e x [<-|[<-|[<-|[]]]] H; cbn in H; intuition (subst; vm_compute; lia).
  - intros e x [<-|[<-|[<-|[]]]] H; cbn in H |- *; intuition (subst; cbn in *; eauto; discriminate).
Qed.
Lemma ex_edges_ok : edges_ok ex_fg.
Proof.
  intros e i [<-|[<-|[<-|[]]]]; intros Hi; vm_compute in Hi;
  do 4 (destruct i as [|i]; [first [exfalso; lia | vm_compute; lia]|]); lia.
Qed.
Example C46_ex : exists m, rt_update ex_fg None (FM [] []) = Some m /\
  fm_find ex_fg m 0 = Some (FE Cube 10) /\ fm_find ex_fg m 1 = Some (FE Cube 0) /\
  fm_find ex_fg m 2 = Some (FE Simplex 0).
Proof. eexists. split; [vm_compute; reflexivity|]. repeat split; vm_compute; reflexivity. Qed.
Example C46_ex_hypotheses : neighbour_at ex_fg 0 3 2 /\ neighbour_at ex_fg 2 0 0 /\ conforming_at ex_fg 0 3.
Proof.
  split; [|split].
  - exists (In_ nat 3 true (Some 2)). cbn. tauto.
  - exists (In_ nat 0 true (Some 0)). cbn. tauto.
  - intros o o' (x & H & F & _ & O & _) (x' & H' & F' & _ & O' & _). cbn in H, H'.
    intuition (subst; cbn in *; congruence).
Qed.
Example C46_ex_bdm : exists m, bdm_update ex_fg (BM [] [] []) = Some m /\
  bdm_find ex_fg m 0 = Some (FE Cube 10) /\ bdm_find ex_fg m 2 = Some (FE Simplex 0).
Proof. eexists. split; [vm_compute; reflexivity|]. repeat split; vm_compute; reflexivity. Qed.
(** Periodic in one direction, one element wide. *)
Definition ex_per : fgrid nat :=
  FG nat 2 1 [0] (fun _ => 0) (fun _ => Cube) (fun _ => true)
     (fun _ => [In_ nat 0 true (Some 0); In_ nat 1 true (Some 0); In_ nat 2 false None; In_ nat 3 false None])
     (fun _ => sq_ev) (fun _ v => v).
Example C46_ex_periodic : fgrid_ok ex_per /\ types_match ex_per (Some Cube) /\
  neighbour_at ex_per 0 0 0 /\ neighbour_at ex_per 0 1 0 /\ conforming_at ex_per 0 0 /\ conforming_at ex_per 0 1 /\
  exists m, rt_update ex_per (Some Cube) (FM [] []) = Some m /\ fm_find ex_per m 0 = Some (FE Cube 0).
Proof.
  split; [|split; [|split; [|split; [|split; [|split]]]]].
  - constructor.
    + now left.
    + intros; now right.
    + intros; cbn; lia.
    + intros e e' [<-|[]] [<-|[]]. reflexivity.
    + intros e x _ H. cbn in H. intuition (subst; vm_compute; lia).
    + intros e x _ H. cbn in H. intuition (subst; cbn in *; eauto; discriminate).
  - split; auto.
  - exists (In_ nat 0 true (Some 0)). cbn. tauto.
  - exists (In_ nat 1 true (Some 0)). cbn. tauto.
  - intros o o' (x & H & F & _ & O & _) (x' & H' & F' & _ & O' & _). cbn in H, H'.
    intuition (subst; cbn in *; congruence).
  - intros o o' (x & H & F & _ & O & _) (x' & H' & F' & _ & O' & _). cbn in H, H'.
    intuition (subst; cbn in *; congruence).
  - eexists. split; vm_compute; reflexivity.
Qed.
(** A single prism. *)
Definition ex_prism : fgrid nat :=
  FG nat 3 1 [0] (fun _ => 0) (fun _ => Prism) (fun _ => true) (fun _ => []) (fun _ _ j => j) (fun _ v => v).
Example C46_ex_prism : fgrid_ok ex_prism /\ exists m, rt_update ex_prism (Some Prism) (FM [] []) = Some m /\
  fm_find ex_prism m 0 = Some (FE Simplex 0).
Proof.
  split.
  - constructor.
    + now right.
    + intros e _ D. discriminate D.
    + intros; cbn; lia.
    + intros e e' [<-|[]] [<-|[]]. reflexivity.
    + intros e x _ [].
    + intros e x _ [].
  - eexists. split; vm_compute; reflexivity.
Qed.
Example C47_ex : exists m, nd_update ex_fg None (FM [] []) = Some m /\
  fm_find ex_fg m 0 = Some (FE Cube 0) /\ fm_find ex_fg m 1 = Some (FE Cube 2) /\ fm_find ex_fg m 2 = Some (FE Simplex 1).
Proof. eexists. split; [vm_compute; reflexivity|]. repeat split; vm_compute; reflexivity. Qed.
Example C47_ex_shared : edge_ends ex_fg 0 3 = (2, 3) /\ edge_ends ex_fg 2 0 = (3, 2) /\ edge_dir ex_fg 2 0 true = (2, 3).
Proof. repeat split. Qed.
(** Two triangles, for computeEdgeOrientations. *)
Definition ex_tri : fgrid nat :=
  FG nat 2 2 [0; 1] (fun e => e) (fun _ => Simplex) (fun _ => true) (fun _ => [])
     (fun _ => tr_ev) (fun e v => nth v (nth e [[0; 1; 2]; [3; 2; 1]] []) 0).
Example C47_ex_tri : fgrid_ok ex_tri /\ edges_ok ex_tri /\ local_order ex_tri /\
  compute_edge_orientations ex_tri = Some [[false; false; false]; [true; true; true]].
Proof.
  split; [|split; [|split; [|reflexivity]]].
  - constructor.
    + now left.
    + intros; now left.
    + intros e [<-|[<-|[]]]; cbn; lia.
    + intros e e' _ _ H. exact H.
    + intros e x _ [].
    + intros e x _ [].
  - intros e i [<-|[<-|[]]]; cbn; intros Hi; do 3 (destruct i as [|i]; [vm_compute; lia|]); lia.
  - intros e i _; cbn; intros Hi; do 3 (destruct i as [|i]; [vm_compute; lia|]); lia.
Qed.

Print Assumptions C46_raviart_thomas.
Print Assumptions C46_exactly_one_side.
Print Assumptions C46_boundary_facets.
Print Assumptions C46_self_neighbour_refuted.
Print Assumptions C46_single_prism_type_refuted.
Print Assumptions C46_brezzi_douglas_marini.
Print Assumptions C47_nedelec.
Print Assumptions C47_shared_edges_agree.
Print Assumptions C47_edge_orientations.
