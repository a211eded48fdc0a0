(** Flat vector view (C24). *)
From Coq Require Import List Arith Bool Lia.
From Verif Require Import Lib Container_model Container_spec FlatVector_model.
Import ListNotations.
#[local] Arguments Nat.ltb : simpl never.

(** The nestings flatVectorView flattens completely: scalars, vectors and matrices of
    scalars, and arrays (of arrays ...) of those of static size. *)
Fixpoint flattens (t : fty) : bool :=
  match t with
  | FScalar => true
  | FVec _ t => match t with FScalar => true | _ => false end
  | FMat _ _ t => match t with FScalar => true | _ => false end
  | FArr _ t => flattens t && match flat_static_size t with Some _ => true | None => false end
  end.

Section Props.
Context {V : Type}.
Notation cont := (cont V).

Lemma flat_nth (l : list cont) k : forall q r, Forall (fun x => length (scalars x) = k) l -> r < k ->
  nth_error (flat_map scalars l) (q * k + r) = (x <- nth_error l q ;; nth_error (scalars x) r).
Proof.
  induction l as [|x l IH]; intros q r HF Hr; [now destruct q; destruct (_ + r)|].
  inversion HF; subst. cbn [flat_map]. rewrite nth_error_app_eq. destruct q as [|q].
  - cbn [Nat.mul Nat.add nth_error obind]. destruct (Nat.ltb_spec r (length (scalars x))); [auto|lia].
  - destruct (Nat.ltb_spec (S q * length (scalars x) + r) (length (scalars x))); [lia|].
    replace (S q * length (scalars x) + r - length (scalars x)) with (q * length (scalars x) + r) by lia.
    cbn [nth_error]. apply IH; auto.
Qed.
Lemma flat_length (l : list cont) k : Forall (fun x => length (scalars x) = k) l -> length (flat_map scalars l) = length l * k.
Proof. induction 1 as [|x l H HF IH]; cbn; auto. rewrite app_length, H, IH. lia. Qed.
Lemma upd_app {A} (l r : list A) i x :
  upd (l ++ r) i x = if i <? length l then option_map (fun l' => l' ++ r) (upd l i x)
                     else option_map (app l) (upd r (i - length l) x).
Proof.
  revert i. induction l as [|y l IH]; intros i.
  - cbn. destruct (Nat.ltb_spec i 0); [lia|]. rewrite Nat.sub_0_r. now destruct (upd r i x).
  - destruct i as [|i]; [reflexivity|]. cbn [app upd length]. rewrite IH.
    destruct (Nat.ltb_spec i (length l)); destruct (Nat.ltb_spec (S i) (S (length l))); try lia.
    + now destruct (upd l i x).
    + cbn [Nat.sub]. now destruct (upd r (i - length l) x).
Qed.
(** Replacing entry [q] of a uniform block. *)
Lemma flat_upd (l : list cont) k : forall q r x y w, Forall (fun x => length (scalars x) = k) l -> r < k ->
  nth_error l q = Some x -> upd (scalars x) r w = Some (scalars y) ->
  exists l', upd l q y = Some l' /\ upd (flat_map scalars l) (q * k + r) w = Some (flat_map scalars l').
Proof.
  induction l as [|z l IH]; intros q r x y w HF Hr Hq Hu; [destruct q; discriminate|].
  inversion HF; subst. cbn [flat_map]. rewrite upd_app. destruct q as [|q].
  - injection Hq as ->. exists (y :: l). split; auto. cbn [Nat.mul Nat.add].
    destruct (Nat.ltb_spec r (length (scalars x))); [|lia]. now rewrite Hu.
  - destruct (IH q r x y w H2 Hr Hq Hu) as (l' & H3 & H4). exists (z :: l'). split; [cbn; now rewrite H3|].
    destruct (Nat.ltb_spec (S q * length (scalars z) + r) (length (scalars z))); [lia|].
    replace (S q * length (scalars z) + r - length (scalars z)) with (q * length (scalars z) + r) by lia.
    now rewrite H4.
Qed.

(** [p] is the place of the [i]-th scalar of [c], and writing there changes it only. *)
Definition is_entry (c : cont) (i : nat) (p : list nat) : Prop :=
  exists x, at_path c p = Some (CVal x) /\ nth_error (scalars c) i = Some x /\
    forall w, exists c', put c p (CVal w) = Some c' /\ upd (scalars c) i w = Some (scalars c').

Lemma entry_scalar (x : V) : is_entry (CVal x) 0 [].
Proof. exists x. split; [reflexivity|]. split; [reflexivity|]. intros w. exists (CVal w). split; reflexivity. Qed.
Lemma entry_step (l : list cont) k q r x p :
  Forall (fun x => length (scalars x) = k) l -> r < k -> nth_error l q = Some x -> is_entry x r p ->
  is_entry (CBlk l) (q * k + r) (q :: p).
Proof.
  intros HF Hr Hq (v & H1 & H2 & H3). exists v. cbn [at_path scalars put]. rewrite Hq. split; auto. split.
  - rewrite (flat_nth l k q r HF Hr), Hq. exact H2.
  - intros w. destruct (H3 w) as (y & Hy & Hu). rewrite Hy.
    destruct (flat_upd l k q r x y w HF Hr Hq Hu) as (l' & Hl & Hs). rewrite Hl. exists (CBlk l'). auto.
Qed.
Lemma scalars_vals (l : list cont) : Forall (has_fty FScalar) l -> Forall (fun x => length (scalars x) = 1) l.
Proof. apply Forall_impl. intros [x|r] H; [reflexivity|destruct H]. Qed.
Lemma entry_vec (l : list cont) i : Forall (has_fty FScalar) l -> i < length l -> is_entry (CBlk l) i [i].
Proof.
  intros HF Hi. destruct (nth_error_lt_Some l i Hi) as [x Hx].
  rewrite Forall_forall in HF. pose proof (HF x (nth_error_In _ _ Hx)) as Hx'. destruct x as [v|r]; [|destruct Hx'].
  replace i with (i * 1 + 0) at 1 by lia.
  eapply entry_step; [apply scalars_vals, Forall_forall; auto|lia|exact Hx|apply entry_scalar].
Qed.

(** size() is the number of scalars, and entry i is the i-th scalar in lexicographic
    order; writing it changes that scalar and nothing else. *)
Theorem C24_flat_view_partial t (c : cont) :
  has_fty t c -> flattens t = true ->
  flat_size t c = Some (length (scalars c)) /\
  forall i, i < length (scalars c) ->
    exists p x, flat_at t c i = Some p /\ at_path c p = Some (CVal x) /\ nth_error (scalars c) i = Some x /\
      forall w, exists c', put c p (CVal w) = Some c' /\ upd (scalars c) i w = Some (scalars c').
Proof.
  intros Ht Hf.
  enough (G : (flat_size t c = Some (length (scalars c)) /\
               forall k, flat_static_size t = Some k -> k = length (scalars c)) /\
              forall i, i < length (scalars c) -> exists p, flat_at t c i = Some p /\ is_entry c i p).
  { destruct G as [[G1 _] G2]. split; auto. intros i Hi. destruct (G2 i Hi) as (p & Hp & x & E). exists p, x. auto. }
  revert c Ht. induction t as [|n t IH|n m t IH|n t IH]; intros c Ht.
  - destruct c as [x|l]; [|destruct Ht]. split; [split; [reflexivity|now intros k [= <-]]|].
    intros i Hi. cbn in Hi. exists []. split; [reflexivity|]. replace i with 0 by lia. apply entry_scalar.
  - destruct t; try discriminate. destruct c as [x|l]; [destruct Ht|]. destruct Ht as [Hn HF].
    assert (HL : length (scalars (CBlk l)) = length l).
    { cbn [scalars]. rewrite (flat_length l 1 (scalars_vals l HF)). lia. }
    rewrite HL. split; [split|].
    + destruct n; cbn; congruence.
    + intros k Hk. cbn in Hk. subst n. auto.
    + intros i Hi. exists [i]. split; [|now apply entry_vec].
      cbn. destruct (Nat.ltb_spec i (length l)); [auto|lia].
  - destruct t; try discriminate. destruct c as [x|l]; [destruct Ht|]. destruct Ht as [Hn HF].
    assert (HF' : Forall (fun x => length (scalars x) = m) l).
    { revert HF. apply Forall_impl. intros [x|r]; [tauto|]. intros [H1 H2]. cbn [scalars].
      rewrite (flat_length r 1 (scalars_vals r H2)). lia. }
    assert (HL : length (scalars (CBlk l)) = n * m).
    { cbn [scalars]. rewrite (flat_length l m HF'). now rewrite Hn. }
    rewrite HL. split; [split; [reflexivity|now intros k [= <-]]|].
    intros i Hi. assert (Hm : m <> 0) by lia. exists [i / m; i mod m]. split.
    + cbn [flat_at]. destruct (Nat.eqb_spec m 0); [lia|].
      destruct (Nat.ltb_spec (i / m) (length l)) as [H|H]; [auto|].
      exfalso. assert (i / m < n) by (apply Nat.div_lt_upper_bound; lia). lia.
    + assert (Hq : i / m < length l) by (rewrite Hn; apply Nat.div_lt_upper_bound; lia).
      destruct (nth_error_lt_Some l _ Hq) as [x Hx]. rewrite Forall_forall in HF.
      pose proof (HF x (nth_error_In _ _ Hx)) as HX. destruct x as [v|r]; [destruct HX|]. destruct HX as [H1 H2].
      pose proof (Nat.mod_upper_bound i m Hm) as Hr.
      replace i with (i / m * m + i mod m) at 1 by (rewrite (Nat.div_mod_eq i m) at 3; lia).
      eapply entry_step; [exact HF'|exact Hr|exact Hx|]. apply entry_vec; auto. lia.
  - cbn [flattens] in Hf. apply andb_true_iff in Hf as [Hf Hs]. specialize (IH Hf).
    destruct (flat_static_size t) as [k|] eqn:Ek; [|discriminate].
    destruct c as [x|l]; [destruct Ht|]. destruct Ht as [Hn HF].
    assert (HF' : Forall (fun x => length (scalars x) = k) l).
    { apply Forall_forall. intros x Hx. rewrite Forall_forall in HF. destruct (IH x (HF x Hx)) as [[_ H] _]. symmetry. auto. }
    assert (HL : length (scalars (CBlk l)) = n * k).
    { cbn [scalars]. rewrite (flat_length l k HF'). now rewrite Hn. }
    rewrite HL. split; [split; [cbn; now rewrite Ek|intros k'; cbn; rewrite Ek; now intros [= <-]]|].
    intros i Hi. assert (Hk : k <> 0) by lia.
    assert (Hq : i / k < length l) by (rewrite Hn; apply Nat.div_lt_upper_bound; lia).
    destruct (nth_error_lt_Some l _ Hq) as [x Hx]. rewrite Forall_forall in HF, HF'.
    pose proof (HF x (nth_error_In _ _ Hx)) as HX. pose proof (HF' x (nth_error_In _ _ Hx)) as HXk. cbn beta in HXk.
    pose proof (Nat.mod_upper_bound i k Hk) as Hr.
    destruct (IH x HX) as [_ G]. destruct (G (i mod k)) as (p & Hp & He); [lia|].
    exists (i / k :: p). split.
    + cbn [flat_at]. rewrite Ek. cbn [obind]. destruct (Nat.eqb_spec k 0); [lia|]. rewrite Hx. cbn [obind].
      now rewrite Hp.
    + replace i with (i / k * k + i mod k) at 1 by (rewrite (Nat.div_mod_eq i k) at 3; lia).
      eapply entry_step; [apply Forall_forall, HF'|exact Hr|exact Hx|exact He].
Qed.
End Props.

(** "Every nesting" does not hold: a std::vector of FieldVectors is not flattened; its
    view has one entry per block, and the entries are blocks. *)
Theorem C24_vector_of_blocks_refuted :
  let t := FVec None (FVec (Some 2) FScalar) in
  let c := CBlk [CBlk [CVal 1; CVal 2]; CBlk [CVal 3; CVal 4]] in
  has_fty t c /\ length (scalars c) = 4 /\ flat_size t c = Some 2 /\ flat_at t c 0 = Some [0] /\
  at_path c [0] = Some (CBlk [CVal 1; CVal 2]).
Proof. cbv zeta. repeat split; repeat constructor. Qed.
(** ... and the view of an array of std::vectors does not compile. *)
Theorem C24_array_of_vectors_refuted (c : cont nat) n : flat_size (FArr n (FVec None FScalar)) c = None.
Proof. reflexivity. Qed.

Example C24_hypotheses_met :
  let t := FArr 2 (FArr 1 (FMat 2 3 FScalar)) in
  let row a b c := CBlk [CVal a; CVal b; CVal c] in
  let c := CBlk [CBlk [CBlk [row 0 1 2; row 3 4 5]]; CBlk [CBlk [row 6 7 8; row 9 10 11]]] in
  has_fty t c /\ flattens t = true /\ flat_size t c = Some 12 /\ flat_at t c 10 = Some [1; 0; 1; 1].
Proof. cbv zeta. repeat split; repeat constructor. Qed.

Print Assumptions C24_flat_view_partial.
Print Assumptions C24_vector_of_blocks_refuted.
Print Assumptions C24_array_of_vectors_refuted.
