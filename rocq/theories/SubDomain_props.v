(** Sub-domain index sets (C32) and sub-domain iteration (C33). *)
From Coq Require Import List Arith Bool Lia.
From Verif Require Import Lib Basis_model SubDomain_model SubDomain_spec SubDomain_proofs.
Import ListNotations.

Section Props.
Context {E I : Type}.

(** ** C32.  After inserting any list of elements, with repetitions, on any host:
    nothing is undefined; an entity is contained iff it is a (sub)entity of an
    inserted element; asking for the index of anything else throws; within each
    geometry type the indices are 0 .. size(type)-1, each taken exactly once;
    size(codim) is the number of contained entities of that codimension and the
    sum of size(type) over types(codim); types(codim) has no repetition and lists
    exactly the types of the contained entities of that codimension. *)
Theorem C32_index_set (h : host E I) ty tdim es :
  host_ok h ty tdim ->
  exists s, is_run h es (is_new h) = Some s /\
    (forall x, x < h_size h ->
       (is_contains s x = Some true <-> belongs h es x) /\
       (is_contains s x = Some false <-> ~ belongs h es x) /\
       (is_index s x = Some None <-> ~ belongs h es x) /\
       (belongs h es x -> exists k, is_index s x = Some (Some k))) /\
    (forall t, t < h_types h -> tdim t <= h_dim h -> exists n,
       is_size_gt h s (tdim t) t = Some n /\
       counts (fun x => belongs h es x /\ ty x = t) n /\
       (forall x k, belongs h es x -> ty x = t -> is_index s x = Some (Some k) -> k < n) /\
       (forall k, k < n -> exists x, (belongs h es x /\ ty x = t /\ is_index s x = Some (Some k)) /\
          forall x', ty x' = t -> is_index s x' = Some (Some k) -> x' = x)) /\
    (forall c, c <= h_dim h -> exists n l,
       is_size_codim s c = Some n /\
       counts (fun x => belongs h es x /\ tdim (ty x) + c = h_dim h) n /\
       is_types s c = Some l /\ NoDup l /\
       (forall t, In t l <-> exists x, belongs h es x /\ tdim (ty x) + c = h_dim h /\ ty x = t) /\
       exists ns, Forall2 (fun t n => is_size_gt h s (tdim t) t = Some n) l ns /\
                  n = fold_right plus 0 ns).
Proof.
  intros OK. exists (st ty h tdim (ents h es)). split; [now apply is_run_new|].
  assert (IX : forall x, x < h_size h ->
    nth_error (is_ix (st ty h tdim (ents h es))) x = Some (rank ty x (ents h es))).
  { intros x Hx. apply (st_index ty h tdim es x Hx). }
  assert (IXi : forall x k, is_index (st ty h tdim (ents h es)) x = Some (Some k) ->
    x < h_size h /\ rank ty x (ents h es) = Some k).
  { intros x k H. unfold is_index in H. pose proof (nth_error_Some_lt _ _ _ H) as HL.
    cbn in HL. rewrite map_length, seq_length in HL. split; auto.
    rewrite (IX x HL) in H. congruence. }
  assert (CD : forall x c, belongs h es x -> c <= h_dim h ->
    codim_of ty h tdim x = c <-> tdim (ty x) + c = h_dim h).
  { intros x c (e & c' & i & _ & Hc' & Hi & <-) Hc. unfold codim_of.
    pose proof (ho_codim _ _ _ OK e c' i Hc' Hi). lia. }
  split; [|split].
  - intros x Hx. unfold is_contains, is_index. rewrite (IX x Hx).
    rewrite <- (in_ents h es x).
    pose proof (rank_In ty x (ents h es)) as RI. pose proof (rank_None ty x (ents h es)) as RN.
    destruct (rank ty x (ents h es)) as [k|].
    + assert (In x (ents h es)) by (apply RI; eauto). repeat split; intros; try congruence; try tauto; eauto.
    + assert (~ In x (ents h es)) by (now apply RN). repeat split; intros; try congruence; try tauto.
  - intros t Ht Hd. exists (cnt (fun y => ty y =? t) (ents h es)). unfold is_size_gt.
    destruct (Nat.leb_spec (tdim t) (h_dim h)); [|lia]. cbn [st is_gt].
    split; [now rewrite nth_error_map_seq|]. split; [|split].
    + exists (filter (fun y => ty y =? t) (ents h es)). split; [apply NoDup_filter, ents_NoDup|].
      split; [reflexivity|]. intros x. rewrite filter_In, in_ents, Nat.eqb_eq. reflexivity.
    + intros x k Hx <- Hk. apply IXi in Hk as [_ Hk]. now apply rank_lt in Hk.
    + intros k Hk. destruct (rank_onto ty t (ents h es) k (ents_NoDup h es) Hk) as (x & H1 & H2 & H3).
      apply in_ents in H1. exists x. split; [split; [auto|split; [auto|]]|].
      * unfold is_index. rewrite (IX x (belongs_lt ty h tdim OK es x H1)). now rewrite H3.
      * intros x' Ht' Hk'. apply IXi in Hk' as [_ Hk']. eapply rank_inj; eauto. congruence.
  - intros c Hc. exists (cnt (fun y => codim_of ty h tdim y =? c) (ents h es)), (types_of ty h tdim c (ents h es)).
    split; [unfold is_size_codim; cbn [st is_cd]; now rewrite nth_error_map_seq by lia|].
    split; [|split; [|split; [|split]]].
    + exists (filter (fun y => codim_of ty h tdim y =? c) (ents h es)).
      split; [apply NoDup_filter, ents_NoDup|]. split; [reflexivity|].
      intros x. rewrite filter_In, in_ents, Nat.eqb_eq. split; intros [A B]; split; auto; now apply (CD x c A Hc).
    + unfold is_types. cbn [st is_ty]. now rewrite nth_error_map_seq by lia.
    + apply adds_NoDup. constructor.
    + intros t. rewrite in_types_of. split.
      * intros (x & Hx & H1 & H2). apply in_ents in Hx. exists x. repeat split; auto. now apply CD.
      * intros (x & Hx & H1 & H2). exists x. repeat split; auto; [now apply in_ents|]. now apply CD.
    + exists (map (fun t => cnt (fun y => ty y =? t) (ents h es)) (types_of ty h tdim c (ents h es))).
      split; [|apply sum_types_cnt].
      assert (G : forall t, In t (types_of ty h tdim c (ents h es)) -> t < h_types h /\ tdim t <= h_dim h).
      { intros t Ht. apply in_types_of in Ht as (x & Hx & H1 & <-). apply in_ents in Hx.
        split; [apply (ho_types _ _ _ OK); now apply (belongs_lt ty h tdim OK es)|].
        apply (CD x c Hx Hc) in H1. lia. }
      induction (types_of ty h tdim c (ents h es)) as [|t l IH]; cbn [map]; constructor.
      * destruct (G t (or_introl eq_refl)) as [G1 G2]. unfold is_size_gt.
        destruct (Nat.leb_spec (tdim t) (h_dim h)); [|lia]. cbn [st is_gt]. now rewrite nth_error_map_seq.
      * apply IH. intros t' Ht'. apply G. now right.
Qed.

(** Types of a higher dimension than the grid have no entities. *)
Theorem C32_foreign_types (h : host E I) s gtdim t :
  h_dim h < gtdim -> is_size_gt h s gtdim t = Some 0.
Proof. intros H. unfold is_size_gt. destruct (Nat.leb_spec gtdim (h_dim h)); [lia|reflexivity]. Qed.

(** Indices never change later, whatever is inserted afterwards. *)
Theorem C32_indices_are_stable (h : host E I) ty tdim es es' s s' x k :
  host_ok h ty tdim -> is_run h es (is_new h) = Some s -> is_run h es' s = Some s' ->
  is_index s x = Some (Some k) -> is_index s' x = Some (Some k).
Proof.
  intros OK. rewrite (is_run_new ty h tdim OK). intros [= <-].
  rewrite (is_run_st ty h tdim OK). intros [= <-] H.
  pose proof (nth_error_Some_lt _ _ _ H) as HL. cbn in HL. rewrite map_length, seq_length in HL.
  rewrite (st_index ty h tdim es x HL) in H. injection H as H.
  unfold is_index. cbn [st is_ix]. rewrite nth_error_map_seq by exact HL. f_equal.
  destruct (adds_prefix (flat_map (subs h) es') (ents h es)) as [L' ->].
  rewrite rank_app_l; auto. apply (rank_In ty). eauto.
Qed.

(** Inserting an element again changes nothing at all. *)
Theorem C32_reinsertion (h : host E I) ty tdim es s e :
  host_ok h ty tdim -> is_run h es (is_new h) = Some s -> In e es ->
  insert_element h e s = Some s.
Proof.
  intros OK. rewrite (is_run_new ty h tdim OK). intros [= <-] He.
  rewrite (insert_element_st ty h tdim OK). rewrite adds_id; auto.
  intros x Hx. apply in_ents. apply in_subs in Hx as (c & i & H). exists e, c, i. tauto.
Qed.

(** ** C33.  Elements of the sub-domain's grid view: the inserted ones among the
    host's, in host order, each as often as the host has it. *)
Theorem C33_elements (h : host E I) ty tdim es s n :
  host_ok h ty tdim -> is_run h es (is_new h) = Some s -> length (h_elements h) <= n ->
  exists l, ei_for (sd_contains h s) n (ei_begin h (sd_contains h s)) = Some l /\
    l = filter (sd_contains h s) (h_elements h) /\
    forall e, sd_contains h s e = true <-> In e es.
Proof.
  intros OK HR Hn. exists (filter (sd_contains h s) (h_elements h)). split; [|split]; auto.
  - unfold ei_begin. now apply ei_for_ok.
  - intros e. destruct (C32_index_set h ty tdim es OK) as (s' & HR' & HC & _).
    rewrite HR in HR'. injection HR' as <-.
    rewrite <- (belongs_element ty h tdim OK es e). unfold sd_contains.
    destruct (ho_self _ _ _ OK e) as [S1 S2].
    assert (HL : h_idx h e < h_size h).
    { rewrite <- S2. apply (ho_range _ _ _ OK); lia. }
    destruct (HC _ HL) as (C1 & C2 & _).
    destruct (is_contains s (h_idx h e)) as [[]|]; split; intros H; try discriminate; auto.
    + now apply C1.
    + exfalso. now apply C2 in H.
    + exfalso. apply C1 in H. discriminate.
Qed.

(** The intersection iterator with any predicate, over any range of elements that
    all have an intersection: exactly the intersections satisfying the predicate,
    in order, and it stops. *)
Theorem C33_intersections (h : host E I) p els n :
  (forall e, In e els -> h_inters h e <> []) -> length (flat_map (h_inters h) els) <= n ->
  obind (gi_begin h p n els) (gi_for h p n n) = Some (filter p (flat_map (h_inters h) els)).
Proof. intros H Hn. now apply gi_loop_ok. Qed.

(** An element without intersections makes the iterator read through an end
    iterator, wherever that element is. *)
Theorem C33_element_without_intersections_refuted (h : host E I) p n es e es' :
  h_inters h e = [] -> (forall x, In x es -> h_inters h x <> []) ->
  (forall x, In x es -> forall i, In i (h_inters h x) -> p i = false) ->
  obind (gi_begin h p n (es ++ e :: es')) (gi_for h p n n) = None.
Proof.
  intros HE HN HP. destruct es as [|a es]; cbn [app gi_begin].
  - now rewrite HE.
  - assert (NA : h_inters h a <> []) by (apply HN; now left).
    destruct (h_inters h a) as [|x xs] eqn:HA; [congruence|]. cbn [hd_error obind].
    assert (Px : forall i, In i (x :: xs) -> p i = false).
    { intros i Hi. apply (HP a); [now left|]. now rewrite HA. }
    rewrite (Px x) by now left.
    assert (G : forall f es a xs x, (forall y, In y es -> h_inters h y <> []) ->
      (forall y, In y es -> forall i, In i (h_inters h y) -> p i = false) ->
      (forall i, In i (x :: xs) -> p i = false) ->
      gi_next h p f (GI (a :: es ++ e :: es') (x :: xs)) = None).
    { clear - HE. induction f as [|f IH]; intros es a xs x HN HP HX; [reflexivity|].
      cbn [gi_next gi_is gi_els tl]. destruct xs as [|y ys].
      - destruct es as [|b es]; cbn [app].
        + now rewrite HE.
        + assert (NB : h_inters h b <> []) by (apply HN; now left).
          destruct (h_inters h b) as [|z zs] eqn:HB; [congruence|]. cbn [hd_error obind].
          rewrite (HP b (or_introl eq_refl) z) by (rewrite HB; now left).
          apply IH.
          * intros; apply HN; now right.
          * intros; eapply HP; [right|]; eauto.
          * intros i Hi. apply (HP b); [now left|]. now rewrite HB.
      - rewrite (HX y) by (right; now left). apply IH; auto. intros i Hi. apply HX. now right. }
    rewrite G; auto; intros; [apply HN|eapply HP; [right|]]; eauto. now right.
Qed.

Lemma filter_flat_map {A B} (p : B -> bool) (f : A -> list B) l :
  filter p (flat_map f l) = flat_map (fun a => filter p (f a)) l.
Proof. induction l as [|a l IH]; cbn; [reflexivity|]. now rewrite filter_app, IH. Qed.
Lemma flat_map_filter {A B} (a : A -> bool) (f : A -> list B) l :
  flat_map f (filter a l) = flat_map (fun x => if a x then f x else []) l.
Proof. induction l as [|x l IH]; cbn; [reflexivity|]. destruct (a x); cbn; now rewrite IH. Qed.

(** The loop over a sub-domain interface visits, in host order, exactly the
    intersections from an element of A to a neighbour in B. *)
Theorem C33_interface (h : host E I) (a b : E -> bool) n :
  (forall e x, In e (h_elements h) -> In x (h_inters h e) -> h_inside h x = e) ->
  (forall e, In e (h_elements h) -> a e = true -> h_inters h e <> []) ->
  length (h_elements h) <= n -> length (flat_map (h_inters h) (h_elements h)) <= n ->
  exists l, if_for h a b n = Some l /\
    l = filter (if_oriented h a b) (flat_map (h_inters h) (h_elements h)) /\
    forall x, In x l <-> In x (flat_map (h_inters h) (h_elements h)) /\
                        crosses h (fun e => a e = true) (fun e => b e = true) x.
Proof.
  intros HI HN Hn Hn2.
  assert (EQ : filter (if_pred h b) (flat_map (h_inters h) (filter a (h_elements h))) =
               filter (if_oriented h a b) (flat_map (h_inters h) (h_elements h))).
  { rewrite flat_map_filter, !filter_flat_map. revert HI. clear. induction (h_elements h) as [|e l IH]; intros HI.
    - reflexivity.
    - cbn [flat_map]. rewrite IH by (intros; apply HI; auto; now right). f_equal.
      assert (Q : forall x, In x (h_inters h e) -> h_inside h x = e) by (intros; apply HI; auto; now left).
      destruct (a e) eqn:A.
      + apply filter_ext_in. intros x Hx. unfold if_pred, if_oriented. rewrite (Q x Hx), A. reflexivity.
      + symmetry. cbn. revert Q. generalize (h_inters h e) as ys. induction ys as [|x ys IHy]; intros Q; [reflexivity|].
        cbn. unfold if_oriented at 1. rewrite (Q x) by now left. rewrite A.
        destruct (h_boundary h x || negb (h_neighbor h x)); cbn; apply IHy; intros; apply Q; now right. }
  exists (filter (if_oriented h a b) (flat_map (h_inters h) (h_elements h))). split; [|split]; auto.
  - unfold if_for, ei_begin. rewrite ei_for_ok by exact Hn. cbn [obind].
    change (obind (gi_begin h (if_pred h b) n (filter a (h_elements h))) (gi_for h (if_pred h b) n n) =
            Some (filter (if_oriented h a b) (flat_map (h_inters h) (h_elements h)))).
    assert (HNa : forall e, In e (filter a (h_elements h)) -> h_inters h e <> []).
    { intros e He. apply filter_In in He as [H1 H2]. auto. }
    assert (HLE : length (flat_map (h_inters h) (filter a (h_elements h))) <= n).
    { rewrite flat_map_filter. eapply Nat.le_trans; [|exact Hn2]. clear.
      induction (h_elements h) as [|e l IH]; cbn; [lia|]. rewrite !app_length. destruct (a e); cbn; lia. }
    rewrite gi_loop_ok by auto. now rewrite EQ.
  - intros x. rewrite filter_In. unfold if_oriented, crosses, out_in.
    destruct (h_boundary h x); cbn [orb]; [intuition; discriminate|].
    destruct (h_neighbor h x); cbn [negb]; [|intuition; discriminate].
    rewrite andb_true_iff. destruct (h_outside h x) as [o|]; split.
    + intros (H1 & H2 & H3). repeat split; auto. exists o. auto.
    + intros (H1 & _ & _ & H2 & o' & [= <-] & H3). auto.
    + intros (_ & _ & H). discriminate.
    + intros (_ & _ & _ & _ & o' & H & _). discriminate.
Qed.

(** contains() of an interface is symmetric: it accepts exactly the intersections
    crossing from A to B or from B to A; isOriented() those from A to B. *)
Theorem C33_interface_contains (h : host E I) (a b : E -> bool) x :
  let A e := a e = true in let B e := b e = true in
  (if_oriented h a b x = true <-> crosses h A B x) /\
  (if_contains h a b x = true <-> crosses h A B x \/ crosses h B A x) /\
  if_contains h a b x = if_contains h b a x.
Proof.
  cbv zeta. unfold if_oriented, if_contains, crosses, out_in.
  destruct (h_boundary h x); cbn [orb]; [intuition; discriminate|].
  destruct (h_neighbor h x); cbn [negb]; [|intuition; discriminate].
  destruct (h_outside h x) as [o|].
  - rewrite orb_true_iff, !andb_true_iff. split; [|split].
    + split; [intros []; eauto 10|]. intros (_ & _ & H & o' & [= <-] & K). auto.
    + split.
      * intros [[]|[]]; [left|right]; eauto 10.
      * intros [(_ & _ & H & o' & [= <-] & K)|(_ & _ & H & o' & [= <-] & K)]; auto.
    + destruct (a (h_inside h x)), (b o), (a o), (b (h_inside h x)); reflexivity.
  - rewrite !andb_false_r. cbn [orb andb]. split; [|split]; auto.
    + split; [discriminate|]. intros (_ & _ & _ & o' & H & _). discriminate.
    + split; [discriminate|]. intros [(_ & _ & _ & o' & H & _)|(_ & _ & _ & o' & H & _)]; discriminate.
Qed.

(** contains() of a skeleton: both elements lie in the sub-domain. *)
Theorem C33_skeleton_contains (h : host E I) (a : E -> bool) x :
  sk_contains h a x = true <-> crosses h (fun e => a e = true) (fun e => a e = true) x.
Proof. apply (C33_interface_contains h a a x). Qed.
End Props.

(** ** A host meeting the contract: a quadrilateral ([false]) and a triangle
    ([true]) sharing an edge.  Entities 0, 1: the elements; 2..7: edges; 8..12:
    vertices.  Types 0, 1, 2, 3: point, line, triangle, quadrilateral.
    Intersection 1 (of the quadrilateral) and 4 (of the triangle) are the two
    sides of the common edge. *)
Definition ex_sub (e : bool) (c : nat) : list nat :=
  match e, c with
  | false, 0 => [0] | false, 1 => [2; 3; 4; 5] | false, 2 => [8; 9; 10; 11]
  | true, 0 => [1] | true, 1 => [3; 6; 7] | true, 2 => [9; 11; 12]
  | _, _ => []
  end.
Definition ex_ty (x : nat) : nat :=
  if x =? 0 then 3 else if x =? 1 then 2 else if x <? 8 then 1 else 0.
Definition ex_tdim (t : nat) : nat := match t with 0 => 0 | 1 => 1 | _ => 2 end.
Definition ex_h : host bool nat :=
  {| h_dim := 2; h_types := 4; h_size := 13;
     h_nsub := fun e c => length (ex_sub e c);
     h_rtype := fun e i c => match c with 0 => if e then 2 else 3 | 1 => 1 | _ => 0 end;
     h_subidx := fun e i c => nth i (ex_sub e c) 0;
     h_idx := fun e => if e then 1 else 0;
     h_elements := [false; true];
     h_inters := fun e => if e then [4; 5; 6] else [0; 1; 2; 3];
     h_inside := fun x => negb (x <? 4);
     h_outside := fun x => match x with 1 => Some true | 4 => Some false | _ => None end;
     h_neighbor := fun x => match x with 1 | 4 => true | _ => false end;
     h_boundary := fun x => match x with 1 | 4 => false | _ => true end |}.
Example ex_h_ok : host_ok ex_h ex_ty ex_tdim.
Proof.
  assert (G : forall P : bool -> nat -> nat -> Prop,
    (forall e c i, In e [false; true] -> In c [0; 1; 2] -> In i (seq 0 (length (ex_sub e c))) -> P e c i) ->
    forall e c i, c <= 2 -> i < length (ex_sub e c) -> P e c i).
  { intros P H e c i Hc Hi. apply H; [destruct e; cbn; auto|cbn; lia|apply in_seq; lia]. }
  constructor.
  - cbn. apply (G (fun e c i => nth i (ex_sub e c) 0 < 13)). intros e c i He Hc Hi.
    cbn in He, Hc. repeat (destruct He as [<-|He]; [repeat (destruct Hc as [<-|Hc];
      [cbn in Hi; repeat (destruct Hi as [<-|Hi]; [cbn; lia|]); destruct Hi|]); destruct Hc|]); destruct He.
  - cbn [ex_h h_dim h_nsub h_subidx h_rtype].
    apply (G (fun e c i => match c with 0 => if e then 2 else 3 | 1 => 1 | _ => 0 end = ex_ty (nth i (ex_sub e c) 0))).
    intros e c i He Hc Hi.
    cbn in He, Hc. repeat (destruct He as [<-|He]; [repeat (destruct Hc as [<-|Hc];
      [cbn in Hi; repeat (destruct Hi as [<-|Hi]; [reflexivity|]); destruct Hi|]); destruct Hc|]); destruct He.
  - intros x _. cbn. unfold ex_ty. destruct (x =? 0); [lia|]. destruct (x =? 1); [lia|].
    destruct (x <? 8); lia.
  - cbn [ex_h h_dim h_nsub h_subidx h_rtype].
    apply (G (fun e c i => ex_tdim (ex_ty (nth i (ex_sub e c) 0)) + c = 2)).
    intros e c i He Hc Hi.
    cbn in He, Hc. repeat (destruct He as [<-|He]; [repeat (destruct Hc as [<-|Hc];
      [cbn in Hi; repeat (destruct Hi as [<-|Hi]; [reflexivity|]); destruct Hi|]); destruct Hc|]); destruct He.
  - intros []; split; reflexivity.
  - intros [] []; cbn; congruence.
Qed.
Definition ex_state (es : list bool) : iset :=
  match is_run ex_h es (is_new ex_h) with Some s => s | None => is_new ex_h end.
(** Quadrilateral, triangle, quadrilateral again. *)
Example C32_ex :
  map (is_index (ex_state [false; true; false])) (seq 0 14) =
    [Some (Some 0); Some (Some 0); Some (Some 0); Some (Some 1); Some (Some 2); Some (Some 3);
     Some (Some 4); Some (Some 5); Some (Some 0); Some (Some 1); Some (Some 2); Some (Some 3);
     Some (Some 4); None] /\
  map (is_size_codim (ex_state [false; true; false])) [0; 1; 2] = [Some 2; Some 6; Some 5] /\
  map (is_types (ex_state [false; true; false])) [0; 1; 2] = [Some [3; 2]; Some [1]; Some [0]] /\
  ex_state [false; true; false] = ex_state [false; true] /\
  map (is_contains (ex_state [true])) [0; 3; 8] = [Some false; Some true; Some false].
Proof. repeat split; reflexivity. Qed.
(** The interface from the quadrilateral to the triangle and back. *)
Example C33_ex :
  let q := sd_contains ex_h (ex_state [false]) in
  let t := sd_contains ex_h (ex_state [true]) in
  if_for ex_h q t 7 = Some [1] /\ if_for ex_h t q 7 = Some [4] /\
  if_contains ex_h q t 4 = true /\ if_oriented ex_h q t 4 = false /\
  sk_contains ex_h (fun e => q e || t e) 1 = true /\
  ei_for t 2 (ei_begin ex_h t) = Some [true] /\
  (forall e x, In e (h_elements ex_h) -> In x (h_inters ex_h e) -> h_inside ex_h x = e) /\
  (forall e, In e (h_elements ex_h) -> h_inters ex_h e <> []).
Proof.
  cbv zeta. repeat split; try reflexivity.
  - intros e x [<-|[<-|[]]] H; cbn in H; repeat (destruct H as [<-|H]; [reflexivity|]); destruct H.
  - intros [] _ H; discriminate.
Qed.

Print Assumptions C32_index_set.
Print Assumptions C32_foreign_types.
Print Assumptions C32_indices_are_stable.
Print Assumptions C32_reinsertion.
Print Assumptions C33_elements.
Print Assumptions C33_intersections.
Print Assumptions C33_element_without_intersections_refuted.
Print Assumptions C33_interface.
Print Assumptions C33_interface_contains.
Print Assumptions C33_skeleton_contains.
