(** The reference elements have the sides that C63 asks for (checked by computation for each
    of the six shapes). *)
From Coq Require Import List Arith Lia Bool Reals Permutation.
From Verif Require Import Lib GeometryType_model GeometryType_props Mapper_model Mapper_spec Lagrange_model Lagrange_spec Lagrange_props
  Conforming_spec Conforming_shapes.
Import ListNotations.

(** * Deciding the conditions *)
Definition list_eqb (a b : list nat) : bool := (length a =? length b) && forallb (fun p => fst p =? snd p) (combine a b).
Lemma list_eqb_eq a b : list_eqb a b = true -> a = b.
Proof.
  unfold list_eqb. revert b. induction a as [|x a IH]; intros [|y b] H; cbn in H; try discriminate; auto.
  apply andb_true_iff in H as [L H]. apply andb_true_iff in H as [Q H]. apply Nat.eqb_eq in Q. subst. f_equal. apply IH. rewrite L. exact H.
Qed.
Fixpoint take (a : list nat) (l : list (list nat)) : option (list (list nat)) :=
  match l with
  | [] => None
  | x :: r => if list_eqb x a then Some r else option_map (cons x) (take a r)
  end.
Lemma take_perm a l r : take a l = Some r -> Permutation l (a :: r).
Proof.
  revert r. induction l as [|x l IH]; intros r H; cbn in H; [discriminate|]. destruct (list_eqb x a) eqn:Q.
  - injection H as <-. apply list_eqb_eq in Q. now subst.
  - destruct (take a l) as [r'|]; [|discriminate]. injection H as <-. rewrite (IH r' eq_refl). apply perm_swap.
Qed.
Fixpoint perm_check (a b : list (list nat)) : bool :=
  match a with
  | [] => match b with [] => true | _ => false end
  | x :: a' => match take x b with Some b' => perm_check a' b' | None => false end
  end.
Lemma perm_check_ok a b : perm_check a b = true -> Permutation a b.
Proof.
  revert b. induction a as [|x a IH]; intros b H; cbn in H; [destruct b; [constructor|discriminate]|].
  destruct (take x b) as [b'|] eqn:T; [|discriminate]. apply take_perm in T. rewrite T. constructor. auto.
Qed.
Definition incl_check (a b : list nat) : bool := forallb (fun v => memb v b) a.
Lemma incl_check_ok a b : incl_check a b = true <-> incl a b.
Proof. unfold incl_check. rewrite forallb_forall. split; intros H v Hv; [apply memb_In, H, Hv|apply memb_In, H, Hv]. Qed.
Fixpoint nodup_check (a : list nat) : bool := match a with [] => true | x :: r => negb (memb x r) && nodup_check r end.
Lemma nodup_check_ok a : nodup_check a = true -> NoDup a.
Proof.
  induction a as [|x a IH]; intros H; cbn in H; [constructor|]. apply andb_true_iff in H as [H1 H2]. constructor; auto.
  intros J. apply memb_In in J. rewrite J in H1. discriminate.
Qed.
Definition is_nil {A} (l : list A) : bool := match l with [] => true | _ => false end.

(** [V]: the vertices of the subentities, [subs]: the subentities (s,c), 0 < c. *)
Definition sides_check (V : nat -> nat -> list nat) (subs : list (nat * nat)) (sides : list (list nat)) : bool :=
  nodup_check (V 0 0) && forallb (fun S => nodup_check S && incl_check S (V 0 0)) sides &&
  forallb (fun sc => let F := V (fst sc) (snd sc) in
    nodup_check F && incl_check F (V 0 0) && (1 <=? length F) && (length F <=? 4) &&
    perm_check (parts_of_face F) (filter (fun m => (0 <? length m) && (length m <? length F)) (map (meet F) sides)) &&
    existsb (fun S => is_nil (meet F S)) sides &&
    forallb (fun sc1 => let F1 := V (fst sc1) (snd sc1) in
      ((snd sc <=? snd sc1) && incl_check F1 F) ||
      existsb (fun S => is_nil (meet F S) && negb (is_nil (meet F1 S))) sides) subs) subs.

Definition subentities (T : gt) : list (nat * nat) :=
  flat_map (fun c => map (fun s => (s, c)) (seq 0 (length (subtypes T c)))) (seq 1 (gt_dim T)).

Lemma sides_check_ok {E X : Type} (g : grid E X) ref sides e T V :
  g_type g e = T -> gt_dim T = g_dim g -> (forall s c, vertices g ref e s c = V s c) ->
  sides_check V (subentities T) (sides e) = true -> sides_ok g ref sides e.
Proof.
  intros HT Hd HV H. unfold sides_check in H. apply andb_true_iff in H as [H H3]. apply andb_true_iff in H as [H1 H2].
  rewrite forallb_forall in H2, H3.
  assert (SE : forall s c t, 0 < c -> subtype g e s c t -> In (s, c) (subentities T)).
  { intros s c t Hc Ht. unfold subtype in Ht. rewrite HT in Ht. pose proof (subtypes_dim _ _ _ _ Ht) as D.
    unfold subentities. apply in_flat_map. exists c. split; [apply in_seq; lia|]. apply in_map_iff. exists s. split; auto. apply in_seq.
    pose proof (nth_error_Some_lt _ _ _ Ht). lia. }
  assert (FC : forall s c t, 0 < c -> subtype g e s c t -> let F := V s c in
    NoDup F /\ incl F (V 0 0) /\ 1 <= length F <= 4 /\
    Permutation (parts_of_face F) (filter (fun m => (0 <? length m) && (length m <? length F)) (map (meet F) (sides e))) /\
    (exists S, In S (sides e) /\ meet F S = []) /\
    (forall s1 c1, In (s1, c1) (subentities T) -> (c <= c1 /\ incl (V s1 c1) F) \/ exists S, In S (sides e) /\ meet F S = [] /\ meet (V s1 c1) S <> [])).
  { intros s c t Hc Ht F. specialize (H3 _ (SE s c t Hc Ht)). cbn [fst snd] in H3. fold F in H3.
    apply andb_true_iff in H3 as [H3 B6]. apply andb_true_iff in H3 as [H3 B5]. apply andb_true_iff in H3 as [H3 B4]. apply andb_true_iff in H3 as [H3 B3].
    apply andb_true_iff in H3 as [H3 B2]. apply andb_true_iff in H3 as [B0 B1].
    assert (NI : forall A (l : list A), is_nil l = true <-> l = []) by (intros A [|]; cbn; split; congruence).
    split; [now apply nodup_check_ok|]. split; [now apply incl_check_ok|]. split; [apply Nat.leb_le in B2, B3; lia|]. split; [now apply perm_check_ok|]. split.
    - apply existsb_exists in B5 as (S & I & Q). exists S. split; auto. now apply NI.
    - intros s1 c1 I1. rewrite forallb_forall in B6. specialize (B6 _ I1). cbn [fst snd] in B6. apply orb_true_iff in B6 as [B6|B6].
      + left. apply andb_true_iff in B6 as [Q1 Q2]. split; [now apply Nat.leb_le|now apply incl_check_ok].
      + right. apply existsb_exists in B6 as (S & I & Q). apply andb_true_iff in Q as [Q1 Q2]. exists S. split; auto. split; [now apply NI|].
        intros Z. apply NI in Z. rewrite Z in Q2. discriminate. }
  constructor.
  - rewrite HV. split; [now apply nodup_check_ok|]. intros S I. specialize (H2 S I). apply andb_true_iff in H2 as [A B]. split; [now apply nodup_check_ok|now apply incl_check_ok].
  - intros s c t Hc Ht. rewrite !HV. destruct (FC s c t Hc Ht) as (A & B & C & _). auto.
  - intros s c t Hc Ht. rewrite !HV. apply (FC s c t Hc Ht).
  - intros s c t s1 c1 t1 Hc Ht Ht1 NP. destruct (FC s c t Hc Ht) as (_ & _ & _ & _ & (S0 & I0 & M0) & SP). rewrite !HV.
    destruct (Nat.eq_dec c1 0) as [C1|C1]; [exists S0; auto|].
    destruct (SP s1 c1 (SE s1 c1 t1 ltac:(lia) Ht1)) as [[Q1 Q2]|(S & I & Q1 & Q2)]; [|exists S; auto].
    exfalso. apply NP. unfold part_of. rewrite !HV. auto.
Qed.

(** * The reference elements of dune-geometry *)

(** With the vertices of the element ([n] of them) and of a vertex added to the tables of
    Lagrange_props. *)
Definition complete (dim n : nat) (re : refelem) : refelem :=
  RE (re_type re) (fun i c cc => if cc =? dim then if c =? dim then [i] else if c =? 0 then seq 0 n else re_subs re i c cc else re_subs re i c cc).
Definition line1 := complete 1 2 (RE [true] (fun _ _ _ => [])).
Definition triangle2 := complete 2 3 (RE [false; false] (fun i c cc => match c, cc with 1, 2 => nth i [[0;1];[0;2];[1;2]] [] | _, _ => [] end)).
Definition square2 := complete 2 4 (RE [true; true] (fun i c cc => match c, cc with 1, 2 => nth i [[0;2];[1;3];[0;1];[2;3]] [] | _, _ => [] end)).
Definition tetrahedron3 := complete 3 4 tetrahedron.
Definition hexahedron3 := complete 3 8 hexahedron.
Definition prism3 := complete 3 6 prism.
(** The sides of an element with the given type, as vertex lists: the vertices of a simplex,
    the facets of a cube, triangles and vertical edges of a prism. *)
Definition sides_of (re : refelem) : list (list nat) :=
  match re_type re with
  | [_] => [[0]; [1]]
  | [true; true] => [[0;2];[1;3];[0;1];[2;3]]
  | [_; false] => [[0]; [1]; [2]]
  | [true; true; true] => [[0;2;4;6];[1;3;5;7];[0;1;4;5];[2;3;6;7];[0;1;2;3];[4;5;6;7]]
  | [true; false; false] => [[0;1;2];[3;4;5];[0;3];[1;4];[2;5]]
  | [false; false; false] => [[0];[1];[2];[3]]
  | _ => []
  end.
Lemma reference_sides {E X : Type} (g : grid E X) ref e re :
  In (g_dim g, re) [(1, line1); (2, triangle2); (2, square2); (3, tetrahedron3); (3, hexahedron3); (3, prism3)] ->
  ref e = re -> g_type g e = re_type re -> sides_ok g ref (fun e => sides_of (ref e)) e.
Proof.
  intros I R T. cbn [In] in I.
  repeat (destruct I as [I|I]; [|]); try contradiction; injection I as Hd <-;
    (apply (sides_check_ok g ref _ e _ (fun s c => re_subs (ref e) s c (g_dim g)) T);
      [rewrite <- Hd; reflexivity|reflexivity|rewrite R, <- Hd; vm_compute; reflexivity]).
Qed.
