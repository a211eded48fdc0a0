(** C87: the operators * and ** of tree.py and the default values of the keywords. *)
From Coq Require Import String Ascii List ZArith Bool Lia.
From Verif Require Import Lib Basis_model PyTree_model PyTree_spec PyTree_props.
Import ListNotations.
Local Open Scope string_scope.

Section Ops.
Context {E : Type}.
Variables (gvname : string) (gv : cpp).
Hypothesis Hgv : is_type gvname gv.
Variables (lagrange : Z -> option (leaf E)) (nedelec : Z -> Z -> option (leaf E)) (raviartthomas : Z -> option (leaf E)).
Notation bt := (basis_type gv lagrange nedelec raviartthomas).
Notation desc := (describes lagrange nedelec raviartthomas).

(** the text made for the tree [t] is the type of the basis [b] and of no other *)
Definition builds (t : tree) (b : bexpr E) : Prop :=
  exists s T, globalBasisTypeName t gvname = Some s /\ is_type s T /\
    forall b' p, bt T b' p <-> b' = b /\ p = [].

Lemma desc_builds t b : desc t b -> builds t b.
Proof.
  intros H. destruct (C87_described_bases_are_built gvname gv Hgv lagrange nedelec raviartthomas t b H) as (s & T & H1 & H2 & H3).
  exists s, T. split; auto. split; auto. intros b' p. split.
  - intros H'. destruct (C87_types_stand_for_one_basis gv lagrange nedelec raviartthomas T b' p b [] H' H3) as [-> ->]. auto.
  - intros [-> ->]. exact H3.
Qed.

(** Composite( *args, blocked=..., layout=...): without layout it is lexicographic, without
    blocked it is flat; the children keep their order. *)
Theorem C87_composite_defaults cs bs blocked :
  cs <> [] -> Forall2 desc cs bs ->
  exists t, composite cs blocked None = Some t /\
    builds t (BComposite (match blocked with Some true => CBlockedLexicographic | _ => CFlatLexicographic end) bs) /\
    composite cs blocked (Some "lexicographic") = Some t.
Proof.
  intros Hne HF. destruct cs as [|c cs]; [congruence|]. eexists. split; [reflexivity|]. split; [|reflexivity].
  apply desc_builds. apply DComposite; [|discriminate|exact HF]. destruct blocked as [[|]|]; split; reflexivity.
Qed.

(** Power(child, n, blocked=..., layout=...): the same defaults. *)
Theorem C87_power_defaults c b n blocked :
  desc c b -> (Z.of_nat n < 2 ^ 64)%Z ->
  builds (power c (Z.of_nat n) blocked None)
    (BPower true n (match blocked with Some true => BlockedLexicographic | _ => FlatLexicographic end) b) /\
  power c (Z.of_nat n) blocked (Some "lexicographic") = power c (Z.of_nat n) blocked None.
Proof.
  intros H Hn. split; [|reflexivity]. apply desc_builds. apply DPower; [|exact H|exact Hn].
  destruct blocked as [[|]|]; split; reflexivity.
Qed.

(** a * b is the flat lexicographic product of a and b, a ** n the flat lexicographic power.
    (In C++, composite and power without a strategy are blocked: compositebasis.hh:442-445
    and powerbasis.hh:159-171.) *)
Theorem C87_operators a b ba bb n :
  desc a ba -> desc b bb -> (Z.of_nat n < 2 ^ 64)%Z ->
  (exists t, mul a b = Some t /\ builds t (BComposite CFlatLexicographic [ba; bb])) /\
  builds (pow a (Z.of_nat n)) (BPower true n FlatLexicographic ba).
Proof.
  intros Ha Hb Hn. split.
  - destruct (C87_composite_defaults [a; b] [ba; bb] None) as (t & H1 & H2 & _); [discriminate|auto|].
    exists t. split; auto.
  - apply (C87_power_defaults a ba n None Ha Hn).
Qed.

End Ops.

Example C87_operators_hypotheses_met (l : leaf nat) :
  let d := describes (fun _ => Some l) (fun _ _ => Some l) (fun _ => Some l) in
  d (Lagrange 2) (BLeaf l) /\ d (pow (Lagrange 2) 2) (BPower true 2 FlatLexicographic (BLeaf l)).
Proof.
  cbn zeta. assert (H : describes (fun _ => Some l) (fun _ _ => Some l) (fun _ => Some l) (Lagrange 2) (BLeaf l)).
  { constructor; [lia|reflexivity]. }
  split; [exact H|]. apply (DPower _ _ _ (Lagrange 2) 2 false "lexicographic" FlatLexicographic); [split; reflexivity|exact H|lia].
Qed.

Print Assumptions C87_composite_defaults.
Print Assumptions C87_power_defaults.
Print Assumptions C87_operators.
