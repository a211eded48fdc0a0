(** Spec of C92: what a local view should show, in terms of the pre-basis its basis holds now. *)
From Coq Require Import List Arith.
From Verif Require Import Lib Basis_model GeometryType_model Mapper_model Orientation_model Update_model BasisLifetime_model.
Import ListNotations.

Section Spec.
Context {E X H D : Type}.
Variable mcmg : layout -> view E X -> option (mapper X).
Variable dim : nat.
Variables (lagrange_keys : nat -> gt -> list localkey) (turek_keys : gt -> list localkey) (family_keys : family -> gt -> list localkey).
Variable etype : E -> gt.
Notation obj := (obj X H D).

(** The kind of a pre-basis: its class and the constructor arguments that are not computed from
    the grid. *)
Fixpoint kind (o : obj) : recipe D :=
  match o with
  | OLagrange l => KLagrange (lg_order l)
  | OMapper f _ _ _ _ => KMapper f
  | ORannacherTurek _ => KRannacherTurek
  | OBSpline dirs _ => KBSpline dirs
  | OTaylorHood hi _ _ _ => KTaylorHood hi
  | OPower st n s o => KPower st n s (kind o)
  | OComposite s os => KComposite s (map kind os)
  | ORestricted d _ o => KRestricted d (kind o)
  | OPeriodic _ _ o => KPeriodic [] (kind o)
  end.
(** The leaf pre-bases whose finite elements the leaves of a tree should show, in order. *)
Fixpoint members (o : obj) : list (fedata X H D) :=
  match o with
  | OLagrange l => [FValue (VLagrange (lg_order l))]
  | OMapper (LagrangeDG n) _ _ _ _ => [FValue (VFamily (LagrangeDG n))]
  | OMapper (Refined k) _ _ _ _ => [FValue (VFamily (Refined k))]
  | OMapper _ _ _ _ _ | OBSpline _ _ => [FMembers o]
  | ORannacherTurek _ => [FValue VTurek]
  | OTaylorHood _ _ q1 q2 => repeat (FValue (VLagrange (lg_order q2))) dim ++ [FValue (VLagrange (lg_order q1))]
  | OPower _ n _ o => concat (repeat (members o) n)
  | OComposite _ os => concat (map members os)
  | ORestricted _ _ o | OPeriodic _ _ o => members o
  end.
(** Assignments to the basis with address [a] while the program [h] runs: the basis held a basis of
    the same kind. *)
Fixpoint kept (s : world E X H D * memory E X H D) (h : list (op E X H D)) (a : nat) : Prop :=
  match h with
  | [] => True
  | o :: r =>
      match o with
      | PAssign a' b => a' = a -> exists oa ob, basis_at (snd s) a = Some oa /\ basis_at (snd s) b = Some ob /\ kind oa = kind ob
      | _ => True
      end /\
      match step mcmg dim lagrange_keys turek_keys family_keys etype s o with Some s' => kept s' r a | None => True end
  end.
(** The type of an element is the same in all grid views. *)
Definition types_fixed (w : world E X H D) : Prop := forall h, g_type (vw_grid (content w h)) = etype.
(** The calls that may change what the view [i] of the basis [a] shows. *)
Definition concerns (o : op E X H D) (a i : nat) : bool :=
  match o with
  | PWorld _ => true
  | PUpdate a' _ | PMove a' | PAssign a' _ => a' =? a
  | PViewAssign i' _ => i' =? i
  | PDestroy j => (j =? a) || (j =? i)
  | _ => false
  end%bool.
End Spec.
