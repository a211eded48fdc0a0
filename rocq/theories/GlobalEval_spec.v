(** When global and local evaluation agree (C61). *)
From Coq Require Import List Arith Bool Reals.
From Verif Require Import Lib LocalFunction_model Lifetime_spec.
Import ListNotations.

Section Spec.
Context {E X Y V : Type}.
Variable G : grid E X Y.
Variable find : (E -> bool) -> Y -> option E.
Variable loc : E -> Y -> X.

(** The local coordinate [x] is in the reference element of [e]. *)
Definition inside (e : E) (x : X) : Prop := gr_dist G e x = 0%R.
(** The element [e] contains the point [y] as [x]. *)
Definition contains (e : E) (x : X) (y : Y) : Prop := inside e x /\ gr_geo G e x = y.
(** Elements are unions of their children, with matching coordinates. *)
Record nested_ok : Prop := {
  ne_father : forall e f x y, gr_father G e = Some f -> contains e x y -> contains f (gr_up G e x) y;
  ne_child : forall e c x y, In c (gr_children G e) -> contains e x y -> inside c (gr_down G c x) -> contains c (gr_down G c x) y;
  ne_cover : forall e x, inside e x -> gr_children G e <> [] -> exists c, In c (gr_children G e) /\ inside c (gr_down G c x)
}.
(** The search finds an element containing the point if there is one, and geometry().local
    computes the local coordinate. *)
Record search_ok : Prop := {
  se_found : forall es y e, find es y = Some e -> es e = true /\ contains e (loc e y) y;
  se_finds : forall es y e x, es e = true -> contains e x y -> find es y <> None
}.
(** Inner functions of compositions live on the same elements. *)
Fixpoint same_sets (d : desc E X Y V) : Prop :=
  match d with
  | DComp _ l => (fix go l' := match l' with [] => True | d' :: r => (forall e, dset d' e = dset d e) /\ same_sets d' /\ go r end) l
  | DCoarse _ d | DFine _ d | DErased d => same_sets d
  | _ => True
  end.
(** There is no face normal function in it. *)
Fixpoint no_normal (d : desc E X Y V) : Prop :=
  match d with
  | DNormal _ _ => False
  | DComp _ l => (fix go l := match l with [] => True | d :: r => no_normal d /\ go r end) l
  | DCoarse _ d | DFine _ d | DErased d => no_normal d
  | _ => True
  end.
(** The discrete functions in it have one value at [y]: the one computed on any element
    containing [y]. *)
Fixpoint single_valued (d : desc E X Y V) (y : Y) : Prop :=
  match d with
  | DDis es _ v _ => forall e e' x x', es e = true -> es e' = true -> contains e x y -> contains e' x' y -> v e x = v e' x'
  | DComp _ l => (fix go l := match l with [] => True | d :: r => single_valued d y /\ go r end) l
  | DCoarse _ d | DFine _ d | DErased d => single_valued d y
  | _ => True
  end.
End Spec.
