(** Histories of a global basis: the grid changes, the basis is updated. *)
From Coq Require Import List Arith Bool.
From Verif Require Import Basis_model GeometryType_model Mapper_model Orientation_model Update_model.
Import ListNotations.

Section Spec.
Context {E X H D : Type}.
Variable mcmg : layout -> view E X -> option (mapper X).
Variable dim : nat.

(** Calls of basis.update(gv), each with the state of the grid at that time.  A call may throw:
    the exception is caught and the basis is used on. *)
Definition history := list (world E X H D * H).
Definition run (o : obj X H D) (t : history) : obj X H D :=
  fold_left (fun o p => fst (basis_update mcmg dim (fst p) (snd p) o)) t o.

(** Contract of the grid: the elements of a grid view are numbered without gaps, by the index
    set and by a mapper for elements. *)
Definition no_gaps (v : view E X) : Prop :=
  (forall j, j < fg_size (vw_fgrid v) -> exists e, In e (fg_elements (vw_fgrid v)) /\ fg_idx (vw_fgrid v) e = j) /\
  (forall t, mcmg elementLayout v = Some t ->
   forall j, j < fg_size (vw_fgrid v) -> exists e, In e (fg_elements (vw_fgrid v)) /\ mp_off t (g_sub (vw_grid v) e 0 0) = j).

(** The bases for which update is claimed to be complete. *)
Inductive complete : recipe D -> Prop :=
| c_lagrange n : complete (KLagrange n)
| c_mapper f : f <> Morley -> complete (KMapper f)
| c_turek : complete KRannacherTurek
| c_bspline dirs : complete (KBSpline dirs)
| c_power st n s r : complete r -> complete (KPower st n s r)
| c_composite s rs : Forall complete rs -> complete (KComposite s rs)
| c_restricted d r : complete r -> complete (KRestricted d r).
(** The bases for which at least sizes and indices are claimed to be up to date: additionally
    Taylor-Hood and Morley bases. *)
Inductive numbering : recipe D -> Prop :=
| n_lagrange n : numbering (KLagrange n)
| n_mapper f : numbering (KMapper f)
| n_turek : numbering KRannacherTurek
| n_bspline dirs : numbering (KBSpline dirs)
| n_taylorhood hi : numbering (KTaylorHood hi)
| n_power st n s r : numbering r -> numbering (KPower st n s r)
| n_composite s rs : Forall numbering rs -> numbering (KComposite s rs)
| n_restricted d r : complete r -> numbering (KRestricted d r).
End Spec.
