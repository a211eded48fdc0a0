(** Evaluation of grid functions at global coordinates.  Grid functions are given as values
    ([desc], Lifetime_spec.v), their local functions by LocalFunction_model.v. *)
From Coq Require Import List Arith Bool Reals.
From Verif Require Import Lib LocalFunction_model Lifetime_spec.
Import ListNotations.

Section GlobalEval.
Context {E X Y V : Type}.
Variable G : grid E X Y.
(** dune-grid: HierarchicSearch(grid, indexSet of the grid view es).findEntity(y), [None]:
    throws GridError; e.geometry().local(y). *)
Variable find : (E -> bool) -> Y -> option E.
Variable loc : E -> Y -> X.

(** operator()(y): analyticgridviewfunction.hh:184-187, facenormalgridfunction.hh:167-170
    (throws), discreteglobalbasisfunction.hh:402-410 and 657-665 (local function, bind,
    evaluate), composedgridfunction.hh:177-182, coarsefunctiononfinegridview.hh:177-180,
    finefunctiononcoarsegridview.hh:273-276, differentiablefunction_imp.hh:86-89.
    [None]: throws. *)
Fixpoint geval (d : desc E X Y V) (y : Y) : option V :=
  match d with
  | DAna _ f => Some (f 0 y)
  | DNormal _ _ => None
  | DDis es _ v dv =>
      e <- find es y ;;
      o <- lbind G (lnew (GDis v dv)) e ;;
      '(v, _) <- leval G o (loc e y) ;;
      Some v
  | DComp h l =>
      vs <- (fix go l := match l with [] => Some [] | d :: r => v <- geval d y ;; vs <- go r ;; Some (v :: vs) end) l ;;
      Some (h vs)
  | DCoarse _ d | DFine _ d | DErased d => geval d y
  end.
End GlobalEval.
