(** Model of the local functions of the grid functions in dune/functions/gridfunctions:
    analyticgridviewfunction.hh, facenormalgridfunction.hh, composedgridfunction.hh,
    coarsefunctiononfinegridview.hh, finefunctiononcoarsegridview.hh, and (its bind
    state only, see DiscreteFunction_model) discreteglobalbasisfunction.hh, nested in
    each other in any way; and of CachedDerivativeLocalFunction in
    functionspacebases/interpolate.hh. *)
From Coq Require Import List Arith Bool Reals.
From Verif Require Import Lib.
Import ListNotations.

(** The grid (dune-grid): elements [E], local coordinates [X], global coordinates [Y].
    father() is undefined on level 0; descendantElements(e, e.level()+1) are the
    children; geometryInFather().global and .local; the distance computed by
    ReferenceElementUtilities::distance for the element's type (see RefDistance_model);
    the element's geometry. *)
(** Used in finefunctiononcoarsegridview.hh:212-238, geometryinancestor.hh:119-130 and
    analyticgridviewfunction.hh:80. *)
Record grid (E X Y : Type) := GR {
  gr_father : E -> option E;
  gr_level : E -> nat;
  gr_max : nat;
  gr_children : E -> list E;
  gr_up : E -> X -> X;
  gr_down : E -> X -> X;
  gr_dist : E -> X -> R;
  gr_geo : E -> X -> Y
}.
Arguments gr_father {E X Y}. Arguments gr_level {E X Y}. Arguments gr_max {E X Y}. Arguments gr_children {E X Y}.
Arguments gr_up {E X Y}. Arguments gr_down {E X Y}. Arguments gr_dist {E X Y}. Arguments gr_geo {E X Y}.

Section LocalFunctions.
Context {E X Y V : Type}.
Variable G : grid E X Y.

(** Grid functions.  [GAna f]: f k is the k-th derivative of the wrapped function;
    [GNormal f]: the face normal function (what it computes for an element and a point,
    see FaceNormal_model); [GDis v dv]: a discrete function and its derivative, whose
    own derivative throws; [GComp]; [GCoarse cs g]: g, living on the entity set cs, on a
    finer grid view; [GFine fs g]: g, living on the entity set fs, on a coarser one. *)
(** analyticgridviewfunction.hh:153, facenormalgridfunction.hh, composedgridfunction.hh:225-226,
    coarsefunctiononfinegridview.hh:208-209, finefunctiononcoarsegridview.hh:304-305. *)
Inductive gf :=
| GAna (f : nat -> Y -> V)
| GNormal (f : E -> X -> V)
| GDis (v : E -> X -> V) (dv : option (E -> X -> V))
| GComp (outer : list V -> V) (inner : list gf)
| GCoarse (cs : E -> bool) (g : gf)
| GFine (fs : E -> bool) (g : gf).

(** Local functions.  Members: analyticgridviewfunction.hh:131-135 (f_, element_,
    geometry_; a default constructed element_ is [None]; a geometry is given by its
    element); facenormalgridfunction.hh:155-157; composedgridfunction.hh:152-154;
    coarsefunctiononfinegridview.hh:143-147 (element_, localFunction_,
    geometryInAncestor_, of which only the vector of geometryInFather maps is used
    outside bind); finefunctiononcoarsegridview.hh:240-243. *)
Inductive lobj :=
| OAna (f : nat -> Y -> V) (elem geo : option E)
| ONormal (f : E -> X -> V) (elem geo : option E)
| ODis (v : E -> X -> V) (dv : option (E -> X -> V)) (elem : option E)
| OComp (outer : list V -> V) (inner : list lobj)
| OCoarse (cs : E -> bool) (elem : option E) (inner : lobj) (geos : list E)
| OFine (fs : E -> bool) (elem : option E) (inner : lobj) (fwd : bool).

(** localFunction(g): analyticgridviewfunction.hh:196-199, facenormal 179-182,
    composed 78-81 and 196-199, coarse 78-83, fine 139-144. *)
Fixpoint lnew (g : gf) : lobj :=
  match g with
  | GAna f => OAna f None None
  | GNormal f => ONormal f None None
  | GDis v dv => ODis v dv None
  | GComp o l => OComp o (map lnew l)
  | GCoarse cs g => OCoarse cs None (lnew g) []
  | GFine fs g => OFine fs None (lnew g) false
  end.

(** geometryinancestor.hh:119-130: the coarse element and the vector of geometries.
    [fuel] bounds the loop; the chain of fathers is not longer than the level.  [None]:
    father() of a level-0 element. *)
Fixpoint ancestor (fuel : nat) (include : E -> bool) (cur : E) (geos : list E) : option (E * list E) :=
  if include cur then
    match fuel with
    | 0 => None
    | S fuel => f <- gr_father G cur ;; ancestor fuel include f (geos ++ [cur])
    end
  else Some (cur, geos).
(** geometryinancestor.hh:169-174 *)
Definition map_up (geos : list E) (x : X) : X := fold_left (fun x g => gr_up G g x) geos x.
(** geometryinancestor.hh:177-184 *)
Definition map_down (geos : list E) (x : X) : X := fold_left (fun x g => gr_down G g x) (rev geos) x.

(** bind: analytic 77-81, facenormal 101-105, composed 92-97, coarse 103-108, fine 166-172.
    [None]: undefined. *)
Fixpoint lbind (o : lobj) (e : E) : option lobj :=
  match o with
  | OAna f _ _ => Some (OAna f (Some e) (Some e))
  | ONormal f _ _ => Some (ONormal f (Some e) (Some e))
  | ODis v dv _ => Some (ODis v dv (Some e))
  | OComp h l =>
      option_map (OComp h)
        ((fix go l := match l with
                      | [] => Some []
                      | a :: r => a' <- lbind a e ;; r' <- go r ;; Some (a' :: r')
                      end) l)
  | OCoarse cs _ inner _ =>
      '(a, geos) <- ancestor (gr_level G e) (fun e => negb (cs e)) e [] ;;
      inner' <- lbind inner a ;;
      Some (OCoarse cs (Some e) inner' geos)
  | OFine fs _ inner _ =>
      if fs e then inner' <- lbind inner e ;; Some (OFine fs (Some e) inner' true)
      else Some (OFine fs (Some e) inner false)
  end.

(** unbind: analytic 84-87, facenormal 107-110, composed 100-105, coarse 111-114,
    fine 175-178. *)
Fixpoint lunbind (o : lobj) : lobj :=
  match o with
  | OAna f elem _ => OAna f elem None
  | ONormal f elem _ => ONormal f elem None
  | ODis v dv _ => ODis v dv None
  | OComp h l => OComp h (map lunbind l)
  | OCoarse cs _ inner geos => OCoarse cs None inner geos
  | OFine fs _ inner fwd => OFine fs None inner fwd
  end.

(** static_cast<bool> of a std::optional, e.g. analyticgridviewfunction.hh:93. *)
Definition is_some {A} (o : option A) : bool := match o with Some _ => true | None => false end.
(** bound: analytic 91-94, facenormal 114-117, composed 109-114, coarse 117-120,
    fine 181-184. *)
Fixpoint lbound (o : lobj) : bool :=
  match o with
  | OAna _ _ geo | ONormal _ _ geo => is_some geo
  | ODis _ _ elem => is_some elem
  | OComp _ l => forallb lbound l
  | OCoarse _ elem _ _ | OFine _ elem _ _ => is_some elem
  end.
(** localContext: analytic 112-116, facenormal 144-147, composed 141-144, coarse
    123-126, fine 187-190.  [None]: assertion failure, default constructed element, or
    empty std::optional dereferenced. *)
Fixpoint lcontext (o : lobj) : option E :=
  match o with
  | OAna _ elem geo => if is_some geo then elem else None
  | ONormal _ elem _ => elem
  | ODis _ _ elem => elem
  | OComp _ l => match l with a :: _ => lcontext a | [] => None end
  | OCoarse _ elem _ _ | OFine _ elem _ _ => elem
  end.

(** derivative: analytic 126-129, facenormal 150-153 (throws), composed 147-150
    (throws), coarse 129-135 and 90-100 ([*element_] with an empty std::optional is
    undefined), fine 193-199 and 151-162.  [None]: throws or undefined. *)
Fixpoint lderivative (o : lobj) : option lobj :=
  match o with
  | OAna f elem geo => Some (OAna (fun k => f (S k)) elem geo)
  | ONormal _ _ _ => None
  | ODis _ dv elem => d <- dv ;; Some (ODis d None elem)
  | OComp _ _ => None
  | OCoarse cs elem inner geos =>
      inner' <- lderivative inner ;;
      match elem with Some e => Some (OCoarse cs (Some e) inner' geos) | None => None end
  | OFine fs elem inner fwd => inner' <- lderivative inner ;; Some (OFine fs elem inner' fwd)
  end.

(** finefunctiononcoarsegridview.hh:214-230: the first child of least distance, and the
    coordinate in it; stops at distance 0.  [best = None]: no child so far (the
    distance is numeric_limits::max(); every distance is taken to be smaller). *)
Fixpoint closest_child (l : list E) (x : X) (best : option (E * X * R)) : option (E * X * R) :=
  match l with
  | [] => best
  | c :: r =>
      let y := gr_down G c x in
      let d := gr_dist G c y in
      let better := match best with None => true | Some (_, _, d0) => if Rlt_dec d d0 then true else false end in
      if better then
        (if Req_EM_T d 0 then Some (c, y, d) else closest_child r x (Some (c, y, d)))
      else closest_child r x best
  end.
(** finefunctiononcoarsegridview.hh:212-238: the element to evaluate on.  [fuel] bounds
    the recursion, which descends one level at a time.  [None]: no child. *)
Fixpoint descend (fuel : nat) (fs : E -> bool) (e : E) (x : X) : option (E * X) :=
  match fuel with
  | 0 => None
  | S fuel =>
      '(c, y, _) <- closest_child (gr_children G e) x None ;;
      if fs c then Some (c, y) else descend fuel fs c y
  end.

(** The class of a local function, i.e. the grid function it belongs to. *)
(** No counterpart in the code at run time: the type of the object. *)
Fixpoint lfn (o : lobj) : gf :=
  match o with
  | OAna f _ _ => GAna f
  | ONormal f _ _ => GNormal f
  | ODis v dv _ => GDis v dv
  | OComp h l => GComp h (map lfn l)
  | OCoarse cs _ inner _ => GCoarse cs (lfn inner)
  | OFine fs _ inner _ => GFine fs (lfn inner)
  end.

(** operator()(x): analytic 105-109, facenormal 128-142 (dereferences an empty
    std::optional if not bound), composed 125-130, coarse 138-141, fine 202-207.
    Evaluation of a fine function rebinds its mutable inner function (233), so the
    result comes with the state afterwards.  The recursion is over the class [g]. *)
Fixpoint leval_at (g : gf) (o : lobj) (x : X) : option (V * lobj) :=
  match g, o with
  | GAna _, OAna f elem geo => e <- geo ;; Some (f 0 (gr_geo G e x), o)
  | GNormal _, ONormal f elem geo => e <- geo ;; Some (f e x, o)
  | GDis _ _, ODis v dv elem => e <- elem ;; Some (v e x, o)
  | GComp _ gs, OComp h l =>
      '(vs, l') <- (fix go gs l := match gs, l with
                                | [], [] => Some ([], [])
                                | g :: gs', a :: r => '(v, a') <- leval_at g a x ;; '(vs, r') <- go gs' r ;; Some (v :: vs, a' :: r')
                                | _, _ => None
                                end) gs l ;;
      Some (h vs, OComp h l')
  | GCoarse _ g, OCoarse cs elem inner geos =>
      '(v, inner') <- leval_at g inner (map_up geos x) ;; Some (v, OCoarse cs elem inner' geos)
  | GFine _ g, OFine fs elem inner fwd =>
      if fwd then '(v, inner') <- leval_at g inner x ;; Some (v, OFine fs elem inner' fwd)
      else
        e <- elem ;;
        '(c, y) <- descend (gr_max G - gr_level G e) fs e x ;;
        inner1 <- lbind inner c ;;
        '(v, inner2) <- leval_at g inner1 y ;;
        Some (v, OFine fs elem inner2 fwd)
  | _, _ => None
  end.
(** operator()(x), see leval_at. *)
Definition leval (o : lobj) (x : X) : option (V * lobj) := leval_at (lfn o) o x.

(** * A pool of local functions *)
(** The calls of a program: localFunction (analyticgridviewfunction.hh:196-199 etc.), bind,
    unbind, copy constructors, derivative and evaluation. *)
Inductive lop :=
| LNew (g : gf) | LBindF (i : nat) (e : E) | LUnbindF (i : nat) | LCopyF (i : nat) | LDerivF (i : nat) | LEvalF (i : nat) (x : X).
(** One call of a program; each case calls the definition above for it. *)
Definition lstep (p : list lobj) (o : lop) : option (list lobj) :=
  match o with
  | LNew g => Some (p ++ [lnew g])
  | LBindF i e => f <- nth_error p i ;; f' <- lbind f e ;; upd p i f'
  | LUnbindF i => f <- nth_error p i ;; upd p i (lunbind f)
  (* copy constructors: memberwise *)
  | LCopyF i => f <- nth_error p i ;; Some (p ++ [f])
  | LDerivF i => f <- nth_error p i ;; f' <- lderivative f ;; Some (p ++ [f'])
  | LEvalF i x => f <- nth_error p i ;; '(_, f') <- leval f x ;; upd p i f'
  end.
(** A sequence of calls; no counterpart in the library. *)
Fixpoint lrun (p : list lobj) (h : list lop) : option (list lobj) :=
  match h with [] => Some p | o :: r => p' <- lstep p o ;; lrun p' r end.

(** * interpolate.hh:107-147: CachedDerivativeLocalFunction: f_ and derivative_ *)
Definition cdlf := (lobj * option lobj)%type.
(** interpolate.hh:119-124. *)
Definition cd_bind (c : cdlf) (e : E) : option cdlf :=
  f' <- lbind (fst c) e ;;
  match snd c with
  | None => Some (f', None)
  | Some d => d' <- lbind d e ;; Some (f', Some d')
  end.
(** interpolate.hh:132-142; the result refers to derivative_. *)
Definition cd_derivative (c : cdlf) : option cdlf :=
  match snd c with
  | Some _ => Some c
  | None =>
      d <- lderivative (fst c) ;;
      if lbound (fst c) then e <- lcontext (fst c) ;; d' <- lbind d e ;; Some (fst c, Some d')
      else Some (fst c, Some d)
  end.
(** The calls of interpolate() on the object: bind (interpolate.hh:257) and derivative
    (132-142). *)
Inductive cdop := CBind (e : E) | CDeriv.
(** A sequence of calls; no counterpart in the library. *)
Fixpoint cd_run (c : cdlf) (h : list cdop) : option cdlf :=
  match h with
  | [] => Some c
  | CBind e :: r => c' <- cd_bind c e ;; cd_run c' r
  | CDeriv :: r => c' <- cd_derivative c ;; cd_run c' r
  end.
End LocalFunctions.
Arguments gf : clear implicits. Arguments lobj : clear implicits. Arguments lop : clear implicits.
