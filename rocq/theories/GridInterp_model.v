(** interpolate() of any grid function: interpolate.hh with the local functions of
    LocalFunction_model (analytic, composed, face normal and discrete functions, and functions
    transferred between grid views, nested in any way). *)
From Coq Require Import List Arith Bool Reals.
From Verif Require Import Lib Basis_model Container_model Container_spec Interpolate_model FlatVector_model DiscreteFunction_model
  LocalFunction_model Projection_model.
Import ListNotations.

(** The local interpolation of the finite element of the leaf at a tree path, on an element
    (interpolate.hh:163 calls node.finiteElement().localInterpolation().interpolate of
    dune-localfunctions, or of the classes of this module): it evaluates the component function,
    and the derivative if it asks for it, at points that do not depend on the function and
    computes the coefficients from these values.  Simplification: first all values of the
    derivative are taken, then all values of the function; the two are different objects. *)
Record sampling (E X : Type) := SAMPLING {
  sa_points : E -> list nat -> list X;
  sa_dpoints : E -> list nat -> list X;
  sa_combine : E -> list nat -> list (cont R) -> list (cont R) -> option (list R)
}.
Arguments sa_points {E X}. Arguments sa_dpoints {E X}. Arguments sa_combine {E X}. Arguments SAMPLING {E X}.
(** No counterpart in the code: a function applied to a list of points. *)
Fixpoint mapo {A B} (f : A -> option B) (l : list A) : option (list B) :=
  match l with [] => Some [] | a :: r => b <- f a ;; bs <- mapo f r ;; Some (b :: bs) end.
(** The same as a functional on functions without state (see Projection_model). *)
Definition sample {E X} (s : sampling E X) : @functional E X := fun e p f d =>
  ds <- match d with Some d => mapo d (sa_dpoints s e p) | None => Some [] end ;;
  vs <- mapo f (sa_points s e p) ;;
  sa_combine s e p vs ds.

Section Interpolation.
Context {E X Y : Type}.
Variable G : grid E X Y.
Notation lobj := (lobj E X Y (cont R)).
Notation cdlf := (@cdlf E X Y (cont R)).
Variables (t : cty) (mask : mi -> bool) (asks : list nat -> bool) (s : sampling E X).

(** ComponentFunction::operator() (interpolate.hh:72-75) with the restriction of line 163, at
    one point after the other; the evaluations change the local function if it is that of a
    FineFunctionOnCoarseGridView. *)
Fixpoint evals (o : lobj) (p : list nat) (xs : list X) : option (list (cont R) * lobj) :=
  match xs with
  | [] => Some ([], o)
  | x :: r =>
      '(y, o1) <- leval G o x ;;
      z <- node_to_range p y ;;
      '(zs, o2) <- evals o1 p r ;;
      Some (z :: zs, o2)
  end.
(** interpolate.hh:154-172, the body of the leaf loop; [w]: the CachedDerivativeLocalFunction
    (interpolate.hh:107-147). *)
Definition grid_leaf (v : lview E) (pn : list nat * node E) (cw : cont R * cdlf) : option (cont R * cdlf) :=
  let '(p, n) := pn in let '(c, w) := cw in
  if node_size n =? 0 then Some (c, w) else
  match n with
  | NLeaf _ _ fe (Some e) =>
      '(ds, w1) <- (if asks p then
                      w1 <- cd_derivative G w ;; d <- snd w1 ;; '(ds, d') <- evals d p (sa_dpoints s e p) ;; Some (ds, (fst w1, Some d'))
                    else Some ([], w)) ;;
      '(vs, f') <- evals (fst w1) p (sa_points s e p) ;;
      vals <- sa_combine s e p vs ds ;;
      c' <- forl (fe e) 0 (fun i c =>
              k <- local_index n i ;;
              m <- lv_index v k ;;
              if mask m then x <- nth_error vals i ;; backend_write t c m x else Some c) c ;;
      Some (c', (f', snd w1))
  | _ => None
  end.
(** interpolate.hh:154-172, the loop over the leaves. *)
Fixpoint grid_leaves (v : lview E) (l : list (list nat * node E)) (cw : cont R * cdlf) : option (cont R * cdlf) :=
  match l with [] => Some cw | pn :: r => cw' <- grid_leaf v pn cw ;; grid_leaves v r cw' end.
(** interpolate.hh:254-259 *)
Fixpoint grid_elements (b : subspace E) (v : lview E) (es : list E) (cw : cont R * cdlf) : option (cont R) :=
  match es with
  | [] => Some (fst cw)
  | e :: r =>
      v' <- sv_bind b v e ;;
      w <- cd_bind G (snd cw) e ;;
      tree <- sv_tree b v' ;;
      cw' <- grid_leaves v' (for_each_leaf tree) (fst cw, w) ;;
      grid_elements b v' r cw'
  end.
(** interpolate.hh:204-260 with the local function of line 247 and the constructor of lines
    114-116.  The vector written to is not one the function refers to (see Projection_model for
    discrete functions that refer to it). *)
Definition interpolate_grid (g : gf E X Y (cont R)) (b : subspace E) (es : list E) (c : cont R) : res (cont R) :=
  match backend_resize 0%R (pb_size (ss_root b)) t c with
  | Done c0 => match grid_elements b (sv_new b) es (c0, (lnew g, None)) with Some c' => Done c' | None => Undef end
  | Throw => Throw
  | Undef => Undef
  end.
End Interpolation.
