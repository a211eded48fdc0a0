(** interpolate() of a discrete function: interpolate.hh with the local function it makes of
    its argument, for arguments of type DiscreteGlobalBasisFunction. *)
From Coq Require Import List Arith Bool Reals.
From Verif Require Import Lib Basis_model Container_model Container_spec Interpolate_model FlatVector_model DiscreteFunction_model.
Import ListNotations.

Section Projection.
Context {E X : Type}.
Variable su : setup E X.
Notation coefs := (mi -> option (list R)).

(** CachedDerivativeLocalFunction (interpolate.hh:107-147): members f_ and derivative_. *)
Record cached_fn := CLF { cf_f : lfun E; cf_derivative : option (lfun E) }.
(** The constructor (114-116) with localFunction(gf) (line 247); gf is a copy of the discrete
    function (gridviewfunction.hh: makeGridViewFunction hands grid functions through), which
    shares its data. *)
Definition cf_new : cached_fn := CLF (lf_new su false) None.
(** bind (118-124); [c]: the coefficients as they are when bind is called *)
Definition cf_bind (c : coefs) (s : cached_fn) (e : E) : option cached_fn :=
  f <- lf_bind su c (cf_f s) e ;;
  match cf_derivative s with
  | Some d => d' <- lf_bind su c d e ;; Some (CLF f (Some d'))
  | None => Some (CLF f None)
  end.
(** derivative (132-142): a reference to the member, and the object after the call *)
Definition cf_deriv (c : coefs) (s : cached_fn) : option (lfun E * cached_fn) :=
  match cf_derivative s with
  | Some d => Some (d, s)
  | None =>
      d <- lf_derivative su c (cf_f s) ;;
      d' <- (if lf_bound (cf_f s) then e <- lf_context (cf_f s) ;; lf_bind su c d e else Some d) ;;
      Some (d', CLF (cf_f s) (Some d'))
  end.

(** The local interpolation of the finite element of the leaf at a tree path, on an element
    (dune-localfunctions, or the classes of this module): it gets the component function
    (ComponentFunction, 61-91) and, if it asks for it, its derivative. *)
Definition functional := E -> list nat -> (X -> option (cont R)) -> option (X -> option (cont R)) -> option (list R).
Variables (t : cty) (mask : mi -> bool) (asks : list nat -> bool) (interpolation : functional).
(** [source c]: the coefficients of the discrete function while the vector interpolated to
    has the content [c]. *)
Variable source : cont R -> coefs.

(** ComponentFunction::operator() (72-75) with the restriction of line 163 *)
Definition component (f : lfun E) (p : list nat) (x : X) : option (cont R) := y <- lf_eval su f x ;; node_to_range p y.
(** interpolate.hh:154-172, the body of the leaf loop *)
Definition project_leaf (v : lview E) (pn : list nat * node E) (cs : cont R * cached_fn) : option (cont R * cached_fn) :=
  let '(p, n) := pn in let '(c, s) := cs in
  if node_size n =? 0 then Some (c, s) else
  match n with
  | NLeaf _ _ fe (Some e) =>
      '(d, s') <- (if asks p then '(d, s') <- cf_deriv (source c) s ;; Some (Some d, s') else Some (None, s)) ;;
      vals <- interpolation e p (component (cf_f s) p) (option_map (fun d => component d p) d) ;;
      c' <- forl (fe e) 0 (fun i c =>
              k <- local_index n i ;;
              m <- lv_index v k ;;
              if mask m then x <- nth_error vals i ;; backend_write t c m x else Some c) c ;;
      Some (c', s')
  | _ => None
  end.
(** interpolate.hh:154-172, the loop over the leaves. *)
Fixpoint project_leaves (v : lview E) (l : list (list nat * node E)) (cs : cont R * cached_fn) : option (cont R * cached_fn) :=
  match l with [] => Some cs | pn :: r => cs' <- project_leaf v pn cs ;; project_leaves v r cs' end.
(** interpolate.hh:254-259 *)
Fixpoint project_elements (s : subspace E) (v : lview E) (es : list E) (cs : cont R * cached_fn) : option (cont R) :=
  match es with
  | [] => Some (fst cs)
  | e :: r =>
      v' <- sv_bind s v e ;;
      f <- cf_bind (source (fst cs)) (snd cs) e ;;
      tree <- sv_tree s v' ;;
      cs' <- project_leaves v' (for_each_leaf tree) (fst cs, f) ;;
      project_elements s v' r cs'
  end.
(** interpolate.hh:204-260 *)
Definition interpolate_discrete (s : subspace E) (es : list E) (c : cont R) : res (cont R) :=
  match backend_resize 0%R (pb_size (ss_root s)) t c with
  | Done c0 => match project_elements s (sv_new s) es (c0, cf_new) with Some c' => Done c' | None => Undef end
  | Throw => Throw
  | Undef => Undef
  end.
End Projection.
Arguments cached_fn : clear implicits.
