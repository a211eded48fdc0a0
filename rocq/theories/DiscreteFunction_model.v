(** Model of dune/functions/gridfunctions/discreteglobalbasisfunction.hh: local
    functions of DiscreteGlobalBasisFunction and of its derivative.  Real numbers stand
    for floating point numbers. *)
From Coq Require Import List Arith Bool Reals.
From Verif Require Import Lib Basis_model Container_model Container_spec FlatVector_model Interpolate_model.
Import ListNotations.

(** values[j].axpy(a, x) for two vectors (or matrices, in row-major order) of the same
    static size (dune-common) *)
(** discreteglobalbasisfunction.hh:358-363 and 607-612 (axpy of dune-common). *)
Fixpoint axpy (a : R) (x y : list R) : option (list R) :=
  match x, y with
  | [], [] => Some []
  | u :: x', v :: y' => r <- axpy a x' y' ;; Some ((v + a * u)%R :: r)
  | _, _ => None
  end.

(** sum of f over 0..n-1 *)
(** No counterpart of its own; the sum of the matrix product in
    discreteglobalbasisfunction.hh:619. *)
Definition rsum (n : nat) (f : nat -> R) : R := fold_right Rplus 0%R (map f (seq 0 n)).

(** [refJacobian * jacobianInverse] (line 619) for a matrix with [rows] rows and [inner]
    columns in row-major order and a matrix with [inner] rows and [cols] columns. *)
Definition mat_times (rows inner cols : nat) (a : list R) (b : nat -> nat -> R) : list R :=
  flat_map (fun r => map (fun c => rsum inner (fun l => (nth (r * inner + l) a 0 * b l c)%R)) (seq 0 cols)) (seq 0 rows).

(** istlVectorBackend(y) = 0 (lines 339, 586; istlvectorbackend.hh:287-291): all scalar
    entries become 0. *)
Fixpoint zero_all (c : cont R) : cont R :=
  match c with CVal _ => CVal 0%R | CBlk l => CBlk (map zero_all l) end.

Section Discrete.
Context {E X : Type}.

(** What the function is made of: the (sub)basis; the size of the flat view of one
    coefficient (coeffDim, line 355); the number of entries of a shape function value of
    the leaf at a tree path; local and global dimension; shape function values
    (evaluateFunction) and Jacobians in row-major order (evaluateJacobian) of the finite
    element of a leaf on an element; geometry.jacobianInverse(x); the default
    constructed range and the types of its entries, for the function and for its
    derivative. *)
Record setup := SU {
  su_basis : subspace E;
  su_cdim : nat;
  su_vdim : list nat -> nat;
  su_ldim : nat; su_gdim : nat;
  su_shape : E -> list nat -> X -> list (list R);
  su_jac : E -> list nat -> X -> list (list R);
  su_jinv : E -> X -> nat -> nat -> R;
  su_range : cont R; su_rty : list nat -> fty;
  su_drange : cont R; su_drty : list nat -> fty
}.
Variable su : setup.

(** The coefficient vector: flatVectorView(coefficients[multiIndex]). *)
Notation coefs := (mi -> option (list R)).

(** LocalFunctionBase members, lines 186-188, and geometry_ (637, only in the
    derivative's local function).  [deriv] says which of the two classes it is.  The
    evaluation buffers (383, 636) hold no information between calls. *)
Record lfun := LF1 { lf_deriv : bool; lf_view : lview E; lf_dofs : list (list R); lf_geo : option E }.

(** discreteglobalbasisfunction.hh 79-84, 320-325, 544-549. *)
Definition lf_new (d : bool) : lfun := LF1 d (sv_new (su_basis su)) [] None.

(** discreteglobalbasisfunction.hh 124-148.  Entries appended by resize() are value-initialized coefficients. *)
Definition bind_dofs (c : coefs) (v : lview E) (tree : node E) (d : list (list R)) : option (list (list R)) :=
  forl (node_size tree) 0 (fun i d =>
    k <- local_index tree i ;;
    m <- lv_index v k ;;
    x <- c m ;;
    upd d k x) (vresize d (sv_size v) (repeat 0%R (su_cdim su))).
(** discreteglobalbasisfunction.hh 124-148 and 557-561. *)
Definition lf_bind (c : coefs) (f : lfun) (e : E) : option lfun :=
  v <- sv_bind (su_basis su) (lf_view f) e ;;
  tree <- sv_tree (su_basis su) v ;;
  d <- bind_dofs c v tree (lf_dofs f) ;;
  Some (LF1 (lf_deriv f) v d (if lf_deriv f then Some e else None)).
(** discreteglobalbasisfunction.hh 151-154, 564-568. *)
Definition lf_unbind (f : lfun) : lfun := LF1 (lf_deriv f) (lv_unbind (lf_view f)) (lf_dofs f) None.
(** discreteglobalbasisfunction.hh 157-166. *)
Definition lf_bound (f : lfun) : bool := lv_bound (lf_view f).
(** discreteglobalbasisfunction.hh:163-166, localContext. *)
Definition lf_context (f : lfun) : option E := lv_elem (lf_view f).
(** discreteglobalbasisfunction.hh 92-99; the local view is copied by defaultlocalview.hh:81-88, geometry_ by
    its own copy constructor. *)
Definition lf_copy (f : lfun) : option lfun :=
  v <- lv_copy (ss_root (su_basis su)) (lf_view f) ;;
  Some (LF1 (lf_deriv f) v (if lv_bound v then lf_dofs f else []) (lf_geo f)).
(** discreteglobalbasisfunction.hh 108-115.  The local view is assigned member by member (defaultlocalview.hh
    declares no assignment).  Here the nodes hold elements by value; in the code they
    hold pointers, see ViewAlias_model. *)
Definition lf_assign (f g : lfun) : lfun :=
  let v := lf_view g in
  LF1 (lf_deriv g) v (if lv_bound v then lf_dofs g else lf_dofs f) (lf_geo g).
(** discreteglobalbasisfunction.hh 374-380, 630-633: [None] for the derivative of a derivative (throws). *)
Definition lf_derivative (c : coefs) (f : lfun) : option lfun :=
  if lf_deriv f then None else
  match lf_context f with
  | Some e => lf_bind c (lf_new true) e
  | None => Some (lf_new true)
  end.

(** discreteglobalbasisfunction.hh 354-363, 603-612: linear combinations of [sv] with the cached coefficients. *)
Definition combine_leaf (f : lfun) (n : node E) (nb : nat) (size : nat) (sv : list (list R)) : option (list (list R)) :=
  forl nb 0 (fun i vals =>
    k <- local_index n i ;;
    c <- nth_error (lf_dofs f) k ;;
    forl (su_cdim su) 0 (fun j vals =>
      a <- nth_error c j ;;
      w <- nth_error vals j ;;
      x <- nth_error sv i ;;
      w' <- axpy a x w ;;
      upd vals j w') vals) (repeat (repeat 0%R size) (su_cdim su)).

(** discreteglobalbasisfunction.hh 170-178: assignWith for an entry of type [t] of the range. *)
Definition assign_with (t : fty) (to : cont R) (from : list R) : option (cont R) :=
  n <- flat_size t to ;;
  if n =? length from then
    forl n 0 (fun i c => p <- flat_at t c i ;; x <- nth_error from i ;; put c p (CVal x)) to
  else None.
(** nodeToRangeEntry(node, treePath, y) as a reference: where in y it is
    (hierarchicnodetorangemap.hh:32-49). *)
Definition range_path (p : list nat) (y : cont R) : list nat := match y with CVal _ => [] | CBlk _ => p end.
(** discreteglobalbasisfunction.hh:367 and 623: nodeToRangeEntry and assignWith (168-178). *)
Definition assign_entry (t : fty) (p : list nat) (y : cont R) (from : list R) : option (cont R) :=
  c <- node_to_range p y ;;
  c' <- assign_with t c from ;;
  put y (range_path p y) c'.

(** discreteglobalbasisfunction.hh 341-368: one leaf *)
Definition eval_leaf (f : lfun) (x : X) (pn : list nat * node E) (y : cont R) : option (cont R) :=
  let '(p, n) := pn in
  if node_size n =? 0 then Some y else
  match n with
  | NLeaf _ _ fe (Some e) =>
      vals <- combine_leaf f n (fe e) (su_vdim su p) (su_shape su e p x) ;;
      assign_entry (su_rty su p) p y (concat vals)
  | _ => None
  end.
(** discreteglobalbasisfunction.hh 590-624: one leaf; [g] is the element of the stored geometry. *)
Definition deriv_leaf (f : lfun) (g : E) (x : X) (pn : list nat * node E) (y : cont R) : option (cont R) :=
  let '(p, n) := pn in
  if node_size n =? 0 then Some y else
  match n with
  | NLeaf _ _ fe (Some e) =>
      refs <- combine_leaf f n (fe e) (su_vdim su p * su_ldim su) (su_jac su e p x) ;;
      let jacs := map (fun a => mat_times (su_vdim su p) (su_ldim su) (su_gdim su) a (su_jinv su g x)) refs in
      assign_entry (su_drty su p) p y (concat jacs)
  | _ => None
  end.
(** discreteglobalbasisfunction.hh:341 and 590: forEachLeafNode (dune-typetree). *)
Fixpoint each_leaf (body : list nat * node E -> cont R -> option (cont R)) (l : list (list nat * node E)) (y : cont R) : option (cont R) :=
  match l with [] => Some y | pn :: r => y' <- body pn y ;; each_leaf body r y' end.
(** discreteglobalbasisfunction.hh 336-371 and 583-627 *)
Definition lf_eval (f : lfun) (x : X) : option (cont R) :=
  tree <- sv_tree (su_basis su) (lf_view f) ;;
  if lf_deriv f
  then g <- lf_geo f ;; each_leaf (deriv_leaf f g x) (for_each_leaf tree) (zero_all (su_drange su))
  else each_leaf (eval_leaf f x) (for_each_leaf tree) (zero_all (su_range su)).

(** A program using local functions of one grid function: a pool of objects, and the
    coefficient vector, which may change. *)
(** The calls of a program: localFunction, bind, unbind, copies, assignments, derivative
    (discreteglobalbasisfunction.hh:92-166, 373-381) and changes of the coefficients. *)
Inductive lfop :=
| OpNew (d : bool)           (* localFunction(f), localFunction(derivative(f)) *)
| OpBind (i : nat) (e : E)
| OpUnbind (i : nat)
| OpCopy (i : nat)           (* auto g = lf_i *)
| OpAssign (i j : nat)       (* lf_i = lf_j, for objects of the same class *)
| OpDerivative (i : nat)     (* auto g = derivative(lf_i) *)
| OpCoefs (c : coefs).       (* coefficients changed *)
(** The state of a program: the living local functions and the coefficients they share through a
    pointer (discreteglobalbasisfunction.hh:55-60). *)
Record world := W { w_pool : list lfun; w_coefs : coefs }.
(** One call of a program; each case calls the definition above for it. *)
Definition lf_step (w : world) (o : lfop) : option world :=
  match o with
  | OpNew d => Some (W (w_pool w ++ [lf_new d]) (w_coefs w))
  | OpBind i e => f <- nth_error (w_pool w) i ;; f' <- lf_bind (w_coefs w) f e ;;
                  l <- upd (w_pool w) i f' ;; Some (W l (w_coefs w))
  | OpUnbind i => f <- nth_error (w_pool w) i ;; l <- upd (w_pool w) i (lf_unbind f) ;; Some (W l (w_coefs w))
  | OpCopy i => f <- nth_error (w_pool w) i ;; f' <- lf_copy f ;; Some (W (w_pool w ++ [f']) (w_coefs w))
  | OpAssign i j => f <- nth_error (w_pool w) i ;; g <- nth_error (w_pool w) j ;;
                    if Bool.eqb (lf_deriv f) (lf_deriv g)
                    then l <- upd (w_pool w) i (lf_assign f g) ;; Some (W l (w_coefs w)) else None
  | OpDerivative i => f <- nth_error (w_pool w) i ;; f' <- lf_derivative (w_coefs w) f ;; Some (W (w_pool w ++ [f']) (w_coefs w))
  | OpCoefs c => Some (W (w_pool w) c)
  end.
(** A sequence of calls; no counterpart in the library. *)
Fixpoint lf_run (w : world) (h : list lfop) : option world :=
  match h with [] => Some w | o :: r => w' <- lf_step w o ;; lf_run w' r end.
End Discrete.
Arguments setup : clear implicits.
Arguments lfun : clear implicits.
Arguments lfop : clear implicits.
Arguments world : clear implicits.
