(** What local functions of a discrete function should do. *)
From Coq Require Import List Arith Bool Reals.
From Verif Require Import Lib Basis_model Basis_spec Container_model Container_spec FlatVector_model
  FlatVector_props DiscreteFunction_model.
Import ListNotations.

Section Spec.
Context {E X : Type}.
Notation coefs := (mi -> option (list R)).

(** What a user has to know about a local function object: its class, and if it is bound
    the element and the coefficient vector at the time of the bind. *)
Record sfun := SF { sf_deriv : bool; sf_state : option (E * coefs) }.
Definition sf_step (w : list sfun * coefs) (o : lfop E) : option (list sfun * coefs) :=
  let '(l, c) := w in
  match o with
  | OpNew d => Some (l ++ [SF d None], c)
  | OpBind i e => f <- nth_error l i ;; l' <- upd l i (SF (sf_deriv f) (Some (e, c))) ;; Some (l', c)
  | OpUnbind i => f <- nth_error l i ;; l' <- upd l i (SF (sf_deriv f) None) ;; Some (l', c)
  | OpCopy i => f <- nth_error l i ;; Some (l ++ [f], c)
  | OpAssign i j => f <- nth_error l i ;; g <- nth_error l j ;;
                    if Bool.eqb (sf_deriv f) (sf_deriv g) then l' <- upd l i g ;; Some (l', c) else None
  | OpDerivative i => f <- nth_error l i ;;
                      if sf_deriv f then None
                      else Some (l ++ [SF true (option_map (fun ec => (fst ec, c)) (sf_state f))], c)
  | OpCoefs c' => Some (l, c')
  end.
Fixpoint sf_run (w : list sfun * coefs) (h : list (lfop E)) : option (list sfun * coefs) :=
  match h with [] => Some w | o :: r => w' <- sf_step w o ;; sf_run w' r end.

Variables (b : bexpr E) (path : list nat) (els : E -> Prop) (su : setup E X).

(** All DOFs of the basis have coefficients of the right size. *)
Definition coefs_ok (c : coefs) : Prop :=
  forall m, global_index els b m -> exists l, c m = Some l /\ length l = su_cdim su.

(** Elements bound to are elements of the grid, and coefficient vectors fit. *)
Definition op_ok (o : lfop E) : Prop :=
  match o with OpBind _ e => els e | OpCoefs c => coefs_ok c | _ => True end.

(** [n] is the leaf node at path [p] of the (sub)tree, in a view [v] bound to [e]. *)
Definition leaf_of (e : E) (v : lview E) (p : list nat) (n : node E) : Prop :=
  lv_bind (build b) (lv_new (build b)) e = Some v /\
  descendant (lv_tree v) (path ++ p) = Some n /\ is_leaf n = true.

(** The function is put together correctly: the basis is well formed and has a node at
    [path]; finite elements deliver as many values of the right size as the node has
    basis functions; the range has for each leaf an entry of the right size that
    flatVectorView flattens, and is a block unless there is one leaf only. *)
Record range_fits (range : cont R) (rty : list nat -> fty) (dim : list nat -> nat) (p : list nat) : Prop := {
  rf_entry : exists c, node_to_range p range = Some c /\ has_fty (rty p) c /\
                       flattens (rty p) = true /\ length (scalars c) = su_cdim su * dim p;
  rf_block : p = [] \/ exists l, range = CBlk l
}.
Record setup_ok : Prop := {
  so_wf : wf els b;
  so_path : exists n, descendant (pb_node (build b)) path = Some n;
  so_basis : su_basis su = subspace_of_root (build b) path;
  so_shape : forall e v p n x, els e -> leaf_of e v p n ->
    length (su_shape su e p x) = node_size n /\ Forall (fun s => length s = su_vdim su p) (su_shape su e p x);
  so_jac : forall e v p n x, els e -> leaf_of e v p n ->
    length (su_jac su e p x) = node_size n /\
    Forall (fun s => length s = su_vdim su p * su_ldim su) (su_jac su e p x);
  so_range : forall e v p n, els e -> leaf_of e v p n -> range_fits (su_range su) (su_rty su) (su_vdim su) p;
  so_drange : forall e v p n, els e -> leaf_of e v p n ->
    range_fits (su_drange su) (su_drty su) (fun p => su_vdim su p * su_gdim su) p
}.

(** Component [j] of the coefficient of basis function [i] of leaf [n]. *)
Definition coef_of (c : coefs) (v : lview E) (n : node E) (i j : nat) : R :=
  match local_index n i with
  | Some k => match lv_index v k with
              | Some m => match c m with Some l => nth j l 0%R | None => 0%R end
              | None => 0%R
              end
  | None => 0%R
  end.
(** Component [k] of shape function [i]; Jacobian entry in row [r], column [l]. *)
Definition shape_of (e : E) (p : list nat) (x : X) (i k : nat) : R := nth k (nth i (su_shape su e p x) []) 0%R.
Definition jac_of (e : E) (p : list nat) (x : X) (i r l : nat) : R :=
  nth (r * su_ldim su + l) (nth i (su_jac su e p x) []) 0%R.

(** [y] is the value at [x] of the discrete function with coefficients [c] on [e]. *)
Definition is_value (e : E) (c : coefs) (x : X) (y : cont R) : Prop :=
  shape y = shape (su_range su) /\
  forall v p n, leaf_of e v p n ->
    exists entry, node_to_range p y = Some entry /\
      (node_size n = 0 -> forall r, In r (scalars entry) -> r = 0%R) /\
      (node_size n <> 0 ->
         length (scalars entry) = su_cdim su * su_vdim su p /\
         forall j k, j < su_cdim su -> k < su_vdim su p ->
           nth_error (scalars entry) (j * su_vdim su p + k) =
           Some (rsum (node_size n) (fun i => (coef_of c v n i j * shape_of e p x i k)%R))).
(** [y] is its derivative with respect to global coordinates. *)
Definition is_derivative (e : E) (c : coefs) (x : X) (y : cont R) : Prop :=
  shape y = shape (su_drange su) /\
  forall v p n, leaf_of e v p n ->
    exists entry, node_to_range p y = Some entry /\
      (node_size n = 0 -> forall r, In r (scalars entry) -> r = 0%R) /\
      (node_size n <> 0 ->
         length (scalars entry) = su_cdim su * (su_vdim su p * su_gdim su) /\
         forall j r g, j < su_cdim su -> r < su_vdim su p -> g < su_gdim su ->
           nth_error (scalars entry) (j * (su_vdim su p * su_gdim su) + (r * su_gdim su + g)) =
           Some (rsum (node_size n) (fun i => (coef_of c v n i j *
                   rsum (su_ldim su) (fun l => (jac_of e p x i r l * su_jinv su e x l g)%R))%R))).
End Spec.
