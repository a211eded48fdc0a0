(** What a discrete function over a basis with transformed indices should be (C72). *)
From Coq Require Import List Arith Bool Reals.
From Verif Require Import Lib Basis_model Basis_spec Container_model DiscreteFunction_model Periodic_spec.
Import ListNotations.

Section Spec.
Context {E X : Type}.
Notation coefs := (mi -> option (list R)).

(** The same finite elements, geometries and ranges with another basis. *)
Definition over (s : subspace E) (su : setup E X) : setup E X :=
  SU s (su_cdim su) (su_vdim su) (su_ldim su) (su_gdim su) (su_shape su) (su_jac su) (su_jinv su)
     (su_range su) (su_rty su) (su_drange su) (su_drty su).

(** The coefficients, looked at through a renaming [phi] of the indices. *)
Definition renamed (phi : mi -> mi) (c : coefs) : coefs := fun m => c (phi m).
Definition renamed_op (phi : mi -> mi) (o : lfop E) : lfop E :=
  match o with OpCoefs c => OpCoefs (renamed phi c) | OpNew d => OpNew d | OpBind i e => OpBind i e
  | OpUnbind i => OpUnbind i | OpCopy i => OpCopy i | OpAssign i j => OpAssign i j | OpDerivative i => OpDerivative i end.

(** What is seen of object [i] after a program [h]: undefined behaviour of the program, or
    its localContext() and its values. *)
Definition seen (su : setup E X) (c : coefs) (h : list (lfop E)) (i : nat) (x : X)
  : option (option (option E * bool * option (cont R))) :=
  w <- lf_run su (W [] c) h ;;
  Some (f <- nth_error (w_pool w) i ;; Some (lf_context f, lf_deriv f, lf_eval su f x)).

(** Programs that bind to elements of the grid only. *)
Definition binds_to (els : E -> Prop) (h : list (lfop E)) : Prop :=
  forall i e, In (OpBind i e) h -> els e.

(** Values ([d] = false) or derivatives of the function with coefficients [c] on [e]. *)
Definition at_point (su : setup E X) (d : bool) (c : coefs) (e : E) (x : X) : option (cont R) :=
  f <- lf_bind su c (lf_new su d) e ;; lf_eval su f x.

(** The same function, with the same derivative. *)
Definition equal_functions (els : E -> Prop) (su : setup E X) (c : coefs) (su' : setup E X) (c' : coefs) : Prop :=
  forall d e x, els e -> at_point su d c e x = at_point su' d c' e x.

(** Coefficients of a flat basis that agree for DOFs related by [rel]. *)
Definition respects (rel : nat -> nat -> Prop) (dim : nat) (c : coefs) : Prop :=
  forall d d', d < dim -> d' < dim -> rel d d' -> c [d] = c [d'].

(** All [dim] coefficients of a flat basis are there and have [n] components. *)
Definition filled (dim n : nat) (c : coefs) : Prop :=
  forall d, d < dim -> exists l, c [d] = Some l /\ length l = n.

(** The functions over [su'] are exactly the functions over [su] whose coefficients agree for
    related DOFs. *)
Definition is_subspace (els : E -> Prop) (rel : nat -> nat -> Prop) (dim' dim : nat) (su' su : setup E X) : Prop :=
  (forall c', filled dim' (su_cdim su) c' -> exists c, filled dim (su_cdim su) c /\ respects rel dim c /\ equal_functions els su' c' su c) /\
  (forall c, filled dim (su_cdim su) c -> respects rel dim c -> exists c', filled dim' (su_cdim su) c' /\ equal_functions els su' c' su c).
End Spec.
