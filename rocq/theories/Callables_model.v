(** Differentiable functions made of callable objects, and the type-erased
    DifferentiableFunction. *)
From Coq Require Import List Arith Bool.
From Verif Require Import Lib.
Import ListNotations.

Section Callables.
Context {X V : Type}.

(** A callable object, given by what operator()(x) const returns.  Simplification: all
    callables have one domain and one range type; the types of the derivatives are modelled
    by [default_range] below. *)
(** The user's callable (the template parameter F, differentiablefunctionfromcallables.hh:47-55
    and 103-116): a total function without state of its own. *)
Definition callable := X -> V.
(** The variables of the user that hold callable objects; [None]: destroyed. *)
(** The user's variables; they have no counterpart in the library. [None]: destroyed. *)
Definition vars := list (option callable).
(** The member F f_ (differentiablefunctionfromcallables.hh:86 and 147): F is a reference
    type if the argument was an l-value, else an object type. *)
Inductive holder := HVal (c : callable) | HRef (k : nat).
(** f_(x) (differentiablefunctionfromcallables.hh:70-73 and 131-134). *)
Definition call (m : vars) (h : holder) (x : X) : option V :=
  match h with
  | HVal c => Some (c x)
  | HRef k => match nth_error m k with Some (Some c) => Some (c x) | _ => None end
  end.
(** The function objects: DifferentiableFunctionFromCallables with one callable
    (differentiablefunctionfromcallables.hh:46-87), with more (106-149), and
    DifferentiableFunction wrapping one of these or a callable without a free function
    derivative() (differentiablefunction.hh:84-146, differentiablefunction_imp.hh:75-97), or
    default constructed (differentiablefunction.hh:116). *)
Inductive fobj :=
  | FOne (f : holder)
  | FMore (f : holder) (df : fobj)
  | FErased (g : fobj)
  | FErasedPlain (c : callable)
  | FEmpty.

(** An argument: a variable of the user or a temporary. *)
(** A function argument F&& (differentiablefunctionfromcallables.hh:166-171). *)
Inductive arg := ALeft (k : nat) | ARight (c : callable).
(** The deduced type F of F&&... and what F f_ is initialised with: [F...] is passed on to
    the class template without std::decay, the arguments are passed as l-values
    (differentiablefunctionfromcallables.hh:166-171).  So a reference is bound to a variable
    of the user and a temporary is copied. *)
Definition hold (a : arg) : holder := match a with ALeft k => HRef k | ARight c => HVal c end.
(** makeDifferentiableFunctionFromCallables (differentiablefunctionfromcallables.hh:166-171)
    with the constructors 64-67 and 124-128.  [None]: no callables, does not compile. *)
Fixpoint make (l : list arg) : option fobj :=
  match l with
  | [] => None
  | [a] => Some (FOne (hold a))
  | a :: r => df <- make r ;; Some (FMore (hold a) df)
  end.
(** operator() (differentiablefunctionfromcallables.hh:70-73 and 131-134,
    differentiablefunction.hh:121-124, differentiablefunction_imp.hh:86-89).  [None]: use of a
    destroyed object or of an empty wrapper. *)
Fixpoint eval (m : vars) (f : fobj) (x : X) : option V :=
  match f with
  | FOne h | FMore h _ => call m h x
  | FErased g => eval m g x
  | FErasedPlain c => Some (c x)
  | FEmpty => None
  end.
(** derivative(f) (differentiablefunctionfromcallables.hh:80-83 and 141-144,
    differentiablefunction.hh:132-135, differentiablefunction_imp.hh:35-49 and 91-94).
    [None]: throws NotImplemented, undefined behaviour for an empty wrapper.  The result of
    the wrapper is again a wrapper. *)
Fixpoint deriv (f : fobj) : option fobj :=
  match f with
  | FOne _ => None
  | FMore _ df => Some df
  | FErased g => match deriv g with Some d => Some (FErased d) | None => None end
  | FErasedPlain _ => None
  | FEmpty => None
  end.

(** A program: the user's variables and the function objects created so far. *)
(** The state of a program; no counterpart of its own in the library. *)
Record world := World { w_vars : vars; w_funs : list fobj }.
(** The calls of a program: makeDifferentiableFunctionFromCallables
    (differentiablefunctionfromcallables.hh:166-171), the constructors of DifferentiableFunction
    (differentiablefunction.hh:88-118) and derivative() (132-135). *)
Inductive op :=
  | OVar (c : callable)           (* a new variable *)
  | OSet (k : nat) (c : callable) (* assign to variable k, or to members of its callable *)
  | ODestroy (k : nat)            (* end of life of variable k *)
  | OMake (l : list arg)          (* makeDifferentiableFunctionFromCallables *)
  | OErase (i : nat)              (* DifferentiableFunction from function i *)
  | OErasePlain (a : arg)         (* DifferentiableFunction from a plain callable *)
  | OCopy (i : nat)               (* copy of function i *)
  | ODeriv (i : nat)              (* derivative of function i *)
  | ODefault.                     (* DifferentiableFunction() *)
(** The user's argument refers to a living object; no counterpart in the library. *)
Definition alive (m : vars) (a : arg) : bool :=
  match a with ALeft k => match nth_error m k with Some (Some _) => true | _ => false end | ARight _ => true end.
(** One step; [None]: throws, or uses a destroyed variable.  A type-erased plain callable is
    stored as a decayed copy (typeerasure.hh:196-199, 56-58). *)
Definition step (w : world) (o : op) : option world :=
  let add f := Some (World (w_vars w) (w_funs w ++ [f])) in
  match o with
  | OVar c => Some (World (w_vars w ++ [Some c]) (w_funs w))
  | OSet k c => match nth_error (w_vars w) k with
      | Some (Some _) => m <- upd (w_vars w) k (Some c) ;; Some (World m (w_funs w)) | _ => None end
  | ODestroy k => match nth_error (w_vars w) k with
      | Some (Some _) => m <- upd (w_vars w) k None ;; Some (World m (w_funs w)) | _ => None end
  | OMake l => if forallb (alive (w_vars w)) l then f <- make l ;; add f else None
  | OErase i => f <- nth_error (w_funs w) i ;; add (FErased f)
  | OErasePlain (ARight c) => add (FErasedPlain c)
  | OErasePlain (ALeft k) => match nth_error (w_vars w) k with Some (Some c) => add (FErasedPlain c) | _ => None end
  | OCopy i => f <- nth_error (w_funs w) i ;; add f
  | ODeriv i => f <- nth_error (w_funs w) i ;; d <- deriv f ;; add d
  | ODefault => add FEmpty
  end.
(** A sequence of calls; no counterpart in the library. *)
Fixpoint run (w : world) (p : list op) : option world :=
  match p with [] => Some w | o :: r => w' <- step w o ;; run w' r end.
End Callables.
Arguments callable : clear implicits.
Arguments vars : clear implicits.
Arguments holder : clear implicits.
Arguments fobj : clear implicits.
Arguments arg : clear implicits.
Arguments world : clear implicits.
Arguments op : clear implicits.

(** The range types: numbers of the field type [K] (0: double), FieldVector, FieldMatrix and
    InvalidRange (defaultderivativetraits.hh:24-37). *)
Inductive rtype := RNum (K : nat) | RVec (K n : nat) | RMat (K r c : nat) | RInvalid.
(** The domain types of defaultderivativetraits.hh:39-107: a number or a FieldVector. *)
Inductive dtype := DNum (K : nat) | DVec (K n : nat).
(** DefaultDerivativeTraits<R(D)>::Range with its specialisations in the order of the file
    (defaultderivativetraits.hh:39-44, 54-59, 70-75, 86-91, 102-107). *)
Definition default_range (R : rtype) (D : dtype) : rtype :=
  match R, D with
  | RNum 0, DNum 0 => RNum 0
  | RNum K, DVec K' n => if K =? K' then RVec K n else RInvalid
  | RVec K m, DVec K' n => if K =? K' then RMat K m n else RInvalid
  | RMat K 1 m, DVec K' n => if K =? K' then RMat K m n else RInvalid
  | _, _ => RInvalid
  end.
(** The ranges of the derivatives of order k (signature.hh: derivativeSignatureTag and
    derivativeSignatureTags, DerivativeSignature). *)
(** signature.hh:137-146 and 159-171, derivativeSignatureTag and derivativeSignatureTags. *)
Fixpoint range_of_order (k : nat) (R : rtype) (D : dtype) : rtype :=
  match k with 0 => R | S k => range_of_order k (default_range R D) D end.
