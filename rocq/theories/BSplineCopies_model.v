(** Finite elements of the B-spline basis as objects with addresses: which members a copy
    takes over and which object its local basis refers to.
    Source: /repo/dune/functions/functionspacebases/bsplinebasis.hh, BSplineLocalBasis and
    BSplineLocalFiniteElement. *)
From Coq Require Import List Arith Reals.
From Verif Require Import Lib BSpline_model.
Import ListNotations.

Section Copies.
(** The pre-basis all of them refer to (481); it is neither moved nor destroyed. *)
Variable dirs : list dir.

(** A finite element: [so_span] is currentKnotSpan_ (488; not initialized before bind: None);
    [so_map] the knot spans from which offset_ and scaling_ of its localBasis_ (166-167) were
    computed; [so_lfe] the reference lFE_ of its localBasis_ (162), given by the finite
    element it refers to. *)
Record sobj := SO { so_span : option (list nat); so_map : option (list nat); so_lfe : nat }.
(** The objects by address; None: destroyed. *)
Definition sstore := list (option sobj).
(** Access to the object with address [i]; no counterpart in the code (None is use of a
    destroyed object). *)
Definition sobj_at (s : sstore) (i : nat) : option sobj := o <- nth_error s i ;; o.

(** Calls of a program: constructor, bind, copy constructor and destructor of
    BSplineLocalFiniteElement (bsplinebasis.hh 383-430). *)
Inductive sop :=
| SNew
| SBind (i elementIndex : nat)
| SCopy (i : nat)
| SDestroy (i : nat).
(** None: the object does not exist (any more), or bind leaves the knot vector.  There is
    no assignment: the class has reference members. *)
Definition sstep (s : sstore) (o : sop) : option sstore :=
  match o with
  (* 383-386 *)
  | SNew => Some (s ++ [Some (SO None None (length s))])
  (* 401-430, with the element's integer coordinates as in BSplineNode::bind (1262-1268) *)
  | SBind i e => f <- sobj_at s i ;; sp <- bind dirs e ;; upd s i (Some (SO (Some sp) (Some sp) (so_lfe f)))
  (* 390-393: the copy constructor initializes preBasis_ and localBasis_ only; it is also
     used for moving, since it suppresses the implicit move constructor *)
  | SCopy i => _ <- sobj_at s i ;; Some (s ++ [Some (SO None None (length s))])
  | SDestroy i => _ <- sobj_at s i ;; upd s i None
  end.
(** A program: a sequence of calls. *)
Fixpoint srun (s : sstore) (h : list sop) : option sstore :=
  match h with [] => Some s | o :: r => s' <- sstep s o ;; srun s' r end.

(** bsplinebasis.hh 452-458: size(); reads currentKnotSpan_ *)
Definition so_size (s : sstore) (i : nat) : option nat :=
  f <- sobj_at s i ;; sp <- so_span f ;; Some (node_size dirs sp).
(** bsplinebasis.hh 76-83: localBasis().evaluateFunction(x): the point is transformed with offset_ and
    scaling_, the knot span is that of lFE_ *)
Definition so_evaluate (s : sstore) (i : nat) (x : list R) : option (list R) :=
  f <- sobj_at s i ;; mp <- so_map f ;; g <- sobj_at s (so_lfe f) ;; sp <- so_span g ;;
  Some (evaluateFunction dirs sp (globalIn dirs mp x)).
End Copies.
