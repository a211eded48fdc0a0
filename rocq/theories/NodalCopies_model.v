(** Finite elements of the cubic Hermite, Morley and Argyris bases as objects with addresses:
    which object the pointers in their local bases and interpolations refer to.
    Sources: /repo/dune/functions/functionspacebases/transformedfiniteelementmixin.hh,
    cubichermitebasis.hh, morleybasis.hh, argyrisbasis.hh. *)
From Coq Require Import List Arith.
From Verif Require Import Lib.
Import ListNotations.

Section Copies.
(** What bind() computes from an element and stores in the members of the finite element
    (and of its interpolation) by value: see Hermite_model, Morley_model, Argyris_model. *)
Context {B : Type}.
(** A finite element.  [fo_data]: these members, None before the first bind.  [fo_basis]: the
    pointer feImpl_ of the local basis tlb_ (transformedfiniteelementmixin.hh 107, 169), given by
    the finite element it points to.  [fo_sizes]: the pointer averageVertexMeshSize_ of the
    interpolation (cubichermitebasis.hh 499, argyrisbasis.hh 546), given by the finite element
    into which it points; None: uninitialized.  Morley's interpolation has no such pointer. *)
Record fobj := FO { fo_data : option B; fo_basis : nat; fo_sizes : option nat }.
(** The objects by address; None: destroyed. *)
(** Memory; no counterpart in the code. *)
Definition store := list (option fobj).
(** The living object at an address; no counterpart in the code. *)
Definition obj (s : store) (i : nat) : option fobj := o <- nth_error s i ;; o.

(** The calls of a program: constructors, assignments
    (transformedfiniteelementmixin.hh:150-156), bind and the end of life of an object. *)
Inductive fop :=
| FNew
| FBind (i : nat) (b : B)
| FCopy (i : nat)          (* copy construction, and move construction *)
| FAssign (i j : nat)      (* finiteElement_i = finiteElement_j, also move assignment *)
| FDestroy (i : nat).
(** None: the object does not exist (any more). *)
(** One call of a program; the cases cite the lines. *)
Definition fstep (s : store) (o : fop) : option store :=
  match o with
  (* transformedfiniteelementmixin.hh 150-152 *)
  | FNew => Some (s ++ [Some (FO None (length s) None)])
  (* cubichermitebasis.hh 573-590, 454-457; morleybasis.hh 404-410; argyrisbasis.hh 614-690,
     470-495: all members but tlb_ *)
  | FBind i b => f <- obj s i ;; upd s i (Some (FO (Some b) (fo_basis f) (Some i)))
  (* transformedfiniteelementmixin.hh 154-156: the local basis refers to the new object; the
     other members are copied by the implicitly declared constructors of the derived classes *)
  | FCopy i => f <- obj s i ;; Some (s ++ [Some (FO (fo_data f) (length s) (fo_sizes f))])
  (* implicitly declared assignment, also of TransformedFiniteElementMixin: memberwise *)
  | FAssign i j => _ <- obj s i ;; f <- obj s j ;; upd s i (Some f)
  | FDestroy i => _ <- obj s i ;; upd s i None
  end.
Fixpoint frun (s : store) (h : list fop) : option store :=
  match h with [] => Some s | o :: r => s' <- fstep s o ;; frun s' r end.

(** The bind data with which localBasis() evaluates (transformedfiniteelementmixin.hh 45-101);
    None: the pointer is dangling or the data uninitialized. *)
Definition basis_data (s : store) (i : nat) : option B := f <- obj s i ;; k <- obj s (fo_basis f) ;; fo_data k.
(** The bind data with which localInterpolation() evaluates: for the mesh sizes
    (cubichermitebasis.hh 480; argyrisbasis.hh 504-531) ... *)
Definition sizes_data (s : store) (i : nat) : option B := f <- obj s i ;; p <- fo_sizes f ;; k <- obj s p ;; fo_data k.
(** ... and for points and normals, and everything in Morley's interpolation. *)
(** argyrisbasis.hh:497-560 and morleybasis.hh:313-340: the members of the interpolations. *)
Definition nodes_data (s : store) (i : nat) : option B := f <- obj s i ;; fo_data f.
End Copies.
Arguments fobj : clear implicits. Arguments store : clear implicits. Arguments fop : clear implicits.
