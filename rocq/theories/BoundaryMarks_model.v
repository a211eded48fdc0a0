(** Model of marking the boundary DOFs in a container: the operator= of
    dune/functions/backends/istlvectorbackend.hh and what examples/stokes-taylorhood.cc and
    examples/poisson-pq2.cc do with forEachBoundaryDOF (boundarydofs.hh). *)
From Coq Require Import List Arith Bool.
From Verif Require Import Lib Basis_model Container_model Interpolate_model SubEntityDOFs_model.
Import ListNotations.

Section Marks.
Context {E : Type}.
Notation cont := (cont bool).

(** What decides how a value is assigned (istlvectorbackend.hh:235-249): the types for which
    std::is_assignable_v holds, and what "c = t" does for them (the assignment operator of a
    type of another library or of the language). *)
Variables (assignable : cty -> bool) (direct : bool -> cont -> cont).

(** istlvectorbackend.hh:289-293: backend = x. *)
Definition backend_assign (t : cty) (x : bool) (c : cont) : option cont := recursive_assign assignable (direct x) t c.

(** The callback of examples/stokes-taylorhood.cc:421-423 (and examples/poisson-pq2.cc:271-273),
    isBoundaryBackend[index] = true, called with the given indices one after the other. *)
Fixpoint mark_all (t : cty) (ms : list mi) (c : cont) : option cont :=
  match ms with [] => Some c | m :: r => c' <- backend_write t c m true ;; mark_all t r c' end.

(** examples/stokes-taylorhood.cc:412-423: resize the marker container, assign false to it, and
    mark the boundary DOFs of a subspace basis.  Line 415 assigns to the container itself; here
    the assignment is that of the backend.  (poisson-pq2.cc:268-273 does the same for a
    std::vector<char>: clear() and resize(size, false).) *)
Definition mark_boundary (co : coeffs E) (t : cty) (pb : prebasis E) (prefix : list nat) (g : bgrid E) (c : cont) : res cont :=
  rbind (backend_resize false (pb_size pb) t c) (fun c0 =>
  match (c1 <- backend_assign t false c0 ;;
         ms <- for_each_boundary_dof1 co pb prefix g ;;
         mark_all t ms c1) with
  | Some c' => Done c'
  | None => Undef
  end).

(** Python: examples/poisson-pq2.py:132-138 with python/dune/functions/boundarydofs.py:8-32.
    numpy.zeros(len(basis)) (globalbasis.hh:154: dimension()), and isDirichlet[number] = True
    for each index; the callback is a std::function<void(std::size_t)>, so that an index
    is converted to its only digit (multiindex.hh:62-64).  Indices of other lengths do
    not compile: [None].  A number outside of the array raises IndexError: [None].  The
    array holds floating point numbers, 0 or 1; here booleans. *)
Definition py_set (a : list bool) (m : mi) : option (list bool) :=
  match m with [k] => upd a k true | _ => None end.
(** boundarydofs.py:28: the loop calls the callback. *)
Fixpoint py_set_all (ms : list mi) (a : list bool) : option (list bool) :=
  match ms with [] => Some a | m :: r => a' <- py_set a m ;; py_set_all r a' end.
(** poisson-pq2.py:133-138. *)
Definition py_mark_boundary (co : coeffs E) (pb : prebasis E) (g : bgrid E) : option (list bool) :=
  ms <- for_each_boundary_dof1 co pb [] g ;; py_set_all ms (repeat false (pb_dim pb)).
End Marks.
