(** Lifetimes of objects in the Python bindings: dune/python/functions/globalbasis.hh,
    subspacebasis.hh, discretefunction.hh and tree.hh.

    An object of Python is freed when its last reference goes away.  Its C++ part may
    refer to the C++ parts of other objects without owning them; pybind11::keep_alive
    makes an object (the nurse) own a reference to another one (the patient).

    External, and modelled by their documented behaviour: reference counting and
    keep_alive of pybind11, the objects of dune-grid's bindings (grids, grid views,
    elements, local functions: each keeps what it was made from alive), numpy arrays. *)
From Coq Require Import List Arith Bool Lia.
From Verif Require Import Lib.
Import ListNotations.

(** The classes registered in globalbasis.hh:153-250, subspacebasis.hh:30-50,
    discretefunction.hh:47-79 and tree.hh:43-130, and those of dune-grid and numpy. *)
Inductive kind := KGrid | KArray | KGridView | KElement | KBasis | KSubspace | KLocalView | KFunction
  | KLocalFunction | KGridViewFunction | KTree | KFiniteElement.
(** No counterpart in the code: equality of kinds. *)
Definition kind_eqb (a b : kind) : bool :=
  match a, b with
  | KGrid, KGrid | KArray, KArray | KGridView, KGridView | KElement, KElement | KBasis, KBasis
  | KSubspace, KSubspace | KLocalView, KLocalView | KFunction, KFunction | KLocalFunction, KLocalFunction
  | KGridViewFunction, KGridViewFunction | KTree, KTree | KFiniteElement, KFiniteElement => true
  | _, _ => false
  end.

(** [o_vars]: references held by variables of the program.  [o_lost]: references that
    were released without being given back.  [o_keeps]: patients.  [o_bound]: the member
    obj_ of LocalViewWrapper (globalbasis.hh:123).  [o_refers]: the objects whose C++
    parts the C++ part refers to.  Objects are named by their number in the world. *)
Record obj := Obj {
  o_kind : kind; o_alive : bool; o_vars : nat; o_lost : nat;
  o_keeps : list nat; o_bound : option nat; o_refers : list nat }.
(** All objects made so far, by address; no counterpart in the code. *)
Definition world := list obj.

(** What an object owns a reference to *)
(** o_bound is obj_ of LocalViewWrapper, globalbasis.hh:120. *)
Definition owns (o : obj) : list nat := o_keeps o ++ match o_bound o with Some e => [e] | None => [] end.
(** No counterpart in the code: references to x owned by o. *)
Definition owned_by (x : nat) (o : obj) : nat := if o_alive o then count_occ Nat.eq_dec (owns o) x else 0.
(** Py_REFCNT (CPython). *)
Definition refcount (w : world) (x : nat) (o : obj) : nat := o_vars o + o_lost o + list_sum (map (owned_by x) w).

(** The object is freed (CPython). *)
Definition die (o : obj) : obj := Obj (o_kind o) false (o_vars o) (o_lost o) (o_keeps o) (o_bound o) (o_refers o).
(** Objects whose count is zero are freed, and with them the references they own, until
    there are no more. *)
(** No counterpart in the library (CPython). *)
Definition sweep (w : world) : world :=
  map (fun xo => let '(x, o) := xo in if refcount w x o =? 0 then die o else o) (combine (seq 0 (length w)) w).
(** No counterpart in the library (CPython). *)
Fixpoint collect_n (n : nat) (w : world) : world := match n with 0 => w | S n => collect_n n (sweep w) end.
(** No counterpart in the library (CPython). *)
Definition collect (w : world) : world := collect_n (length w) w.

(** The operations of a Python program; the cases of [act] cite the lines. *)
Inductive op :=
| Grid                          (* a new grid (dune-grid) *)
| Array                         (* a new numpy array *)
| LeafView (g : nat)            (* g.leafView (dune-grid) *)
| Element (gv : nat)            (* an element of gv.elements (dune-grid) *)
| Basis (gv : nat)              (* defaultGlobalBasis(gv, tree) *)
| Subspace (b : nat)            (* subspaceBasis(b, ...) *)
| LocalView (b : nat)           (* b.localView() *)
| Bind (v e : nat)              (* v.bind(e) *)
| Unbind (v : nat)              (* v.unbind() *)
| AsFunction (b x : nat)        (* b.asFunction(x) *)
| LocalFunction (f : nat)       (* f.localFunction() (dune-grid) *)
| GridOf (f : nat)              (* f.grid *)
| BasisOf (f : nat)             (* f.basis *)
| TreeOf (v : nat)              (* v.tree() *)
| FiniteElementOf (t : nat)     (* t.finiteElement() *)
| ElementOf (v : nat)           (* v.element() *)
| GridViewOf (b : nat)          (* b.gridView *)
| SetGridView (b gv : nat)      (* b.gridView = gv *)
| ToGridViewFunction (f : nat)  (* GridViewFunction(f) *)
| CopyVar (x : nat)             (* y = x *)
| Del (x : nat).                (* del x *)

(** An argument: an object the program has a variable for, of one of the given kinds *)
(** No counterpart in the library: evaluation of a variable, and pybind11's type check of an
    argument. *)
Definition arg (w : world) (x : nat) (ks : list kind) : option obj :=
  o <- nth_error w x ;;
  if (0 <? o_vars o) && (match ks with [] => true | _ => existsb (kind_eqb (o_kind o)) ks end) then Some o else None.
(** A new Python object, held by a new variable. *)
Definition new (w : world) (k : kind) (keeps refers : list nat) : world := w ++ [Obj k true 1 0 keeps None refers].
(** No counterpart in the library: number of variables that hold the object. *)
Definition set_vars (o : obj) (n : nat) := Obj (o_kind o) (o_alive o) n (o_lost o) (o_keeps o) (o_bound o) (o_refers o).
(** The assignment globalbasis.hh:111. *)
Definition set_bound (o : obj) (e : option nat) := Obj (o_kind o) (o_alive o) (o_vars o) (o_lost o) (o_keeps o) e (o_refers o).
(** obj_.release(), globalbasis.hh:118: the reference is given up without decreasing the count. *)
Definition lose (o : obj) := Obj (o_kind o) (o_alive o) (o_vars o) (S (o_lost o)) (o_keeps o) (o_bound o) (o_refers o).
(** pybind11::keep_alive, globalbasis.hh:153, 191, 250; discretefunction.hh:55, 78, 79. *)
Definition add_patient (o : obj) (x : nat) := Obj (o_kind o) (o_alive o) (o_vars o) (o_lost o) (x :: o_keeps o) (o_bound o) (o_refers o).
(** The C++ part of the object refers to other objects, globalbasis.hh:166. *)
Definition set_refers (o : obj) (l : list nat) := Obj (o_kind o) (o_alive o) (o_vars o) (o_lost o) (o_keeps o) (o_bound o) l.

(** One operation, before anything is freed.  [None]: the program has no such variable, or
    pybind11 raises a TypeError. *)
(** The cases cite the lines in dune/python/functions. *)
Definition act (w : world) (o : op) : option world :=
  match o with
  | Grid => Some (new w KGrid [] [])
  | Array => Some (new w KArray [] [])
  | LeafView g => _ <- arg w g [KGrid] ;; Some (new w KGridView [g] [g])
  | Element gv => v <- arg w gv [KGridView] ;; Some (new w KElement [gv] (o_refers v))
  (* globalbasis.hh:150,253: keep_alive<1,2>; the pre-basis has a copy of the grid view *)
  | Basis gv => v <- arg w gv [KGridView] ;; Some (new w KBasis [gv] (o_refers v))
  (* globalbasis.hh:150, subspacebasis.hh:29: keep_alive<1,2>; SubspaceBasis has a pointer *)
  | Subspace b => _ <- arg w b [KBasis; KSubspace] ;; Some (new w KSubspace [b] [b])
  (* globalbasis.hh:187: keep_alive<0,1>; the view has a pointer to the basis *)
  | LocalView b => _ <- arg w b [KBasis; KSubspace] ;; Some (new w KLocalView [b] [b])
  (* globalbasis.hh:112-117; the view copies the element *)
  | Bind v e => vo <- arg w v [KLocalView] ;; _ <- arg w e [KElement] ;; upd w v (set_bound vo (Some e))
  (* globalbasis.hh:118-122: release() gives up the reference without decrementing it *)
  | Unbind v =>
      vo <- arg w v [KLocalView] ;;
      w1 <- upd w v (set_bound vo None) ;;
      match o_bound vo with
      | None => Some w1
      | Some e => eo <- nth_error w1 e ;; upd w1 e (lose eo)
      end
  (* globalbasis.hh:241-243: keep_alive<0,1>, keep_alive<0,2> *)
  | AsFunction b x => _ <- arg w b [KBasis; KSubspace] ;; _ <- arg w x [KArray] ;; Some (new w KFunction [b; x] [b; x])
  | LocalFunction f => fo <- arg w f [KFunction] ;; Some (new w KLocalFunction [f] (o_refers fo))
  (* discretefunction.hh:78: a reference into the basis, keep_alive<0,1>.  Only called for
     functions, whose first reference is the basis. *)
  | GridOf f => fo <- arg w f [KFunction] ;; Some (new w KGridView [f] (o_refers fo))
  (* discretefunction.hh:77: keep_alive<0,1>; pybind11 finds the Python object that the
     reference belongs to and returns it *)
  | BasisOf f =>
      fo <- arg w f [KFunction] ;;
      b <- nth_error (o_refers fo) 0 ;;
      bo <- nth_error w b ;;
      upd w b (add_patient (set_vars bo (S (o_vars bo))) f)
  (* globalbasis.hh:185: a shared_ptr that owns nothing, no keep_alive *)
  | TreeOf v => _ <- arg w v [KLocalView] ;; Some (new w KTree [] [v])
  (* tree.hh:126-130: reference_internal, that is keep_alive<0,1> *)
  | FiniteElementOf t => to <- arg w t [KTree] ;; Some (new w KFiniteElement [t] (o_refers to))
  (* globalbasis.hh:178: a copy of the element, no keep_alive *)
  | ElementOf v =>
      vo <- arg w v [KLocalView] ;; e <- o_bound vo ;; eo <- nth_error w e ;; Some (new w KElement [] (o_refers eo))
  (* globalbasis.hh:159-166: a copy of the grid view, no keep_alive *)
  | GridViewOf b => bo <- arg w b [KBasis] ;; Some (new w KGridView [] (o_refers bo))
  (* globalbasis.hh:163: update, no keep_alive *)
  | SetGridView b gv => bo <- arg w b [KBasis] ;; v <- arg w gv [KGridView] ;; upd w b (set_refers bo (o_refers v))
  (* globalbasis.hh:236: a copy of the function, no keep_alive *)
  | ToGridViewFunction f => fo <- arg w f [KFunction] ;; Some (new w KGridViewFunction [] (o_refers fo))
  | CopyVar x => o <- arg w x [] ;; upd w x (set_vars o (S (o_vars o)))
  | Del x => o <- arg w x [] ;; upd w x (set_vars o (o_vars o - 1))
  end.
Definition step (w : world) (o : op) : option world := w' <- act w o ;; Some (collect w').
(** A sequence of operations; no counterpart in the library. *)
Fixpoint run (w : world) (h : list op) : option world :=
  match h with [] => Some w | o :: r => w' <- step w o ;; run w' r end.
