(** Coefficient arrays in the Python bindings: dune/python/functions/interpolate.hh,
    dune/python/functions/globalbasis.hh (the methods interpolate and asFunction),
    dune/python/functions/hierarchicvectorwrapper.hh and discretefunction.hh.

    External, and modelled by their documented behaviour: numpy arrays, and how pybind11
    selects an overload and converts arguments of type pybind11::array_t<T>.  Numbers
    are exact reals. *)
From Coq Require Import List Arith Bool Reals.
From Verif Require Import Lib Basis_model Container_model Container_spec Interpolate_model DiscreteFunction_model.
Import ListNotations.

(** The element types of numpy arrays: those for which interpolate is registered
    (globalbasis.hh:196-207: double, bool, int), and all others (float32, int64, ...);
    sequences that are not arrays, like lists, behave as arrays of other type. *)
Inductive dtype := Float64 | Bool8 | Int32 | OtherType.
(** [a_data]: the entries in row-major order. *)
(** numpy.ndarray, the argument of dune/python/functions/interpolate.hh:17 and
    globalbasis.hh:248. *)
Record array := Arr { a_type : dtype; a_shape : list nat; a_writeable : bool; a_data : list R }.
(** The arrays of the program, by address; no counterpart in the code. *)
Definition heap := list array.

(** How a call from Python ends; no counterpart in the code. *)
Inductive outcome := Returned | Raised | Undefined.

Section Interpolate.
Context {E : Type}.
(** [interp d e p]: what the local interpolation of the leaf at [p] gives on [e]
    (Interpolate_model), for the Python function, whose results pybind11 casts to the
    range type of the overload for [d].  [trunc]: the conversion of double to int. *)
Variables (interp : dtype -> E -> list nat -> list R) (trunc : R -> R).

(** Assignment of a double to an entry of the array *)
(** Used for the assignments through interpolate.hh:25 (istlVectorBackend's operator[]). *)
Definition store (d : dtype) (x : R) : R :=
  match d with
  | Float64 => x
  | Bool8 => if Req_EM_T x 0 then 0%R else 1%R
  | Int32 => trunc x
  | OtherType => x
  end.

(** The entries of the vector that interpolate.hh:23-25 wraps. *)
Definition entry_value (c : cont R) : R := match c with CVal x => x | CBlk _ => 0%R end.
(** The entries of the vector that interpolate.hh:23-25 wraps. *)
Definition entries (c : cont R) : list R := match c with CVal _ => [] | CBlk l => map entry_value l end.

(** interpolate.hh:17-29.  Line 20: shape(0) raises for an array without dimension.
    Line 23: mutable_unchecked<1>() raises unless the array is writeable and has one
    dimension.  Line 25: the wrapped reference has operator[] and size() but no resize():
    type [TArr].  Line 27: Interpolate_model, with AllTrueBitSetVector. *)
Definition interpolate_into (d : dtype) (s : subspace E) (es : list E) (a : array) : outcome * array :=
  match a_shape a, pb_size (ss_root s) [] with
  | [], _ => (Raised, a)
  | _, None => (Undefined, a)
  | n :: _, Some size =>
      if negb (n =? size) then (Raised, a)
      else if negb (a_writeable a) then (Raised, a)
      else if negb (length (a_shape a) =? 1) then (Raised, a)
      else match interpolate (TArr n TScalar) (fun _ => true) (fun e p => map (store d) (interp d e p)) 0%R s es
                   (CBlk (map CVal (a_data a))) with
           | Done c => (Returned, Arr (a_type a) (a_shape a) (a_writeable a) (entries c))
           | Throw => (Raised, a)
           | Undef => (Undefined, a)
           end
  end.

(** basis.interpolate(x, f), globalbasis.hh:193-207.  pybind11 first looks for an overload
    that takes the array as it is: its element type must be exactly [T].  If there is
    none it converts the argument for the first overload, which makes a new array of
    doubles. *)
Definition py_interpolate (s : subspace E) (es : list E) (h : heap) (i : nat) : option (outcome * heap) :=
  a <- nth_error h i ;;
  match a_type a with
  | OtherType =>
      let copy := Arr Float64 (a_shape a) true (a_data a) in
      Some (fst (interpolate_into Float64 s es copy), h)
  | d => let '(o, a') := interpolate_into d s es a in
         h' <- upd h i a' ;; Some (o, h')
  end.
End Interpolate.

(** HierarchicPythonVector<double>::operator[] (hierarchicvectorwrapper.hh:43-53 with
    Entry = double; discretefunction.hh:31-32): hybridMultiIndexAccess<double&> on a
    one-dimensional vector.  As coefficient of a discrete function it is flat, of
    dimension one. *)
Definition py_coefficient (data : list R) (m : mi) : option (list R) :=
  let c := CBlk (map CVal data) in
  p <- hybrid_access no_index_access (TDyn TScalar) c m 0 ;;
  match at_path c p with Some (CVal x) => Some [x] | _ => None end.

Section Functions.
Context {E X : Type} (su : setup E X).

(** A Python program with one discrete function basis.asFunction(x)
    (globalbasis.hh:241-243, discretefunction.hh:47-56): the function refers to the array
    [x], it does not copy it. *)
Inductive pyop :=
| PyNew (d : bool)            (* local functions of the function, or of its derivative *)
| PyBind (i : nat) (e : E)
| PyUnbind (i : nat)
| PyCopy (i : nat)
| PyDerivative (i : nat)
| PySet (k : nat) (v : R).    (* x[k] = v *)

(** One call of a program: globalbasis.hh:248-250, DiscreteFunction_model, or an assignment to
    the array in Python. *)
Definition py_step (w : world E * list R) (o : pyop) : option (world E * list R) :=
  let '(fs, data) := w in
  let run o := fs' <- lf_step su fs o ;; Some (fs', data) in
  match o with
  | PyNew d => run (OpNew d)
  | PyBind i e => run (OpBind i e)
  | PyUnbind i => run (OpUnbind i)
  | PyCopy i => run (OpCopy i)
  | PyDerivative i => run (OpDerivative i)
  | PySet k v => data' <- upd data k v ;; fs' <- lf_step su fs (OpCoefs (py_coefficient data')) ;; Some (fs', data')
  end.
(** A sequence of calls; no counterpart in the library. *)
Fixpoint py_run (w : world E * list R) (h : list pyop) : option (world E * list R) :=
  match h with [] => Some w | o :: r => w' <- py_step w o ;; py_run w' r end.
(** asFunction(x) *)
(** globalbasis.hh:248-250. *)
Definition py_function (data : list R) : world E * list R := (W [] (py_coefficient data), data).
End Functions.
Arguments pyop : clear implicits.
