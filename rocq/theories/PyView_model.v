(** Bases, local views and tree nodes as seen from Python: dune/python/functions/globalbasis.hh,
    subspacebasis.hh and tree.hh.

    Lifetimes are the subject of PyLifetime_model; here all objects live.  Indices and
    sizes passed to Python as int are converted from std::size_t modulo 2^32. *)
From Coq Require Import List Arith Bool ZArith.
From Verif Require Import Lib Basis_model.
Import ListNotations.

(** Conversion of std::size_t to int *)
(** Used in globalbasis.hh:105, 184-186, 192. *)
Definition to_int (n : nat) : Z := ((Z.of_nat n + 2 ^ 31) mod 2 ^ 32 - 2 ^ 31)%Z.

Section View.
Context {E : Type}.

(** DefaultGlobalBasis<PB>, or SubspaceBasis<RB,TP> (subspacebasis.hh:28-137), where RB may be
    a SubspaceBasis: dune/python/functions/subspacebasis.hh:30 calls the first constructor, which
    does not join the paths. *)
Inductive pybasis := PGlobal (pb : prebasis E) | PSubspace (b : pybasis) (path : list nat).
(** DefaultLocalView, or SubspaceLocalView<RLV,PP> (subspacelocalview.hh:32-156) *)
Inductive pyview := VDefault (v : lview E) | VSubspace (v : pyview).

(** dimension(), size(prefix): functionspacebases/subspacebasis.hh:79-94 *)
Fixpoint py_dim (b : pybasis) : nat := match b with PGlobal pb => pb_dim pb | PSubspace b _ => py_dim b end.
(** size(prefix): globalbasis.hh:155-160; defaultglobalbasis.hh:150-159, subspacebasis.hh:85-94. *)
Fixpoint py_size (b : pybasis) (p : mi) : option nat :=
  match b with PGlobal pb => pb_size pb p | PSubspace b _ => py_size b p end.
(** localView(): subspacebasis.hh:99-102, subspacelocalview.hh:63-68 *)
Fixpoint pv_new (b : pybasis) : pyview :=
  match b with PGlobal pb => VDefault (lv_new pb) | PSubspace b _ => VSubspace (pv_new b) end.
(** bind, unbind, element, size, maxSize, index: subspacelocalview.hh:75-136.  [None]: the view
    is of another basis. *)
Fixpoint pv_bind (b : pybasis) (v : pyview) (e : E) : option pyview :=
  match b, v with
  | PGlobal pb, VDefault v => v' <- lv_bind pb v e ;; Some (VDefault v')
  | PSubspace b _, VSubspace v => v' <- pv_bind b v e ;; Some (VSubspace v')
  | _, _ => None
  end.
(** globalbasis.hh:115-119, subspacelocalview.hh:93-96. *)
Fixpoint pv_unbind (v : pyview) : pyview :=
  match v with VDefault v => VDefault (lv_unbind v) | VSubspace v => VSubspace (pv_unbind v) end.
(** subspacelocalview.hh:84-87. *)
Fixpoint pv_element (v : pyview) : option E := match v with VDefault v => lv_elem v | VSubspace v => pv_element v end.
(** subspacelocalview.hh:116-119. *)
Fixpoint pv_size (v : pyview) : nat := match v with VDefault v => lv_size v | VSubspace v => pv_size v end.
(** subspacelocalview.hh:127-130. *)
Fixpoint pv_maxsize (b : pybasis) : nat := match b with PGlobal pb => lv_maxsize pb | PSubspace b _ => pv_maxsize b end.
(** subspacelocalview.hh:133-136. *)
Fixpoint pv_index (v : pyview) (i : nat) : option mi := match v with VDefault v => lv_index v i | VSubspace v => pv_index v i end.
(** tree(): subspacelocalview.hh:109-112 *)
Fixpoint pv_tree (b : pybasis) (v : pyview) : option (node E) :=
  match b, v with
  | PGlobal _, VDefault v => Some (lv_tree v)
  | PSubspace b p, VSubspace v => n <- pv_tree b v ;; descendant n p
  | _, _ => None
  end.

(** globalbasis.hh:180-181. *)
Inductive viewop := OBind (e : E) | OUnbind.
(** globalbasis.hh:180-181. *)
Definition pv_step (b : pybasis) (v : pyview) (o : viewop) : option pyview :=
  match o with OBind e => pv_bind b v e | OUnbind => Some (pv_unbind v) end.
(** A sequence of calls; no counterpart in the library. *)
Fixpoint pv_run (b : pybasis) (v : pyview) (h : list viewop) : option pyview :=
  match h with [] => Some v | o :: h => v' <- pv_step b v o ;; pv_run b v' h end.

(** * Numbers in Python *)
(** len(basis) (globalbasis.hh:154) and basis.dimension (192) *)
Definition py_len (b : pybasis) : Z := Z.of_nat (py_dim b).
(** globalbasis.hh:192. *)
Definition py_dimension (b : pybasis) : Z := to_int (py_dim b).
(** len(view), view.size(), view.maxSize() (184-186) *)
Definition py_view_size (v : pyview) : Z := to_int (pv_size v).
(** globalbasis.hh:186. *)
Definition py_view_maxsize (b : pybasis) : Z := to_int (pv_maxsize b).
(** view.index(i) (100-107, 183); negative numbers are out of bounds *)
Definition py_index (v : pyview) (i : Z) : option (list Z) :=
  if (i <? 0)%Z then None else m <- pv_index v (Z.to_nat i) ;; Some (map to_int m).
(** node.size() and node.localIndex(i): tree.hh:54-56 *)
Definition py_node_size (n : node E) : Z := to_int (node_size n).
(** tree.hh:56. *)
Definition py_local_index (n : node E) (i : nat) : option Z := option_map Z.of_nat (local_index n i).

(** * Nodes in Python *)
(** view.tree() hands out a pointer to the tree of the view (globalbasis.hh:189).
    node.child(i) (tree.hh:60-66, 80-83) casts a reference, for which pybind11 makes a
    copy; the children of a node are part of it (nodes.hh:299, 354, 408), so that the copy
    is deep. *)
Inductive handle := TheTree | ACopy (n : node E).
(** A view and the variables of the program that hold nodes; no counterpart in the code. *)
Record pyworld := PW { pw_view : pyview; pw_nodes : list handle }.
(** globalbasis.hh:180-189 and tree.hh:60-83. *)
Inductive nodeop :=
| NBind (e : E)              (* view.bind(e) *)
| NUnbind                    (* view.unbind() *)
| NTree                      (* a new variable for view.tree() *)
| NChild (h i : nat).        (* a new variable for node.child(i) *)

(** No counterpart in the code: the C++ object that a Python node refers to. *)
Definition deref (b : pybasis) (w : pyworld) (h : handle) : option (node E) :=
  match h with TheTree => pv_tree b (pw_view w) | ACopy n => Some n end.
(** [None]: Python raises, or there is no such variable *)
(** globalbasis.hh:180-189 and tree.hh:60-83. *)
Definition nstep (b : pybasis) (w : pyworld) (o : nodeop) : option pyworld :=
  match o with
  | NBind e => v <- pv_bind b (pw_view w) e ;; Some (PW v (pw_nodes w))
  | NUnbind => Some (PW (pv_unbind (pw_view w)) (pw_nodes w))
  | NTree => Some (PW (pw_view w) (pw_nodes w ++ [TheTree]))
  | NChild h i =>
      x <- nth_error (pw_nodes w) h ;; n <- deref b w x ;; c <- child n i ;;
      Some (PW (pw_view w) (pw_nodes w ++ [ACopy c]))
  end.
(** A sequence of calls; no counterpart in the library. *)
Fixpoint nrun (b : pybasis) (w : pyworld) (h : list nodeop) : option pyworld :=
  match h with [] => Some w | o :: h => w' <- nstep b w o ;; nrun b w' h end.
(** globalbasis.hh:191. *)
Definition nnew (b : pybasis) : pyworld := PW (pv_new b) [].
End View.
Arguments pybasis : clear implicits. Arguments pyview : clear implicits. Arguments viewop : clear implicits.
Arguments handle : clear implicits. Arguments pyworld : clear implicits. Arguments nodeop : clear implicits.
