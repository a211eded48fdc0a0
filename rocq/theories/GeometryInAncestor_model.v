(** Model of dune/functions/common/geometryinancestor.hh, with its pointers. *)
From Coq Require Import List Arith Bool.
From Verif Require Import Lib LocalFunction_model.
Import ListNotations.

Section Gia.
Context {E X Y : Type}.
Variable G : grid E X Y.

(** Where a pointer points: null, an element variable of the caller, or the members
    storedFineElement_/storedCoarseElement_ of the i-th GeometryInAncestor. *)
(** The values of fineElementPtr_ and coarseElementPtr_ (geometryinancestor.hh:189-190). *)
Inductive ptr := PNull | PExt (a : nat) | PFine (i : nat) | PCoarse (i : nat).
(** geometryinancestor.hh:75-80: comparison of pointers. *)
Definition ptr_eqb (p q : ptr) : bool :=
  match p, q with
  | PNull, PNull => true
  | PExt a, PExt b | PFine a, PFine b | PCoarse a, PCoarse b => a =? b
  | _, _ => false
  end.

(** Members, lines 187-191; [None] is a default constructed element; a geometryInFather
    is given by the element it belongs to. *)
Record gia := GI { gi_sfine : option E; gi_scoarse : option E; gi_fine : ptr; gi_coarse : ptr; gi_geos : list E }.
(** The caller's elements and the objects. *)
(** Memory as far as geometryinancestor.hh refers to it. *)
Record mem := MEM { m_ext : nat -> option E; m_objs : list gia }.
(** *p for a pointer to a proper element *)
(** geometryinancestor.hh:157-166: dereferencing the pointers. *)
Definition deref (m : mem) (p : ptr) : option E :=
  match p with
  | PNull => None
  | PExt a => m_ext m a
  | PFine i => o <- nth_error (m_objs m) i ;; gi_sfine o
  | PCoarse i => o <- nth_error (m_objs m) i ;; gi_scoarse o
  end.

(** geometryinancestor.hh 56 *)
Definition gia_new (m : mem) : mem := MEM (m_ext m) (m_objs m ++ [GI None None PNull PNull []]).
(** geometryinancestor.hh 66-81: copy of object [j], as object number [i] *)
Definition gia_copy (i j : nat) (o : gia) : gia :=
  let fine := if negb (ptr_eqb (gi_fine o) (PFine j)) then gi_fine o else PFine i in
  let coarse := if negb (ptr_eqb (gi_coarse o) (PCoarse j)) then fine else PFine i in
  GI (gi_sfine o) (gi_scoarse o) fine coarse (gi_geos o).
(** geometryinancestor.hh 89-100: copy of object [j] with the caller's element [a] as fine element *)
Definition gia_copy_ext (i j a : nat) (o : gia) : gia :=
  let fine := PExt a in
  let coarse := if negb (ptr_eqb (gi_coarse o) (PCoarse j)) then fine else PFine i in
  GI (gi_sfine o) (gi_scoarse o) fine coarse (gi_geos o).
(** geometryinancestor.hh 119-130: bind to the caller's element [a].  The loop of
    LocalFunction_model.ancestor; afterwards storedCoarseElement_ holds the last father
    taken, if any. *)
Definition gia_bind (m : mem) (i a : nat) (include : E -> bool) : option mem :=
  o <- nth_error (m_objs m) i ;;
  e <- m_ext m a ;;
  '(c, geos) <- ancestor G (gr_level G e) include e [] ;;
  let o' := match geos with
            | [] => GI (gi_sfine o) (gi_scoarse o) (PExt a) (PExt a) []
            | _ => GI (gi_sfine o) (Some c) (PExt a) (PCoarse i) geos
            end in
  l <- upd (m_objs m) i o' ;;
  Some (MEM (m_ext m) l).
(** geometryinancestor.hh 150-154: the overload for r-values flows off its end without a return
    statement: undefined behaviour. *)
Definition gia_bind_rvalue (m : mem) (i : nat) (e : E) (include : E -> bool) : option mem := None.

(** geometryinancestor.hh 157-160, 163-166 *)
Definition gia_fine_element (m : mem) (i : nat) : option E := o <- nth_error (m_objs m) i ;; deref m (gi_fine o).
(** geometryinancestor.hh:163-166, coarseElement. *)
Definition gia_coarse_element (m : mem) (i : nat) : option E := o <- nth_error (m_objs m) i ;; deref m (gi_coarse o).
(** geometryinancestor.hh 169-174, 177-184 *)
Definition gia_global (m : mem) (i : nat) (x : X) : option X := o <- nth_error (m_objs m) i ;; Some (map_up G (gi_geos o) x).
(** geometryinancestor.hh:177-184, local. *)
Definition gia_local (m : mem) (i : nat) (x : X) : option X := o <- nth_error (m_objs m) i ;; Some (map_down G (gi_geos o) x).

(** The calls of a program: constructors (geometryinancestor.hh:56, 66-81) and bind (84-152). *)
Inductive giop := GNew | GBind (i a : nat) (include : E -> bool) | GCopy (j : nat) | GCopyExt (j a : nat).
(** One call of a program; each case calls the definition above for it. *)
Definition gi_step (m : mem) (o : giop) : option mem :=
  match o with
  | GNew => Some (gia_new m)
  | GBind i a f => gia_bind m i a f
  | GCopy j => o <- nth_error (m_objs m) j ;; Some (MEM (m_ext m) (m_objs m ++ [gia_copy (length (m_objs m)) j o]))
  | GCopyExt j a => o <- nth_error (m_objs m) j ;; Some (MEM (m_ext m) (m_objs m ++ [gia_copy_ext (length (m_objs m)) j a o]))
  end.
(** A sequence of calls; no counterpart in the library. *)
Fixpoint gi_run (m : mem) (h : list giop) : option mem :=
  match h with [] => Some m | o :: r => m' <- gi_step m o ;; gi_run m' r end.
End Gia.
Arguments mem : clear implicits. Arguments gia : clear implicits. Arguments giop : clear implicits.
