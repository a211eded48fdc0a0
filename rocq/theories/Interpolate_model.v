(** Model of dune/functions/functionspacebases/interpolate.hh. *)
From Coq Require Import List Arith Bool.
From Verif Require Import Lib Basis_model Container_model Container_spec.
Import ListNotations.

Section Interpolate.
Context {E V : Type}.
Notation cont := (cont V).

(** Dune::TypeTree::forEachLeafNode (dune-typetree): the leaf nodes with their tree
    paths, children in order. *)
(** Used in interpolate.hh:154. *)
Fixpoint for_each_leaf (n : node E) : list (list nat * node E) :=
  match n with
  | NLeaf _ _ _ _ => [([], n)]
  | NInner _ _ cs =>
      (fix go (i : nat) (l : list (node E)) :=
         match l with
         | [] => []
         | c :: r => map (fun pl => (i :: fst pl, snd pl)) (for_each_leaf c) ++ go (i + 1) r
         end) 0 cs
  end.

(** The coefficient container (its type and what backend[...] addresses, see
    Container_model), the bit vector (backend[...] as a function; AllTrueBitSetVector,
    lines 32-54, is [fun _ => true]), and the local interpolation: [interp e p] is the
    vector that fe.localInterpolation().interpolate(localF_RE, ...) of the leaf node at
    tree path [p] gives on element [e] (lines 161-165; localF is bound to [e], line 257,
    and composed with nodeToRangeEntry for that node, line 163). *)
Variables (t : cty) (mask : mi -> bool) (interp : E -> list nat -> list V).

(** vector[multiIndex] = x : assignment through the reference. *)
Definition backend_write (c : cont) (m : mi) (x : V) : option cont :=
  a <- backend_at t c m ;; put c a (CVal x).

(** interpolate.hh:154-172, the body of the leaf loop *)
Definition interpolate_leaf (v : lview E) (pn : list nat * node E) (c : cont) : option cont :=
  let '(p, n) := pn in
  if node_size n =? 0 then Some c else (* node.empty(), 155 *)
  match n with
  | NLeaf _ _ fe (Some e) =>
      forl (fe e) 0 (fun i c =>
        k <- local_index n i ;;
        m <- lv_index v k ;;
        if mask m then x <- nth_error (interp e p) i ;; backend_write c m x else Some c) c
  | _ => None
  end.
(** interpolate.hh:154-172, the loop over the leaves. *)
Fixpoint interpolate_leaves (v : lview E) (l : list (list nat * node E)) (c : cont) : option cont :=
  match l with
  | [] => Some c
  | pn :: r => c' <- interpolate_leaf v pn c ;; interpolate_leaves v r c'
  end.
(** interpolate.hh:151-173; for a subspace basis localView.tree() is the sub-tree. *)
Definition interpolate_local (s : subspace E) (v : lview E) (c : cont) : option cont :=
  tree <- sv_tree s v ;; interpolate_leaves v (for_each_leaf tree) c.

(** interpolate.hh:254-259 *)
Fixpoint interpolate_elements (s : subspace E) (v : lview E) (es : list E) (c : cont) : option cont :=
  match es with
  | [] => Some c
  | e :: r =>
      v' <- sv_bind s v e ;;
      c' <- interpolate_local s v' c ;;
      interpolate_elements s v' r c'
  end.
(** interpolate.hh:204-260.  [es]: elements(gridView) in iteration order.  The subspace
    with the empty path is the basis itself. *)
Definition interpolate (zero : V) (s : subspace E) (es : list E) (c : cont) : res cont :=
  match backend_resize zero (pb_size (ss_root s)) t c with
  | Done c0 => match interpolate_elements s (sv_new s) es c0 with Some c' => Done c' | None => Undef end
  | Throw => Throw
  | Undef => Undef
  end.
End Interpolate.
