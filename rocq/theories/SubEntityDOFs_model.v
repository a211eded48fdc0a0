(** DOFs on a subentity and on the boundary:
    functionspacebases/subentitydofs.hh and boundarydofs.hh, on top of the local
    views of Basis_model.v. *)
From Coq Require Import List Arith Bool.
From Verif Require Import Lib Basis_model.
Import ListNotations.

Section SubEntityDOFs.
Context {E : Type}.

(** What is asked of the finite elements and reference elements (external):
    [co_keys path e]: (subEntity, codim) of the local keys of the finite element
    of the leaf with that tree path (in the root tree) on element e;
    [co_sub e i c cc j]: re.subEntities(i, c, cc).contains(j) for e's type. *)
(** Used in subentitydofs.hh:75, 80-85. *)
Record coeffs := CO {
  co_keys : list nat -> E -> list (nat * nat);
  co_sub : E -> nat -> nat -> nat -> nat -> bool
}.

(** subentitydofs.hh:148-149. *)
Record sdofs := SD { sd_list : list nat; sd_flags : list bool }.
(** Default construction. *)
(** subentitydofs.hh:45-150: there is no user-defined constructor. *)
Definition sd_new : sdofs := SD [] [].

(** std::vector::clear and assign. *)
(** Used in subentitydofs.hh:72. *)
Definition vclear {A} (_ : list A) : list A := [].
(** Used in subentitydofs.hh:73. *)
Definition vassign {A} (_ : list A) (n : nat) (x : A) : list A := repeat x n.

(** Dune::TypeTree::forEachLeafNode: leaves in depth-first order with tree path. *)
(** Used in subentitydofs.hh:77. *)
Fixpoint visit_leaves {St} (f : list nat -> node E -> St -> option St)
    (path : list nat) (n : node E) (s : St) : option St :=
  match n with
  | NLeaf _ _ _ _ => f path n s
  | NInner _ _ cs =>
      (fix go (i : nat) (l : list (node E)) (s : St) : option St :=
         match l with
         | [] => Some s
         | c :: r => s' <- visit_leaves f (path ++ [i]) c s ;; go (i + 1) r s'
         end) 0 cs s
  end.

(** subentitydofs.hh:82-90: the body of the loop over the shape functions. *)
Definition se_key (co : coeffs) (e : E) (si sc : nat) (n : node E) (keys : list (nat * nat))
    (i : nat) (s : sdofs) : option sdofs :=
  ' key <- nth_error keys i ;;
  if co_sub co e si sc (snd key) (fst key)
  then k <- local_index n i ;;
       fl <- upd (sd_flags s) k true ;;
       Some (SD (sd_list s ++ [k]) fl)
  else Some s.
(** subentitydofs.hh:77-91: the callback for one leaf node. *)
Definition se_leaf (co : coeffs) (e : E) (si sc : nat) (path : list nat) (n : node E) (s : sdofs)
    : option sdofs :=
  if node_empty n then Some s else
  match n with
  | NLeaf _ _ _ (Some e') =>
      let keys := co_keys co path e' in
      forl (length keys) 0 (se_key co e si sc n keys) s
  | _ => None   (* finiteElement() of a node never bound *)
  end.
(** subentitydofs.hh:68-93.  The view is a root view and a prefix path ([] for a
    DefaultLocalView): tree() is the node at the path, size() the root's size. *)
Definition se_bind (co : coeffs) (v : lview E) (prefix : list nat) (si sc : nat) (s : sdofs)
    : option sdofs :=
  let s0 := SD (vclear (sd_list s)) (vassign (sd_flags s) (lv_size v) false) in
  e <- lv_elem v ;;
  t <- descendant (lv_tree v) prefix ;;
  visit_leaves (se_leaf co e si sc) prefix t s0.
(** subentitydofs.hh:141-144. *)
Definition se_contains (s : sdofs) (k : nat) : option bool := nth_error (sd_flags s) k.

(** Grid view, as far as forEachBoundaryDOF asks. An intersection is given by
    boundary() and indexInInside(). *)
(** Used in boundarydofs.hh:45-50. *)
Record bgrid := BG {
  bg_elements : list E;
  bg_hasbnd : E -> bool;                   (* hasBoundaryIntersections() *)
  bg_inters : E -> list (bool * nat)
}.

(** subentitydofs.hh:110-114. *)
Definition se_bind_inter co v prefix (x : bool * nat) s := se_bind co v prefix (snd x) 1 s.

(** boundarydofs.hh:38-54.  The calls of the callback, in order: local index, bound
    view, intersection.  The view and the SubEntityDOFs object are reused.
    [prefix] is [] for a global basis, the prefix path for a SubspaceBasis. *)
Definition call := (nat * lview E * (bool * nat))%type.
(** boundarydofs.hh:49-52. *)
Fixpoint bd_inters (co : coeffs) (prefix : list nat) (v : lview E) (xs : list (bool * nat))
    (s : sdofs) : option (list call * sdofs) :=
  match xs with
  | [] => Some ([], s)
  | x :: r =>
      if fst x
      then s' <- se_bind_inter co v prefix x s ;;
           '(l, s'') <- bd_inters co prefix v r s' ;;
           Some (map (fun k => (k, v, x)) (sd_list s') ++ l, s'')
      else bd_inters co prefix v r s
  end.
(** boundarydofs.hh:45-53. *)
Fixpoint bd_elements (co : coeffs) (pb : prebasis E) (prefix : list nat) (g : bgrid) (es : list E)
    (v : lview E) (s : sdofs) : option (list call) :=
  match es with
  | [] => Some []
  | e :: r =>
      if bg_hasbnd g e
      then v' <- lv_bind pb v e ;;
           '(l, s') <- bd_inters co prefix v' (bg_inters g e) s ;;
           l' <- bd_elements co pb prefix g r v' s' ;;
           Some (l ++ l')
      else bd_elements co pb prefix g r v s
  end.
(** boundarydofs.hh:38-54. *)
Definition for_each_boundary_dof co pb prefix g : option (list call) :=
  bd_elements co pb prefix g (bg_elements g) (lv_new pb) sd_new.
(** boundarydofs.hh:75-91: same loop, callback without the intersection. *)
Definition for_each_boundary_dof2 co pb prefix g : option (list (nat * lview E)) :=
  l <- for_each_boundary_dof co pb prefix g ;; Some (map fst l).
(** boundarydofs.hh:111-127: same loop, callback on the global index; [None] for
    an index() out of range. *)
Definition for_each_boundary_dof1 co pb prefix g : option (list mi) :=
  l <- for_each_boundary_dof co pb prefix g ;;
  (fix go (l : list call) : option (list mi) :=
     match l with
     | [] => Some []
     | (k, v, _) :: r => m <- lv_index v k ;; ms <- go r ;; Some (m :: ms)
     end) l.
End SubEntityDOFs.
Arguments coeffs : clear implicits.
Arguments bgrid : clear implicits.
