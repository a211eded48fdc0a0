(** Local views as objects with addresses: which object the pointers in the leaf nodes
    of a view refer to (defaultlocalview.hh, lagrangebasis.hh). *)
From Coq Require Import List Arith.
From Verif Require Import Lib.
Import ListNotations.

Section Alias.
Context {E : Type}.

(** A DefaultLocalView with Lagrange leaf nodes.  [vo_elem]: element_
    (defaultlocalview.hh:175).  [vo_ptr]: the pointer element_ of the leaf nodes
    (lagrangebasis.hh:982, 991), given by the view whose element_ it points into.
    [vo_fe]: the pointer finiteElement_ (lagrangebasis.hh:983), given by the view in
    whose leaf nodes the cache (lagrangebasis.hh:989) lives, and the element whose type
    selected the entry.  Sizes, offsets and indices are stored by value and not modelled here.
    The same applies to the other leaf nodes with [element_ = &e]
    (lfeprebasismixin.hh:155, brezzidouglasmarinibasis.hh:261, nedelecbasis.hh:248,
    cubichermitebasis.hh:697, morleybasis.hh:570, argyrisbasis.hh:823). *)
Record vobj := VO { vo_elem : option E; vo_ptr : option nat; vo_fe : option (nat * E) }.

(** The objects by address; [None]: destroyed. *)
(** Memory; no counterpart in the code. *)
Definition store := list (option vobj).

(** An object that is alive *)
(** No counterpart in the code. *)
Definition obj (s : store) (i : nat) : option vobj := o <- nth_error s i ;; o.

(** bind(e), defaultlocalview.hh:95-101: element_ = e; bindTree(tree_, *element_). *)
Definition vo_bind (s : store) (i : nat) (e : E) : option store :=
  _ <- obj s i ;; upd s i (Some (VO (Some e) (Some i) (Some (i, e)))).

(** The calls of a program: defaultlocalview.hh:72-126. *)
Inductive vop :=
| VNew                     (* basis.localView() *)
| VBind (i : nat) (e : E)
| VUnbind (i : nat)
| VCopy (i : nat)          (* copy constructor *)
| VAssign (i j : nat)      (* view_i = view_j *)
| VDestroy (i : nat).

(** [None]: the object does not exist (any more). *)
(** defaultlocalview.hh:72-126; the cases cite the lines. *)
Definition vstep (s : store) (o : vop) : option store :=
  match o with
  (* 72-78 *)
  | VNew => Some (s ++ [Some (VO None None None)])
  | VBind i e => vo_bind s i e
  (* 123-126 *)
  | VUnbind i => v <- obj s i ;; upd s i (Some (VO None (vo_ptr v) (vo_fe v)))
  (* 81-88: a new tree, bound to other.element() if bound *)
  | VCopy i => v <- obj s i ;;
               let s' := s ++ [Some (VO None None None)] in
               match vo_elem v with
               | Some e => vo_bind s' (length s) e
               | None => Some s'
               end
  (* implicitly declared copy assignment: memberwise, pointers are copied *)
  | VAssign i j => _ <- obj s i ;; v <- obj s j ;; upd s i (Some v)
  | VDestroy i => _ <- obj s i ;; upd s i None
  end.
Fixpoint vrun (s : store) (h : list vop) : option store :=
  match h with [] => Some s | o :: r => s' <- vstep s o ;; vrun s' r end.

(** element(), 114-117; [None]: not bound. *)
Definition view_element (s : store) (i : nat) : option E := v <- obj s i ;; vo_elem v.
(** tree().element() (lagrangebasis.hh:965-968) of a leaf: reads through the pointer;
    [None]: the pointer is null, dangling, or points into an empty std::optional. *)
Definition node_element (s : store) (i : nat) : option E :=
  v <- obj s i ;; k <- vo_ptr v ;; w <- obj s k ;; vo_elem w.
(** tree().finiteElement() (lagrangebasis.hh:974-977): the element whose type selected the finite
    element; [None]: null or dangling. *)
Definition node_fe (s : store) (i : nat) : option E :=
  v <- obj s i ;; ke <- vo_fe v ;; _ <- obj s (fst ke) ;; Some (snd ke).
End Alias.
Arguments vobj : clear implicits. Arguments store : clear implicits. Arguments vop : clear implicits.
