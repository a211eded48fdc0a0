(** Global bases, subspace bases and local views as objects in memory: which objects the
    pointers and references of local views and of the nodes of their trees refer to, while
    bases are copied, moved, assigned, updated and destroyed.
    The pre-basis objects and their update are those of Update_model.v. *)
From Coq Require Import List Arith.
From Verif Require Import Lib Basis_model GeometryType_model Mapper_model Orientation_model Families_model Update_model.
From Verif Require BSpline_model.
Import ListNotations.

Section Lifetime.
Context {E X H D : Type}.
(** Parameters of Update_model: the mapper of dune-grid, GV::dimension, the local keys of the
    finite elements. *)
Variable mcmg : layout -> view E X -> option (mapper X).
Variable dim : nat.
Variables (lagrange_keys : nat -> gt -> list localkey) (turek_keys : gt -> list localkey) (family_keys : family -> gt -> list localkey).
(** element.type() (dune-grid) *)
Variable etype : E -> gt.
Notation obj := (obj X H D).
Notation world := (world E X H D).
Notation recipe := (recipe D).
Notation as_prebasis := (as_prebasis dim lagrange_keys turek_keys family_keys).

(** * Nodes *)
(** What leaf nodes hold by value: the order of LagrangeNode (lagrangebasis.hh:958-961, also used
    for LagrangeDG bases: lagrangedgbasis.hh:115-118) with its own cache of finite elements
    (lagrangebasis.hh:989), the cache of RannacherTurekNode (rannacherturekbasis.hh:139-144, 191)
    and the finite element of RefinedLagrangeNode (refinedlagrangebasis.hh:97-100, 186). *)
Inductive fevalue := VLagrange (order : nat) | VTurek | VFamily (f : family).
(** A tree as made by makeNode().  [TPtr a p]: a leaf node with pointers to members of the leaf
    pre-basis at position [p] inside the pre-basis of the global basis with address [a]:
    raviartthomasbasis.hh:315-318, brezzidouglasmarinibasis.hh:214-217, nedelecbasis.hh:198-201
    (finiteElementMap_), lfeprebasismixin.hh:92-95 (lfe_; the hierarchical bases),
    cubichermitebasis.hh:780-783, argyrisbasis.hh:911-914, morleybasis.hh:650-653 (mappers, mesh
    sizes, orientations), bsplinebasis.hh:701-704 (this).  [TRestricted a p d t]: the references
    of a restricted node to the grid view of the sub-domain pre-basis, which is at [p], and to the
    sub-domain (restrictedbasis.hh:142-145, 93-94).  Sizes, offsets and tree indices of the
    nodes and the element pointers (C51) are left out: bindTree sets them again. *)
Inductive ntree :=
| TValue (v : fevalue)
| TPtr (a : nat) (p : list nat)
| TInner (cs : list ntree)
| TRestricted (a : nat) (p : list nat) (d : D) (t : ntree).
(** makeNode() of the pre-basis object [o] at position [p] of the basis with address [a]; the
    cases cite the lines. *)
Fixpoint make_node (a : nat) (p : list nat) (o : obj) : ntree :=
  match o with
  | OLagrange l => TValue (VLagrange (lg_order l))                       (* lagrangebasis.hh:824-827 *)
  | OMapper (LagrangeDG order) _ _ _ _ => TValue (VFamily (LagrangeDG order))   (* lagrangedgbasis.hh:115-118 *)
  | OMapper (Refined k) _ _ _ _ => TValue (VFamily (Refined k))          (* refinedlagrangebasis.hh:97-100 *)
  | OMapper _ _ _ _ _ => TPtr a p
  | ORannacherTurek _ => TValue VTurek                                   (* rannacherturekbasis.hh:100-103 *)
  | OBSpline _ _ => TPtr a p
  | OTaylorHood _ _ _ _ =>                                               (* taylorhoodbasis.hh:118-121, 285-340 *)
      TInner [TInner (repeat (TValue (VLagrange 2)) dim); TValue (VLagrange 1)]
  | OPower _ n _ o => TInner (repeat (make_node a (p ++ [0]) o) n)       (* powerbasis.hh:89-95, dynamicpowerbasis.hh:110-116 *)
  | OComposite _ os =>                                                   (* compositebasis.hh:152-159 *)
      TInner ((fix go i os := match os with [] => [] | o :: r => make_node a (p ++ [i]) o :: go (S i) r end) 0 os)
  | ORestricted d _ o => TRestricted a (p ++ [0]) d (make_node a (p ++ [0]) o)   (* restrictedbasis.hh:142-145 *)
  | OPeriodic _ _ o => make_node a (p ++ [0]) o                          (* transformedindexbasis.hh:106-109 *)
  end.
(** The pre-basis object at a position inside another one: subPreBasis_ (dynamicpowerbasis.hh:242-244),
    childPreBases_ (compositebasis.hh), subDomainPreBasis_ (restrictedbasis.hh:199), rawPreBasis_
    (transformedindexbasis.hh). *)
Fixpoint sub_obj (o : obj) (p : list nat) : option obj :=
  match p with
  | [] => Some o
  | i :: r =>
      o' <- match o with
            | OPower _ _ _ o' | ORestricted _ _ o' | OPeriodic _ _ o' => if i =? 0 then Some o' else None
            | OComposite _ os => nth_error os i
            | _ => None
            end ;;
      sub_obj o' r
  end.

(** * Objects *)
(** A DefaultLocalView: globalBasis_, tree_, element_ (defaultlocalview.hh:174-177).  The indices
    are those of the last bind and are computed by [view_bind]. *)
Record vobj := VO { vo_basis : nat; vo_tree : ntree; vo_elem : option E }.
(** [CBasis None]: a global basis that was moved from; its members have unspecified values.
    [CSub a path]: a SubspaceBasis (subspacebasis.hh:121-122).  [CSubView s v]: a SubspaceLocalView
    (subspacelocalview.hh:151-152).  [CKnots], [CFactory]: a knot vector of the user (with the
    arguments that go with it) and the factory returned by bSpline(), which captures the vector
    by reference (bsplinebasis.hh:1285-1294). *)
Inductive cell :=
| CBasis (o : option obj)
| CView (v : vobj)
| CSub (root : nat) (path : list nat)
| CSubView (sub : nat) (v : vobj)
| CKnots (dirs : list BSpline_model.dir)
| CFactory (knots : nat).
(** The objects by address; [None]: destroyed.  Addresses are not used again (a simplification:
    access to a destroyed object is undefined even if another object is in its place). *)
Definition memory := list (option cell).
(** Access to objects; no counterpart in the code. *)
Definition cell_at (m : memory) (a : nat) : option cell := c <- nth_error m a ;; c.
Definition basis_at (m : memory) (a : nat) : option obj := match cell_at m a with Some (CBasis o) => o | _ => None end.
Definition view_at (m : memory) (i : nat) : option vobj := match cell_at m i with Some (CView v) => Some v | Some (CSubView _ v) => Some v | _ => None end.
Definition sub_at (m : memory) (i : nat) : option (nat * list nat) := match cell_at m i with Some (CSub a p) => Some (a, p) | _ => None end.

(** * Access through pointers *)
(** The pre-basis object a pointer refers to; [None]: dangling. *)
Definition deref (m : memory) (a : nat) (p : list nat) : option obj := o <- basis_at m a ;; sub_obj o p.
(** Finite element sizes; the sizes of the classes with pointers are those of the finite elements found
    through them, bsplinebasis.hh:1263-1269. *)
Definition value_size (v : fevalue) (e : E) : nat :=
  match v with
  | VLagrange n => length (lagrange_keys n (etype e))
  | VTurek => length (turek_keys (etype e))
  | VFamily f => length (family_keys f (etype e))
  end.
(** The nodes as in Basis_model.v, with everything bind reads through pointers read from [m]
    in the state [w] of the grid. *)
Fixpoint resolve (w : world) (m : memory) (t : ntree) : option (node E) :=
  match t with
  | TValue v => Some (NLeaf mx0 [] (value_size v) None)
  | TPtr a p =>
      o <- deref m a p ;;
      match o with
      | OMapper f _ _ _ _ => Some (NLeaf mx0 [] (value_size (VFamily f)) None)
      | OBSpline dirs gv => Some (NLeaf mx0 [] (fun e => lf_fe (BSpline_model.bspline_leaf dirs) (fg_idx (vw_fgrid (content w gv)) e)) None)
      | _ => None
      end
  | TInner cs => ns <- all_some (map (resolve w m) cs) ;; Some (NInner mx0 [] ns)
  | TRestricted a p _ t =>      (* restrictedbasis.hh:76 *)
      o <- deref m a p ;; n <- resolve w m t ;;
      Some (add_guard (fun e => match grid_view o with Some h => vw_contains (content w h) e | None => false end) n)
  end.
(** What the finite elements of the leaves are made of, in the order of the tree: a value in
    the node, or the members of the leaf pre-basis. *)
Inductive fedata := FValue (v : fevalue) | FMembers (o : obj).
(** finiteElement() of the leaf nodes, lines as at [ntree]. *)
Fixpoint leaf_data (m : memory) (t : ntree) : option (list fedata) :=
  match t with
  | TValue v => Some [FValue v]
  | TPtr a p => o <- deref m a p ;; Some [FMembers o]
  | TInner cs => ls <- all_some (map (leaf_data m) cs) ;; Some (concat ls)
  | TRestricted _ _ _ t => leaf_data m t
  end.
(** defaultlocalview.hh:95-101: what the view shows after bind(e): size(), index(i), the sizes and
    local indices of its nodes. [None]: undefined.  The indices of a leaf pre-basis are those for a
    node made by a pre-basis of its kind. *)
Definition view_bind (w : world) (m : memory) (v : vobj) (e : E) : option (lview E) :=
  n <- resolve w m (vo_tree v) ;; o <- basis_at m (vo_basis v) ;;
  lv_bind (as_prebasis w o) (LV None (fst (init_tree 0 n)) []) e.
(** defaultlocalview.hh:72-78 and defaultglobalbasis.hh:162-165 *)
Definition new_view (m : memory) (a : nat) : option vobj := o <- basis_at m a ;; Some (VO a (make_node a [] o) None).
(** subspacelocalview.hh:107-110: tree(), after bind(e) *)
Definition subview_tree (w : world) (m : memory) (i : nat) (e : E) : option (node E) :=
  match cell_at m i with
  | Some (CSubView s v) => sp <- sub_at m s ;; lv <- view_bind w m v e ;; descendant (lv_tree lv) (snd sp)
  | _ => None
  end.

(** * Programs *)
(** The calls of a program. *)
Inductive op :=
| PWorld (w : world)                     (* the grid or a sub-domain changes *)
| PNew (r : recipe) (h : H)              (* makeBasis(gridView, factory) *)
| PKnots (dirs : list BSpline_model.dir) | PSpline (k : nat) | PMake (f : nat) (h : H)
| PUpdate (a : nat) (h : H)              (* basis.update(gridView) *)
| PCopy (a : nat)                        (* copy and move constructor, copy assignment of global bases *)
| PMove (a : nat)
| PAssign (a b : nat)
| PView (a : nat)                        (* basis.localView(), for subspace bases as well *)
| PViewCopy (i : nat) | PViewAssign (i j : nat)
| PBind (i : nat) (e : E) | PUnbind (i : nat)
| PSub (a : nat) (path : list nat)       (* subspaceBasis(basis, path), basis: a global basis or a subspace basis *)
| PDestroy (i : nat).
Notation state := (world * memory)%type.
(** A new object. *)
Definition push (m : memory) (c : cell) : memory := m ++ [Some c].
(** [None]: undefined behaviour.  A constructor that throws creates no object. *)
Definition step (s : state) (o : op) : option state :=
  let (w, m) := s in
  match o with
  | PWorld w' => Some (w', m)
  (* defaultglobalbasis.hh:88-111 *)
  | PNew r h => Some (w, match basis_new mcmg dim lagrange_keys turek_keys family_keys w r h with Some o => push m (CBasis (Some o)) | None => m end)
  | PKnots dirs => Some (w, push m (CKnots dirs))
  (* bsplinebasis.hh:1285-1294 *)
  | PSpline k => _ <- cell_at m k ;; Some (w, push m (CFactory k))
  | PMake f h =>
      match cell_at m f with
      | Some (CFactory k) =>
          match cell_at m k with
          | Some (CKnots dirs) =>
              Some (w, match basis_new mcmg dim lagrange_keys turek_keys family_keys w (KBSpline dirs) h with Some o => push m (CBasis (Some o)) | None => m end)
          | _ => None
          end
      | _ => None
      end
  (* defaultglobalbasis.hh:137-141; an exception leaves the object as C58 describes *)
  | PUpdate a h => o <- basis_at m a ;; m' <- upd m a (Some (CBasis (Some (fst (basis_update mcmg dim w h o))))) ;; Some (w, m')
  (* implicit: memberwise *)
  | PCopy a => o <- basis_at m a ;; Some (w, push m (CBasis (Some o)))
  | PMove a => o <- basis_at m a ;; m' <- upd m a (Some (CBasis None)) ;; Some (w, push m' (CBasis (Some o)))
  | PAssign a b =>
      match cell_at m a with
      | Some (CBasis _) => o <- basis_at m b ;; m' <- upd m a (Some (CBasis (Some o))) ;; Some (w, m')
      | _ => None
      end
  (* defaultglobalbasis.hh:162-165; subspacebasis.hh:97-100, subspacelocalview.hh:63-68 *)
  | PView a =>
      match cell_at m a with
      | Some (CSub root _) => v <- new_view m root ;; Some (w, push m (CSubView a v))
      | _ => v <- new_view m a ;; Some (w, push m (CView v))
      end
  (* defaultlocalview.hh:81-88; the copy constructor of SubspaceLocalView is implicit *)
  | PViewCopy i =>
      match cell_at m i with
      | Some (CView v) => v' <- new_view m (vo_basis v) ;; Some (w, push m (CView (VO (vo_basis v') (vo_tree v') (vo_elem v))))
      | Some (CSubView s v) => v' <- new_view m (vo_basis v) ;; Some (w, push m (CSubView s (VO (vo_basis v') (vo_tree v') (vo_elem v))))
      | _ => None
      end
  (* implicit: memberwise; does not compile for trees with restricted nodes, which hold references *)
  | PViewAssign i j =>
      match cell_at m i, cell_at m j with
      | Some (CView _), Some (CView v) => m' <- upd m i (Some (CView v)) ;; Some (w, m')
      | Some (CSubView _ _), Some (CSubView s v) => m' <- upd m i (Some (CSubView s v)) ;; Some (w, m')
      | _, _ => None
      end
  (* defaultlocalview.hh:95-101, 123-126, subspacelocalview.hh:75-94 *)
  | PBind i e =>
      match cell_at m i with
      | Some (CView v) => _ <- view_bind w m v e ;; m' <- upd m i (Some (CView (VO (vo_basis v) (vo_tree v) (Some e)))) ;; Some (w, m')
      | Some (CSubView s v) => _ <- view_bind w m v e ;; m' <- upd m i (Some (CSubView s (VO (vo_basis v) (vo_tree v) (Some e)))) ;; Some (w, m')
      | _ => None
      end
  | PUnbind i =>
      match cell_at m i with
      | Some (CView v) => m' <- upd m i (Some (CView (VO (vo_basis v) (vo_tree v) None))) ;; Some (w, m')
      | Some (CSubView s v) => m' <- upd m i (Some (CSubView s (VO (vo_basis v) (vo_tree v) None))) ;; Some (w, m')
      | _ => None
      end
  (* subspacebasis.hh:52-66 *)
  | PSub a path =>
      match cell_at m a with
      | Some (CBasis (Some _)) => Some (w, push m (CSub a path))
      | Some (CSub root p) => Some (w, push m (CSub root (p ++ path)))
      | _ => None
      end
  | PDestroy i => _ <- cell_at m i ;; m' <- upd m i None ;; Some (w, m')
  end.
(** A program. *)
Fixpoint run (s : state) (h : list op) : option state :=
  match h with [] => Some s | o :: r => s' <- step s o ;; run s' r end.
End Lifetime.
Arguments ntree : clear implicits. Arguments vobj : clear implicits. Arguments cell : clear implicits.
Arguments memory : clear implicits. Arguments op : clear implicits. Arguments fedata : clear implicits.
