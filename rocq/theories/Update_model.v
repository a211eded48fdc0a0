(** Construction and update of pre-bases: what DefaultGlobalBasis::update (defaultglobalbasis.hh:137-141)
    does to every class of pre-basis, and to nestings of them.

    A grid view object is a handle: what it shows depends on the state of the grid, the
    [world], and changes when the grid is adapted.  Everything a pre-basis computes from the
    grid view and stores (mapper tables, orientations, mesh sizes) is a snapshot.  [H] is the
    type of handles, [D] the type of sub-domain objects, [E] of elements and [X] of entities. *)
From Coq Require Import List Arith Bool Reals.
From Verif Require Import Lib Basis_model GeometryType_model Mapper_model Orientation_model Families_model.
From Verif Require MeshSize_model Hermite_model Argyris_model Morley_model Lagrange_model BSpline_model Periodic_model.
Import ListNotations.
Local Open Scope nat_scope.

Section Update.
Context {E X H D : Type}.

(** What is read through a grid view (dune-grid). *)
(** Used in the classes cited below; no counterpart of its own. *)
Record view := VIEW {
  vw_grid : grid E X;
  vw_types : list gt;                        (* indexSet().types(0) *)
  vw_fgrid : fgrid E;                        (* iteration, intersections, sizes *)
  vw_contains : E -> bool;
  vw_volume : E -> R;
  vw_vertexIndex : X -> nat;
  vw_size1 : nat; vw_index1 : X -> nat;      (* codimension 1 *)
  vw_ref : E -> Lagrange_model.refelem;
  vw_id : E -> nat -> nat                    (* grid().globalIdSet().subId(element, i, dim) *)
}.
(** The state of the grid and of the sub-domain objects (SubDomain::gridView()). *)
(** The state of dune-grid; no counterpart in the library. *)
Record world := WORLD { content : H -> view; domain : D -> H }.

(** A layout may throw. *)
(** Dune::MCMGLayout (dune-grid), e.g. leafprebasismappermixin.hh:74. *)
Definition layout := gt -> nat -> option nat.
(** Dune::MultipleCodimMultipleGeomTypeMapper (dune-grid): the tables computed for a layout and
    a grid view; [None]: the layout throws. *)
Variable mcmg : layout -> view -> option (mapper X).
(** A mapper object holds its grid view, the layout and the tables.  Constructor and update(gv): *)
(** The class of the member in leafprebasismappermixin.hh:133. *)
Record mobj := MO { mo_view : H; mo_layout : layout; mo_tables : mapper X }.
(** Used in leafprebasismappermixin.hh:74-77. *)
Definition mapper_new (w : world) (h : H) (lay : layout) : option mobj :=
  t <- mcmg lay (content w h) ;; Some (MO h lay t).
(** Used in leafprebasismappermixin.hh:101-105. *)
Definition mapper_update (w : world) (h : H) (m : mobj) : option mobj :=
  t <- mcmg (mo_layout m) (content w h) ;; Some (MO h (mo_layout m) t).
(** Dune::mcmgElementLayout(), mcmgVertexLayout() (dune-grid) *)
(** Used in raviartthomasbasis.hh:158, nedelecbasis.hh:59. *)
Definition elementLayout : layout := fun t gridDim => Some (if gt_dim t =? gridDim then 1 else 0).
(** Used in cubichermitebasis.hh:762. *)
Definition vertexLayout : layout := fun t _ => Some (MeshSize_model.mcmgVertexLayout t).

(** The grid view of a mapper, with elements numbered by the mapper's tables:
    mapper.gridView(), mapper.size(), mapper.index(e). *)
(** The argument of the functions in mapperutilities.hh:95-163. *)
Definition mapped (w : world) (m : mobj) : fgrid E :=
  let v := content w (mo_view m) in let g := vw_fgrid v in
  FG E (fg_dim g) (mp_size (mo_tables m)) (fg_elements g) (fun e => mp_off (mo_tables m) (g_sub (vw_grid v) e 0 0))
    (fg_type g) (fg_contains g) (fg_inters g) (fg_ev g) (fg_vidx g).
(** The grid view [gv] with elements numbered by a mapper; gv.size(0) comes from the grid view. *)
(** Used in raviartthomasbasis.hh:163-228 and nedelecbasis.hh:65-115. *)
Definition numbered_by (w : world) (gv : H) (m : mobj) : fgrid E :=
  let v := content w gv in let g := vw_fgrid v in
  FG E (fg_dim g) (fg_size g) (fg_elements g) (fun e => mp_off (mo_tables m) (g_sub (vw_grid v) e 0 0))
    (fg_type g) (fg_contains g) (fg_inters g) (fg_ev g) (fg_vidx g).
(** common/mapperutilities.hh: computeAverageSubEntityMeshSize, computeEdgeOrientations of a mapper *)
(** mapperutilities.hh:95-115. *)
Definition mesh_sizes (w : world) (m : mobj) : option (list R) :=
  let v := content w (mo_view m) in
  MeshSize_model.computeAverageSubEntityMeshSize (vw_grid v) (mo_tables m)
    (fun t => match mo_layout m t (g_dim (vw_grid v)) with Some n => n | None => 0 end)
    (fg_elements (vw_fgrid v)) (vw_volume v).
(** mapperutilities.hh:128-163. *)
Definition edge_orientations (w : world) (m : mobj) : option (list (list bool)) :=
  compute_edge_orientations (mapped w m).

(** * What a user asks for, and the pre-basis objects *)

(** The pre-bases derived from LeafPreBasisMapperMixin.  [fixed]: the grid type has this single
    element type. *)
(** The classes derived from LeafPreBasisMapperMixin (leafprebasismappermixin.hh:59-62). *)
Inductive family :=
| LagrangeDG (order : nat) | RaviartThomas (k : nat) (fixed : option gtype) | BDM (k : nat)
| Nedelec (fixed : option gtype) | Hierarchical (k : nat) | Bubble (k : nat) | Refined (k : nat)
| Hermite (reduced : bool) | Argyris | Morley.
(** A description: class and constructor arguments, besides the grid view. *)
(** The arguments of the pre-basis factories, e.g. lagrangebasis.hh:1007-1025, powerbasis.hh,
    compositebasis.hh. *)
Inductive recipe :=
| KLagrange (order : nat)
| KMapper (f : family)
| KRannacherTurek
| KBSpline (dirs : list BSpline_model.dir)    (* knot vectors built from the arguments *)
| KTaylorHood (hi : bool)
| KPower (static : bool) (n : nat) (s : ims) (r : recipe)
| KComposite (s : cims) (rs : list recipe)
| KRestricted (d : D) (r : recipe)
| KPeriodic (calls : list (nat * nat)) (r : recipe).

(** Members of the mapper-based classes besides those of the mixin. *)
(** The members are cited in the models of the classes. *)
Inductive extra :=
| XNone
| XMap (elementMapper : mobj) (m : femap)                       (* finiteElementMap_ of RT and Nedelec *)
| XBDM (is : H) (m : bdmmap)
| XHermite (vertexMapper : mobj) (sizes : list R)
| XArgyris (vertexMapper elementMapper : mobj) (sizes : list R) (orientations : list (list bool))
| XMorley (mapper : mobj) (data : list (list bool)).
(** lagrangebasis.hh:882-888 (order_ is the recipe's); the permutation holds an id set *)
Record lagrange := LAG { lg_order : nat; lg_gridView : H; lg_mapper : mobj; lg_ids : H }.
(** The pre-basis objects with their members. *)
Inductive obj :=
| OLagrange (l : lagrange)
| OMapper (f : family) (gridView : H) (mapper : mobj) (maxNodeSize : option nat) (x : extra)
| ORannacherTurek (gridView : H)
| OBSpline (dirs : list BSpline_model.dir) (gridView : H)
| OTaylorHood (hi : bool) (gridView : H) (pq1 pq2 : lagrange)
| OPower (static : bool) (n : nat) (s : ims) (o : obj)
| OComposite (s : cims) (os : list obj)
| ORestricted (d : D) (gridView : H) (o : obj)
| OPeriodic (mappedIdx : list (option nat)) (numIndices : nat) (o : obj).

(** The layout each class hands to the mixin; [dim] is GV::dimension. *)
(** The layouts are cited at their definitions in Families_model and Mapper_model. *)
Definition family_layout (dim : nat) (f : family) : layout :=
  match f with
  | LagrangeDG order => dg_layout order
  | RaviartThomas k _ => fun t d => Some (rt_layout k dim t d)
  | BDM k => fun t d => Some (bdm_layout k dim t d)
  | Nedelec _ => fun t d => Some (nedelec_layout t d)
  | Hierarchical k => fun t d => Some (hierarchical_layout k t d)
  | Bubble k => fun t d => Some (bubble_layout k dim t d)
  | Refined k => fun t d => Some (refined_layout k dim t d)
  | Hermite reduced => fun t d => Some (Hermite_model.cubicHermiteMapperLayout reduced t d)
  | Argyris => Argyris_model.ArgyrisMapperLayout
  | Morley => Morley_model.morleyMapperLayout
  end.
(** GV::dimension *)
Variable dim : nat.

(** What the constructors check about the element types: raviartthomasbasis.hh:296-303,
    brezzidouglasmarinibasis.hh:199-202, nedelecbasis.hh:172-186, hierarchicallagrangebasis.hh:55-59, 72-76,
    hierarchicallagrangewithelementbubblebasis.hh:53-57, 70-74, refinedlagrangebasis.hh:89-93. *)
Definition family_check (f : family) (types : list gt) : bool :=
  match f with
  | RaviartThomas k _ => negb ((1 <? length types) && (0 <? k)) &&
      forallb (fun t => isSimplex t || isCube t || isPyramid t || isPrism t) types
  | BDM _ => negb (1 <? length types)
  | Nedelec _ => negb (2 <? length types) && forallb (fun t => isSimplex t || isCube t) types && ((dim =? 2) || (dim =? 3))
  | Hierarchical _ | Bubble _ | Refined _ => forallb isSimplex types
  | LagrangeDG _ | Hermite _ | Argyris | Morley => true
  end.
(** lagrangebasis.hh:812-815 *)
Definition lagrange_check (order : nat) (types : list gt) : bool :=
  negb ((2 <? order) && existsb isPyramid types) && negb ((2 <? order) && existsb isPrism types).

(** * Construction *)

(** lagrangebasis.hh:779-797; the checks come last, which makes no difference: an exception
    leaves no object.  The check of the order in three dimensions is Lagrange_model.lagrange_ctor. *)
Definition lagrange_new (w : world) (order : nat) (h : H) : option lagrange :=
  m <- mapper_new w h (fun t d => Some (lagrange_layout order t d)) ;;
  if Lagrange_model.lagrange_ctor (vw_grid (content w h)) order (vw_types (content w h))
  then Some (LAG order h m h) else None.

(** raviartthomasbasis.hh:157-161; nedelecbasis.hh:58-63: orient_ starts with zeros;
    brezzidouglasmarinibasis.hh:93-97; cubichermitebasis.hh:760-767; argyrisbasis.hh:891-898;
    morleybasis.hh:633-638. *)
Definition extra_new (w : world) (f : family) (h : H) : option extra :=
  let g := vw_fgrid (content w h) in
  match f with
  | RaviartThomas _ fixed =>
      em <- mapper_new w h elementLayout ;; em' <- mapper_update w h em ;;
      m <- rt_update (numbered_by w h em') fixed (FM [] []) ;; Some (XMap em' m)
  | Nedelec fixed =>
      em <- mapper_new w h elementLayout ;; em' <- mapper_update w h em ;;
      m <- nd_update (numbered_by w h em') fixed (FM [] (repeat 0%N (fg_size g))) ;; Some (XMap em' m)
  | BDM _ => m <- bdm_update g (BM [] [] (repeat 0%N (fg_size g))) ;; Some (XBDM h m)
  | Hermite _ => vm <- mapper_new w h vertexLayout ;; s <- mesh_sizes w vm ;; Some (XHermite vm s)
  | Argyris =>
      vm <- mapper_new w h vertexLayout ;; em <- mapper_new w h elementLayout ;;
      s <- mesh_sizes w vm ;; o <- edge_orientations w em ;; Some (XArgyris vm em s o)
  | Morley => em <- mapper_new w h elementLayout ;; o <- edge_orientations w em ;; Some (XMorley em o)
  | LagrangeDG _ | Hierarchical _ | Bubble _ | Refined _ => Some XNone
  end.
(** leafprebasismappermixin.hh:74-77 and the constructors above *)
Definition mapper_based_new (w : world) (f : family) (h : H) : option obj :=
  m <- mapper_new w h (family_layout dim f) ;;
  x <- extra_new w f h ;;
  if family_check f (vw_types (content w h)) then Some (OMapper f h m None x) else None.

(** * initializeIndices *)
(** initializeIndices() of every class; the cases cite the lines. *)
Fixpoint init (w : world) (o : obj) : obj :=
  match o with
  | OMapper f gv m _ x =>    (* leafprebasismappermixin.hh:80-92; an exception of the layout came up earlier, in the mapper *)
      OMapper f gv m (Some (initializeIndices
        (fun t => match mo_layout m t dim with Some n => n | None => 0 end) (vw_types (content w gv)))) x
  | OPower st n s o => OPower st n s (init w o)                     (* dynamicpowerbasis.hh:90-93 *)
  | OComposite s os => OComposite s (map (init w) os)               (* compositebasis.hh:128-133 *)
  | ORestricted d gv o => ORestricted d gv (init w o)               (* restrictedbasis.hh:114-117 *)
  | OPeriodic m num o => OPeriodic m num (init w o)                 (* transformedindexbasis.hh:86-89 *)
  | OLagrange _ | ORannacherTurek _ | OBSpline _ _ | OTaylorHood _ _ _ _ => o
  end.

(** * What a user sees *)
(** gridView(); [None]: std::get<0> of an empty tuple does not compile *)
(** gridView() of every class; powerbasis.hh and compositebasis.hh ask the (first) child. *)
Fixpoint grid_view (o : obj) : option H :=
  match o with
  | OLagrange l => Some (lg_gridView l)
  | OMapper _ gv _ _ _ | ORannacherTurek gv | OBSpline _ gv | OTaylorHood _ gv _ _ | ORestricted _ gv _ => Some gv
  | OPower _ _ _ o => grid_view o
  | OComposite _ os => match os with [] => None | o :: _ => grid_view o end
  | OPeriodic _ _ o => grid_view o
  end.
(** The local keys of the finite elements (dune-localfunctions), by element type. *)
Variables (lagrange_keys : nat -> gt -> list localkey) (turek_keys : gt -> list localkey) (family_keys : family -> gt -> list localkey).
(** lagrangebasis.hh:843-873, see Lagrange_model. *)
Definition lagrange_pb (w : world) (l : lagrange) : leaf E :=
  let v := content w (mo_view (lg_mapper l)) in
  Lagrange_model.lagrange_leaf (vw_grid v) (mo_tables (lg_mapper l)) (vw_vertexIndex v) (vw_ref v)
    (vw_id (content w (lg_ids l))) (lg_order l) (fun e => lagrange_keys (lg_order l) (g_type (vw_grid v) e)).
(** size, dimension, maxNodeSize, makeNode, indices and containerDescriptor of an object, as in
    Basis_model; maxNodeSize is arbitrary (0) before initializeIndices. *)
(** See the models of the classes. *)
Fixpoint as_prebasis (w : world) (o : obj) : prebasis E :=
  match o with
  | OLagrange l => leaf_pb (lagrange_pb w l)
  | OMapper f gv m mx _ =>
      let v := content w (mo_view m) in
      let keys := fun e => family_keys f (g_type (vw_grid v) e) in
      leaf_pb (LF (mp_size (mo_tables m)) (match mx with Some n => n | None => 0 end) (fun e => length (keys e))
        (match f with
         | LagrangeDG _ => dg_indices (vw_grid v) (mo_tables m) (fun e => length (keys e))
         | _ => fun e => subIndexRange (vw_grid v) (mo_tables m) e (keys e)
         end))
  | ORannacherTurek gv =>
      let v := content w gv in
      leaf_pb (rannacher_turek_leaf (vw_grid v) (vw_size1 v) (vw_index1 v) (fun e => turek_keys (g_type (vw_grid v) e)))
  | OBSpline dirs gv =>
      let l := BSpline_model.bspline_leaf dirs in let i := fg_idx (vw_fgrid (content w gv)) in
      leaf_pb (LF (lf_dim l) (lf_maxnode l) (fun e => lf_fe l (i e)) (fun e => lf_indices l (i e)))
  | OTaylorHood hi _ pq1 pq2 => taylorhood_pb hi dim (lagrange_pb w pq2) (lagrange_pb w pq1)
  | OPower st n s o => power_pb st n s (as_prebasis w o)
  | OComposite s os => composite_pb s (map (as_prebasis w) os)
  | ORestricted _ _ o =>     (* restrictedbasis.hh:70, 144: contains() of the sub-domain pre-basis' grid view *)
      restricted_pb (fun e => match grid_view o with Some h => vw_contains (content w h) e | None => false end) (as_prebasis w o)
  | OPeriodic m num o =>
      let raw := as_prebasis w o in
      transformed_pb (Periodic_model.periodic_transformation m num (pb_desc raw)) raw
  end.

(** The pre-basis factories. *)
Fixpoint construct (w : world) (r : recipe) (h : H) : option obj :=
  match r with
  | KLagrange order => l <- lagrange_new w order h ;; Some (OLagrange l)
  | KMapper f => mapper_based_new w f h
  | KRannacherTurek => _ <- rt_turek_constructor (vw_types (content w h)) ;; Some (ORannacherTurek h)
  | KBSpline dirs =>       (* bsplinebasis.hh:608, 660: assert on the number of elements *)
      if fold_left Nat.mul (map BSpline_model.d_elements dirs) 1 =? fg_size (vw_fgrid (content w h))
      then Some (OBSpline dirs h) else None
  | KTaylorHood hi =>      (* taylorhoodbasis.hh:89-93 *)
      q1 <- lagrange_new w 1 h ;; q2 <- lagrange_new w 2 h ;; Some (OTaylorHood hi h q1 q2)
  | KPower st n s r => o <- construct w r h ;; Some (OPower st n s o)
  | KComposite s rs => os <- all_some (map (fun r => construct w r h) rs) ;; Some (OComposite s os)
  | KRestricted d r =>     (* restrictedbasis.hh:225-233 *)
      o <- construct w r (domain w d) ;; Some (ORestricted d h o)
  | KPeriodic calls r =>   (* periodicbasis.hh:172-178 *)
      o <- construct w r h ;;
      n <- pb_size (as_prebasis w (init w o)) [] ;;
      '(m, num) <- Periodic_model.periodic_map n calls ;;
      Some (OPeriodic m num (init w o))
  end.
(** defaultglobalbasis.hh:88-95, 105-111 *)
Definition basis_new (w : world) (r : recipe) (h : H) : option obj :=
  o <- construct w r h ;; Some (init w o).

(** * update(gv).  The result is the object left behind, and [true] for a normal return. *)

(** lagrangebasis.hh:810-819 *)
Definition lagrange_update (w : world) (h : H) (l : lagrange) : lagrange * bool :=
  if lagrange_check (lg_order l) (vw_types (content w h)) then
    match mapper_update w h (lg_mapper l) with
    | Some m => (LAG (lg_order l) h m h, true)
    | None => (LAG (lg_order l) h (lg_mapper l) (lg_ids l), false)
    end
  else (l, false).
(** The update methods of the finite element maps (raviartthomasbasis.hh:163-228,
    nedelecbasis.hh:65-114, brezzidouglasmarinibasis.hh:99-127), cubichermitebasis.hh:773-774,
    argyrisbasis.hh:904-907, morleybasis.hh:644.  [None]: exception or undefined behaviour. *)
Definition extra_update (w : world) (f : family) (h : H) (x : extra) : option extra :=
  match f, x with
  | RaviartThomas _ fixed, XMap em m =>
      em' <- mapper_update w h em ;; m' <- rt_update (numbered_by w h em') fixed m ;; Some (XMap em' m')
  | Nedelec fixed, XMap em m =>
      em' <- mapper_update w h em ;; m' <- nd_update (numbered_by w h em') fixed m ;; Some (XMap em' m')
  | BDM _, XBDM _ m => m' <- bdm_update (vw_fgrid (content w h)) m ;; Some (XBDM h m')
  | Hermite _, XHermite vm _ => vm' <- mapper_update w h vm ;; s <- mesh_sizes w vm' ;; Some (XHermite vm' s)
  | Argyris, XArgyris vm em _ _ =>
      vm' <- mapper_update w h vm ;; em' <- mapper_update w h em ;;
      s <- mesh_sizes w vm' ;; o <- edge_orientations w em' ;; Some (XArgyris vm' em' s o)
  | Morley, XMorley em _ => o <- edge_orientations w em ;; Some (XMorley em o)
  | _, _ => Some x
  end.
(** leafprebasismappermixin.hh:101-105, then the class' own members *)
Definition mapper_based_update (w : world) (h : H) (f : family) (m : mobj) (mx : option nat) (x : extra) : obj * bool :=
  match mapper_update w h m with
  | None => (OMapper f h m mx x, false)
  | Some m' =>
      match extra_update w f h x with
      | Some x' => (OMapper f h m' mx x', true)
      | None => (OMapper f h m' mx x, false)
      end
  end.
(** update(gv) of every class; the cases cite the lines. *)
Fixpoint update (w : world) (h : H) (o : obj) {struct o} : obj * bool :=
  match o with
  | OLagrange l => let (l', b) := lagrange_update w h l in (OLagrange l', b)
  | OMapper f _ m mx x => mapper_based_update w h f m mx x
  | ORannacherTurek _ => (ORannacherTurek h, true)                (* rannacherturekbasis.hh:92-95 *)
  | OBSpline dirs _ => (OBSpline dirs h, true)                    (* bsplinebasis.hh:693-696 *)
  | OTaylorHood hi gv q1 q2 =>                                    (* taylorhoodbasis.hh:109-113 *)
      let (q1', b1) := lagrange_update w h q1 in
      if b1 then let (q2', b2) := lagrange_update w h q2 in (OTaylorHood hi gv q1' q2', b2)
      else (OTaylorHood hi gv q1' q2, false)
  | OPower st n s o => let (o', b) := update w h o in (OPower st n s o', b)     (* dynamicpowerbasis.hh:102-105 *)
  | OComposite s os =>                                            (* compositebasis.hh:142-147 *)
      let (os', b) := (fix go os := match os with
                       | [] => ([], true)
                       | o :: r => let (o', b) := update w h o in
                                   if b then let (r', b') := go r in (o' :: r', b') else (o' :: r, false)
                       end) os in
      (OComposite s os', b)
  | ORestricted d _ o =>                                          (* restrictedbasis.hh:133-137 *)
      let (o', b) := update w (domain w d) o in (ORestricted d h o', b)
  | OPeriodic m num o => let (o', b) := update w h o in (OPeriodic m num o', b)   (* transformedindexbasis.hh:98-101 *)
  end.
(** defaultglobalbasis.hh:137-141 *)
Definition basis_update (w : world) (h : H) (o : obj) : obj * bool :=
  let (o', b) := update w h o in if b then (init w o', true) else (o', false).
End Update.
Arguments view : clear implicits.
Arguments world : clear implicits.
Arguments mobj : clear implicits.
Arguments recipe : clear implicits.
Arguments obj : clear implicits.
Arguments extra : clear implicits.
