(** Orientation bits and finite element variants of the H(div) and H(curl) bases:
    raviartthomasbasis.hh, brezzidouglasmarinibasis.hh, nedelecbasis.hh and
    common/mapperutilities.hh.  Bit patterns are binary numbers [N]; a store into
    an unsigned char or unsigned short truncates modulo 2^8 or 2^16.  Finite
    elements (dune-localfunctions) are identified with the class and the variant
    number they are constructed from: [FE t i]. *)
From Coq Require Import List Arith Bool NArith.
From Verif Require Import Lib Basis_model.
Import ListNotations.

(** GeometryType (dune-geometry): the types distinguished in raviartthomasbasis.hh:175-193. *)
Inductive gtype := Simplex | Cube | Pyramid | Prism.
(** isCube(), isPyramid(), isPrism(), used in raviartthomasbasis.hh:215-223. *)
Definition gtype_eqb (a b : gtype) : bool :=
  match a, b with
  | Simplex, Simplex | Cube, Cube | Pyramid, Pyramid | Prism, Prism => true
  | _, _ => false
  end.
(** dune-geometry: referenceElement(type).size(1) and size(dim-1), dim 2 or 3. *)
(** Used in raviartthomasbasis.hh:153. *)
Definition facets (dim : nat) (t : gtype) : nat :=
  match t with
  | Simplex => dim + 1
  | Cube => 2 * dim
  | Pyramid | Prism => 5
  end.
(** element.subEntities(dim-1), used in nedelecbasis.hh:97 and numVariants (49-56). *)
Definition edges (dim : nat) (t : gtype) : nat :=
  match dim, t with
  | 2, Simplex => 3 | 2, _ => 4
  | _, Simplex => 6 | _, Cube => 12 | _, Pyramid => 8 | _, Prism => 9
  end.

(** Finite elements constructed in raviartthomasbasis.hh:170-193,
    brezzidouglasmarinibasis.hh:108-112, nedelecbasis.hh:75-84. *)
Inductive fe := FE (t : gtype) (variant : nat).

(** What the update loops ask of the grid view. *)
(** Intersections (dune-grid), used in raviartthomasbasis.hh:203-207. *)
Record inter {E} := In_ { i_face : nat;         (* indexInInside() *)
                         i_neighbor : bool;
                         i_outside : option E }.
Arguments inter : clear implicits.
(** Used in raviartthomasbasis.hh:197-203, nedelecbasis.hh:89-105. *)
Record fgrid {E} := FG {
  fg_dim : nat;
  fg_size : nat;                           (* gv.size(0) *)
  fg_elements : list E;
  fg_idx : E -> nat;                       (* element index *)
  fg_type : E -> gtype;
  fg_contains : E -> bool;                 (* gv.contains() *)
  fg_inters : E -> list (inter E);
  fg_ev : E -> nat -> nat -> nat;          (* refElement.subEntity(i,dim-1, j,dim) *)
  fg_vidx : E -> nat -> nat                (* indexSet.subIndex(e, v, dim) *)
}.
Arguments fgrid : clear implicits.

Section Orientation.
Context {E : Type} (g : fgrid E).

(** A store into the elements of orient_, raviartthomasbasis.hh:239. *)
Definition u8 (x : N) : N := (x mod 256)%N.
(** A store into the elements of orientation_, nedelecbasis.hh:126. *)
Definition u16 (x : N) : N := (x mod 65536)%N.

(** A loop over a range with a body that may be undefined. *)
(** for(const auto& cell : elements(gv)), raviartthomasbasis.hh:198 and 203. *)
Fixpoint foreach {A St} (l : list A) (body : A -> St -> option St) (s : St) : option St :=
  match l with [] => Some s | a :: r => s' <- body a s ;; foreach r body s' end.

(** * Raviart-Thomas *)
(** raviartthomasbasis.hh:151-155. *)
Definition rt_num (t : gtype) : nat := 2 ^ facets (fg_dim g) t.

(** for (i < n) variants_[i + off] = T(i). *)
(** raviartthomasbasis.hh:169-170 and 179-193. *)
Definition fill (t : gtype) (off n : nat) (arr : list (option fe)) : option (list (option fe)) :=
  forl n 0 (fun i a => upd a (i + off) (Some (FE t i))) arr.

(** raviartthomasbasis.hh:165-195, the variants_.  [fixed = Some t]: a grid type with
    the single element type t; then FiniteElement is the cube class for cubes and
    the simplex class otherwise (143-147).  [None] entries are default constructed
    finite elements. *)
Definition fixed_class (t : gtype) : gtype := match t with Cube => Cube | _ => Simplex end.
(** raviartthomasbasis.hh:166-195. *)
Definition rt_variants (fixed : option gtype) (old : list (option fe)) : option (list (option fe)) :=
  match fixed with
  | Some t => fill (fixed_class t) 0 (rt_num t) (vresize old (rt_num t) None)
  | None =>
      let ns := rt_num Simplex in let nc := rt_num Cube in
      a1 <- fill Simplex 0 ns (vresize old (ns + nc) None) ;;
      a2 <- fill Cube ns nc a1 ;;
      if fg_dim g =? 3 then
        let ny := rt_num Pyramid in let nr := rt_num Prism in
        a3 <- fill Pyramid (ns + nc) ny (vresize a2 (ns + nc + ny + nr) None) ;;
        fill Prism (ns + nc + ny) nr a3
      else Some a2
  end.

(** raviartthomasbasis.hh:203-207; | and << act on int, the store truncates to unsigned char. *)
Definition rt_test (e : E) (x : inter E) : option bool :=
  if i_neighbor x then
    o <- i_outside x ;; Some (fg_contains g o && (fg_idx g e <? fg_idx g o))
  else Some false.
(** raviartthomasbasis.hh:206. *)
Definition set_bit (myId : nat) (face : nat) (o : list N) : option (list N) :=
  w <- nth_error o myId ;; upd o myId (u8 (N.lor w (N.shiftl 1 (N.of_nat face)))).
(** raviartthomasbasis.hh:205-206. *)
Definition rt_inter (e : E) (x : inter E) (o : list N) : option (list N) :=
  b <- rt_test e x ;;
  if b then set_bit (fg_idx g e) (i_face x) o else Some o.
(** raviartthomasbasis.hh:209-226: offsets for mixed grids. *)
Definition add_off (myId off : nat) (o : list N) : option (list N) :=
  w <- nth_error o myId ;; upd o myId (u8 (w + N.of_nat off)).
(** raviartthomasbasis.hh:210-226. *)
Definition rt_offset (e : E) (o : list N) : option (list N) :=
  let ns := rt_num Simplex in let nc := rt_num Cube in let ny := rt_num Pyramid in
  o1 <- (if gtype_eqb (fg_type g e) Cube then add_off (fg_idx g e) ns o else Some o) ;;
  if fg_dim g =? 3 then
    o2 <- (if gtype_eqb (fg_type g e) Pyramid then add_off (fg_idx g e) (ns + nc) o1 else Some o1) ;;
    (if gtype_eqb (fg_type g e) Prism then add_off (fg_idx g e) (ns + nc + ny) o2 else Some o2)
  else Some o1.
(** raviartthomasbasis.hh:197-228; resize keeps the old entries. *)
Definition rt_cell (fixed : option gtype) (e : E) (o : list N) : option (list N) :=
  o1 <- upd o (fg_idx g e) 0%N ;;
  o2 <- foreach (fg_inters g e) (rt_inter e) o1 ;;
  match fixed with Some _ => Some o2 | None => rt_offset e o2 end.
(** raviartthomasbasis.hh:237-239 and nedelecbasis.hh:124-126, the members; elementMapper_ is
    fg_idx. *)
Record femap := FM { fm_variants : list (option fe); fm_orient : list N }.
(** raviartthomasbasis.hh:163-228. *)
Definition rt_update (fixed : option gtype) (m : femap) : option femap :=
  v <- rt_variants fixed (fm_variants m) ;;
  o <- foreach (fg_elements g) (rt_cell fixed) (vresize (fm_orient m) (fg_size g) 0%N) ;;
  Some (FM v o).
(** raviartthomasbasis.hh:230-234; [None] also for a default constructed entry. *)
Definition fm_find (m : femap) (e : E) : option fe :=
  o <- nth_error (fm_orient m) (fg_idx g e) ;;
  v <- nth_error (fm_variants m) (N.to_nat o) ;; v.

(** * Brezzi-Douglas-Marini, brezzidouglasmarinibasis.hh:80-145 *)
Record bdmmap := BM { bm_cube : list (option fe); bm_simplex : list (option fe); bm_orient : list N }.
(** The Variants constants of BDMCubeLocalInfo and BDMSimplexLocalInfo, 39-78 (simplices only in 2-D). *)
Definition bdm_cube_variants : nat := if fg_dim g =? 3 then 64 else 16.
(** brezzidouglasmarinibasis.hh:39-56. *)
Definition bdm_simplex_variants : nat := 8.
(** brezzidouglasmarinibasis.hh:123. *)
Definition bdm_test (e : E) (x : inter E) : option bool :=
  if i_neighbor x then o <- i_outside x ;; Some (fg_idx g e <? fg_idx g o) else Some false.
(** brezzidouglasmarinibasis.hh:123-124. *)
Definition bdm_inter (e : E) (x : inter E) (o : list N) : option (list N) :=
  b <- bdm_test e x ;;
  if b then set_bit (fg_idx g e) (i_face x) o else Some o.
(** brezzidouglasmarinibasis.hh:118-125. *)
Definition bdm_cell (e : E) (o : list N) : option (list N) :=
  o1 <- upd o (fg_idx g e) 0%N ;; foreach (fg_inters g e) (bdm_inter e) o1.
(** brezzidouglasmarinibasis.hh:99-127. *)
Definition bdm_update (m : bdmmap) : option bdmmap :=
  c <- fill Cube 0 bdm_cube_variants (vresize (bm_cube m) bdm_cube_variants None) ;;
  s <- fill Simplex 0 bdm_simplex_variants (vresize (bm_simplex m) bdm_simplex_variants None) ;;
  o <- foreach (fg_elements g) bdm_cell (vresize (bm_orient m) (fg_size g) 0%N) ;;
  Some (BM c s o).
(** brezzidouglasmarinibasis.hh:129-137. *)
Definition bdm_find (m : bdmmap) (e : E) : option fe :=
  o <- nth_error (bm_orient m) (fg_idx g e) ;;
  v <- nth_error (if gtype_eqb (fg_type g e) Cube then bm_cube m else bm_simplex m) (N.to_nat o) ;; v.

(** * Nedelec, nedelecbasis.hh:29-127 (order 1) *)
Definition nd_num (t : gtype) : nat := 2 ^ edges (fg_dim g) t.
(** nedelecbasis.hh:70-85. *)
Definition nd_variants (fixed : option gtype) (old : list (option fe)) : option (list (option fe)) :=
  match fixed with
  | Some t => fill (fixed_class t) 0 (nd_num t) (vresize old (nd_num t) None)
  | None =>
      a1 <- fill Simplex 0 (nd_num Simplex) (vresize old (nd_num Simplex + nd_num Cube) None) ;;
      fill Cube (nd_num Simplex) (nd_num Cube) a1
  end.
(** nedelecbasis.hh:99-108. *)
Definition nd_flip (e : E) (i : nat) : bool :=
  let l0 := fg_ev g e i 0 in let l1 := fg_ev g e i 1 in
  let g0 := fg_vidx g e l0 in let g1 := fg_vidx g e l1 in
  ((l0 <? l1) && (g1 <? g0)) || ((l1 <? l0) && (g0 <? g1)).
(** nedelecbasis.hh:107-108. *)
Definition nd_edge (e : E) (i : nat) (o : list N) : option (list N) :=
  if nd_flip e i then
    w <- nth_error o (fg_idx g e) ;;
    upd o (fg_idx g e) (u16 (N.lor w (N.shiftl 1 (N.of_nat i))))
  else Some o.
(** nedelecbasis.hh:91-114. *)
Definition nd_cell (fixed : option gtype) (e : E) (o : list N) : option (list N) :=
  o1 <- upd o (fg_idx g e) 0%N ;;
  o2 <- forl (edges (fg_dim g) (fg_type g e)) 0 (nd_edge e) o1 ;;
  match fixed with
  | Some _ => Some o2
  | None =>
      if gtype_eqb (fg_type g e) Cube then
        w <- nth_error o2 (fg_idx g e) ;;
        upd o2 (fg_idx g e) (u16 (w + N.of_nat (nd_num Simplex)))
      else Some o2
  end.
(** nedelecbasis.hh:65-115. *)
Definition nd_update (fixed : option gtype) (m : femap) : option femap :=
  let o := vresize (fm_orient m) (fg_size g) 0%N in
  v <- nd_variants fixed (fm_variants m) ;;
  o' <- foreach (fg_elements g) (nd_cell fixed) o ;;
  Some (FM v o').

(** * computeEdgeOrientations, common/mapperutilities.hh:128-163.  A std::bitset<3>
    is a list of three booleans; fg_vidx stands for the global id here. *)
Definition ce_edge (e : E) (i : nat) (os : list (list bool)) : option (list (list bool)) :=
  o <- nth_error os (fg_idx g e) ;;
  let v0 := fg_vidx g e (fg_ev g e i 0) in
  let v1 := fg_vidx g e (fg_ev g e i 1) in
  o' <- upd o i (v1 <? v0) ;; upd os (fg_idx g e) o'.
(** mapperutilities.hh:128-163. *)
Definition compute_edge_orientations : option (list (list bool)) :=
  foreach (fg_elements g) (fun e => forl (edges (fg_dim g) (fg_type g e)) 0 (ce_edge e))
    (repeat [false; false; false] (fg_size g)).
End Orientation.
