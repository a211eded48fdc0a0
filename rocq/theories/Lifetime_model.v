(** Which objects a local function refers to: grid functions as objects in memory that are
    copied, assigned and destroyed, and the references their local functions keep.
    The values computed are those of LocalFunction_model.v. *)
From Coq Require Import List Arith Bool Reals.
From Verif Require Import Lib LocalFunction_model.
Import ListNotations.

Section Lifetime.
Context {E X Y V : Type}.
Variable G : grid E X Y.

(** The members other objects refer to.  [CSet]: entitySet_ of an analytic function
    (analyticgridviewfunction.hh:208-210), of a face normal function
    (facenormalgridfunction.hh:190-191), of a coarse or fine function
    (coarsefunctiononfinegridview.hh:206-209, finefunctiononcoarsegridview.hh:302-305), given
    by what contains(e) answers (gridviewentityset.hh:52-56).  [COuter]: a
    ComposedGridFunction, given by its outerFunction_ (composedgridfunction.hh:225). *)
Inductive cell := CSet (es : E -> bool) | COuter (h : list V -> V).
(** The memory; [None]: destroyed. *)
(** No counterpart in the code. *)
Definition memory := list (option cell).
(** Access to an object in memory; no counterpart in the code. *)
Definition get (m : memory) (a : nat) : option cell := match nth_error m a with Some c => c | None => None end.
(** Creation, assignment or destruction of an object in memory; no counterpart in the code. *)
Definition put (m : memory) (a : nat) (c : option cell) : memory := match upd m a c with Some m' => m' | None => m end.

(** Grid function objects.  [a] is the address of the cell of the object.  Inner functions are
    held by value (composedgridfunction.hh:226, coarse 208, fine 304); std::ref is not
    modelled.  [NDis es deps v dv]: a DiscreteGlobalBasisFunction or its derivative;
    everything is in a shared Data object (discreteglobalbasisfunction.hh:60-66, 186, 225), the
    entity set too.  [deps] are the objects of the user the Data object refers to without
    owning them: a basis, vector or node-to-range map passed as l-value
    (discreteglobalbasisfunction.hh:386-390, wrap_or_move), and the vector an
    ISTLVectorBackend refers to even if it was passed as r-value (463-478).
    [NErased]: GridFunction or GridViewFunction. *)
Inductive gobj :=
| NAna (a : nat) (f : nat -> Y -> V)
| NNormal (a : nat) (f : E -> X -> V)
| NDis (es : E -> bool) (deps : list nat) (v : E -> X -> V) (dv : option (E -> X -> V))
| NComp (a : nat) (inner : list gobj)
| NCoarse (a : nat) (inner : gobj)
| NFine (a : nat) (inner : gobj)
| NErased (inner : gobj).
(** A reference to an entity set: into a grid function object, or into a Data object that is
    kept alive by the shared pointer of the local function which comes along with it. *)
(** coarsefunctiononfinegridview.hh:146 and finefunctiononcoarsegridview.hh:242:
    coarseEntitySet_ and fineEntitySet_; discreteglobalbasisfunction.hh:219-222 for functions
    that share their data. *)
Inductive eref := RCell (a : nat) | RData (es : E -> bool).
(** entitySet(): analytic 202-205, facenormal 185-188, composed 211-214 (the one of the first
    inner function), coarse 201-204, fine 297-300, discrete 219-222, gridfunction_imp.hh:63-66 *)
Fixpoint entitySet (n : gobj) : option eref :=
  match n with
  | NAna a _ | NNormal a _ | NCoarse a _ | NFine a _ => Some (RCell a)
  | NDis es _ _ _ => Some (RData es)
  | NComp _ l => match l with m :: _ => entitySet m | [] => None end
  | NErased m => entitySet m
  end.

(** Local function objects, as [lobj] of LocalFunction_model.v but with references:
    [RComp a]: globalFunction_ (composedgridfunction.hh:153) refers to the grid function;
    [RCoarse s], [RFine s]: coarseEntitySet_ (coarse 146) and fineEntitySet_ (fine 242) refer
    to the entity set of the wrapped function; [RDis deps]: data_ (discrete 186) keeps the
    Data object alive, not [deps].  Type-erased local functions forward every call
    (localfunction_imp.hh:46-65, differentiablefunction_imp.hh:86-95) and are left out. *)
Inductive robj :=
| RAna (f : nat -> Y -> V) (elem geo : option E)
| RNormal (f : E -> X -> V) (elem geo : option E)
| RDis (deps : list nat) (v : E -> X -> V) (dv : option (E -> X -> V)) (elem : option E)
| RComp (a : nat) (inner : list robj)
| RCoarse (s : eref) (elem : option E) (inner : robj) (geos : list E)
| RFine (s : eref) (elem : option E) (inner : robj) (fwd : bool).

(** The objects of the user, such as bases and coefficient vectors: alive or not. *)
(** Discrete functions refer to bases and coefficients of the user,
    discreteglobalbasisfunction.hh:55-60. *)
Definition alive (exts : list bool) (deps : list nat) : bool := forallb (fun k => nth k exts false) deps.
(** coarsefunctiononfinegridview.hh:106, finefunctiononcoarsegridview.hh:169 and 231: access
    through the reference. *)
Definition deref_set (m : memory) (s : eref) : option (E -> bool) :=
  match s with
  | RData es => Some es
  | RCell a => match get m a with Some (CSet es) => Some es | _ => None end
  end.
(** composedgridfunction.hh:128: access to outerFunction_ through globalFunction_ (153). *)
Definition deref_outer (m : memory) (a : nat) : option (list V -> V) := match get m a with Some (COuter h) => Some h | _ => None end.

(** localFunction(n): analytic 196-199, facenormal 179-182, discrete 78-83 (localView() uses
    the basis), composed 78-81 and 196-199, coarse 195-198, fine 291-294,
    gridfunction_imp.hh:58-61 *)
Fixpoint rnew (exts : list bool) (n : gobj) : option robj :=
  match n with
  | NAna _ f => Some (RAna f None None)
  | NNormal _ f => Some (RNormal f None None)
  | NDis _ deps v dv => if alive exts deps then Some (RDis deps v dv None) else None
  | NComp a l =>
      option_map (RComp a)
        ((fix go l := match l with [] => Some [] | m :: r => m' <- rnew exts m ;; r' <- go r ;; Some (m' :: r') end) l)
  | NCoarse _ m => s <- entitySet m ;; r <- rnew exts m ;; Some (RCoarse s None r [])
  | NFine _ m => s <- entitySet m ;; r <- rnew exts m ;; Some (RFine s None r false)
  | NErased m => rnew exts m
  end.

(** bind: see LocalFunction_model.lbind; discrete 124-148; coarse 103-108 and fine 166-172 use
    the entity set referred to. *)
Fixpoint rbind (m : memory) (exts : list bool) (r : robj) (e : E) : option robj :=
  match r with
  | RAna f _ _ => Some (RAna f (Some e) (Some e))
  | RNormal f _ _ => Some (RNormal f (Some e) (Some e))
  | RDis deps v dv _ => if alive exts deps then Some (RDis deps v dv (Some e)) else None
  | RComp a l =>
      option_map (RComp a)
        ((fix go l := match l with [] => Some [] | i :: r => i' <- rbind m exts i e ;; r' <- go r ;; Some (i' :: r') end) l)
  | RCoarse s _ inner _ =>
      cs <- deref_set m s ;;
      '(a, geos) <- ancestor G (gr_level G e) (fun e => negb (cs e)) e [] ;;
      inner' <- rbind m exts inner a ;;
      Some (RCoarse s (Some e) inner' geos)
  | RFine s _ inner _ =>
      fs <- deref_set m s ;;
      if fs e then inner' <- rbind m exts inner e ;; Some (RFine s (Some e) inner' true)
      else Some (RFine s (Some e) inner false)
  end.
(** unbind, bound, localContext: no reference is used; discrete 151-166 *)
Fixpoint runbind (r : robj) : robj :=
  match r with
  | RAna f elem _ => RAna f elem None
  | RNormal f elem _ => RNormal f elem None
  | RDis deps v dv _ => RDis deps v dv None
  | RComp a l => RComp a (map runbind l)
  | RCoarse s _ inner geos => RCoarse s None inner geos
  | RFine s _ inner fwd => RFine s None inner fwd
  end.
(** bound(): see LocalFunction_model.lbound. *)
Fixpoint rbound (r : robj) : bool :=
  match r with
  | RAna _ _ geo | RNormal _ _ geo => is_some geo
  | RDis _ _ _ elem => is_some elem
  | RComp _ l => forallb rbound l
  | RCoarse _ elem _ _ | RFine _ elem _ _ => is_some elem
  end.
(** localContext(): see LocalFunction_model.lcontext. *)
Fixpoint rcontext (r : robj) : option E :=
  match r with
  | RAna _ elem geo => if is_some geo then elem else None
  | RNormal _ elem _ => elem
  | RDis _ _ _ elem => elem
  | RComp _ l => match l with i :: _ => rcontext i | [] => None end
  | RCoarse _ elem _ _ | RFine _ elem _ _ => elem
  end.
(** Copy constructors copy the references.  discrete 91-99: localView_.maxSize() uses the
    basis. *)
Fixpoint rcopy (exts : list bool) (r : robj) : option robj :=
  match r with
  | RAna _ _ _ | RNormal _ _ _ => Some r
  | RDis deps _ _ _ => if alive exts deps then Some r else None
  | RComp a l =>
      option_map (RComp a)
        ((fix go l := match l with [] => Some [] | i :: r => i' <- rcopy exts i ;; r' <- go r ;; Some (i' :: r') end) l)
  | RCoarse s elem inner geos => inner' <- rcopy exts inner ;; Some (RCoarse s elem inner' geos)
  | RFine s elem inner fwd => inner' <- rcopy exts inner ;; Some (RFine s elem inner' fwd)
  end.
(** derivative: see LocalFunction_model.lderivative; discrete 374-380; the references of
    coarse and fine functions are passed on (coarse 132, fine 196). *)
Fixpoint rderivative (exts : list bool) (r : robj) : option robj :=
  match r with
  | RAna f elem geo => Some (RAna (fun k => f (S k)) elem geo)
  | RNormal _ _ _ => None
  | RDis deps _ dv elem => d <- dv ;; if alive exts deps then Some (RDis deps d None elem) else None
  | RComp _ _ => None
  | RCoarse s elem inner geos =>
      inner' <- rderivative exts inner ;;
      match elem with Some e => Some (RCoarse s (Some e) inner' geos) | None => None end
  | RFine s elem inner fwd => inner' <- rderivative exts inner ;; Some (RFine s elem inner' fwd)
  end.
(** The nesting of a local function; evaluation recurs over it. *)
(** No counterpart in the code at run time: the type of the object. *)
Inductive shape := SLeaf | SComp (l : list shape) | SWrap (s : shape).
(** No counterpart in the code at run time: the type of the object. *)
Fixpoint rshape (r : robj) : shape :=
  match r with
  | RAna _ _ _ | RNormal _ _ _ | RDis _ _ _ _ => SLeaf
  | RComp _ l => SComp (map rshape l)
  | RCoarse _ _ inner _ | RFine _ _ inner _ => SWrap (rshape inner)
  end.
(** operator()(x): see LocalFunction_model.leval_at; composed 125-130 reads outerFunction_ of
    the grid function referred to; fine 212-238 uses the entity set referred to; discrete
    336-371 and 583-627: the nodes of the local view refer to the basis. *)
Fixpoint reval_at (m : memory) (exts : list bool) (sh : shape) (r : robj) (x : X) : option (V * robj) :=
  match sh, r with
  | SLeaf, RAna f elem geo => e <- geo ;; Some (f 0 (gr_geo G e x), r)
  | SLeaf, RNormal f elem geo => e <- geo ;; Some (f e x, r)
  | SLeaf, RDis deps v dv elem => e <- elem ;; if alive exts deps then Some (v e x, r) else None
  | SComp shs, RComp a l =>
      '(vs, l') <- (fix go shs l := match shs, l with
                                  | [], [] => Some ([], [])
                                  | s :: shs', i :: r => '(v, i') <- reval_at m exts s i x ;; '(vs, r') <- go shs' r ;; Some (v :: vs, i' :: r')
                                  | _, _ => None
                                  end) shs l ;;
      h <- deref_outer m a ;;
      Some (h vs, RComp a l')
  | SWrap s, RCoarse es elem inner geos =>
      '(v, inner') <- reval_at m exts s inner (map_up G geos x) ;; Some (v, RCoarse es elem inner' geos)
  | SWrap s, RFine es elem inner fwd =>
      if fwd then '(v, inner') <- reval_at m exts s inner x ;; Some (v, RFine es elem inner' fwd)
      else
        e <- elem ;;
        fs <- deref_set m es ;;
        '(c, y) <- descend G (gr_max G - gr_level G e) fs e x ;;
        inner1 <- rbind m exts inner c ;;
        '(v, inner2) <- reval_at m exts s inner1 y ;;
        Some (v, RFine es elem inner2 fwd)
  | _, _ => None
  end.
(** operator()(x), see reval_at. *)
Definition reval (m : memory) (exts : list bool) (r : robj) (x : X) : option (V * robj) := reval_at m exts (rshape r) r x.

(** * Grid function objects *)
(** The cells that belong to an object and its inner functions (composedgridfunction.hh:225-226,
    coarsefunctiononfinegridview.hh:208-209, finefunctiononcoarsegridview.hh:304-305). *)
Fixpoint addrs (n : gobj) : list nat :=
  match n with
  | NAna a _ | NNormal a _ => [a]
  | NDis _ _ _ _ => []
  | NComp a l => a :: (fix go l := match l with [] => [] | m :: r => addrs m ++ go r end) l
  | NCoarse a m | NFine a m => a :: addrs m
  | NErased m => addrs m
  end.
(** Copy constructors: memberwise; a copy of a discrete function shares the Data object; a
    type-erased function clones the object (typeerasure.hh:128-138). *)
Fixpoint clone (m : memory) (n : gobj) : option (memory * gobj) :=
  match n with
  | NAna a f => c <- get m a ;; Some (m ++ [Some c], NAna (length m) f)
  | NNormal a f => c <- get m a ;; Some (m ++ [Some c], NNormal (length m) f)
  | NDis _ _ _ _ => Some (m, n)
  | NComp a l =>
      c <- get m a ;;
      '(m', l') <- (fix go m l := match l with
                                | [] => Some (m, [])
                                | i :: r => '(m1, i') <- clone m i ;; '(m2, r') <- go m1 r ;; Some (m2, i' :: r')
                                end) (m ++ [Some c]) l ;;
      Some (m', NComp (length m) l')
  | NCoarse a i => c <- get m a ;; '(m', i') <- clone (m ++ [Some c]) i ;; Some (m', NCoarse (length m) i')
  | NFine a i => c <- get m a ;; '(m', i') <- clone (m ++ [Some c]) i ;; Some (m', NFine (length m) i')
  | NErased i => '(m', i') <- clone m i ;; Some (m', NErased i')
  end.
(** derivative(n): analytic 190-193, facenormal 173-176 (throws), discrete 413-416 and 667-670
    (throws), composed 185-188 (throws), coarse 183-192, fine 279-288,
    differentiablefunction_imp.hh:91-94.  [None]: throws. *)
Fixpoint derive (m : memory) (n : gobj) : option (memory * gobj) :=
  match n with
  | NAna a f => c <- get m a ;; Some (m ++ [Some c], NAna (length m) (fun k => f (S k)))
  | NNormal _ _ => None
  | NDis es deps _ dv => d <- dv ;; Some (m, NDis es deps d None)
  | NComp _ _ => None
  | NCoarse a i => c <- get m a ;; '(m', i') <- derive (m ++ [Some c]) i ;; Some (m', NCoarse (length m) i')
  | NFine a i => c <- get m a ;; '(m', i') <- derive (m ++ [Some c]) i ;; Some (m', NFine (length m) i')
  | NErased i => '(m', i') <- derive m i ;; Some (m', NErased i')
  end.
(** The implicit destructors: the cells of an object and of its inner functions vanish. *)
Definition kill (m : memory) (l : list nat) : memory := fold_left (fun m a => put m a None) l m.
(** Copy assignment: memberwise; a type-erased function destroys its object and clones the
    other (polymorphicsmallobject.hh:106-114).  [None]: does not compile. *)
Fixpoint assign (m : memory) (n k : gobj) : option (memory * gobj) :=
  match n, k with
  | NAna a _, NAna b f => c <- get m b ;; Some (put m a (Some c), NAna a f)
  | NNormal a _, NNormal b f => c <- get m b ;; Some (put m a (Some c), NNormal a f)
  | NDis _ _ _ _, NDis _ _ _ _ => Some (m, k)
  | NComp a l, NComp b l' =>
      c <- get m b ;;
      '(m', l'') <- (fix go m l l' := match l, l' with
                                    | [], [] => Some (m, [])
                                    | i :: r, j :: r' => '(m1, i') <- assign m i j ;; '(m2, q) <- go m1 r r' ;; Some (m2, i' :: q)
                                    | _, _ => None
                                    end) (put m a (Some c)) l l' ;;
      Some (m', NComp a l'')
  | NCoarse a i, NCoarse b j => c <- get m b ;; '(m', i') <- assign (put m a (Some c)) i j ;; Some (m', NCoarse a i')
  | NFine a i, NFine b j => c <- get m b ;; '(m', i') <- assign (put m a (Some c)) i j ;; Some (m', NFine a i')
  | NErased i, NErased j => '(m', j') <- clone (kill m (addrs i)) j ;; Some (m', NErased j')
  | _, _ => None
  end.

(** * A program using grid functions and local functions *)
(** The state of a program; no counterpart in the library. *)
Record world := World { w_mem : memory; w_exts : list bool; w_gfs : list (option gobj); w_lfs : list robj }.
(** The state before the first call. *)
Definition empty : world := World [] [] [] [].
(** The calls of a program: constructors, localFunction, derivative, copies, assignments, bind,
    unbind, evaluation (the lines are cited at the definitions above), and the end of life of an
    object. *)
Inductive op :=
(* objects of the user *)
| XNew | XDestroy (k : nat)
(* constructors: makeAnalyticGridViewFunction, FaceNormalGridFunction,
   makeDiscreteGlobalBasisFunction, makeComposedGridFunction (inner functions copied),
   CoarseFunctionOnFineGridView, FineFunctionOnCoarseGridView, GridViewFunction *)
| BAna (es : E -> bool) (f : nat -> Y -> V)
| BNormal (es : E -> bool) (f : E -> X -> V)
| BDis (es : E -> bool) (deps : list nat) (v : E -> X -> V) (dv : option (E -> X -> V))
| BComp (h : list V -> V) (is : list nat)
| BCoarse (es : E -> bool) (i : nat)
| BFine (es : E -> bool) (i : nat)
| BErase (i : nat)
| BCopy (i : nat)
| BDeriv (i : nat)
| BAssign (i j : nat)
| BDestroy (i : nat)
(* local functions *)
| LNew (i : nat) | LBind (j : nat) (e : E) | LUnbind (j : nat) | LCopy (j : nat) | LDeriv (j : nat) | LEval (j : nat) (x : X).

(** A living grid function of the program; no counterpart in the library. *)
Definition gf_at (w : world) (i : nat) : option gobj := match nth_error (w_gfs w) i with Some n => n | None => None end.
(** A new grid function of the program; no counterpart in the library. *)
Definition add_gf (w : world) (p : memory * gobj) : world := World (fst p) (w_exts w) (w_gfs w ++ [Some (snd p)]) (w_lfs w).
(** A new local function of the program; no counterpart in the library. *)
Definition add_lf (w : world) (r : robj) : world := World (w_mem w) (w_exts w) (w_gfs w) (w_lfs w ++ [r]).
(** A changed local function of the program; no counterpart in the library. *)
Definition set_lf (w : world) (j : nat) (r : robj) : option world := l <- upd (w_lfs w) j r ;; Some (World (w_mem w) (w_exts w) (w_gfs w) l).
(** copies of the functions in the slots [is] *)
(** composedgridfunction.hh:171-174: the inner functions are copied into innerFunctions_. *)
Fixpoint clone_all (w : world) (m : memory) (is : list nat) : option (memory * list gobj) :=
  match is with
  | [] => Some (m, [])
  | i :: r => n <- gf_at w i ;; '(m1, n') <- clone m n ;; '(m2, r') <- clone_all w m1 r ;; Some (m2, n' :: r')
  end.
(** [None]: undefined behaviour, an exception or an ill-formed program. *)
(** One call of a program; each case calls the definition above for it. *)
Definition step (w : world) (o : op) : option world :=
  let m := w_mem w in let exts := w_exts w in
  match o with
  | XNew => Some (World m (exts ++ [true]) (w_gfs w) (w_lfs w))
  | XDestroy k => e <- upd exts k false ;; Some (World m e (w_gfs w) (w_lfs w))
  | BAna es f => Some (add_gf w (m ++ [Some (CSet es)], NAna (length m) f))
  | BNormal es f => Some (add_gf w (m ++ [Some (CSet es)], NNormal (length m) f))
  | BDis es deps v dv => Some (add_gf w (m, NDis es deps v dv))
  | BComp h is => '(m', l) <- clone_all w (m ++ [Some (COuter h)]) is ;; Some (add_gf w (m', NComp (length m) l))
  | BCoarse es i => n <- gf_at w i ;; '(m', n') <- clone (m ++ [Some (CSet es)]) n ;; Some (add_gf w (m', NCoarse (length m) n'))
  | BFine es i => n <- gf_at w i ;; '(m', n') <- clone (m ++ [Some (CSet es)]) n ;; Some (add_gf w (m', NFine (length m) n'))
  | BErase i => n <- gf_at w i ;; '(m', n') <- clone m n ;; Some (add_gf w (m', NErased n'))
  | BCopy i => n <- gf_at w i ;; p <- clone m n ;; Some (add_gf w p)
  | BDeriv i => n <- gf_at w i ;; p <- derive m n ;; Some (add_gf w p)
  | BAssign i j =>
      n <- gf_at w i ;; k <- gf_at w j ;; '(m', n') <- assign m n k ;;
      gs <- upd (w_gfs w) i (Some n') ;; Some (World m' exts gs (w_lfs w))
  | BDestroy i =>
      n <- gf_at w i ;; gs <- upd (w_gfs w) i None ;; Some (World (kill m (addrs n)) exts gs (w_lfs w))
  | LNew i => n <- gf_at w i ;; r <- rnew exts n ;; Some (add_lf w r)
  | LBind j e => r <- nth_error (w_lfs w) j ;; r' <- rbind m exts r e ;; set_lf w j r'
  | LUnbind j => r <- nth_error (w_lfs w) j ;; set_lf w j (runbind r)
  | LCopy j => r <- nth_error (w_lfs w) j ;; r' <- rcopy exts r ;; Some (add_lf w r')
  | LDeriv j => r <- nth_error (w_lfs w) j ;; r' <- rderivative exts r ;; Some (add_lf w r')
  | LEval j x => r <- nth_error (w_lfs w) j ;; '(_, r') <- reval m exts r x ;; set_lf w j r'
  end.
(** A sequence of calls; no counterpart in the library. *)
Fixpoint run (w : world) (h : list op) : option world :=
  match h with [] => Some w | o :: r => w' <- step w o ;; run w' r end.
End Lifetime.
Arguments cell : clear implicits. Arguments memory : clear implicits. Arguments gobj : clear implicits. Arguments eref : clear implicits.
Arguments robj : clear implicits. Arguments world : clear implicits. Arguments op : clear implicits.
