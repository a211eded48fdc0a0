(** Model of nested coefficient containers: dune/functions/common/indexaccess.hh,
    backends/istlvectorbackend.hh, backends/containerfactory.hh,
    backends/istlvectorfactory.hh, functionspacebases/hierarchicnodetorangemap.hh. *)
From Coq Require Import List Arith Bool.
From Verif Require Import Lib Basis_model.
Import ListNotations.

(** The C++ types of containers.  [TScalar]: no operator[].  [TDyn t]: operator[] and
    resize() (std::vector, Dune::BlockVector).  [TArr n t]: dynamic operator[] but no
    resize() (std::array, FieldVector).  [TTup ts]: operator[] for index_constant only
    (TupleVector, MultiTypeBlockVector); [ts] is not empty.  A FieldVector<K,1> is
    [TArr 1 TScalar]: the code treats it so since it has operator[]. *)
(** What the code asks of a type: operator[] and resize() (istlvectorbackend.hh:153-233), static
    size and index_constant access (indexaccess.hh:65-101). *)
Inductive cty := TScalar | TDyn (t : cty) | TArr (n : nat) (t : cty) | TTup (ts : list cty).

Section Container.
Context {V : Type}.
(** An object of one of these types; entries are of type V. *)
Inductive cont := CVal (x : V) | CBlk (l : list cont).

(** Value-initialized object of a type (what std::vector::resize appends). *)
(** What c.resize(n) appends (istlvectorbackend.hh:178: dune-istl or std). *)
Fixpoint default (zero : V) (t : cty) : cont :=
  match t with
  | TScalar => CVal zero
  | TDyn _ => CBlk []
  | TArr n t => CBlk (repeat (default zero t) n)
  | TTup ts => CBlk (map (default zero) ts)
  end.

(** A container object of a type. *)
(** Whether an object belongs to a type; the C++ type system does this. *)
Fixpoint has_ty (t : cty) (c : cont) : Prop :=
  match t, c with
  | TScalar, CVal _ => True
  | TDyn t, CBlk l => Forall (has_ty t) l
  | TArr n t, CBlk l => length l = n /\ Forall (has_ty t) l
  | TTup ts, CBlk l => (fix go ts l := match ts, l with
                                       | [], [] => True
                                       | t :: ts', x :: l' => has_ty t x /\ go ts' l'
                                       | _, _ => False
                                       end) ts l
  | _, _ => False
  end.

(** indexaccess.hh:119-158: ShiftedDynamicMultiIndex of [idx] with [off] entries
    removed: size() and operator[]. *)
Definition shifted_size (idx : mi) (off : nat) : nat :=
  if off <? length idx then length idx - off else 0.
(** indexaccess.hh:127-133, ShiftedDynamicMultiIndex::operator[]. *)
Definition shifted_at (idx : mi) (off pos : nat) : option nat :=
  if pos <? shifted_size idx off then nth_error idx (pos + off) else Some 0.

(** indexaccess.hh:300-334: resolveDynamicMultiIndex with predicate isFinal.  The
    result, a reference, is the path of the entry it refers to.  [None]: assertion
    failure, or operator[] out of range; [final t = false] for a type without
    operator[] does not compile.  Tuples: switchCases over the static indices with
    c[0] as fallback (317-324). *)
Fixpoint resolve (final : cty -> bool) (t : cty) (c : cont) (idx : mi) (off : nat) : option (list nat) :=
  if final t then (if shifted_size idx off =? 0 then Some [] else None) else
  match t with
  | TScalar => None
  | TDyn t' | TArr _ t' =>
      match c with
      | CVal _ => None
      | CBlk l =>
          i <- shifted_at idx off 0 ;;
          x <- nth_error l i ;;
          p <- resolve final t' x idx (off + 1) ;; Some (i :: p)
      end
  | TTup ts =>
      match c with
      | CVal _ => None
      | CBlk l =>
          i <- shifted_at idx off 0 ;;
          let j := if i <? length ts then i else 0 in
          (fix pick ts l k :=
             match ts, l, k with
             | t' :: _, x :: _, 0 => p <- resolve final t' x idx (off + 1) ;; Some (j :: p)
             | _ :: ts', _ :: l', S k' => pick ts' l' k'
             | _, _, _ => None
             end) ts l j
      end
  end.
(** indexaccess.hh:376-381: shiftedDynamicMultiIndex<0>(multiIndex) *)
Definition resolve_final final t c idx := resolve final t c idx 0.
(** indexaccess.hh:398-403: final iff there is no operator[]; this is
    ISTLVectorBackend::operator[] (istlvectorbackend.hh:267-277). *)
Definition no_index_access (t : cty) : bool := match t with TScalar => true | _ => false end.
(** istlvectorbackend.hh:267-277, operator[]. *)
Definition backend_at (t : cty) (c : cont) (idx : mi) : option (list nat) :=
  resolve_final no_index_access t c idx.

(** indexaccess.hh:237-261, 284-290: hybridMultiIndexAccess<Result>: like the above
    with "convertible to Result" as criterion, but without the assertion that all
    digits are used; hybridIndexAccess (65-101) is the access to one digit. *)
Fixpoint hybrid_access (convertible : cty -> bool) (t : cty) (c : cont) (idx : mi) (off : nat)
  : option (list nat) :=
  if convertible t then Some [] else
  match t with
  | TScalar => None
  | TDyn t' | TArr _ t' =>
      match c with
      | CVal _ => None
      | CBlk l =>
          i <- shifted_at idx off 0 ;;
          x <- nth_error l i ;;
          p <- hybrid_access convertible t' x idx (off + 1) ;; Some (i :: p)
      end
  | TTup ts =>
      match c with
      | CVal _ => None
      | CBlk l =>
          i <- shifted_at idx off 0 ;;
          let j := if i <? length ts then i else 0 in
          (fix pick ts l k :=
             match ts, l, k with
             | t' :: _, x :: _, 0 => p <- hybrid_access convertible t' x idx (off + 1) ;; Some (j :: p)
             | _ :: ts', _ :: l', S k' => pick ts' l' k'
             | _, _, _ => None
             end) ts l j
      end
  end.

(** indexaccess.hh:336-348: resolveStaticMultiIndex; no padding, stops when the
    digits are exhausted.  A digit without entry is [None] (does not compile, or UB). *)
Fixpoint resolve_static (c : cont) (idx : mi) : option cont :=
  match idx with
  | [] => Some c
  | head :: tail => match c with
                    | CVal _ => None
                    | CBlk l => x <- nth_error l head ;; resolve_static x tail
                    end
  end.

(** hierarchicnodetorangemap.hh:32-49. *)
Definition node_to_range (tree_path : mi) (y : cont) : option cont :=
  match y with
  | CVal _ => Some y
  | CBlk _ => resolve_static y tree_path
  end.

(** * resize *)
(** Outcome of a call: normal return, exception, or undefined. *)
(** How a call of istlvectorbackend.hh:153-233 ends. *)
Inductive res (A : Type) := Done (a : A) | Throw | Undef.
Arguments Done {A} a. Arguments Throw {A}. Arguments Undef {A}.
(** Sequencing of statements; an exception or undefined behaviour ends the call. *)
Definition rbind {A B} (r : res A) (k : A -> res B) : res B :=
  match r with Done a => k a | Throw => Throw | Undef => Undef end.

(** for i: entry i := f i (entry i), entries from [i] on *)
(** The loops of istlvectorbackend.hh:153-233 over the entries of a container. *)
Fixpoint each (f : nat -> cont -> res cont) (i : nat) (l : list cont) : res (list cont) :=
  match l with
  | [] => Done []
  | x :: r => rbind (f i x) (fun y => rbind (each f (i + 1) r) (fun r' => Done (y :: r')))
  end.

(** istlvectorbackend.hh:153-233.  [size p = None] is a size() call outside its domain.
    The prefix object is copied at each level; its capacity (multiIndexBufferSize) is
    not modelled.  After an exception the container may be partly resized. *)
Fixpoint resize (zero : V) (size : mi -> option nat) (t : cty) (c : cont) (prefix : mi) : res cont :=
  match size prefix with
  | None => Undef
  | Some n =>
    match t, c with
    | TScalar, CVal _ => if n =? 0 then Done c else Throw
    | TDyn t', CBlk l =>
        if n =? 0 then (if length l =? 0 then Throw else Done c)
        else rbind (each (fun i x => resize zero size t' x (prefix ++ [i])) 0
                         (vresize l n (default zero t'))) (fun l' => Done (CBlk l'))
    | TArr _ t', CBlk l =>
        if n =? 0 then Done c
        else if negb (length l =? n) then Throw
        else rbind (each (fun i x => resize zero size t' x (prefix ++ [i])) 0 l) (fun l' => Done (CBlk l'))
    | TTup ts, CBlk l =>
        if n =? 0 then Done c
        else if negb (length l =? n) then Throw
        else rbind ((fix go ts l i := match ts, l with
                                | [], [] => Done []
                                | t' :: ts', x :: l' =>
                                    rbind (resize zero size t' x (prefix ++ [i])) (fun y =>
                                    rbind (go ts' l' (i + 1)) (fun r => Done (y :: r)))
                                | _, _ => Undef
                                end) ts l 0) (fun l' => Done (CBlk l'))
    | _, _ => Undef
    end
  end.
(** istlvectorbackend.hh:257-265. *)
Definition backend_resize zero size t c := resize zero size t c [].

(** istlvectorbackend.hh:235-249, 289-293: recursiveAssign; [assignable t]: an object
    of type [t] can be assigned the value directly, giving [direct c]. *)
Fixpoint recursive_assign (assignable : cty -> bool) (direct : cont -> cont) (t : cty) (c : cont) : option cont :=
  if assignable t then Some (direct c) else
  match t, c with
  | TDyn t', CBlk l | TArr _ t', CBlk l =>
      option_map CBlk
        ((fix go l := match l with
                      | [] => Some []
                      | x :: r => y <- recursive_assign assignable direct t' x ;; r' <- go r ;; Some (y :: r')
                      end) l)
  | TTup ts, CBlk l =>
      option_map CBlk
        ((fix go ts l := match ts, l with
                         | [], [] => Some []
                         | t' :: ts', x :: r => y <- recursive_assign assignable direct t' x ;; r' <- go ts' r ;; Some (y :: r')
                         | _, _ => None
                         end) ts l)
  | _, _ => None
  end.

(** * Factories *)
(** Whether a descriptor type contains Unknown; then the type of the children in
    containerfactory.hh:55-63 (istlvectorfactory.hh:48-56) is void. *)
Fixpoint dty_known (t : dty) : bool :=
  match t with
  | TyUnknown => false
  | TyValue => true
  | TyTuple ts => forallb dty_known ts
  | TyArray _ t | TyVector t | TyUArray _ t | TyUVector t => dty_known t
  end.

(** containerfactory.hh:28-95.  [None]: NotImplemented is thrown, or (Unknown below the
    root) the return type is void and the call does not compile. *)
Fixpoint make_container (d : desc) (v : V) : option cont :=
  match d with
  | DUnknown => None
  | DValue => Some (CVal v)
  | DTuple cs | DArray cs =>
      option_map CBlk ((fix go l := match l with
                                    | [] => Some []
                                    | c :: r => x <- make_container c v ;; y <- go r ;; Some (x :: y)
                                    end) cs)
  | DVector t cs =>
      if dty_known t then
      option_map CBlk ((fix go l := match l with
                                    | [] => Some []
                                    | c :: r => x <- make_container c v ;; y <- go r ;; Some (x :: y)
                                    end) cs)
      else None
  | DUArray n c | DUVector n c => x <- make_container c v ;; Some (CBlk (repeat x n))
  end.
(** The C++ type of the result. *)
(** containerfactory.hh:28-95, the return types. *)
Fixpoint container_type (t : dty) : cty :=
  match t with
  | TyUnknown => TScalar
  | TyValue => TScalar
  | TyTuple ts => TTup (map container_type ts)
  | TyArray n t => TArr n (container_type t)
  | TyVector t => TDyn (container_type t)
  | TyUArray n t => TArr n (container_type t)
  | TyUVector t => TDyn (container_type t)
  end.

(** istlvectorfactory.hh:24-118.  The result carries whether it is a
    Dune::BlockVector.  `Dune::BlockVector{a, b, ...}` (lines 44, 64) deduces its class
    template argument; by [over.match.list] a braced list of exactly one element whose
    type is itself a BlockVector selects the copy deduction candidate, i.e. gives a
    copy of that element.  An empty list does not compile. *)
Definition block_vector_braced (l : list (cont * bool)) : option (cont * bool) :=
  match l with
  | [] => None
  | [(c, true)] => Some (c, true)
  | _ => Some (CBlk (map fst l), true)
  end.
(** The argument of the overload istlvectorfactory.hh:111-115 for arrays of
    UniformArray<Value,n>. *)
Definition is_flat_array (d : desc) : bool := match d with DUArray _ DValue => true | _ => false end.
(** istlvectorfactory.hh:24-118, operator(). *)
Fixpoint make_istl (zero : V) (d : desc) : option (cont * bool) :=
  let children :=
    fix go l := match l with
                | [] => Some []
                | c :: r => x <- make_istl zero c ;; y <- go r ;; Some (x :: y)
                end in
  match d with
  | DUnknown => None
  | DValue => Some (CVal zero, false)
  | DTuple cs => l <- children cs ;; Some (CBlk (map fst l), false)
  | DArray cs =>
      l <- children cs ;;
      if forallb is_flat_array cs then Some (CBlk (map fst l), true) else block_vector_braced l
  | DVector t cs => if dty_known t then l <- children cs ;; Some (CBlk (map fst l), true) else None
  | DUArray n DValue => Some (CBlk (repeat (CVal zero) n), false)
  | DUArray n c => x <- make_istl zero c ;; block_vector_braced (repeat x n)
  | DUVector n c => x <- make_istl zero c ;; Some (CBlk (repeat (fst x) n), true)
  end.
End Container.
Arguments cont : clear implicits.
Arguments Done {A} a. Arguments Throw {A}. Arguments Undef {A}.
