(** Model of the global-basis machinery of dune/functions/functionspacebases:
    nodes.hh, leafprebasismixin.hh, dynamicpowerbasis.hh, powerbasis.hh,
    compositebasis.hh, restrictedbasis.hh, taylorhoodbasis.hh,
    transformedindexbasis.hh, containerdescriptors.hh, defaultlocalview.hh.

    [E] is the type of grid elements (GridView::Codim<0>::Entity).
    Multi-indices and size prefixes are lists of digits.  [None] is any outcome
    other than a normal return: failing assert, capacity exceeded, access out of
    range, division by zero, or (for descriptors) an ill-formed instantiation. *)
From Coq Require Import List Arith Bool.
From Verif Require Import Lib.
Import ListNotations.

Notation mi := (list nat).

(** A counting loop [for (i=s; i<s+k; ++i) st = body(i,st)]. *)
Fixpoint forl {S} (k s : nat) (body : nat -> S -> option S) (st : S) : option S :=
  match k with
  | 0 => Some st
  | Datatypes.S k' => st' <- body s st ;; forl k' (s + 1) body st'
  end.

(** [M[i]] of a multi-index, and assignment to it. *)
Definition digit (m : mi) (i : nat) : option nat := nth_error m i.
(** Assignment M[i] = d; out of range is [None]. *)
Definition set_digit (m : mi) (i d : nat) : option mi := upd m i d.

(** dynamicpowerbasis.hh:176-182 and compositebasis.hh:176-182,
    multiIndexPopFront: shift all digits down, then resize(size-1). *)
Definition mi_pop_front (m : mi) : option mi :=
  m' <- forl (length m - 1) 0
          (fun i m => d <- digit m (i + 1) ;; set_digit m i d) m ;;
  if length m =? 0 then None else Some (firstn (length m - 1) m').

(** dynamicpowerbasis.hh:314-321, compositebasis.hh:314-321,
    taylorhoodbasis.hh:220-227, multiIndexPushFront: resize(size+1), move the
    digits up starting from the end, write the first digit.  [cap] is the
    capacity of the storage; resize beyond it is [None].  The digit exposed by
    resize is unspecified in the C++ code; it is overwritten before it is read,
    here it is 0. *)
Definition mi_push_front (cap : nat) (m : mi) (m0 : nat) : option mi :=
  if length m <? cap then
    m' <- forl (length m) 0
            (fun k m => let i := length m - 1 - k in
                        d <- digit m (i - 1) ;; set_digit m i d) (m ++ [0]) ;;
    set_digit m' 0 m0
  else None.

(** ReservedVector / OverflowArray push_back, back. *)
Definition mi_push_back (cap : nat) (m : mi) (d : nat) : option mi :=
  if length m <? cap then Some (m ++ [d]) else None.
(** ReservedVector / overflowarray.hh:188-192: assignment to back(). *)
Definition mi_set_back (m : mi) (d : nat) : option mi :=
  if length m =? 0 then None else set_digit m (length m - 1) d.

(** * Container descriptors (containerdescriptors.hh) *)

(** containerdescriptors.hh:52, 70-78, 82, 98, 112, 116-139, 155-181.
    [DVector] records its static child type, because an empty std::vector still
    has one. *)
Inductive dty :=
| TyUnknown | TyValue | TyTuple (ts : list dty) | TyArray (n : nat) (t : dty)
| TyVector (t : dty) | TyUArray (n : nat) (t : dty) | TyUVector (t : dty).
(** containerdescriptors.hh:52, 70-78, 82, 98, 112, 116-139, 155-181: the descriptor objects.
    [DVector] records its static child type, because an empty std::vector still has one. *)
Inductive desc :=
| DUnknown | DValue | DTuple (cs : list desc) | DArray (cs : list desc)
| DVector (t : dty) (cs : list desc) | DUArray (n : nat) (c : desc) | DUVector (n : nat) (c : desc).

(** The C++ type of a descriptor object. *)
Fixpoint dtype (d : desc) : dty :=
  match d with
  | DUnknown => TyUnknown
  | DValue => TyValue
  | DTuple cs => TyTuple (map dtype cs)
  | DArray cs => TyArray (length cs) (match cs with [] => TyUnknown | c :: _ => dtype c end)
  | DVector t _ => TyVector t
  | DUArray n c => TyUArray n (dtype c)
  | DUVector n c => TyUVector (dtype c)
  end.

(** std::is_same_v on descriptor types. *)
Fixpoint dty_eqb (a b : dty) {struct a} : bool :=
  match a, b with
  | TyUnknown, TyUnknown => true
  | TyValue, TyValue => true
  | TyTuple xs, TyTuple ys =>
      (fix go xs ys := match xs, ys with
                       | [], [] => true
                       | x :: xs', y :: ys' => dty_eqb x y && go xs' ys'
                       | _, _ => false end) xs ys
  | TyArray n x, TyArray m y => (n =? m) && dty_eqb x y
  | TyVector x, TyVector y => dty_eqb x y
  | TyUArray n x, TyUArray m y => (n =? m) && dty_eqb x y
  | TyUVector x, TyUVector y => dty_eqb x y
  | _, _ => false
  end.

(** containerdescriptors.hh:73-77, 130-135, 171-176 and the std containers:
    size() and operator[] of each descriptor.  Value[...] is again Value, but
    "should not be called"; here it is [None], as is an out-of-range child. *)
Definition desc_size (d : desc) : option nat :=
  match d with
  | DUnknown => None
  | DValue => Some 0
  | DTuple cs | DArray cs | DVector _ cs => Some (length cs)
  | DUArray n _ | DUVector n _ => Some n
  end.
(** containerdescriptors.hh:73-77, 130-135, 171-176: operator[] of each descriptor; an
    out-of-range child is [None]. *)
Definition desc_child (d : desc) (i : nat) : option desc :=
  match d with
  | DUnknown | DValue => None
  | DTuple cs | DArray cs | DVector _ cs => nth_error cs i
  | DUArray n c | DUVector n c => if i <? n then Some c else None
  end.

(** containerdescriptors.hh:86-107, makeDescriptor (both overloads). *)
Definition make_descriptor (cs : list desc) : option desc :=
  match cs with
  | [] => None
  | c :: r => if forallb (fun x => dty_eqb (dtype c) (dtype x)) r
              then Some (DArray cs) else Some (DTuple cs)
  end.

(** containerdescriptors.hh:146-150, 187-191, makeUniformDescriptor; [static]
    selects the overload for std::integral_constant sizes. *)
Definition make_uniform (static : bool) (n : nat) (c : desc) : desc :=
  if static then DUArray n c else DUVector n c.

(** containerdescriptors.hh:196-275, TreeTransform and appendToTree.  The type
    of the children of a transformed Vector is the type of the transformed child
    type; [append_ty] computes it. *)
Fixpoint append_ty (static : bool) (s : nat) (t : dty) : dty :=
  match t with
  | TyUnknown => TyUnknown
  | TyValue => if static then TyUArray s TyValue else TyUVector TyValue
  | TyTuple ts =>
      match ts with
      | [] => TyTuple []
      | x :: _ =>
          let us := map (append_ty static s) ts in
          match us with
          | u :: r => if forallb (dty_eqb u) r then TyArray (length us) u else TyTuple us
          | [] => TyTuple []
          end
      end
  | TyArray n x => TyArray n (append_ty static s x)
  | TyVector x => TyVector (append_ty static s x)
  | TyUArray n x => TyUArray n (append_ty static s x)
  | TyUVector x => TyUVector (append_ty static s x)
  end.
(** containerdescriptors.hh:196-275: the transformed object *)
Fixpoint append_to_tree (static : bool) (s : nat) (d : desc) : option desc :=
  match d with
  | DUnknown => Some DUnknown
  | DValue => Some (make_uniform static s DValue)
  | DTuple cs | DArray cs =>
      cs' <- (fix go cs := match cs with
                           | [] => Some []
                           | c :: r => c' <- append_to_tree static s c ;; r' <- go r ;; Some (c' :: r')
                           end) cs ;;
      make_descriptor cs'
  | DVector t cs =>
      cs' <- (fix go cs := match cs with
                           | [] => Some []
                           | c :: r => c' <- append_to_tree static s c ;; r' <- go r ;; Some (c' :: r')
                           end) cs ;;
      Some (DVector (append_ty static s t) cs')
  | DUArray n c => c' <- append_to_tree static s c ;; Some (DUArray n c')
  | DUVector n c => c' <- append_to_tree static s c ;; Some (DUVector n c')
  end.

(** containerdescriptors.hh:278-285, flatLexicographic(child...): known only if
    every child is a FlatVector (= UniformVector<Value>). *)
Fixpoint sum_list (l : list nat) : nat := match l with [] => 0 | x :: r => x + sum_list r end.
(** containerdescriptors.hh:278-285: the size of a FlatVector, [None] for other types *)
Definition flat_vector_size (d : desc) : option nat :=
  match d with DUVector n DValue => Some n | _ => None end.
(** The fold over the pack of children in containerdescriptors.hh:278-285; no counterpart of its
    own. *)
Fixpoint all_some {A} (l : list (option A)) : option (list A) :=
  match l with
  | [] => Some []
  | Some a :: r => r' <- all_some r ;; Some (a :: r')
  | None :: _ => None
  end.
(** containerdescriptors.hh:278-285: both overloads *)
Definition flat_lexicographic (cs : list desc) : desc :=
  match all_some (map flat_vector_size cs) with
  | Some ns => DUVector (sum_list ns) DValue
  | None => DUnknown
  end.

(** containerdescriptors.hh:288-354, flatLexicographicN.  The Array overload with
    a static exponent calls std::array::emplace_back (line 341), which does not
    exist, and the Tuple overload with a dynamic exponent (line 351-353) uses a
    run-time value as template argument: ill-formed, [None]. *)
Definition flat_lexicographic_n (static : bool) (n : nat) (c : desc) : option desc :=
  match c with
  | DUVector m g => Some (DUVector (m * n) g)
  | DUArray m g => if static then Some (DUArray (n * m) g) else Some (DUVector (n * m) g)
  | DVector t cs => Some (DVector t (concat (repeat cs n)))
  | DArray cs => if static then None
                 else Some (DVector (match cs with [] => TyUnknown | x :: _ => dtype x end)
                                    (concat (repeat cs n)))
  | DTuple cs => if static then make_descriptor (concat (repeat cs n)) else None
  | DUnknown | DValue => Some DUnknown
  end.

(** containerdescriptors.hh:357-423, flatInterleavedN (same remarks, lines 407-412
    and 420-422). *)
Definition flat_interleaved_n (static : bool) (n : nat) (c : desc) : option desc :=
  match c with
  | DUVector m g => Some (DUVector (m * n) g)
  | DUArray m g => if static then Some (DUArray (n * m) g) else Some (DUVector (n * m) g)
  | DVector t cs => Some (DVector t (concat (map (fun x => repeat x n) cs)))
  | DArray cs => if static then None
                 else Some (DVector (match cs with [] => TyUnknown | x :: _ => dtype x end)
                                    (concat (map (fun x => repeat x n) cs)))
  | DTuple cs => if static then make_descriptor (concat (map (fun x => repeat x n) cs)) else None
  | DUnknown | DValue => Some DUnknown
  end.

Section Basis.
Context {E : Type}.

(** * Local tree (nodes.hh) *)

(** nodes.hh:205-207: offset_, size_, treeIndex_. *)
Record mixin := MX { mx_offset : nat; mx_size : nat; mx_tix : nat }.

(** nodes.hh:212-409, restrictedbasis.hh:60-95.  A leaf node knows its finite
    element's size per element ([fe]; it is what bind() passes to setSize) and
    the element it was last bound to.  A RestrictedPreBasis::Node is derived from
    the wrapped node, so it is the same object with one more [guard] (the
    sub-domain grid view's contains()).  PowerBasisNode, DynamicPowerBasisNode and
    CompositeBasisNode only differ in the C++ type of their children. *)
Inductive node :=
| NLeaf (m : mixin) (guards : list (E -> bool)) (fe : E -> nat) (elt : option E)
| NInner (m : mixin) (guards : list (E -> bool)) (cs : list node).

(** nodes.hh:212-213, 231-232: the base class subobject BasisNodeMixin of a node *)
Definition node_mixin (n : node) : mixin :=
  match n with NLeaf m _ _ _ => m | NInner m _ _ => m end.
(** nodes.hh:188-201: the node with other values in BasisNodeMixin (setOffset, setSize,
    setTreeIndex) *)
Definition with_mixin (n : node) (m : mixin) : node :=
  match n with NLeaf _ g fe e => NLeaf m g fe e | NInner _ g cs => NInner m g cs end.
(** nodes.hh:158-161, 176-179, 183-186, 171-174. *)
Definition node_size (n : node) : nat := mx_size (node_mixin n).
(** nodes.hh:183-186 (offset) *)
Definition node_offset (n : node) : nat := mx_offset (node_mixin n).
(** nodes.hh:176-179 (treeIndex) *)
Definition node_tix (n : node) : nat := mx_tix (node_mixin n).
(** nodes.hh:171-174 (empty) *)
Definition node_empty (n : node) : bool := node_size n =? 0.
(** nodes.hh:145-149, localIndex with its assert. *)
Definition local_index (n : node) (i : nat) : option nat :=
  if i <? node_size n then Some (node_offset n + i) else None.
(** nodes.hh:299, 354, 408: children_ *)
Definition children (n : node) : list node :=
  match n with NLeaf _ _ _ _ => [] | NInner _ _ cs => cs end.
(** nodes.hh:265-277, 318-330, 372-382. *)
Definition child (n : node) (i : nat) : option node := nth_error (children n) i.
(** nodes.hh:85-123, descendant by tree path (Dune::TypeTree::child). *)
Fixpoint descendant (n : node) (path : list nat) : option node :=
  match path with
  | [] => Some n
  | i :: p => match child n i with Some c => descendant c p | None => None end
  end.

(** restrictedbasis.hh:80-83: forEachNode(..., setOffset(offset), setSize(0)). *)
Fixpoint zero_tree (off : nat) (n : node) : node :=
  match n with
  | NLeaf m g fe e => NLeaf (MX off 0 (mx_tix m)) g fe e
  | NInner m g cs => NInner (MX off 0 (mx_tix m)) g (map (zero_tree off) cs)
  end.

(** nodes.hh:412-417 bindTree = setOffset, then node.bind(element):
    - leaf: e.g. lfeprebasismixin.hh:153-157, store element, setSize(fe size);
    - inner: nodes.hh:236-245, bind children at running offset, size = sum;
    - restricted: restrictedbasis.hh:74-85, bind the wrapped node if the element
      is contained, else zero_tree. *)
Fixpoint bind_tree (e : E) (off : nat) (n : node) : node :=
  match n with
  | NLeaf m g fe old =>
      if forallb (fun c => c e) g then NLeaf (MX off (fe e) (mx_tix m)) g fe (Some e)
      else zero_tree off n
  | NInner m g cs =>
      if forallb (fun c => c e) g then
        let '(off', cs') :=
          (fix go (o : nat) (l : list node) : nat * list node :=
             match l with
             | [] => (o, [])
             | c :: r => let c' := bind_tree e o c in
                         let '(o', r') := go (o + node_size c') r in (o', c' :: r')
             end) off cs in
        NInner (MX off (off' - off) (mx_tix m)) g cs'
      else zero_tree off n
  end.

(** nodes.hh:419-426 initializeTree.  TypeTree::forEachNode visits a node before
    its children, children in order.  Returns the tree and the next index. *)
Fixpoint init_tree (t : nat) (n : node) : node * nat :=
  match n with
  | NLeaf m g fe e => (NLeaf (MX (mx_offset m) (mx_size m) t) g fe e, t + 1)
  | NInner m g cs =>
      let '(cs', t') :=
        (fix go (t : nat) (l : list node) : list node * nat :=
           match l with
           | [] => ([], t)
           | c :: r => let '(c', t1) := init_tree t c in
                       let '(r', t2) := go t1 r in (c' :: r', t2)
           end) (t + 1) cs in
      (NInner (MX (mx_offset m) (mx_size m) t) g cs', t')
  end.

(** * Pre-bases *)

(** The buffer of multi-indices an [indices()] call writes to, and the iterator. *)
Notation ibuf := (list (list nat)).
(** One entry of the buffer is read and written, as through an iterator; no counterpart of its own. *)
Definition buf_modify (b : ibuf) (i : nat) (f : mi -> option mi) : option ibuf :=
  m <- nth_error b i ;; m' <- f m ;; upd b i m'.

(** The operations of a pre-basis (functionspacebases/concepts.hh, PreBasis).
    [pb_indices cap node (buffer, it)]: [cap] is the capacity of the multi-index
    storage in the buffer (the root basis' multiIndexBufferSize). *)
Record prebasis := PB {
  pb_size : mi -> option nat;
  pb_dim : nat;
  pb_maxnode : nat;
  pb_minmi : nat; pb_maxmi : nat; pb_bufmi : nat;
  pb_node : node;                                   (* makeNode() *)
  pb_indices : nat -> node -> ibuf * nat -> option (ibuf * nat);
  pb_desc : option desc                             (* containerDescriptor() *)
}.

(** A leaf pre-basis: any class built on leafprebasismixin.hh.  Its specific
    content is data: dimension(), maxNodeSize(), the finite element size per
    element and the flat global indices written by indices() per element. *)
Record leaf := LF {
  lf_dim : nat;
  lf_maxnode : nat;
  lf_fe : E -> nat;
  lf_indices : E -> list nat
}.

(** nodes.hh:139-143: the constructor of BasisNodeMixin *)
Definition mx0 : mixin := MX 0 0 0. (* nodes.hh:139-143 *)

(** leafprebasismixin.hh:42-69, with indices() of the derived class, e.g.
    leafprebasismappermixin.hh:120-129: [*it = {{ index }}; ++it] per index. *)
Fixpoint leaf_write (l : list nat) (st : ibuf * nat) : option (ibuf * nat) :=
  match l with
  | [] => Some st
  | g :: r => b' <- upd (fst st) (snd st) [g] ;; leaf_write r (b', snd st + 1)
  end.
(** leafprebasismixin.hh:30-78 and the derived classes, e.g. leafprebasismappermixin.hh:74-129 *)
Definition leaf_pb (l : leaf) : prebasis := {|
  pb_size := fun p => match p with [] => Some (lf_dim l) | [_] => Some 0 | _ => None end;
  pb_dim := lf_dim l;
  pb_maxnode := lf_maxnode l;
  pb_minmi := 1; pb_maxmi := 1; pb_bufmi := 1;
  pb_node := NLeaf mx0 [] (lf_fe l) None;
  pb_indices := fun cap n st =>
    if cap <? 1 then None else
    match n with
    | NLeaf _ _ _ (Some e) => leaf_write (lf_indices l e) st
    | _ => None (* node.element() of an unbound node *)
    end;
  pb_desc := Some (DUVector (lf_dim l) DValue)
|}.

(** basistags.hh: index merging strategies. *)
Inductive ims := FlatLexicographic | FlatInterleaved | BlockedLexicographic | BlockedInterleaved.
(** dynamicpowerbasis.hh:51 (isBlocked) *)
Definition is_blocked (s : ims) : bool :=
  match s with BlockedLexicographic | BlockedInterleaved => true | _ => false end.

(** dynamicpowerbasis.hh:138-219, sizeImpl; powerbasis.hh:104-108 calls it with
    the static exponent. *)
Definition power_size (n : nat) (s : ims) (sub : mi -> option nat) (p : mi) : option nat :=
  match s with
  | FlatInterleaved =>
      match p with
      | [] => c <- sub [] ;; Some (n * c)
      | d :: r => if n =? 0 then None else sub (d / n :: r)
      end
  | FlatLexicographic =>
      match p with
      | [] => c <- sub [] ;; Some (n * c)
      | d :: r => c <- sub [] ;; if c =? 0 then None else sub (d mod c :: r)
      end
  | BlockedLexicographic =>
      match p with
      | [] => Some n
      | _ => p' <- mi_pop_front p ;; sub p'
      end
  | BlockedInterleaved =>
      match p with
      | [] => sub []
      | _ =>
          tail <- digit p (length p - 1) ;;
          let p1 := firstn (length p - 1) p in
          s1 <- sub p1 ;;
          if s1 =? 0 then Some 0
          else s2 <- sub (p1 ++ [tail]) ;; Some (if s2 =? 0 then n else s2)
      end
  end.

(** The common copying loop of dynamicpowerbasis.hh:274-286, 298-310, 333-345,
    359-369: for child = 1..n-1, for i < subTreeSize: copy entry i of the first
    child to the next position and adapt it: [fix_up child source copy]. *)
Definition copy_children (n subsz it : nat) (fix_up : nat -> mi -> mi -> option mi)
    (st : ibuf * nat) : option (ibuf * nat) :=
  forl (n - 1) 1 (fun c st =>
    forl subsz 0 (fun i st =>
      let '(b, next) := st in
      src <- nth_error b (it + i) ;;
      b1 <- upd b next src ;;                       (* *next = multiIndices[i] *)
      b2 <- buf_modify b1 next (fix_up c src) ;;
      Some (b2, next + 1)) st) st.

(** dynamicpowerbasis.hh:264-371, indicesImpl for the four strategies. *)
Definition power_indices (n : nat) (s : ims) (sub : prebasis)
    (cap : nat) (nd : node) (st : ibuf * nat) : option (ibuf * nat) :=
  c0 <- child nd 0 ;;
  let subsz := node_size c0 in
  let it := snd st in
  match s with
  | FlatInterleaved =>
      '(b, next) <- pb_indices sub cap c0 st ;;
      b1 <- forl subsz 0 (fun i b => buf_modify b (it + i)
              (fun m => d <- digit m 0 ;; set_digit m 0 (d * n))) b ;;
      copy_children n subsz it
        (fun c src m => d <- digit src 0 ;; set_digit m 0 (d + c)) (b1, next)
  | FlatLexicographic =>
      fs <- pb_size sub [] ;;
      '(b, next) <- pb_indices sub cap c0 st ;;
      copy_children n subsz it
        (fun c _ m => d <- digit m 0 ;; set_digit m 0 (d + c * fs)) (b, next)
  | BlockedLexicographic =>
      '(b, next) <- pb_indices sub cap c0 st ;;
      b1 <- forl subsz 0 (fun i b => buf_modify b (it + i) (fun m => mi_push_front cap m 0)) b ;;
      copy_children n subsz it (fun c _ m => set_digit m 0 c) (b1, next)
  | BlockedInterleaved =>
      '(b, next) <- pb_indices sub cap c0 st ;;
      b1 <- forl subsz 0 (fun i b => buf_modify b (it + i) (fun m => mi_push_back cap m 0)) b ;;
      copy_children n subsz it (fun c _ m => mi_set_back m c) (b1, next)
  end.

(** dynamicpowerbasis.hh:374-387. *)
Definition power_desc (static : bool) (n : nat) (s : ims) (d : option desc) : option desc :=
  c <- d ;;
  match s with
  | FlatInterleaved => flat_interleaved_n static n c
  | FlatLexicographic => flat_lexicographic_n static n c
  | BlockedLexicographic => Some (make_uniform static n c)
  | BlockedInterleaved => append_to_tree static n c
  end.

(** dynamicpowerbasis.hh:48-392 (dynamic exponent) and powerbasis.hh:51-123
    (static exponent). *)
Definition power_pb (static : bool) (n : nat) (s : ims) (sub : prebasis) : prebasis := {|
  pb_size := power_size n s (pb_size sub);
  pb_dim := pb_dim sub * n;
  pb_maxnode := pb_maxnode sub * n;
  pb_minmi := pb_minmi sub + Nat.b2n (is_blocked s);
  pb_maxmi := pb_maxmi sub + Nat.b2n (is_blocked s);
  pb_bufmi := pb_bufmi sub + Nat.b2n (is_blocked s);
  pb_node := NInner mx0 [] (repeat (pb_node sub) n);
  pb_indices := power_indices n s sub;
  pb_desc := power_desc static n s (pb_desc sub)
|}.

(** compositebasis.hh:184-220; only the two lexicographic strategies have
    implementations. *)
Inductive cims := CFlatLexicographic | CBlockedLexicographic.
(** compositebasis.hh:58 (isBlocked) *)
Definition cis_blocked (s : cims) : bool :=
  match s with CBlockedLexicographic => true | CFlatLexicographic => false end.

(** compositebasis.hh:208-217, the staticFindInRange loop. *)
Fixpoint composite_flat_size (subs : list prebasis) (d : nat) (r : mi) : option nat :=
  match subs with
  | [] => Some 0
  | b :: bs => fd <- pb_size b [] ;;
               if d <? fd then pb_size b (d :: r) else composite_flat_size bs (d - fd) r
  end.
(** compositebasis.hh:203-206: the sum of the sizes of the children *)
Fixpoint osum (l : list (option nat)) : option nat :=
  match l with [] => Some 0 | x :: r => a <- x ;; b <- osum r ;; Some (a + b) end.
(** compositebasis.hh:169-220: size(prefix), both strategies *)
Definition composite_size (s : cims) (subs : list prebasis) (p : mi) : option nat :=
  match s with
  | CBlockedLexicographic =>
      match p with
      | [] => Some (length subs)
      | d :: _ => p' <- mi_pop_front p ;;
                  match nth_error subs d with Some b => pb_size b p' | None => Some 0 end
      end
  | CFlatLexicographic =>
      match p with
      | [] => osum (map (fun b => pb_size b []) subs)
      | d :: r => composite_flat_size subs d r
      end
  end.

(** compositebasis.hh:293-338.  [i] is the child index, [fo] the running
    firstComponentOffset. The iterator advances by the child's node size; the
    position returned by the child's indices() is ignored, as in the code. *)
Fixpoint composite_indices (s : cims) (subs : list prebasis) (cap : nat) (nd : node)
    (i fo : nat) (st : ibuf * nat) : option (ibuf * nat) :=
  match subs with
  | [] => Some st
  | sb :: rest =>
      c <- child nd i ;;
      let subsz := node_size c in
      let it := snd st in
      '(b, _) <- pb_indices sb cap c st ;;
      match s with
      | CFlatLexicographic =>
          b1 <- forl subsz 0 (fun k b => buf_modify b (it + k)
                  (fun m => d <- digit m 0 ;; set_digit m 0 (d + fo))) b ;;
          fs <- pb_size sb [] ;;
          composite_indices s rest cap nd (i + 1) (fo + fs) (b1, it + subsz)
      | CBlockedLexicographic =>
          b1 <- forl subsz 0 (fun k b => buf_modify b (it + k)
                  (fun m => mi_push_front cap m i)) b ;;
          composite_indices s rest cap nd (i + 1) fo (b1, it + subsz)
      end
  end.

(** compositebasis.hh:87, 89: std::max over the children *)
Definition max_list (l : list nat) : nat := fold_right max 0 l.
(** compositebasis.hh:88: std::min over the children *)
Definition min_list (l : list nat) : nat :=
  match l with [] => 0 | x :: r => fold_right min x r end.

(** compositebasis.hh:55-341. *)
Definition composite_pb (s : cims) (subs : list prebasis) : prebasis := {|
  pb_size := composite_size s subs;
  pb_dim := sum_list (map pb_dim subs);
  pb_maxnode := sum_list (map pb_maxnode subs);
  pb_minmi := min_list (map pb_minmi subs) + Nat.b2n (cis_blocked s);
  pb_maxmi := max_list (map pb_maxmi subs) + Nat.b2n (cis_blocked s);
  pb_bufmi := max_list (map pb_bufmi subs) + Nat.b2n (cis_blocked s);
  pb_node := NInner mx0 [] (map pb_node subs);
  pb_indices := fun cap nd st => composite_indices s subs cap nd 0 0 st;
  pb_desc := ds <- all_some (map pb_desc subs) ;;
             match s with
             | CBlockedLexicographic => make_descriptor ds
             | CFlatLexicographic => Some (flat_lexicographic ds)
             end
|}.

(** restrictedbasis.hh:43-201.  [dom] is the sub-domain grid view's contains(). *)
Definition add_guard (g : E -> bool) (n : node) : node :=
  match n with NLeaf m gs fe e => NLeaf m (g :: gs) fe e | NInner m gs cs => NInner m (g :: gs) cs end.
(** restrictedbasis.hh:98-201: RestrictedPreBasis; [dom] is the sub-domain grid view's
    contains() *)
Definition restricted_pb (dom : E -> bool) (sub : prebasis) : prebasis := {|
  pb_size := pb_size sub;
  pb_dim := pb_dim sub;
  pb_maxnode := pb_maxnode sub;
  pb_minmi := pb_minmi sub; pb_maxmi := pb_maxmi sub; pb_bufmi := pb_bufmi sub;
  pb_node := add_guard dom (pb_node sub);
  pb_indices := fun cap nd st =>
    if node_size nd =? 0 then Some st else pb_indices sub cap nd st;
  pb_desc := pb_desc sub
|}.

(** taylorhoodbasis.hh:59-281, with the order-2 and order-1 leaf bases [q2], [q1]
    and grid dimension [dim]; [hi] is the template flag HI.  The tree
    (taylorhoodbasis.hh:285-340) is Composite(Power(q2,dim), q1). *)
Definition th_size (hi : bool) (dim : nat) (q2 q1 : leaf) (p : mi) : option nat :=
  match p with
  | [] => Some 2
  | [0] => Some (if hi then lf_dim q2 else dim * lf_dim q2)
  | [1] => Some (lf_dim q1)
  | [a; b] => if hi then (if a =? 0 then Some dim else if a =? 1 then Some 0 else None) else Some 0
  | [a; b; c] => if hi then Some 0 else None
  | _ => None
  end.
(** taylorhoodbasis.hh:229-251 and 253-275: the velocity loop over [child]; note
    that each round asks for the indices of child (0,0) again. *)
Definition th_velocity (hi : bool) (dim : nat) (q2 : leaf) (cap : nat) (c00 : node)
    (st : ibuf * nat) : option (ibuf * nat) :=
  forl dim 0 (fun c st =>
    let subsz := node_size c00 in
    let it := snd st in
    '(b, _) <- pb_indices (leaf_pb q2) cap c00 st ;;
    b1 <- forl subsz 0 (fun i b => buf_modify b (it + i) (fun m =>
            m1 <- mi_push_front cap m 0 ;;
            if hi then mi_push_back cap m1 i                     (* line 265 *)
            else d <- digit m1 1 ;; set_digit m1 1 (d * dim + c) (* line 241 *))) b ;;
    Some (b1, it + subsz)) st.
(** taylorhoodbasis.hh:193-201, 229-251 and 253-275: velocity, then pressure *)
Definition th_indices (hi : bool) (dim : nat) (q2 q1 : leaf) (cap : nat) (nd : node)
    (st : ibuf * nat) : option (ibuf * nat) :=
  v <- child nd 0 ;; c00 <- child v 0 ;;
  st1 <- th_velocity hi dim q2 cap c00 st ;;
  c1 <- child nd 1 ;;
  let subsz := node_size c1 in
  let it := snd st1 in
  '(b, _) <- pb_indices (leaf_pb q1) cap c1 st1 ;;
  b1 <- forl subsz 0 (fun i b => buf_modify b (it + i) (fun m => mi_push_front cap m 1)) b ;;
  Some (b1, it + subsz).
(** taylorhoodbasis.hh:59-281: TaylorHoodPreBasis *)
Definition taylorhood_pb (hi : bool) (dim : nat) (q2 q1 : leaf) : prebasis := {|
  pb_size := th_size hi dim q2 q1;
  pb_dim := dim * lf_dim q2 + lf_dim q1;
  pb_maxnode := dim * lf_maxnode q2 + lf_maxnode q1;
  pb_minmi := 2; pb_maxmi := if hi then 3 else 2; pb_bufmi := if hi then 3 else 2;
  pb_node := NInner mx0 [] [NInner mx0 [] (repeat (NLeaf mx0 [] (lf_fe q2) None) dim);
                            NLeaf mx0 [] (lf_fe q1) None];
  pb_indices := th_indices hi dim q2 q1;
  pb_desc := if hi
             then make_descriptor [make_uniform false (lf_dim q2) (DUArray dim DValue);
                                   DUVector (lf_dim q1) DValue]
             else Some (DArray [DUVector (dim * lf_dim q2) DValue; DUVector (lf_dim q1) DValue])
|}.

(** transformedindexbasis.hh:50-173: a transformation object supplies
    transformIndex, size, dimension, containerDescriptor and the index size
    bounds; indices() calls the raw basis and then transforms node.size() entries
    in place. *)
Record transformation := TR {
  tr_index : nat -> mi -> option mi;      (* capacity -> index -> index *)
  tr_size : mi -> option nat;
  tr_dim : nat;
  tr_desc : option desc;
  tr_min : nat; tr_max : nat
}.
(** transformedindexbasis.hh:50-173: TransformedIndexPreBasis *)
Definition transformed_pb (t : transformation) (raw : prebasis) : prebasis := {|
  pb_size := tr_size t;
  pb_dim := tr_dim t;
  pb_maxnode := pb_maxnode raw;
  pb_minmi := tr_min t; pb_maxmi := tr_max t;
  pb_bufmi := max (pb_bufmi raw) (tr_max t);
  pb_node := pb_node raw;
  pb_indices := fun cap nd st =>
    '(b, _) <- pb_indices raw cap nd st ;;
    forl (node_size nd) 0 (fun _ st =>
      b' <- buf_modify (fst st) (snd st) (tr_index t cap) ;; Some (b', snd st + 1)) (b, snd st);
  pb_desc := tr_desc t
|}.

(** * Basis expressions: the nestings a user can write with makeBasis(...) *)
Inductive bexpr :=
| BLeaf (l : leaf)
| BPower (static : bool) (n : nat) (s : ims) (b : bexpr)
| BComposite (s : cims) (bs : list bexpr)
| BRestricted (dom : E -> bool) (b : bexpr)
| BTaylorHood (hi : bool) (dim : nat) (q2 q1 : leaf).

(** The pre-basis that the factories in powerbasis.hh:141-180, dynamicpowerbasis.hh:410-448,
    compositebasis.hh:354-455, restrictedbasis.hh:205-240 and taylorhoodbasis.hh:343-373 make of
    such an expression *)
Fixpoint build (b : bexpr) : prebasis :=
  match b with
  | BLeaf l => leaf_pb l
  | BPower st n s b => power_pb st n s (build b)
  | BComposite s bs => composite_pb s (map build bs)
  | BRestricted dom b => restricted_pb dom (build b)
  | BTaylorHood hi dim q2 q1 => taylorhood_pb hi dim q2 q1
  end.

(** * Local view (defaultlocalview.hh) *)

(** defaultlocalview.hh:174-177. The basis pointer is the argument [pb] below. *)
Record lview := LV { lv_elem : option E; lv_tree : node; lv_indices : list mi }.

(** defaultlocalview.hh:72-78: construct, makeNode and initializeTree. *)
Definition lv_new (pb : prebasis) : lview := LV None (fst (init_tree 0 (pb_node pb))) [].

(** std::vector::resize; new entries are default constructed (empty). *)
Definition vresize {A} (l : list A) (n : nat) (d : A) : list A := firstn n l ++ repeat d (n - length l).

(** defaultlocalview.hh:95-101. *)
Definition lv_bind (pb : prebasis) (v : lview) (e : E) : option lview :=
  let t := bind_tree e 0 (lv_tree v) in
  let b := vresize (lv_indices v) (node_size t) [] in
  '(b', _) <- pb_indices pb (pb_bufmi pb) t (b, 0) ;;
  Some (LV (Some e) t b').

(** defaultlocalview.hh:123-126. *)
Definition lv_unbind (v : lview) : lview := LV None (lv_tree v) (lv_indices v).

(** defaultlocalview.hh:81-88: deep copy = fresh view, bound if the source is. *)
Definition lv_copy (pb : prebasis) (v : lview) : option lview :=
  match lv_elem v with None => Some (lv_new pb) | Some e => lv_bind pb (lv_new pb) e end.

(** defaultlocalview.hh:105-108, 139-142, 150-153, 156-159. *)
Definition lv_bound (v : lview) : bool := match lv_elem v with Some _ => true | None => false end.
(** defaultlocalview.hh:139-142 (size) *)
Definition lv_size (v : lview) : nat := node_size (lv_tree v).
(** defaultlocalview.hh:150-153 (maxSize) *)
Definition lv_maxsize (pb : prebasis) : nat := pb_maxnode pb.
(** defaultlocalview.hh:156-159 (index) *)
Definition lv_index (v : lview) (i : nat) : option mi := nth_error (lv_indices v) i.

(** subspacebasis.hh:45-143 (second constructor joins the paths, 62-66) and
    subspacelocalview.hh:60-165: the view wraps a root view; bind, unbind, bound,
    size, maxSize and index forward, tree() is the descendant at the prefix path. *)
Record subspace := SS { ss_root : prebasis; ss_path : list nat }.
(** subspacebasis.hh:52-55: constructor from a root basis *)
Definition subspace_of_root (pb : prebasis) (path : list nat) : subspace := SS pb path.
(** subspacebasis.hh:62-66: constructor from another subspace basis; the paths are joined *)
Definition subspace_of_subspace (s : subspace) (path : list nat) : subspace :=
  SS (ss_root s) (ss_path s ++ path).
(** subspacelocalview.hh:60-66: constructor *)
Definition sv_new (s : subspace) : lview := lv_new (ss_root s).
(** subspacelocalview.hh:75-78 (bind) *)
Definition sv_bind (s : subspace) (v : lview) (e : E) : option lview := lv_bind (ss_root s) v e.
(** subspacelocalview.hh:109-112 (tree) *)
Definition sv_tree (s : subspace) (v : lview) : option node := descendant (lv_tree v) (ss_path s).
(** subspacelocalview.hh:116-119 (size) *)
Definition sv_size (v : lview) : nat := lv_size v.
(** subspacelocalview.hh:133-136 (index) *)
Definition sv_index (v : lview) (i : nat) : option mi := lv_index v i.

(** Calls on a view. *)
Inductive lvop := LBind (e : E) | LUnbind | LCopy.
(** One call on a view (defaultlocalview.hh:81-126); [LCopy] goes on with the copy *)
Definition lv_step (pb : prebasis) (v : lview) (o : lvop) : option lview :=
  match o with
  | LBind e => lv_bind pb v e
  | LUnbind => Some (lv_unbind v)
  | LCopy => lv_copy pb v   (* continue with the copy *)
  end.
(** A history of calls on a view *)
Fixpoint lv_run (pb : prebasis) (v : lview) (h : list lvop) : option lview :=
  match h with [] => Some v | o :: h' => v' <- lv_step pb v o ;; lv_run pb v' h' end.

End Basis.
Arguments node : clear implicits.
Arguments prebasis : clear implicits.
Arguments leaf : clear implicits.
Arguments bexpr : clear implicits.
Arguments lview : clear implicits.
Arguments lvop : clear implicits.
Arguments subspace : clear implicits.
