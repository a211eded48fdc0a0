(** Specification of global bases, independent of the code in Basis_model:
    the index tree a nested basis is documented to have, and which local basis
    function is which global basis function.

    doc/manual and the headers describe: a leaf basis enumerates its basis
    functions 0..dim-1; a power or composite basis contains one copy of the basis
    functions of each child, and the index merging strategy says how the index
    trees of the children are combined. *)
From Coq Require Import List Arith Bool.
From Verif Require Import Lib Basis_model.
Import ListNotations.

(** * Index trees *)

(** A node of an index tree is a degree of freedom or an ordered block. *)
Inductive itree := DOF | Blk (f : list itree).

(** The node reached by following a multi-index (prefix). *)
Fixpoint subtree (t : itree) (p : mi) : option itree :=
  match p with
  | [] => Some t
  | d :: p' => match t with
               | DOF => None
               | Blk f => match nth_error f d with
                          | Some t' => subtree t' p'
                          | None => None
                          end
               end
  end.

(** Number of possible next digits. *)
Definition degree (t : itree) : nat := match t with DOF => 0 | Blk f => length f end.

(** Number of degrees of freedom. *)
Fixpoint ndofs (t : itree) : nat :=
  match t with DOF => 1 | Blk f => sum_list (map ndofs f) end.

(** No empty block. *)
Fixpoint full (t : itree) : Prop :=
  match t with
  | DOF => True
  | Blk f => f <> [] /\ (fix go l := match l with [] => True | x :: r => full x /\ go r end) f
  end.

(** Replace every DOF by a block of [n] DOFs. *)
Fixpoint refine_dofs (n : nat) (t : itree) : itree :=
  match t with
  | DOF => Blk (repeat DOF n)
  | Blk f => Blk (map (refine_dofs n) f)
  end.

(** * Meaning of a basis: index tree and local-to-global map *)

(** A global basis function is named by the leaf of the ansatz tree it belongs to
    (tree path) and its number within that leaf basis. *)
Definition key := (list nat * nat)%type.
Definition down (i : nat) (k : key) : key := (i :: fst k, snd k).

Section Spec.
Context {E : Type}.

(** [sp_forest]: the blocks below the root.  [sp_keys e]: which basis functions
    the local basis functions of element [e] are, in local order.  [sp_glob k]:
    the global multi-index basis function [k] shall have. *)
Record bspec := BS {
  sp_forest : list itree;
  sp_keys : E -> list key;
  sp_glob : key -> mi
}.
Definition sp_tree (W : bspec) : itree := Blk (sp_forest W).

Definition leaf_spec (l : leaf E) : bspec := {|
  sp_forest := repeat DOF (lf_dim l);
  sp_keys := fun e => map (fun g => ([], g)) (lf_indices l e);
  sp_glob := fun k => [snd k]
|}.

(** First digit shifted. *)
Definition first (f : nat -> nat) (m : mi) : mi :=
  match m with [] => [] | d :: r => f d :: r end.

Definition power_forest (n : nat) (s : ims) (f : list itree) : list itree :=
  match s with
  | FlatLexicographic => concat (repeat f n)
  | FlatInterleaved => concat (map (fun t => repeat t n) f)
  | BlockedLexicographic => repeat (Blk f) n
  | BlockedInterleaved => map (refine_dofs n) f
  end.
Definition power_glob (n : nat) (s : ims) (f : list itree) (c : nat) (m : mi) : mi :=
  match s with
  | FlatLexicographic => first (fun d => c * length f + d) m
  | FlatInterleaved => first (fun d => d * n + c) m
  | BlockedLexicographic => c :: m
  | BlockedInterleaved => m ++ [c]
  end.
Definition power_spec (n : nat) (s : ims) (W : bspec) : bspec := {|
  sp_forest := power_forest n s (sp_forest W);
  sp_keys := fun e => flat_map (fun c => map (down c) (sp_keys W e)) (seq 0 n);
  sp_glob := fun k => match fst k with
                      | [] => []
                      | c :: p => power_glob n s (sp_forest W) c (sp_glob W (p, snd k))
                      end
|}.

(** Keys of the children, numbered from [i]. *)
Fixpoint composite_keys (i : nat) (Ws : list bspec) (e : E) : list key :=
  match Ws with
  | [] => []
  | W :: r => map (down i) (sp_keys W e) ++ composite_keys (i + 1) r e
  end.
Definition composite_forest (s : cims) (Ws : list bspec) : list itree :=
  match s with
  | CFlatLexicographic => concat (map sp_forest Ws)
  | CBlockedLexicographic => map sp_tree Ws
  end.
Definition composite_glob (s : cims) (Ws : list bspec) (c : nat) (m : mi) : mi :=
  match s with
  | CFlatLexicographic =>
      first (fun d => length (concat (map sp_forest (firstn c Ws))) + d) m
  | CBlockedLexicographic => c :: m
  end.
Definition composite_spec (s : cims) (Ws : list bspec) : bspec := {|
  sp_forest := composite_forest s Ws;
  sp_keys := composite_keys 0 Ws;
  sp_glob := fun k => match fst k with
                      | [] => []
                      | c :: p => match nth_error Ws c with
                                  | Some W => composite_glob s Ws c (sp_glob W (p, snd k))
                                  | None => []
                                  end
                      end
|}.

Definition restricted_spec (dom : E -> bool) (W : bspec) : bspec := {|
  sp_forest := sp_forest W;
  sp_keys := fun e => if dom e then sp_keys W e else [];
  sp_glob := sp_glob W
|}.

(** taylorhoodbasis.hh documentation: velocity/pressure blocks; the velocity block
    is interleaved, flat (HI = false) or with inner blocks (HI = true). *)
Definition taylorhood_spec (hi : bool) (dim : nat) (q2 q1 : leaf E) : bspec :=
  composite_spec CBlockedLexicographic
    [power_spec dim (if hi then BlockedInterleaved else FlatInterleaved) (leaf_spec q2);
     leaf_spec q1].

Fixpoint meaning (b : bexpr E) : bspec :=
  match b with
  | BLeaf l => leaf_spec l
  | BPower _ n s b => power_spec n s (meaning b)
  | BComposite s bs => composite_spec s (map meaning bs)
  | BRestricted dom b => restricted_spec dom (meaning b)
  | BTaylorHood hi dim q2 q1 => taylorhood_spec hi dim q2 q1
  end.

(** * Well-formed bases *)

(** What a leaf basis has to deliver on the elements [els] of the grid view. *)
Record leaf_ok (els : E -> Prop) (l : leaf E) : Prop := {
  lok_size : forall e, els e -> length (lf_indices l e) = lf_fe l e;
  lok_max : forall e, els e -> lf_fe l e <= lf_maxnode l;
  lok_range : forall e g, els e -> In g (lf_indices l e) -> g < lf_dim l;
  lok_cover : forall g, g < lf_dim l -> exists e, els e /\ In g (lf_indices l e)
}.

(** The nestings the theorems speak about, on a grid with elements [els].
    - exponents are positive;
    - BlockedInterleaved needs a child without empty blocks;
    - a composite has at least one child;
    - the basis inside restrict(...) lives on the sub-domain;
    - Taylor-Hood: only HI = false (see the refutation for HI = true). *)
Fixpoint wf (els : E -> Prop) (b : bexpr E) : Prop :=
  match b with
  | BLeaf l => leaf_ok els l
  | BPower _ n s b =>
      0 < n /\ wf els b /\ (s = BlockedInterleaved -> Forall full (sp_forest (meaning b)))
  | BComposite s bs =>
      bs <> [] /\ (fix go l := match l with [] => True | b :: r => wf els b /\ go r end) bs
  | BRestricted dom b => wf (fun e => els e /\ dom e = true) b
  | BTaylorHood hi dim q2 q1 => hi = false /\ 0 < dim /\ leaf_ok els q2 /\ leaf_ok els q1
  end.

(** No empty blocks anywhere in the index tree. *)
Definition no_empty_blocks (b : bexpr E) : Prop := Forall full (sp_forest (meaning b)).

(** Within each leaf and element, local basis functions have distinct indices. *)
Fixpoint leaves_injective (els : E -> Prop) (b : bexpr E) : Prop :=
  match b with
  | BLeaf l => forall e, els e -> NoDup (lf_indices l e)
  | BPower _ _ _ b => leaves_injective els b
  | BComposite _ bs =>
      (fix go l := match l with [] => True | b :: r => leaves_injective els b /\ go r end) bs
  | BRestricted dom b => leaves_injective (fun e => els e /\ dom e = true) b
  | BTaylorHood _ _ q2 q1 =>
      forall e, els e -> NoDup (lf_indices q2 e) /\ NoDup (lf_indices q1 e)
  end.

(** * What a user observes *)

(** [m] occurs as index [i] of a view bound to element [e] (fresh view). *)
Definition local_dof (b : bexpr E) (e : E) (i : nat) (m : mi) : Prop :=
  exists v, lv_bind (build b) (lv_new (build b)) e = Some v /\ lv_index v i = Some m /\ i < lv_size v.

(** [m] is one of the global indices of the basis. *)
Definition global_index (els : E -> Prop) (b : bexpr E) (m : mi) : Prop :=
  exists e i, els e /\ local_dof b e i m.

(** The index set described by a size function alone: [m] is non-empty, each digit
    is in the range size() gives for the digits before it, and nothing follows. *)
Definition admitted (size : mi -> option nat) (m : mi) : Prop :=
  m <> [] /\
  (forall p d q, m = p ++ d :: q -> exists s, size p = Some s /\ d < s) /\
  size m = Some 0.

(** * Local trees *)

(** The leaf nodes of a tree, with their tree paths, in local order. *)
Fixpoint leaf_nodes (n : node E) : list (list nat * node E) :=
  match n with
  | NLeaf _ _ _ _ => [([], n)]
  | NInner _ _ cs =>
      (fix go (i : nat) (l : list (node E)) :=
         match l with
         | [] => []
         | c :: r => map (fun pl => (i :: fst pl, snd pl)) (leaf_nodes c) ++ go (i + 1) r
         end) 0 cs
  end.

(** All nodes: a node before its children, children in order. *)
Fixpoint preorder (n : node E) : list (node E) :=
  n :: match n with
       | NLeaf _ _ _ _ => []
       | NInner _ _ cs => (fix go l := match l with [] => [] | c :: r => preorder c ++ go r end) cs
       end.

(** What a user can see of a tree node that is bound to [e]: offset, size, tree
    index, number of children and, if it is a non-empty leaf, its element. *)
Definition is_leaf (n : node E) : bool := match n with NLeaf _ _ _ _ => true | _ => false end.
Definition leaf_element (n : node E) : option E :=
  match n with NLeaf _ _ _ (Some e) => Some e | _ => None end.
Definition same_node (n n' : node E) : Prop :=
  node_offset n = node_offset n' /\ node_size n = node_size n' /\ node_tix n = node_tix n' /\
  length (children n) = length (children n') /\ is_leaf n = is_leaf n' /\
  (node_size n <> 0 -> leaf_element n = leaf_element n').
(** Two trees look the same at every tree path. *)
Definition same_tree (t t' : node E) : Prop :=
  forall path,
    match descendant t path, descendant t' path with
    | Some n, Some n' => same_node n n'
    | None, None => True
    | _, _ => False
    end.

(** The leaf basis at a tree path of a basis expression (a restricted basis has
    the tree of the basis it wraps). *)
Fixpoint leaf_at (b : bexpr E) (path : list nat) : option (leaf E) :=
  match b with
  | BLeaf l => match path with [] => Some l | _ => None end
  | BPower _ n _ b' => match path with i :: p => if i <? n then leaf_at b' p else None | [] => None end
  | BComposite _ bs =>
      match path with
      | i :: p => (fix go i l {struct l} := match l with
                                 | b' :: r => match i with 0 => leaf_at b' p | S i' => go i' r end
                                 | [] => None
                                 end) i bs
      | [] => None
      end
  | BRestricted _ b' => leaf_at b' path
  | BTaylorHood _ dim q2 q1 =>
      match path with
      | [0; c] => if c <? dim then Some q2 else None
      | [1] => Some q1
      | _ => None
      end
  end.

(** In the view [v] bound to [e], local index [i] belongs to the leaf node at path
    [p], and is the DOF that leaf's own basis calls [g]. *)
Definition dof_of (b : bexpr E) (e : E) (v : lview E) (i : nat) (p : list nat) (g : nat) : Prop :=
  exists n l j,
    descendant (lv_tree v) p = Some n /\ is_leaf n = true /\ local_index n j = Some i /\
    leaf_at b p = Some l /\ nth_error (lf_indices l e) j = Some g.

(** * Descriptors *)

(** A descriptor describes an index tree; Unknown makes no claim. *)
Fixpoint describes (d : desc) (t : itree) : Prop :=
  match d with
  | DUnknown => True
  | DValue => t = DOF
  | DTuple cs | DArray cs | DVector _ cs =>
      exists f, t = Blk f /\
      (fix go cs f := match cs, f with
                      | [], [] => True
                      | c :: cs', x :: f' => describes c x /\ go cs' f'
                      | _, _ => False
                      end) cs f
  | DUArray n c | DUVector n c =>
      exists f, t = Blk f /\ length f = n /\ Forall (describes c) f
  end.

(** Following a multi-index prefix down a descriptor; [None]: no such child. *)
Fixpoint desc_walk (d : desc) (p : mi) : option desc :=
  match p with
  | [] => Some d
  | i :: p' => match d with
               | DUnknown => Some DUnknown
               | _ => match desc_child d i with Some c => desc_walk c p' | None => None end
               end
  end.

End Spec.
Arguments bspec : clear implicits.
