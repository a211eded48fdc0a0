(** What nested containers and their access functions should do. *)
From Coq Require Import List Arith Bool.
From Verif Require Import Lib Basis_model Basis_spec Container_model.
Import ListNotations.

Section Spec.
Context {V : Type}.
Notation cont := (cont V).

(** The entry at a path, and replacing it. *)
Fixpoint at_path (c : cont) (p : list nat) : option cont :=
  match p with
  | [] => Some c
  | i :: r => match c with
              | CVal _ => None
              | CBlk l => match nth_error l i with Some x => at_path x r | None => None end
              end
  end.
Fixpoint put (c : cont) (p : list nat) (x : cont) : option cont :=
  match p with
  | [] => Some x
  | i :: r => match c with
              | CVal _ => None
              | CBlk l => match nth_error l i with
                          | Some y => match put y r x with
                                      | Some y' => option_map CBlk (upd l i y')
                                      | None => None
                                      end
                          | None => None
                          end
              end
  end.

(** Following first entries [k] times leads from [c] to a scalar. *)
Fixpoint zeros_to_scalar (k : nat) (c : cont) : Prop :=
  match k, c with
  | 0, CVal _ => True
  | S k, CBlk (x :: _) => zeros_to_scalar k x
  | _, _ => False
  end.

(** [size] is the size(prefix) function of the index tree [T]. *)
Definition sized (size : mi -> option nat) (T : itree) : Prop :=
  forall p t, subtree T p = Some t -> size p = Some (degree t).

(** The type of the entry at a path. *)
Fixpoint ty_at (t : cty) (p : list nat) : option cty :=
  match p with
  | [] => Some t
  | i :: r => match t with
              | TScalar => None
              | TDyn t' => ty_at t' r
              | TArr n t' => if i <? n then ty_at t' r else None
              | TTup ts => match nth_error ts i with Some t' => ty_at t' r | None => None end
              end
  end.

(** Types of fixed non-zero size along the first entries: scalar, FieldVector, ... *)
Fixpoint solid (t : cty) : bool :=
  match t with
  | TScalar => true
  | TDyn _ => false
  | TArr n t => (0 <? n) && solid t
  | TTup (t :: _) => solid t
  | TTup [] => false
  end.
(** The complete indices of [T] name entries of solid type. *)
Definition solid_entries (t : cty) (T : itree) : Prop :=
  forall p u, subtree T p = Some DOF -> ty_at t p = Some u -> solid u = true.

(** When a container can take the shape of an index tree: at complete indices (and
    empty blocks) anything but an empty dynamic vector, at blocks a container that can
    be resized or has the right size, and likewise for the entries. *)
Fixpoint compatible (zero : V) (t : cty) (c : cont) (T : itree) {struct t} : Prop :=
  match T with
  | DOF | Blk [] => match t, c with TDyn _, CBlk [] => False | _, _ => True end
  | Blk f =>
      match t, c with
      | TScalar, _ => False
      | TDyn t', CBlk l =>
          forall i s, nth_error f i = Some s ->
            compatible zero t' (nth i l (default zero t')) s
      | TArr n t', CBlk l =>
          length l = length f /\
          forall i s x, nth_error f i = Some s -> nth_error l i = Some x -> compatible zero t' x s
      | TTup ts, CBlk l =>
          length l = length f /\
          (fix go ts l f := match ts, l, f with
                            | t' :: ts', x :: l', s :: f' => compatible zero t' x s /\ go ts' l' f'
                            | _, _, _ => True
                            end) ts l f
      | _, CVal _ => False
      end
  end.

(** A descriptor without Unknown. *)
Fixpoint known (d : desc) : bool :=
  match d with
  | DUnknown => false
  | DValue => true
  | DTuple cs | DArray cs => forallb known cs
  | DVector t cs => dty_known t && forallb known cs
  | DUArray _ c | DUVector _ c => known c
  end.

(** A descriptor object that exists as a C++ object: arrays have entries of one type. *)
Fixpoint typed_desc (d : desc) : Prop :=
  match d with
  | DUnknown | DValue => True
  | DTuple cs => cs <> [] /\ (fix go l := match l with [] => True | c :: r => typed_desc c /\ go r end) cs
  | DArray cs =>
      cs <> [] /\ (fix go l := match l with [] => True | c :: r => typed_desc c /\ go r end) cs /\
      forall c c', In c cs -> In c' cs -> dtype c = dtype c'
  | DVector t cs =>
      (fix go l := match l with [] => True | c :: r => typed_desc c /\ go r end) cs /\
      forall c, In c cs -> dtype c = t
  | DUArray _ c | DUVector _ c => typed_desc c
  end.

(** The descriptors for which makeISTLVector builds a Dune::BlockVector. *)
Definition block_vector_desc (d : desc) : bool :=
  match d with
  | DArray _ | DVector _ _ | DUVector _ _ => true
  | DUArray _ DValue => false
  | DUArray _ _ => true
  | _ => false
  end.
(** No array descriptor of length one holds one of those, and no array of blocks is
    empty. *)
Fixpoint no_unit_array (d : desc) : bool :=
  match d with
  | DUnknown | DValue => true
  | DTuple cs | DVector _ cs => forallb no_unit_array cs
  | DArray [c] => negb (block_vector_desc c) && no_unit_array c
  | DArray cs => negb (length cs =? 0) && forallb no_unit_array cs
  | DUArray _ DValue => true
  | DUArray n c => negb (n =? 0) && negb ((n =? 1) && block_vector_desc c) && no_unit_array c
  | DUVector _ c => no_unit_array c
  end.

(** The index tree a container has. *)
Fixpoint shape (c : cont) : itree :=
  match c with CVal _ => DOF | CBlk l => Blk (map shape l) end.
(** All scalars of a container. *)
Fixpoint scalars (c : cont) : list V :=
  match c with CVal x => [x] | CBlk l => flat_map scalars l end.
End Spec.
