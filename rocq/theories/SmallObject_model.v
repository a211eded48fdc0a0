(** common/polymorphicsmallobject.hh and the owning part of common/typeerasure.hh:
    a handle owning an object of a derived class, in its buffer or on the heap.

    Memory is a partial map from locations (the buffer of a handle, or a heap cell)
    to live objects; every constructed object gets a new identity, and destroyed
    identities are recorded.  Using, destroying or overwriting something that is not
    a live object is undefined behaviour: [None].  Heap addresses are chosen by the
    allocator and given as an argument of the operations. *)
From Coq Require Import List Arith Bool.
From Verif Require Import Lib.
Import ListNotations.

Section SmallObject.
(** Derived classes, their sizes and alignments; states of objects. *)
Context {T V : Type} (sizeOf alignOf : T -> nat) (bufferSize bufferAlignment : nat).
(** The state that the move constructor of class t leaves behind. *)
Variable moved_from : T -> V -> V.

(** Where p_ points to: buffer_ (polymorphicsmallobject.hh:188) or an object made by new (83). *)
Inductive loc := LBuf (h : nat) | LHeap (a : nat).
(** The comparison of addresses, polymorphicsmallobject.hh:133. *)
Definition loc_eqb (a b : loc) : bool :=
  match a, b with LBuf x, LBuf y | LHeap x, LHeap y => x =? y | _, _ => false end.
(** An object of a class derived from Base (polymorphicsmallobject.hh:72-85). *)
Record obj := Ob { o_id : nat; o_type : T; o_val : V }.
(** [hs h]: None if handle h is not alive, otherwise its p_ (null or a location). *)
(** p_ and buffer_: polymorphicsmallobject.hh:188-189. *)
Record st := St { hs : nat -> option (option loc); mem : loc -> option obj; next : nat; dead : list nat }.
(** The state before the first handle is made; no counterpart in the code. *)
Definition init : st := St (fun _ => None) (fun _ => None) 0 [].

(** An assignment to p_, e.g. polymorphicsmallobject.hh:81, 164, 173, 176. *)
Definition set_h (s : st) (h : nat) (p : option (option loc)) : st :=
  St (fun h' => if h' =? h then p else hs s h') (mem s) (next s) (dead s).
(** No counterpart in the code: memory with a changed cell. *)
Definition set_m (s : st) (l : loc) (o : option obj) : st :=
  St (hs s) (fun l' => if loc_eqb l' l then o else mem s l') (next s) (dead s).

(** Construct an object of class t in state v at l. *)
(** polymorphicsmallobject.hh:81 and 83, and the clone and move functions of the derived class. *)
Definition new_at (l : loc) (t : T) (v : V) (s : st) : option st :=
  match mem s l with
  | Some _ => None
  | None => let s' := set_m s l (Some (Ob (next s) t v)) in Some (St (hs s') (mem s') (S (next s)) (dead s'))
  end.
(** End the lifetime of the object at l. *)
(** polymorphicsmallobject.hh:155 and 157. *)
Definition kill (l : loc) (s : st) : option st :=
  o <- mem s l ;; let s' := set_m s l None in Some (St (hs s') (mem s') (next s') (o_id o :: dead s)).

(** polymorphicsmallobject.hh:77-78. *)
Definition useBuffer (t : T) : bool := (sizeOf t <=? bufferSize) && (bufferAlignment mod alignOf t =? 0).
(** 131-134. *)
Definition bufferUsed (h : nat) (p : option loc) : bool :=
  match p with Some l => loc_eqb l (LBuf h) | None => false end.

(** 150-159; p_ keeps its value; delete of something not on the heap is undefined. *)
Definition destroyWrapped (h : nat) (s : st) : option st :=
  p <- hs s h ;;
  match p with
  | None => Some s
  | Some l => if bufferUsed h p then kill l s
              else match l with LHeap _ => kill l s | LBuf _ => None end
  end.
(** 161-178; [h] may be a handle under construction. *)
Definition moveTo (h other : nat) (s : st) : option st :=
  p <- hs s other ;;
  if bufferUsed other p then
    l <- p ;; o <- mem s l ;;
    s1 <- new_at (LBuf h) (o_type o) (o_val o) s ;;
    let s2 := set_m s1 l (Some (Ob (o_id o) (o_type o) (moved_from (o_type o) (o_val o)))) in
    Some (set_h s2 h (Some (Some (LBuf h))))
  else Some (set_h (set_h s h (Some p)) other (Some None)).
(** 180-186; [throws]: the copy constructor of the object throws.  The second
    component of the result tells whether an exception leaves the function. *)
Definition copyTo (throws : bool) (a : nat) (h other : nat) (s : st) : option (st * bool) :=
  p <- hs s other ;;
  l <- p ;; o <- mem s l ;;            (* other.p_-> *)
  if throws then Some (s, true) else
  let l' := if bufferUsed other p then LBuf h else LHeap a in
  s1 <- new_at l' (o_type o) (o_val o) s ;;
  Some (set_h s1 h (Some (Some l')), false).

(** The public operations. *)
(** polymorphicsmallobject.hh:62-122. *)
Inductive op :=
  | Default (h : nat)                          (* 62-64 *)
  | Construct (h : nat) (t : T) (v : V)        (* 72-85 *)
  | MoveCtor (h other : nat)                   (* 88-91 *)
  | CopyCtor (throws : bool) (h other : nat)   (* 94-97 *)
  | Destroy (h : nat)                          (* 100-103 *)
  | CopyAssign (throws : bool) (h other : nat) (* 106-114 *)
  | MoveAssign (h other : nat)                 (* 117-122 *)
  | Write (h : nat) (v : V).                   (* a change through get(), 143-146 *)

Definition fresh_handle (h : nat) (s : st) : option unit := match hs s h with None => Some tt | Some _ => None end.
(** One call of a program; the cases cite the lines of polymorphicsmallobject.hh. *)
Definition exec (a : nat) (o : op) (s : st) : option (st * bool) :=
  match o with
  | Default h => _ <- fresh_handle h s ;; Some (set_h s h (Some None), false)
  | Construct h t v =>
      _ <- fresh_handle h s ;;
      let l := if useBuffer t then LBuf h else LHeap a in
      s1 <- new_at l t v s ;; Some (set_h s1 h (Some (Some l)), false)
  | MoveCtor h other => _ <- fresh_handle h s ;; s1 <- moveTo h other s ;; Some (s1, false)
  | CopyCtor thr h other => _ <- fresh_handle h s ;; copyTo thr a h other s
  | Destroy h => s1 <- destroyWrapped h s ;; Some (set_h s1 h None, false)
  | CopyAssign thr h other =>
      if other =? h then (_ <- hs s h ;; Some (s, false))
      else s1 <- destroyWrapped h s ;; copyTo thr a h other s1
  | MoveAssign h other =>
      s1 <- destroyWrapped h s ;; s2 <- moveTo h other s1 ;; Some (s2, false)
  | Write h v =>
      p <- hs s h ;; l <- p ;; o <- mem s l ;;
      Some (set_m s l (Some (Ob (o_id o) (o_type o) v)), false)
  end.

(** What a user can observe: operator bool (125-128), get() (137-146) with
    target_type() (typeerasure.hh:147-150,201-204), bufferUsed() (131-134). *)
Definition obs_bool (s : st) (h : nat) : option bool := p <- hs s h ;; Some (match p with Some _ => true | None => false end).
(** polymorphicsmallobject.hh:137-146. *)
Definition obs_get (s : st) (h : nat) : option (T * V) := p <- hs s h ;; l <- p ;; o <- mem s l ;; Some (o_type o, o_val o).
(** polymorphicsmallobject.hh:131-134. *)
Definition obs_buffer (s : st) (h : nat) : option bool := p <- hs s h ;; Some (bufferUsed h p).
End SmallObject.
Arguments loc_eqb : simpl nomatch.
