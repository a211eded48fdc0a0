(** Value semantics of type-erased handles. *)
From Coq Require Import List Arith Bool.
From Verif Require Import Lib SmallObject_model.
Import ListNotations.

Section Spec.
Context {T V : Type} (sizeOf alignOf : T -> nat) (bufferSize bufferAlignment : nat) (moved_from : T -> V -> V).
Notation op := (@op T V).
Notation st := (@st T V).
Notation small t := (useBuffer sizeOf alignOf bufferSize bufferAlignment t).

(** A handle does not exist, is empty, or holds a value. *)
Definition content := option (option (T * V)).
Definition world := nat -> content.
Definition set (w : world) (h : nat) (c : content) : world := fun h' => if h' =? h then c else w h'.

(** What is left in a handle that was moved from: a moved-from object if it is small, nothing otherwise. *)
Definition after_move (c : content) : content :=
  match c with
  | Some (Some (t, v)) => if small t then Some (Some (t, moved_from t v)) else Some None
  | c => c
  end.
Definition effect (o : op) (w : world) : world :=
  match o with
  | Default h => set w h (Some None)
  | Construct h t v => set w h (Some (Some (t, v)))
  | CopyCtor thr h o => if thr then w else set w h (w o)
  | CopyAssign _ h o => set w h (w o)
  | MoveCtor h o | MoveAssign h o =>
      if h =? o then set w h (Some None) else set (set w h (w o)) o (after_move (w o))
  | Destroy h => set w h None
  | Write h v => match w h with Some (Some (t, _)) => set w h (Some (Some (t, v))) | _ => w end
  end.
Definition effects (ops : list op) (w : world) : world := fold_left (fun w o => effect o w) ops w.

Definition exists_ (w : world) (h : nat) : Prop := w h <> None.
Definition holds (w : world) (h : nat) : Prop := exists x, w h = Some (Some x).
(** What an operation may be applied to.  Left out (and refuted below): copying an
    empty handle, moving a small object to itself, a copy assignment that throws. *)
Definition legal (o : op) (w : world) : Prop :=
  match o with
  | Default h | Construct h _ _ => w h = None
  | MoveCtor h o => w h = None /\ exists_ w o
  | CopyCtor _ h o => w h = None /\ holds w o
  | Destroy h => exists_ w h
  | CopyAssign thr h o => exists_ w h /\ (h = o \/ (holds w o /\ thr = false))
  | MoveAssign h o => exists_ w h /\ exists_ w o /\ (h = o -> forall t v, w h = Some (Some (t, v)) -> small t = false)
  | Write h _ => holds w h
  end.
Fixpoint legal_history (ops : list op) (w : world) : Prop :=
  match ops with [] => True | o :: r => legal o w /\ legal_history r (effect o w) end.

(** Observations agree with the world. *)
Definition observes (s : st) (w : world) : Prop :=
  forall h, obs_bool s h = match w h with None => None | Some None => Some false | Some (Some _) => Some true end /\
            (forall x, w h = Some (Some x) -> obs_get s h = Some x) /\
            (forall t v, w h = Some (Some (t, v)) -> obs_buffer s h = Some (small t)).
(** Every object ever constructed is either destroyed, once, or alive and owned by
    exactly one handle. *)
Record ownership (s : st) : Prop := {
  ow_once : NoDup (dead s);
  ow_dead : forall i, In i (dead s) -> i < next s;
  ow_all : forall i, i < next s -> In i (dead s) \/ exists l o, mem s l = Some o /\ o_id o = i;
  ow_alive : forall l o, mem s l = Some o ->
    o_id o < next s /\ ~ In (o_id o) (dead s) /\ (forall l' o', mem s l' = Some o' -> o_id o' = o_id o -> l' = l) /\
    exists h, hs s h = Some (Some l) /\ forall h', hs s h' = Some (Some l) -> h' = h
}.

(** Every execution of a history, whatever free addresses the allocator returns and
    whether or not operations throw, is defined and ends in P. *)
Fixpoint all_runs (ops : list op) (s : st) (P : st -> Prop) : Prop :=
  match ops with
  | [] => P s
  | o :: r => forall a, mem s (LHeap a) = None ->
      exists s' e, exec sizeOf alignOf bufferSize bufferAlignment moved_from a o s = Some (s', e) /\ all_runs r s' P
  end.
End Spec.
