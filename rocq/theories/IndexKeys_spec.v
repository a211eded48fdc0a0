(** What a multi-index is worth as a key (C96). *)
From Coq Require Import List Arith Bool.
From Verif Require Import Lib OverflowArray_model OverflowArray_spec.
Import ListNotations.

(** Some program with arbitrary initial memory, base size and capacity leaves the digits
    [q] in the object [a], all of them written by the program. *)
Definition made {T} (a : oarray T) (q : list T) : Prop :=
  exists (jb jo : list T) (h : list (oaop T)),
    sq_run (length jb + length jo) [] h = Some (map Some q) /\ oa_run (oa_default jb jo) h = Some a.

(** The value assigned last to the sequence [q]. *)
Fixpoint last_assigned {T V} (dec : forall x y : T, {x = y} + {x <> y})
    (l : list (list T * V)) (q : list T) : option V :=
  match l with
  | [] => None
  | (q', v) :: l' =>
      match last_assigned dec l' q with
      | Some w => Some w
      | None => if list_eq_dec dec q' q then Some v else None
      end
  end.
