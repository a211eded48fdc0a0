(** Model of dune/functions/functionspacebases/interpolate.hh under exceptions: the user's
    function (or its local function, or memory allocation) throws while interpolate() runs.
    interpolate() catches nothing, so the exception leaves it at once and the coefficient
    container stays as the writes before the exception left it. *)
From Coq Require Import List Arith Bool.
From Verif Require Import Lib Basis_model Container_model Container_spec Interpolate_model.
Import ListNotations.

(** How a call ends: normally, with an exception thrown while interpolating that leaves a
    container behind, with an exception thrown by the resize() at its start, or in
    undefined behaviour. *)
(** How interpolate() (interpolate.hh:205-260) ends. *)
Inductive outcome (V A : Type) := Finished (a : A) | Stopped (c : cont V) | Refused | Broken.
Arguments Finished {V A} a. Arguments Stopped {V A} c. Arguments Refused {V A}. Arguments Broken {V A}.

Section Interrupt.
Context {E V : Type}.
Notation cont := (cont V).

(** As in Interpolate_model. *)
Variables (t : cty) (mask : mi -> bool) (interp : E -> list nat -> list V).
(** What throws.  The calls into foreign code are numbered in the order they are made, so
    that whether one throws may depend on the history: [start_throws], makeGridViewFunction
    and localFunction (interpolate.hh:238-250); [bind_throws n e], localView.bind(e) or
    localF.bind(e) as call number [n] (256-257); [leaf_throws n e p], the local
    interpolation of the leaf at [p], which evaluates the function, as call number [n]
    (165). *)
Variables (start_throws : bool) (bind_throws : nat -> E -> bool) (leaf_throws : nat -> E -> list nat -> bool).

(** interpolate.hh:154-172: the coefficients are computed into a local vector (159, 165)
    before the first entry is written. *)
Definition interpolate_leaf_x (n : nat) (v : lview E) (pn : list nat * node E) (c : cont) : outcome V (nat * cont) :=
  let '(p, nd) := pn in
  if node_size nd =? 0 then Finished (n, c) else
  match nd with
  | NLeaf _ _ _ (Some e) =>
      if leaf_throws n e p then Stopped c
      else match interpolate_leaf t mask interp v pn c with Some c' => Finished (S n, c') | None => Broken end
  | _ => Broken
  end.
(** interpolate.hh:154-172, the loop over the leaves, left by the first exception. *)
Fixpoint interpolate_leaves_x (n : nat) (v : lview E) (l : list (list nat * node E)) (c : cont) : outcome V (nat * cont) :=
  match l with
  | [] => Finished (n, c)
  | pn :: r => match interpolate_leaf_x n v pn c with
               | Finished (n', c') => interpolate_leaves_x n' v r c'
               | o => o
               end
  end.
(** interpolate.hh:254-259 *)
Fixpoint interpolate_elements_x (n : nat) (s : subspace E) (v : lview E) (es : list E) (c : cont) : outcome V cont :=
  match es with
  | [] => Finished c
  | e :: r =>
      if bind_throws n e then Stopped c else
      match sv_bind s v e with
      | None => Broken
      | Some v' =>
          match sv_tree s v' with
          | None => Broken
          | Some tree =>
              match interpolate_leaves_x (S n) v' (for_each_leaf tree) c with
              | Finished (n', c') => interpolate_elements_x n' s v' r c'
              | Stopped c' => Stopped c'
              | Refused => Refused
              | Broken => Broken
              end
          end
      end
  end.
(** interpolate.hh:204-260 *)
Definition interpolate_x (zero : V) (s : subspace E) (es : list E) (c : cont) : outcome V cont :=
  match backend_resize zero (pb_size (ss_root s)) t c with
  | Done c0 => if start_throws then Stopped c0 else interpolate_elements_x 0 s (sv_new s) es c0
  | Throw => Refused
  | Undef => Broken
  end.
End Interrupt.
