(** What a Python user expects of coefficient arrays. *)
From Coq Require Import List Arith Bool Reals.
From Verif Require Import Lib Basis_model Basis_spec PyArrays_model.
Import ListNotations.

Section Spec.
Context {E : Type}.

(** The basis is flat: indices have one digit, size([i]) = 0 for all i < size().  The
    basis has blocks: size([i]) > 0 for some i < size(). *)
Definition flat (b : bexpr E) : Prop :=
  forall n i, pb_size (build b) [] = Some n -> i < n -> pb_size (build b) [i] = Some 0.
Definition blocked (b : bexpr E) : Prop :=
  exists n i k, pb_size (build b) [] = Some n /\ i < n /\ pb_size (build b) [i] = Some (S k).

(** The array takes the coefficients of a basis of size [n]. *)
Definition fits (n : nat) (a : array) : Prop :=
  a_shape a = [n] /\ length (a_data a) = n /\ a_writeable a = true.

(** [y] is the number [x] as entry of an array: rounded to an integer, or whether it
    differs from zero. *)
Definition converted (trunc : R -> R) (d : dtype) (x y : R) : Prop :=
  match d with
  | Bool8 => (x = 0 /\ y = 0 \/ x <> 0 /\ y = 1)%R
  | Int32 => y = trunc x
  | _ => y = x
  end.

(** Coefficient of basis function number [k] *)
Definition number_coefficient (data : list R) (m : mi) : option (list R) :=
  match m with [k] => option_map (fun x => [x]) (nth_error data k) | _ => None end.

(** Local functions as a user thinks of them: the class, and if bound the element and
    the array as it was when the function was bound. *)
Record pyfun := PF { pf_deriv : bool; pf_state : option (E * list R) }.
Definition ps_step (w : list pyfun * list R) (o : pyop E) : option (list pyfun * list R) :=
  let '(l, data) := w in
  match o with
  | PyNew d => Some (l ++ [PF d None], data)
  | PyBind i e => f <- nth_error l i ;; l' <- upd l i (PF (pf_deriv f) (Some (e, data))) ;; Some (l', data)
  | PyUnbind i => f <- nth_error l i ;; l' <- upd l i (PF (pf_deriv f) None) ;; Some (l', data)
  | PyCopy i => f <- nth_error l i ;; Some (l ++ [f], data)
  | PyDerivative i => f <- nth_error l i ;;
      if pf_deriv f then None else Some (l ++ [PF true (option_map (fun ed => (fst ed, data)) (pf_state f))], data)
  | PySet k v => data' <- upd data k v ;; Some (l, data')
  end.
Fixpoint ps_run (w : list pyfun * list R) (h : list (pyop E)) : option (list pyfun * list R) :=
  match h with [] => Some w | o :: r => w' <- ps_step w o ;; ps_run w' r end.
Definition pyop_ok (els : E -> Prop) (o : pyop E) : Prop := match o with PyBind _ e => els e | _ => True end.
End Spec.
Arguments pyfun : clear implicits.
