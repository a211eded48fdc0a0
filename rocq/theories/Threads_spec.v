(** What threads that use local functions of one discrete function may rely on. *)
From Coq Require Import List Arith Bool Reals.
From Verif Require Import Lib Basis_model Basis_spec Container_model Container_spec FlatVector_model
  FlatVector_props DiscreteFunction_model DiscreteFunction_spec Threads_model.
Import ListNotations.

Section Spec.
Context {E X : Type}.
Notation coefs := (mi -> option (list R)).

(** What a thread knows about its variables when nobody else runs: the state of every
    local function (Definition [sfun] of C26), and the coefficient vector. *)
Definition tstate := ((nat -> option (@sfun E)) * coefs)%type.
Definition set_var (l : nat -> option (@sfun E)) (i : nat) (f : sfun) : nat -> option sfun :=
  fun k => if k =? i then Some f else l k.
Definition set_coef (c : coefs) (m : mi) (x : list R) : coefs :=
  fun k => if list_eq_dec Nat.eq_dec k m then Some x else c k.
(** What an evaluation has to return: the class of the local function, the element, the
    coefficients at the time of the bind, and the point. *)
Record expected := EX { ex_deriv : bool; ex_elem : E; ex_coefs : coefs; ex_point : X }.
Definition ts_step (s : tstate) (o : top E X) : option (tstate * list expected) :=
  let '(l, c) := s in
  match o with
  | TNew i d => Some ((set_var l i (SF d None), c), [])
  | TBind i e => f <- l i ;; Some ((set_var l i (SF (sf_deriv f) (Some (e, c))), c), [])
  | TUnbind i => f <- l i ;; Some ((set_var l i (SF (sf_deriv f) None), c), [])
  | TEval i x => f <- l i ;; ec <- sf_state f ;; Some (s, [EX (sf_deriv f) (fst ec) (snd ec) x])
  | TCopy j i => f <- l i ;; if j =? i then None else Some ((set_var l j f, c), [])
  | TDerivative j i => f <- l i ;;
      if sf_deriv f || (j =? i) then None
      else Some ((set_var l j (SF true (option_map (fun ec => (fst ec, c)) (sf_state f))), c), [])
  | TCoef m x => Some ((l, set_coef c m x), [])
  end.
Fixpoint ts_run (s : tstate) (h : list (top E X)) : option (tstate * list expected) :=
  match h with
  | [] => Some (s, [])
  | o :: r => '(s1, e1) <- ts_step s o ;; '(s2, e2) <- ts_run s1 r ;; Some (s2, e1 ++ e2)
  end.

(** Variables an operation changes, and those it uses.  Evaluating counts as a change. *)
Definition changes (o : top E X) (i : nat) : Prop :=
  match o with
  | TNew k _ | TBind k _ | TUnbind k | TEval k _ | TCopy k _ | TDerivative k _ => k = i
  | TCoef _ _ => False
  end.
Definition uses (o : top E X) (i : nat) : Prop :=
  changes o i \/ match o with TCopy _ k | TDerivative _ k => k = i | _ => False end.

Variables (b : bexpr E) (path : list nat) (els : E -> Prop) (su : setup E X).

(** [m] is an index of an element that a program binds a local function to. *)
Definition visits (h : list (top E X)) (m : mi) : Prop :=
  exists i e v k, In (TBind i e) h /\ lv_bind (build b) (lv_new (build b)) e = Some v /\ lv_index v k = Some m.

(** Two threads started after [pre] can run at the same time: no variable changed by one
    is used by the other, no coefficient written by one is written by the other or
    belongs to an element the other one visits. *)
Definition apart (pre p q : list (top E X)) : Prop :=
  (forall i o o', In o p -> changes o i -> In o' q -> uses o' i -> False) /\
  (forall m x, In (TCoef m x) p -> (forall x', ~ In (TCoef m x') q) /\ ~ visits (pre ++ q) m).

(** Elements bound to are elements of the grid, and coefficients written fit. *)
Definition top_ok (o : top E X) : Prop :=
  match o with TBind _ e => els e | TCoef m x => length x = su_cdim su | _ => True end.

(** A returned value is the expected one. *)
Definition as_expected (ex : expected) (y : cont R) : Prop :=
  if ex_deriv ex then is_derivative b path su (ex_elem ex) (ex_coefs ex) (ex_point ex) y
  else is_value b path su (ex_elem ex) (ex_coefs ex) (ex_point ex) y.
End Spec.
