(** functionspacebases/globalvaluedlocalfiniteelement.hh: Piola transforms of shape
    functions of H(div) and H(curl) elements.  Numbers are exact reals.  A vector is
    the list of its entries, a matrix the list of its rows; the geometry's Jacobians
    (dune-grid) are given by their entries and by the columns that their rows store,
    because they may be sparse.  Element and world dimension are both [n]. *)
From Coq Require Import Reals List Arith.
From Verif Require Import Lib Basis_model DiscreteFunction_model Orientation_model.
Import ListNotations.
Local Open Scope R_scope.

Notation pt := (list R).
(** Access to an entry of a FieldVector (dune-common). *)
Definition at_ (v : list R) (i : nat) : R := nth i v 0.

(** Used in globalvaluedlocalfiniteelement.hh:52-53, 123-124, 165, 231. *)
Record geo := Geo {
  g_JT : pt -> nat -> nat -> R;        (* jacobianTransposed(xi)[l][j] *)
  g_JT_cols : nat -> list nat;         (* stored columns of row l *)
  g_JIT : pt -> nat -> nat -> R;       (* jacobianInverseTransposed(xi)[j][l] *)
  g_JIT_cols : nat -> list nat;
  g_ie : pt -> R                       (* integrationElement(xi) *)
}.

Section Piola.
Variable n : nat.
Variable G : geo.

(** dune-common: y = A x and y = A^T x. *)
(** Used in globalvaluedlocalfiniteelement.hh:175 and 239. *)
Definition mv (a : nat -> nat -> R) (x : list R) : list R :=
  map (fun i => rsum n (fun j => a i j * at_ x j)) (seq 0 n).
(** Used in globalvaluedlocalfiniteelement.hh:63 and 133. *)
Definition mtv (a : nat -> nat -> R) (x : list R) : list R :=
  map (fun i => rsum n (fun j => a j i * at_ x j)) (seq 0 n).
(** gradient = 0, globalvaluedlocalfiniteelement.hh:87 and 198. *)
Definition mzero : list (list R) := repeat (repeat 0 n) n.

(** globalvaluedlocalfiniteelement.hh:55-65, the loop body. *)
Definition contra_value (xi : pt) (value : list R) : list R :=
  map (fun v => v / g_ie G xi) (mtv (g_JT G xi) value).
(** globalvaluedlocalfiniteelement.hh:48-66. *)
Definition contra_apply (values : list (list R)) (xi : pt) : list (list R) := map (contra_value xi) values.

(** gradient[j][k] += d. *)
(** Used in globalvaluedlocalfiniteelement.hh:92 and 203. *)
Definition add_to (j k : nat) (d : R) (m : list (list R)) : option (list (list R)) :=
  r <- nth_error m j ;; x <- nth_error r k ;; r' <- upd r k (x + d) ;; upd m j r'.
(** tmp[l][k] in globalvaluedlocalfiniteelement.hh:92 and 203. *)
Definition get (m : list (list R)) (l k : nat) : option R := r <- nth_error m l ;; nth_error r k.
(** globalvaluedlocalfiniteelement.hh 84-94. *)
Definition contra_gradient (xi : pt) (tmp : list (list R)) : option (list (list R)) :=
  m <- forl n 0 (fun k =>
         forl (length tmp) 0 (fun l =>
           foreach (g_JT_cols G l) (fun j m => t <- get tmp l k ;; add_to j k (g_JT G xi l j * t) m)))
       mzero ;;
  Some (map (map (fun v => v / g_ie G xi)) m).
(** globalvaluedlocalfiniteelement.hh 118-137: the pulled back function. *)
Definition contra_local (f : pt -> list R) (xi : pt) : list R :=
  map (fun v => v * g_ie G xi) (mtv (g_JIT G xi) (f xi)).

(** globalvaluedlocalfiniteelement.hh 167-176. *)
Definition co_value (xi : pt) (value : list R) : list R := mv (g_JIT G xi) value.
(** globalvaluedlocalfiniteelement.hh:161-177. *)
Definition co_apply (values : list (list R)) (xi : pt) : list (list R) := map (co_value xi) values.
(** globalvaluedlocalfiniteelement.hh 195-204. *)
Definition co_gradient (xi : pt) (tmp : list (list R)) : option (list (list R)) :=
  forl n 0 (fun j => forl n 0 (fun k =>
    foreach (g_JIT_cols G j) (fun l m => t <- get tmp l k ;; add_to j k (g_JIT G xi j l * t) m))) mzero.
(** globalvaluedlocalfiniteelement.hh 226-242. *)
Definition co_local (f : pt -> list R) (xi : pt) : list R := mv (g_JT G xi) (f xi).

(** A transformator: [apply], [applyJacobian] and [LocalValuedFunction]. *)
(** The template parameter Transformator, globalvaluedlocalfiniteelement.hh:252 and 347. *)
Record transformator := Tr {
  t_value : pt -> list R -> list R;
  t_gradient : pt -> list (list R) -> option (list (list R));
  t_local : (pt -> list R) -> pt -> list R
}.
(** globalvaluedlocalfiniteelement.hh:41-139. *)
Definition contravariant : transformator := Tr contra_value contra_gradient contra_local.
(** globalvaluedlocalfiniteelement.hh:154-244. *)
Definition covariant : transformator := Tr co_value co_gradient co_local.

(** A LocalBasis of dune-localfunctions. *)
(** Used in globalvaluedlocalfiniteelement.hh:270-332. *)
Record lbasis := LB {
  lb_size : nat;
  lb_eval : pt -> list (list R);
  lb_jac : pt -> list (list (list R))
}.
(** The loops of globalvaluedlocalfiniteelement.hh:84 and 195, all of whose iterations must be
    defined. *)
Fixpoint map_o {A B} (f : A -> option B) (l : list A) : option (list B) :=
  match l with [] => Some [] | a :: r => b <- f a ;; bs <- map_o f r ;; Some (b :: bs) end.
(** globalvaluedlocalfiniteelement.hh 274-293. *)
Definition gv_eval (T : transformator) (b : lbasis) (x : pt) : list (list R) := map (t_value T x) (lb_eval b x).
(** globalvaluedlocalfiniteelement.hh:287-293. *)
Definition gv_jac (T : transformator) (b : lbasis) (x : pt) : option (list (list (list R))) :=
  map_o (t_gradient T x) (lb_jac b x).
(** std::distance(begin, find(begin, end, 1)). *)
(** globalvaluedlocalfiniteelement.hh:309. *)
Fixpoint find1 (l : list nat) : nat :=
  match l with [] => 0 | 1%nat :: _ => 0 | _ :: r => S (find1 r) end.
(** globalvaluedlocalfiniteelement.hh 301-327; NotImplemented is None. *)
Definition gv_partial (T : transformator) (b : lbasis) (order : list nat) (x : pt) : option (list (list R)) :=
  match fold_right Nat.add 0%nat order with
  | 0%nat => Some (gv_eval T b x)
  | 1%nat =>
      full <- gv_jac T b x ;;
      map_o (fun i => m <- nth_error full i ;;
                      map_o (fun j => get m j (find1 order)) (seq 0 n)) (seq 0 (lb_size b))
  | _ => None
  end.
(** globalvaluedlocalfiniteelement.hh 359-365; [interp] is the LocalInterpolation of dune-localfunctions. *)
Definition gv_interpolate {C} (T : transformator) (interp : (pt -> list R) -> C) (f : pt -> list R) : C :=
  interp (t_local T f).
End Piola.
