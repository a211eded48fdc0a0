(** Model of several threads that use local functions of the same discrete function
    (gridfunctions/discreteglobalbasisfunction.hh) at the same time: the memory accesses
    of the operations of DiscreteFunction_model.v, one at a time.

    Memory is a map from cells to values.  A local function object owns its local view
    (with the nodes, their finite elements and finite element caches, e.g.
    lagrangebasis.hh:989), its localDoFs_ (188), its geometry_ (637) and one evaluation
    buffer per leaf (evaluationBuffer_, mutable, 383 and 636).  The coefficient vector is
    shared.  Everything else an operation reads is immutable after construction: Data
    (60-66) is const, and pre-bases have no mutable members.

    Simplifications: a cell is read or written in one step, and the nodes of a tree are
    read once per operation.  For programs without data races this makes no difference.
    Assignment of local functions is left out (see ViewAlias_model), as are reference
    counts (atomic). *)
From Coq Require Import List Arith Bool Reals.
From Verif Require Import Lib Basis_model Container_model Container_spec FlatVector_model Interpolate_model
  DiscreteFunction_model.
Import ListNotations.

(** The memory locations: discreteglobalbasisfunction.hh:187-188, 383, 636-637, and the
    coefficients. *)
Inductive cell := CView (i : nat) | CDofs (i : nat) | CGeo (i : nat) | CBuf (i : nat) (p : list nat) | CCoef (m : mi).
(** No counterpart in the code: equality of addresses. *)
Definition cell_dec (a b : cell) : {a = b} + {a <> b}.
Proof. decide equality; try apply list_eq_dec; apply Nat.eq_dec. Defined.

Section Threads.
Context {E X : Type}.
Variable su : setup E X.

(** What a memory location holds; no counterpart in the code. *)
Inductive val :=
| VNothing                              (* not constructed *)
| VView (deriv : bool) (v : lview E)
| VDofs (d : list (list R))
| VGeo (g : option E)
| VBuf (s : list (list R))
| VCoef (x : option (list R)).
(** No counterpart in the code. *)
Definition mem := cell -> val.
(** No counterpart in the code: memory with a changed location. *)
Definition setm (m : mem) (c : cell) (v : val) : mem := fun c' => if cell_dec c' c then v else m c'.

(** A sequence of accesses with a result of type [A].  [Fail]: undefined behavior or an
    exception. *)
(** No counterpart in the code: the accesses of a piece of code, in order. *)
Inductive prog (A : Type) :=
| Ret (a : A)
| Fail
| Rd (c : cell) (k : val -> prog A)
| Wr (c : cell) (v : val) (k : prog A).
Arguments Ret {A}. Arguments Fail {A}. Arguments Rd {A}. Arguments Wr {A}.
(** No counterpart in the code: one piece of code after another. *)
Fixpoint pbind {A B} (p : prog A) (f : A -> prog B) : prog B :=
  match p with
  | Ret a => f a
  | Fail => Fail
  | Rd c k => Rd c (fun v => pbind (k v) f)
  | Wr c v k => Wr c v (pbind k f)
  end.
(** No counterpart in the code: a computation that accesses no shared memory. *)
Definition plift {A B} (o : option A) (f : A -> prog B) : prog B :=
  match o with Some a => f a | None => Fail end.
(** A counting loop, as [forl]. *)
(** No counterpart in the code: a loop. *)
Fixpoint pforl {S} (k s : nat) (body : nat -> S -> prog S) (st : S) : prog S :=
  match k with
  | 0 => Ret st
  | Datatypes.S k' => pbind (body s st) (pforl k' (s + 1) body)
  end.
(** No counterpart in the code: a range-based loop. *)
Fixpoint peach {S T} (body : T -> S -> prog S) (l : list T) (st : S) : prog S :=
  match l with [] => Ret st | x :: r => pbind (body x st) (peach body r) end.

(** Reads localView_, discreteglobalbasisfunction.hh:187. *)
Definition rd_view {A} (i : nat) (k : bool -> lview E -> prog A) : prog A :=
  Rd (CView i) (fun v => match v with VView d v => k d v | _ => Fail end).
(** Reads localDoFs_, discreteglobalbasisfunction.hh:188. *)
Definition rd_dofs {A} (i : nat) (k : list (list R) -> prog A) : prog A :=
  Rd (CDofs i) (fun v => match v with VDofs d => k d | _ => Fail end).
(** Reads geometry_, discreteglobalbasisfunction.hh:637. *)
Definition rd_geo {A} (i : nat) (k : option E -> prog A) : prog A :=
  Rd (CGeo i) (fun v => match v with VGeo g => k g | _ => Fail end).
(** Reads evaluationBuffer_, discreteglobalbasisfunction.hh:383 and 636. *)
Definition rd_buf {A} (i : nat) (p : list nat) (k : list (list R) -> prog A) : prog A :=
  Rd (CBuf i p) (fun v => match v with VBuf s => k s | _ => Fail end).
(** Reads a coefficient, discreteglobalbasisfunction.hh:146. *)
Definition rd_coef {A} (m : mi) (k : list R -> prog A) : prog A :=
  Rd (CCoef m) (fun v => match v with VCoef (Some x) => k x | _ => Fail end).

(** Leaves of the tree the evaluation buffers are made for (320-325, 544-549). *)
Definition buf_paths : list (list nat) :=
  match sv_tree (su_basis su) (sv_new (su_basis su)) with
  | Some t => map fst (for_each_leaf t)
  | None => []
  end.

(** discreteglobalbasisfunction.hh 79-84, 320-325, 544-549: construction *)
Definition new_prog (i : nat) (d : bool) : prog unit :=
  Wr (CView i) (VView d (sv_new (su_basis su))) (
  Wr (CDofs i) (VDofs []) (
  Wr (CGeo i) (VGeo None) (
  peach (fun p _ => Wr (CBuf i p) (VBuf []) (Ret tt)) buf_paths tt))).

(** discreteglobalbasisfunction.hh 124-148, 557-561: bind *)
Definition bind_prog (i : nat) (e : E) : prog unit :=
  rd_view i (fun d v0 =>
  plift (sv_bind (su_basis su) v0 e) (fun v =>
  Wr (CView i) (VView d v) (
  plift (sv_tree (su_basis su) v) (fun tree =>
  rd_dofs i (fun ds =>
  Wr (CDofs i) (VDofs (vresize ds (sv_size v) (repeat 0%R (su_cdim su)))) (
  pbind (pforl (node_size tree) 0 (fun k _ =>
    plift (local_index tree k) (fun l =>
    plift (lv_index v l) (fun m =>
    rd_coef m (fun x =>
    rd_dofs i (fun ds =>
    plift (upd ds l x) (fun ds' =>
    Wr (CDofs i) (VDofs ds') (Ret tt))))))) tt) (fun _ =>
  if d then Wr (CGeo i) (VGeo (Some e)) (Ret tt) else Wr (CGeo i) (VGeo None) (Ret tt)))))))).

(** discreteglobalbasisfunction.hh 151-154, 564-568: unbind *)
Definition unbind_prog (i : nat) : prog unit :=
  Wr (CGeo i) (VGeo None) (
  rd_view i (fun d v => Wr (CView i) (VView d (lv_unbind v)) (Ret tt))).

(** discreteglobalbasisfunction.hh 92-99 and the implicit copy constructors of the derived classes: [j] is a copy of
    [i], including its evaluation buffers. *)
Definition copy_prog (j i : nat) : prog unit :=
  rd_view i (fun d v0 =>
  plift (lv_copy (ss_root (su_basis su)) v0) (fun v =>
  Wr (CView j) (VView d v) (
  pbind (if lv_bound v then rd_dofs i (fun ds => Wr (CDofs j) (VDofs ds) (Ret tt))
         else Wr (CDofs j) (VDofs []) (Ret tt)) (fun _ =>
  rd_geo i (fun g => Wr (CGeo j) (VGeo g) (
  peach (fun p _ => Rd (CBuf i p) (fun b => Wr (CBuf j p) b (Ret tt))) buf_paths tt)))))).

(** discreteglobalbasisfunction.hh 374-380, 630-633: derivative *)
Definition derivative_prog (j i : nat) : prog unit :=
  rd_view i (fun d v =>
  if d then Fail else
  pbind (new_prog j true) (fun _ =>
  match lv_elem v with Some e => bind_prog j e | None => Ret tt end)).

(** discreteglobalbasisfunction.hh 354-363, 603-612: shapeFunctionValues[k] is read from the buffer each time. *)
Definition combine_prog (i : nat) (p : list nat) (n : node E) (nb size : nat) : prog (list (list R)) :=
  pforl nb 0 (fun k vals =>
    plift (local_index n k) (fun l =>
    rd_dofs i (fun ds =>
    plift (nth_error ds l) (fun c =>
    pforl (su_cdim su) 0 (fun j vals =>
      plift (nth_error c j) (fun a =>
      plift (nth_error vals j) (fun w =>
      rd_buf i p (fun sv =>
      plift (nth_error sv k) (fun x =>
      plift (axpy a x w) (fun w' =>
      plift (upd vals j w') Ret)))))) vals)))) (repeat (repeat 0%R size) (su_cdim su)).

(** discreteglobalbasisfunction.hh 341-368 *)
Definition eval_leaf_prog (i : nat) (x : X) (pn : list nat * node E) (y : cont R) : prog (cont R) :=
  let '(p, n) := pn in
  if node_size n =? 0 then Ret y else
  match n with
  | NLeaf _ _ fe (Some e) =>
      Wr (CBuf i p) (VBuf (su_shape su e p x)) (                      (* 348: evaluateFunction *)
      pbind (combine_prog i p n (fe e) (su_vdim su p)) (fun vals =>
      plift (assign_entry (su_rty su p) p y (concat vals)) Ret))
  | _ => Fail
  end.
(** discreteglobalbasisfunction.hh 590-624 *)
Definition deriv_leaf_prog (i : nat) (g : E) (x : X) (pn : list nat * node E) (y : cont R) : prog (cont R) :=
  let '(p, n) := pn in
  if node_size n =? 0 then Ret y else
  match n with
  | NLeaf _ _ fe (Some e) =>
      Wr (CBuf i p) (VBuf (su_jac su e p x)) (                        (* 597: evaluateJacobian *)
      pbind (combine_prog i p n (fe e) (su_vdim su p * su_ldim su)) (fun refs =>
      let jacs := map (fun a => mat_times (su_vdim su p) (su_ldim su) (su_gdim su) a (su_jinv su g x)) refs in
      plift (assign_entry (su_drty su p) p y (concat jacs)) Ret))
  | _ => Fail
  end.
(** discreteglobalbasisfunction.hh 336-371 and 583-627: operator() *)
Definition eval_prog (i : nat) (x : X) : prog (cont R) :=
  rd_view i (fun d v =>
  plift (sv_tree (su_basis su) v) (fun tree =>
  if d
  then rd_geo i (fun og => plift og (fun g =>
         peach (deriv_leaf_prog i g x) (for_each_leaf tree) (zero_all (su_drange su))))
  else peach (eval_leaf_prog i x) (for_each_leaf tree) (zero_all (su_range su)))).

(** Operations of a thread; [i], [j] name variables holding local functions. *)
(** What a thread may do: the functions cited at the definitions above. *)
Inductive top :=
| TNew (i : nat) (d : bool)      (* localFunction(f), localFunction(derivative(f)) *)
| TBind (i : nat) (e : E)
| TUnbind (i : nat)
| TEval (i : nat) (x : X)        (* y = lf_i(x) *)
| TCopy (j i : nat)              (* auto lf_j = lf_i *)
| TDerivative (j i : nat)        (* auto lf_j = derivative(lf_i) *)
| TCoef (m : mi) (l : list R).   (* coefficients[m] = l *)
(** One operation; the result is the list of values it returns. *)
(** Each case calls the definition above for it. *)
Definition op_prog (o : top) : prog (list (cont R)) :=
  match o with
  | TNew i d => pbind (new_prog i d) (fun _ => Ret [])
  | TBind i e => pbind (bind_prog i e) (fun _ => Ret [])
  | TUnbind i => pbind (unbind_prog i) (fun _ => Ret [])
  | TEval i x => pbind (eval_prog i x) (fun y => Ret [y])
  | TCopy j i => pbind (copy_prog j i) (fun _ => Ret [])
  | TDerivative j i => pbind (derivative_prog j i) (fun _ => Ret [])
  | TCoef m l => Wr (CCoef m) (VCoef (Some l)) (Ret [])
  end.
(** A thread: its operations one after the other, and all values in order. *)
(** A sequence of calls; no counterpart in the library. *)
Fixpoint thread_prog (h : list top) : prog (list (cont R)) :=
  match h with
  | [] => Ret []
  | o :: r => pbind (op_prog o) (fun ys => pbind (thread_prog r) (fun zs => Ret (ys ++ zs)))
  end.

(** Running a program alone. *)
(** No counterpart in the library. *)
Fixpoint run {A} (p : prog A) (m : mem) : option (A * mem) :=
  match p with
  | Ret a => Some (a, m)
  | Fail => None
  | Rd c k => run (k (m c)) m
  | Wr c v k => run k (setm m c v)
  end.
(** Memory before any local function exists. *)
(** No counterpart in the library. *)
Definition start (c : mi -> option (list R)) : mem :=
  fun k => match k with CCoef m => VCoef (c m) | _ => VNothing end.

(** Several threads with one memory.  [None]: thread [t] has no next step. *)
(** No counterpart in the library. *)
Record conf (A : Type) := CF { cf_threads : list (prog A); cf_mem : mem }.
Arguments CF {A}. Arguments cf_threads {A}. Arguments cf_mem {A}.
(** No counterpart in the library: the scheduler lets a thread make one access. *)
Definition cstep {A} (t : nat) (s : conf A) : option (conf A) :=
  p <- nth_error (cf_threads s) t ;;
  match p with
  | Ret _ | Fail => None
  | Rd c k => l <- upd (cf_threads s) t (k (cf_mem s c)) ;; Some (CF l (cf_mem s))
  | Wr c v k => l <- upd (cf_threads s) t k ;; Some (CF l (setm (cf_mem s) c v))
  end.
(** A schedule: which thread makes the next step. *)
(** No counterpart in the library. *)
Fixpoint crun {A} (sched : list nat) (s : conf A) : option (conf A) :=
  match sched with [] => Some s | t :: r => s' <- cstep t s ;; crun r s' end.

(** The next access of a thread: is it a write, and to which cell. *)
(** No counterpart in the library. *)
Definition next_access {A} (p : prog A) : option (bool * cell) :=
  match p with Rd c _ => Some (false, c) | Wr c _ _ => Some (true, c) | _ => None end.
(** A data race: two threads about to access the same cell, one of them writing. *)
(** The C++ standard's data race. *)
Definition race {A} (s : conf A) : Prop :=
  exists t1 t2 p1 p2 w c, t1 <> t2 /\ nth_error (cf_threads s) t1 = Some p1 /\ nth_error (cf_threads s) t2 = Some p2 /\
    next_access p1 = Some (true, c) /\ next_access p2 = Some (w, c).
End Threads.
Arguments Ret {E A}. Arguments Fail {E A}. Arguments Rd {E A}. Arguments Wr {E A}.
Arguments CF {E A}. Arguments cf_threads {E A}. Arguments cf_mem {E A}.
Arguments val : clear implicits.
Arguments mem : clear implicits.
Arguments prog : clear implicits.
Arguments top : clear implicits.
Arguments conf : clear implicits.
