(** What a program may do with local functions and the grid functions they come from (C60). *)
From Coq Require Import List Arith Bool Reals.
From Verif Require Import Lib LocalFunction_model LocalFunction_spec Lifetime_model.
Import ListNotations.

Section Spec.
Context {E X Y V : Type}.
Variable G : grid E X Y.

(** A grid function as a value. *)
Inductive desc :=
| DAna (es : E -> bool) (f : nat -> Y -> V)
| DNormal (es : E -> bool) (f : E -> X -> V)
| DDis (es : E -> bool) (deps : list nat) (v : E -> X -> V) (dv : option (E -> X -> V))
| DComp (h : list V -> V) (inner : list desc)
| DCoarse (es : E -> bool) (inner : desc)
| DFine (es : E -> bool) (inner : desc)
| DErased (inner : desc).
(** The entity set it is defined on. *)
Fixpoint dset (d : desc) : E -> bool :=
  match d with
  | DAna es _ | DNormal es _ | DDis es _ _ _ | DCoarse es _ | DFine es _ => es
  | DComp _ l => match l with d :: _ => dset d | [] => fun _ => false end
  | DErased d => dset d
  end.
(** The function, as in LocalFunction_spec; [value] there says what it computes. *)
Fixpoint fn (d : desc) : gf E X Y V :=
  match d with
  | DAna _ f => GAna f
  | DNormal _ f => GNormal f
  | DDis _ _ v dv => GDis v dv
  | DComp h l => GComp h (map fn l)
  | DCoarse _ d => GCoarse (dset d) (fn d)
  | DFine _ d => GFine (dset d) (fn d)
  | DErased d => fn d
  end.
(** The objects of the user it refers to. *)
Fixpoint ddeps (d : desc) : list nat :=
  match d with
  | DAna _ _ | DNormal _ _ => []
  | DDis _ deps _ _ => deps
  | DComp _ l => (fix go l := match l with [] => [] | d :: r => ddeps d ++ go r end) l
  | DCoarse _ d | DFine _ d | DErased d => ddeps d
  end.
(** A local function refers to the grid function it was created from if there is a composed
    function in it, or a function transferred to another grid view, unless a discrete
    function is transferred. *)
Fixpoint shared (d : desc) : bool :=
  match d with
  | DDis _ _ _ _ => true
  | DComp _ l => match l with d :: _ => shared d | [] => false end
  | DErased d => shared d
  | _ => false
  end.
Fixpoint refers (d : desc) : bool :=
  match d with
  | DAna _ _ | DNormal _ _ | DDis _ _ _ _ => false
  | DComp _ _ => true
  | DCoarse _ d | DFine _ d => refers d || negb (shared d)
  | DErased d => refers d
  end.
Fixpoint dderiv (d : desc) : option desc :=
  match d with
  | DAna es f => Some (DAna es (fun k => f (S k)))
  | DNormal _ _ => None
  | DDis es deps _ dv => d <- dv ;; Some (DDis es deps d None)
  | DComp _ _ => None
  | DCoarse es d => d' <- dderiv d ;; Some (DCoarse es d')
  | DFine es d => d' <- dderiv d ;; Some (DFine es d')
  | DErased d => d' <- dderiv d ;; Some (DErased d')
  end.
(** The C++ types allow to assign one to the other. *)
Fixpoint assignable (d d' : desc) : bool :=
  match d, d' with
  | DAna _ _, DAna _ _ | DNormal _ _, DNormal _ _ | DDis _ _ _ _, DDis _ _ _ _ | DErased _, DErased _ => true
  | DComp _ l, DComp _ l' => (fix go l l' := match l, l' with [], [] => true | d :: r, d' :: r' => assignable d d' && go r r' | _, _ => false end) l l'
  | DCoarse _ d, DCoarse _ d' | DFine _ d, DFine _ d' => assignable d d'
  | _, _ => false
  end.

(** A local function: the grid function it was created from (as a value), the element it is
    bound to, and the variable that holds the grid function, as long as that still is
    the same. *)
Definition slocal := (desc * option E * option nat)%type.
Record sworld := SWorld { s_exts : list bool; s_gfs : list (option desc); s_lfs : list slocal }.
Definition s_empty : sworld := SWorld [] [] [].
Definition s_at (w : sworld) (i : nat) : option desc := match nth_error (s_gfs w) i with Some d => d | None => None end.
(** May be bound and evaluated. *)
Definition usable (w : sworld) (d : desc) (src : option nat) : Prop :=
  alive (s_exts w) (ddeps d) = true /\ (refers d = true -> src <> None).
Definition s_add (w : sworld) (d : desc) : sworld := SWorld (s_exts w) (s_gfs w ++ [Some d]) (s_lfs w).
Definition s_addl (w : sworld) (l : slocal) : sworld := SWorld (s_exts w) (s_gfs w) (s_lfs w ++ [l]).
(** variable i is destroyed or assigned to: the local functions created from it are on their own *)
Definition orphan (i : nat) (l : slocal) : slocal :=
  let '(d, s, src) := l in (d, s, match src with Some k => if k =? i then None else Some k | None => None end).

Inductive sstep : sworld -> op E X Y V -> sworld -> Prop :=
| s_xnew w : sstep w XNew (SWorld (s_exts w ++ [true]) (s_gfs w) (s_lfs w))
| s_xdestroy w k es : upd (s_exts w) k false = Some es -> sstep w (XDestroy k) (SWorld es (s_gfs w) (s_lfs w))
| s_ana w es f : sstep w (BAna es f) (s_add w (DAna es f))
| s_normal w es f : sstep w (BNormal es f) (s_add w (DNormal es f))
| s_dis w es deps v dv : sstep w (BDis es deps v dv) (s_add w (DDis es deps v dv))
| s_comp w h is ds : is <> [] -> Forall2 (fun i d => s_at w i = Some d) is ds -> sstep w (BComp h is) (s_add w (DComp h ds))
| s_coarse w es i d : s_at w i = Some d -> sstep w (BCoarse es i) (s_add w (DCoarse es d))
| s_fine w es i d : s_at w i = Some d -> sstep w (BFine es i) (s_add w (DFine es d))
| s_erase w i d : s_at w i = Some d -> sstep w (BErase i) (s_add w (DErased d))
| s_copy w i d : s_at w i = Some d -> sstep w (BCopy i) (s_add w d)
| s_deriv w i d d' : s_at w i = Some d -> dderiv d = Some d' -> sstep w (BDeriv i) (s_add w d')
| s_assign w i j d d' gs : i <> j -> s_at w i = Some d -> s_at w j = Some d' -> assignable d d' = true ->
    upd (s_gfs w) i (Some d') = Some gs -> sstep w (BAssign i j) (SWorld (s_exts w) gs (map (orphan i) (s_lfs w)))
| s_destroy w i d gs : s_at w i = Some d -> upd (s_gfs w) i None = Some gs ->
    sstep w (BDestroy i) (SWorld (s_exts w) gs (map (orphan i) (s_lfs w)))
| s_new w i d : s_at w i = Some d -> alive (s_exts w) (ddeps d) = true -> sstep w (LNew i) (s_addl w (d, None, Some i))
| s_bind w j e d s src ls : nth_error (s_lfs w) j = Some (d, s, src) -> usable w d src -> fits G (fn d) e ->
    upd (s_lfs w) j (d, Some e, src) = Some ls -> sstep w (LBind j e) (SWorld (s_exts w) (s_gfs w) ls)
| s_unbind w j d s src ls : nth_error (s_lfs w) j = Some (d, s, src) -> upd (s_lfs w) j (d, None, src) = Some ls ->
    sstep w (LUnbind j) (SWorld (s_exts w) (s_gfs w) ls)
| s_lcopy w j d s src : nth_error (s_lfs w) j = Some (d, s, src) -> alive (s_exts w) (ddeps d) = true ->
    sstep w (LCopy j) (s_addl w (d, s, src))
| s_lderiv w j d s src d' : nth_error (s_lfs w) j = Some (d, s, src) -> alive (s_exts w) (ddeps d) = true ->
    dderiv d = Some d' -> derivable (fn d) (is_some s) = true -> sstep w (LDeriv j) (s_addl w (d', s, src))
| s_eval w j x d e src : nth_error (s_lfs w) j = Some (d, Some e, src) -> usable w d src -> sstep w (LEval j x) w.
Inductive srun : sworld -> list (op E X Y V) -> sworld -> Prop :=
| sr_nil w : srun w [] w
| sr_cons w o w' h w'' : sstep w o w' -> srun w' h w'' -> srun w (o :: h) w''.
End Spec.
Arguments desc : clear implicits. Arguments sworld : clear implicits. Arguments slocal : clear implicits.
