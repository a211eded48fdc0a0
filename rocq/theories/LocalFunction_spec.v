(** What local functions should do (C44, C49). *)
From Coq Require Import List Arith Bool Reals.
From Verif Require Import Lib LocalFunction_model.
Import ListNotations.

Section Spec.
Context {E X Y V : Type}.
Variable G : grid E X Y.

(** A refinement hierarchy: fathers are one level coarser, children one level finer,
    down to the maximal level; distances are not negative. *)
Record grid_ok : Prop := {
  go_father : forall e f, gr_father G e = Some f -> gr_level G e = S (gr_level G f);
  go_child : forall e c, In c (gr_children G e) -> gr_level G c = S (gr_level G e) /\ gr_level G c <= gr_max G;
  go_dist : forall e x, (0 <= gr_dist G e x)%R
}.

(** [a] is the nearest ancestor of [e] (or [e] itself) in the set [cs], and [l] are the
    elements on the way from [e] to [a], without [a]. *)
Inductive nearest (cs : E -> bool) : E -> E -> list E -> Prop :=
| near_here e : cs e = true -> nearest cs e e []
| near_up e f a l : cs e = false -> gr_father G e = Some f -> nearest cs f a l -> nearest cs e a (e :: l).
(** A local coordinate of [e] as local coordinate of the ancestor. *)
Fixpoint up_along (l : list E) (x : X) : X :=
  match l with [] => x | e :: r => up_along r (gr_up G e x) end.

(** Refining [e] leads to elements of the set [fs], on which [P] holds. *)
Inductive refined (fs : E -> bool) (P : E -> Prop) : E -> Prop :=
| ref_here e : fs e = true -> P e -> refined fs P e
| ref_down e : fs e = false -> gr_children G e <> [] -> (forall c, In c (gr_children G e) -> refined fs P c) -> refined fs P e.

(** [c] is a child of [e] of least distance to the point [x] of [e]. *)
Definition closest (e : E) (x : X) (c : E) : Prop :=
  In c (gr_children G e) /\
  forall c', In c' (gr_children G e) -> (gr_dist G c (gr_down G c x) <= gr_dist G c' (gr_down G c' x))%R.
(** Starting at the point [x] of [e] and choosing closest children one arrives at the
    point [y] of [d], the first element in [fs]. *)
Inductive located (fs : E -> bool) : E -> X -> E -> X -> Prop :=
| loc_here e x : fs e = true -> located fs e x e x
| loc_down e x c d y : fs e = false -> closest e x c -> located fs c (gr_down G c x) d y -> located fs e x d y.

(** The function can be bound to [e]. *)
Fixpoint fits (g : gf E X Y V) (e : E) : Prop :=
  match g with
  | GAna _ | GNormal _ | GDis _ _ => True
  | GComp _ l => (fix go l := match l with [] => True | g :: r => fits g e /\ go r end) l
  | GCoarse cs g => exists a l, nearest cs e a l /\ fits g a
  | GFine fs g => refined fs (fits g) e
  end.
(** Compositions have at least one inner function (composedgridfunction.hh:168). *)
Fixpoint composed_ok (g : gf E X Y V) : Prop :=
  match g with
  | GAna _ | GNormal _ | GDis _ _ => True
  | GComp _ l => l <> [] /\ (fix go l := match l with [] => True | g :: r => composed_ok g /\ go r end) l
  | GCoarse _ g | GFine _ g => composed_ok g
  end.

(** The values of the function on [e] at [x]. *)
Inductive value : gf E X Y V -> E -> X -> V -> Prop :=
| val_ana f e x : value (GAna f) e x (f 0 (gr_geo G e x))
| val_normal f e x : value (GNormal f) e x (f e x)
| val_dis v dv e x : value (GDis v dv) e x (v e x)
| val_comp h l vs e x : values l e x vs -> value (GComp h l) e x (h vs)
| val_coarse cs g e x a l v : nearest cs e a l -> value g a (up_along l x) v -> value (GCoarse cs g) e x v
| val_fine fs g e x d y v : located fs e x d y -> value g d y v -> value (GFine fs g) e x v
with values : list (gf E X Y V) -> E -> X -> list V -> Prop :=
| vals_nil e x : values [] e x []
| vals_cons g l e x v vs : value g e x v -> values l e x vs -> values (g :: l) e x (v :: vs).

(** The derivative of a function, if there is one. *)
Fixpoint dgf (g : gf E X Y V) : option (gf E X Y V) :=
  match g with
  | GAna f => Some (GAna (fun k => f (S k)))
  | GNormal _ => None
  | GDis _ dv => d <- dv ;; Some (GDis d None)
  | GComp _ _ => None
  | GCoarse cs g => g' <- dgf g ;; Some (GCoarse cs g')
  | GFine fs g => g' <- dgf g ;; Some (GFine fs g')
  end.
(** When derivative() may be called: a coarse function has to be bound; the inner
    function of a fine function need not be. *)
Fixpoint derivable (g : gf E X Y V) (is_bound : bool) : bool :=
  match g with
  | GCoarse _ g => is_bound && derivable g true
  | GFine _ g => derivable g false
  | _ => true
  end.

(** A pool of local functions as pairs of a function and the element bound to, if any. *)
Definition pool := list (gf E X Y V * option E).
Inductive sstep : pool -> lop E X Y V -> pool -> Prop :=
| ss_new p g : composed_ok g -> sstep p (LNew g) (p ++ [(g, None)])
| ss_bind p i e g s p' : nth_error p i = Some (g, s) -> fits g e -> upd p i (g, Some e) = Some p' -> sstep p (LBindF i e) p'
| ss_unbind p i g s p' : nth_error p i = Some (g, s) -> upd p i (g, None) = Some p' -> sstep p (LUnbindF i) p'
| ss_copy p i gs : nth_error p i = Some gs -> sstep p (LCopyF i) (p ++ [gs])
| ss_deriv p i g s g' : nth_error p i = Some (g, s) -> dgf g = Some g' -> derivable g (is_some s) = true ->
    sstep p (LDerivF i) (p ++ [(g', s)])
| ss_eval p i g e x : nth_error p i = Some (g, Some e) -> sstep p (LEvalF i x) p.
Inductive srun : pool -> list (lop E X Y V) -> pool -> Prop :=
| sr_nil p : srun p [] p
| sr_cons p o p' h p'' : sstep p o p' -> srun p' h p'' -> srun p (o :: h) p''.
End Spec.
