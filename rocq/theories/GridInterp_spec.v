(** What interpolation of a grid function should do (C94). *)
From Coq Require Import List Arith Bool Reals.
From Verif Require Import Lib Basis_model Basis_spec Container_model Container_spec DiscreteFunction_model DiscreteFunction_spec
  LocalFunction_model LocalFunction_spec Projection_model Transfer_spec.
Import ListNotations.

Section Spec.
Context {E X Y : Type}.
Variables (G : grid E X Y) (els : E -> Prop).
Notation gf := (gf E X Y (cont R)).
Notation coefs := (mi -> option (list R)).

(** The function can be evaluated on all elements, and its derivative too if there are leaves
    whose degrees of freedom use it. *)
Record usable_function (asks : list nat -> bool) (g : gf) : Prop := {
  uf_composed : composed_ok g;
  uf_fits : forall e, els e -> fits G g e;
  uf_derivative : forall p, asks p = true -> derivable g true = true /\ exists g', dgf g = Some g'
}.
(** [f] gives the part for the tree path [p] of the values of [g] on [e]. *)
Definition grid_part (g : gf) (e : E) (p : list nat) (f : X -> option (cont R)) : Prop :=
  forall x, exists y, value G g e x y /\ f x = node_to_range p y.
(** The local interpolation of the leaves of [b] makes [interp] of the function. *)
Definition locally_interpolates_grid (b : bexpr E) (path : list nat) (asks : list nat -> bool) (interpolation : functional)
  (g : gf) (interp : E -> list nat -> list R) : Prop :=
  forall e p f d, els e -> used_leaf b path e p -> grid_part g e p f ->
    (if asks p then exists g' d', dgf g = Some g' /\ d = Some d' /\ grid_part g' e p d' else d = None) ->
    interpolation e p f d = Some (interp e p).
(** [g] is the discrete function with coefficients [c] over [b], as far as the leaves of [b]
    are concerned; so are the derivatives where [asks] says that they are used. *)
Definition represents (asks : list nat -> bool) (g : gf) (b : bexpr E) (path : list nat) (su : setup E X) (c : coefs) : Prop :=
  forall e p x, els e -> used_leaf b path e p ->
    (forall y1 y2, value G g e x y1 -> is_value b path su e c x y2 ->
       option_map scalars (node_to_range p y1) = option_map scalars (node_to_range p y2)) /\
    (asks p = true -> forall g' y1 y2, dgf g = Some g' -> value G g' e x y1 -> is_derivative b path su e c x y2 ->
       option_map scalars (node_to_range p y1) = option_map scalars (node_to_range p y2)).

(** The grid functions [v], [dv] are the discrete function with coefficients [c] over [b] and
    its derivative, on the elements [els1]. *)
Definition discrete_function (els1 : E -> Prop) (b : bexpr E) (path : list nat) (su : setup E X) (c : coefs)
  (v : E -> X -> cont R) (dv : option (E -> X -> cont R)) : Prop :=
  (forall e x, els1 e -> is_value b path su e c x (v e x)) /\
  (forall d, dv = Some d -> forall e x, els1 e -> is_derivative b path su e c x (d e x)).

(** The elements [cs] of a coarse grid view do not lie in each other, elements are children of
    their fathers, and geometryInFather can be inverted. *)
Record coarse_view (cs : E -> bool) : Prop := {
  cv_father : forall e c, In c (gr_children G e) -> gr_father G c = Some e;
  cv_below : forall e a l c, nearest G cs e a l -> In c (gr_children G e) -> cs c = false;
  cv_inverse : forall e x, gr_up G e (gr_down G e x) = x
}.

(** Spaces of scalar functions on the elements: [pol] is a space of functions of local
    coordinates that geometryInFather preserves (such as polynomials of some degree, if it is
    affine), the shape functions of [su1] are in it, and those of [su2] are a nodal basis that
    contains it: functions in [pol] are determined by their values at the nodes. *)
Record nested_spaces (pol : (X -> R) -> Prop) (els1 els2 : E -> Prop) (b1 : bexpr E) (path1 : list nat) (su1 : setup E X)
  (b2 : bexpr E) (path2 : list nat) (su2 : setup E X) (node : E -> list nat -> nat -> X) : Prop := {
  ns_ext : forall f h, (forall x, f x = h x) -> pol f -> pol h;
  ns_zero : pol (fun _ => 0%R);
  ns_plus : forall f h, pol f -> pol h -> pol (fun x => (f x + h x)%R);
  ns_scale : forall a f, pol f -> pol (fun x => (a * f x)%R);
  ns_up : forall e f, pol f -> pol (fun x => f (gr_up G e x));
  ns_coarse : forall a p i, els1 a -> used_leaf b1 path1 a p -> pol (fun x => shape_of su1 a p x i 0);
  ns_fine : forall e w p n f x, els2 e -> leaf_of b2 path2 e w p n -> pol f ->
    f x = rsum (node_size n) (fun i => (f (node e p i) * shape_of su2 e p x i 0)%R);
  ns_scalar1 : forall p, su_vdim su1 p = 1;
  ns_scalar2 : forall p, su_vdim su2 p = 1
}.
(** Every fine element lies in a coarse one, which has basis functions at the same tree paths. *)
Definition covered (cs : E -> bool) (els1 els2 : E -> Prop) (b1 : bexpr E) (path1 : list nat) (b2 : bexpr E) (path2 : list nat) : Prop :=
  forall e, els2 e -> exists a l, nearest G cs e a l /\ els1 a /\ forall p, used_leaf b2 path2 e p -> used_leaf b1 path1 a p.
(** [x m] is the value of the coarse function [v] at the node of the fine DOF [m]. *)
Definition node_values (cs : E -> bool) (els2 : E -> Prop) (v : E -> X -> cont R) (b2 : bexpr E) (path2 : list nat)
  (node : E -> list nat -> nat -> X) (x : mi -> R) : Prop :=
  forall e w p n i k m a l, els2 e -> leaf_of b2 path2 e w p n -> local_index n i = Some k -> lv_index w k = Some m -> nearest G cs e a l ->
    option_map scalars (node_to_range p (v a (up_along G l (node e p i)))) = Some [x m].
End Spec.
