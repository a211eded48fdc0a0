(** Interpolation preserves the degrees of freedom of the elements: in particular the fluxes
    through facets (Raviart-Thomas, Brezzi-Douglas-Marini) and the circulations along edges
    (Nedelec) of vector fields (C82). *)
From Coq Require Import List Arith Bool Reals.
From Verif Require Import Lib Basis_model Basis_spec DiscreteFunction_model DiscreteFunction_spec GeometryType_model Mapper_model Mapper_spec
  Orientation_model Orientation_spec Piola_model Piola_spec HDiv_spec.
Import ListNotations.
Local Open Scope R_scope.

(** Contract of a finite element with the local interpolation [L]: it returns one coefficient
    per shape function, looks at the function inside of the element only, and is dual to the
    shape functions. *)
Record local_interpolation_ok {E X : Type} (els : E -> Prop) (b : bexpr E) (path : list nat) (su : setup E X)
    (inside : E -> X -> Prop) (L : E -> list nat -> (X -> list R) -> list R) : Prop := {
  li_size : forall p l e f, leaf_at b (path ++ p) = Some l -> els e -> length (L e p f) = length (lf_indices l e);
  li_inside : forall p l e f h, leaf_at b (path ++ p) = Some l -> els e -> (forall x, inside e x -> f x = h x) -> L e p f = L e p h;
  li_dual : forall p l e cs, leaf_at b (path ++ p) = Some l -> els e -> length cs = length (lf_indices l e) ->
    L e p (fun x => map (fun k => rsum (length cs) (fun i => nth i cs 0 * shape_of su e p x i k)) (seq 0 (su_vdim su p))) = cs
}.

(** The field with the coefficients [cs] for the shape functions [basis] on the reference
    element. *)
Definition reference_field (d : nat) (basis : lbasis) (cs : list R) (x : pt) : list R :=
  map (fun r => rsum (length cs) (fun a => nth a cs 0 * at_ (nth a (lb_eval basis x) []) r)) (seq 0 d).

Section Fluxes.
Context {E X : Type}.
Variable g : grid E X.
Variable fg : fgrid E.
Variable d : nat.
Variable keys : E -> list localkey.
(** the local basis and the local interpolation (dune-localfunctions) of a variant *)
Variable basis : fe -> lbasis.
Variable linterp : fe -> (pt -> list R) -> list R.
(** outer area vectors of the facets of the reference element; the reference element and its
    facets; the position in the world of a local coordinate *)
Variable nu : E -> nat -> list R.
Variable inside : E -> pt -> Prop.
Variable on_facet : E -> nat -> pt -> Prop.
Variable position : E -> pt -> list R.
(** moment number [m] of a flux density on facet [i], as an average over the facet *)
Variable moment : E -> nat -> nat -> (pt -> R) -> R.

(** Contract of the finite elements: the coefficient of function [m] of a facet is the moment
    [m] of the normal component; the bit of the facet changes the sign of the moments with even
    number.  The moments depend on the values on the facet only; seen from the other side, the
    moments with odd number change their sign. *)
Record moments_ok : Prop := {
  mo_basis : forall e n xi, In e (fg_elements fg) -> (n < 2 ^ facets (fg_dim fg) (fg_type fg e))%nat ->
    length (lb_eval (basis (FE (fg_type fg e) n)) xi) = length (keys e) /\
    Forall (fun v => length v = d) (lb_eval (basis (FE (fg_type fg e) n)) xi);
  mo_size : forall e n f, In e (fg_elements fg) -> (n < 2 ^ facets (fg_dim fg) (fg_type fg e))%nat ->
    length (linterp (FE (fg_type fg e) n) f) = length (keys e);
  mo_inside : forall e n f h, In e (fg_elements fg) -> (n < 2 ^ facets (fg_dim fg) (fg_type fg e))%nat ->
    (forall xi, inside e xi -> f xi = h xi) -> linterp (FE (fg_type fg e) n) f = linterp (FE (fg_type fg e) n) h;
  mo_dual : forall e n cs, In e (fg_elements fg) -> (n < 2 ^ facets (fg_dim fg) (fg_type fg e))%nat -> length cs = length (keys e) ->
    linterp (FE (fg_type fg e) n) (reference_field d (basis (FE (fg_type fg e) n)) cs) = cs;
  mo_facet : forall e n f a s m, In e (fg_elements fg) -> (n < 2 ^ facets (fg_dim fg) (fg_type fg e))%nat ->
    nth_error (keys e) a = Some (s, 1%nat, m) ->
    nth a (linterp (FE (fg_type fg e) n) f) 0 = facet_sign (bit n s) m * moment e s m (fun xi => dot d (f xi) (nu e s));
  mo_local : forall e s t m w w', In e (fg_elements fg) -> subtype g e s 1 t -> (forall xi, on_facet e s xi -> w xi = w' xi) ->
    moment e s m w = moment e s m w';
  mo_opp : forall e s m w, moment e s m (fun xi => - w xi) = - moment e s m w;
  mo_shared : forall e i t e' j t' m w w', In e (fg_elements fg) -> In e' (fg_elements fg) -> e <> e' ->
    subtype g e i 1 t -> subtype g e' j 1 t' -> g_sub g e i 1 = g_sub g e' j 1 ->
    (forall xi xi', on_facet e i xi -> on_facet e' j xi' -> position e xi = position e' xi' -> w xi = w' xi') ->
    moment e' j m w' = (if Nat.even m then 1 else -1) * moment e i m w;
  mo_facet_inside : forall e s t xi, In e (fg_elements fg) -> subtype g e s 1 t -> on_facet e s xi -> inside e xi
}.

(** [N e i xi] is the area vector of facet [i] of [e] at [xi], pointing out of [e]. *)
Definition areas_ok (G : E -> geo) (N : E -> nat -> pt -> list R) : Prop :=
  (forall e xi, In e (fg_elements fg) -> inside e xi -> geo_ok d (G e) xi) /\
  (forall e i t xi, In e (fg_elements fg) -> subtype g e i 1 t -> on_facet e i xi ->
     length (N e i xi) = d /\ image_area_vector d (G e) xi (nu e i) (N e i xi)) /\
  (forall e i t xi e' j t' xi', In e (fg_elements fg) -> In e' (fg_elements fg) -> e <> e' ->
     subtype g e i 1 t -> subtype g e' j 1 t' -> g_sub g e i 1 = g_sub g e' j 1 ->
     on_facet e i xi -> on_facet e' j xi' -> position e xi = position e' xi' -> N e' j xi' = map Ropp (N e i xi)).
End Fluxes.

Section Circulations.
Context {E X : Type}.
Variable g : grid E X.
Variable fg : fgrid E.
Variable keys : E -> list localkey.
Variable basis : fe -> lbasis.
Variable linterp : fe -> (pt -> list R) -> list R.
(** the edge vectors of the reference element, from the vertex with the smaller local number
    to the other one *)
Variable tau : E -> nat -> list R.
Variable inside : E -> pt -> Prop.
Variable on_edge : E -> nat -> pt -> Prop.
Variable position : E -> pt -> list R.
(** the average of a function over edge [s] *)
Variable mean : E -> nat -> (pt -> R) -> R.
Local Notation d := (g_dim g).

(** Contract of the finite elements: the coefficient of the function of an edge is the average
    of the component along the edge vector, or its opposite if the bit of the edge is set. *)
Record circulations_ok : Prop := {
  ci_basis : forall e n xi, In e (fg_elements fg) -> (n < 2 ^ edges (fg_dim fg) (fg_type fg e))%nat ->
    length (lb_eval (basis (FE (fg_type fg e) n)) xi) = length (keys e) /\
    Forall (fun v => length v = d) (lb_eval (basis (FE (fg_type fg e) n)) xi);
  ci_size : forall e n f, In e (fg_elements fg) -> (n < 2 ^ edges (fg_dim fg) (fg_type fg e))%nat ->
    length (linterp (FE (fg_type fg e) n) f) = length (keys e);
  ci_inside : forall e n f h, In e (fg_elements fg) -> (n < 2 ^ edges (fg_dim fg) (fg_type fg e))%nat ->
    (forall xi, inside e xi -> f xi = h xi) -> linterp (FE (fg_type fg e) n) f = linterp (FE (fg_type fg e) n) h;
  ci_dual : forall e n cs, In e (fg_elements fg) -> (n < 2 ^ edges (fg_dim fg) (fg_type fg e))%nat -> length cs = length (keys e) ->
    linterp (FE (fg_type fg e) n) (reference_field d (basis (FE (fg_type fg e) n)) cs) = cs;
  ci_edge : forall e n f a s m, In e (fg_elements fg) -> (n < 2 ^ edges (fg_dim fg) (fg_type fg e))%nat ->
    nth_error (keys e) a = Some (s, (d - 1)%nat, m) ->
    nth a (linterp (FE (fg_type fg e) n) f) 0 = (if bit n s then -1 else 1) * mean e s (fun xi => dot d (f xi) (tau e s));
  ci_local : forall e s t w w', In e (fg_elements fg) -> subtype g e s (d - 1) t -> (forall xi, on_edge e s xi -> w xi = w' xi) ->
    mean e s w = mean e s w';
  ci_opp : forall e s w, mean e s (fun xi => - w xi) = - mean e s w;
  ci_shared : forall e s t e' s' t' w w', In e (fg_elements fg) -> In e' (fg_elements fg) -> e <> e' ->
    subtype g e s (d - 1) t -> subtype g e' s' (d - 1) t' -> g_sub g e s (d - 1) = g_sub g e' s' (d - 1) ->
    (forall xi xi', on_edge e s xi -> on_edge e' s' xi' -> position e xi = position e' xi' -> w xi = w' xi') ->
    mean e' s' w' = mean e s w;
  ci_edge_inside : forall e s t xi, In e (fg_elements fg) -> subtype g e s (d - 1) t -> on_edge e s xi -> inside e xi;
  ci_tau : forall e s t, In e (fg_elements fg) -> subtype g e s (d - 1) t -> length (tau e s) = d
}.

(** The grid: a common edge has the same two vertices in both elements, and the edge vectors
    are the same or opposite, according to the vertex that is the first one. *)
Definition common_edges_ok (G : E -> geo) : Prop :=
  (forall e xi, In e (fg_elements fg) -> inside e xi -> geo_ok d (G e) xi) /\
  (forall e s t, In e (fg_elements fg) -> subtype g e s (d - 1) t -> (s < edges (fg_dim fg) (fg_type fg e))%nat) /\
  (forall e s t e' s' t', In e (fg_elements fg) -> In e' (fg_elements fg) -> e <> e' ->
     subtype g e s (d - 1) t -> subtype g e' s' (d - 1) t' -> g_sub g e s (d - 1) = g_sub g e' s' (d - 1) ->
     (edge_ends fg e s = edge_ends fg e' s' \/ edge_ends fg e s = (snd (edge_ends fg e' s'), fst (edge_ends fg e' s'))) /\
     forall xi xi', on_edge e s xi -> on_edge e' s' xi' -> position e xi = position e' xi' ->
       (edge_dir fg e s false = edge_dir fg e' s' false -> push d (G e') xi' (tau e' s') = push d (G e) xi (tau e s)) /\
       (edge_dir fg e s false <> edge_dir fg e' s' false -> push d (G e') xi' (tau e' s') = map Ropp (push d (G e) xi (tau e s)))).
End Circulations.
