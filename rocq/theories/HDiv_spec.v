(** What it means that the normal components of Raviart-Thomas and Brezzi-Douglas-Marini
    functions are continuous (C64), and what the grid and the finite elements have to provide
    for that. *)
From Coq Require Import List Arith Bool Reals.
From Verif Require Import Lib GeometryType_model Mapper_model Mapper_spec DiscreteFunction_model Orientation_model Orientation_spec
  Piola_model Piola_spec.
Import ListNotations.
Local Open Scope R_scope.

Section HDiv.
Context {E X Q : Type}.
Variable g : grid E X.
Variable fg : fgrid E.
Variable d : nat.
Variable keys : E -> list localkey.
(** the local basis (dune-localfunctions) of a finite element variant *)
Variable basis : fe -> lbasis.
(** outer area vectors of the facets of the reference element *)
Variable nu : E -> nat -> list R.
(** local coordinate [xi] is the point with parameter [q] of facet [i]; [flip q] is the
    parameter of the same point seen from the other side *)
Variable at_facet : E -> nat -> pt -> Q -> Prop.
Variable flip : Q -> Q.
(** the flux density on a facet of function [m] of the facet, if its bit is not set *)
Variable psi : gt -> nat -> Q -> R.

(** The two descriptions of the grid agree: elements with a common facet are neighbours
    there, and only of each other. *)
Definition neighbours_ok : Prop := forall e i t e' j t',
  In e (fg_elements fg) -> In e' (fg_elements fg) -> e <> e' -> subtype g e i 1 t -> subtype g e' j 1 t' ->
  g_sub g e i 1 = g_sub g e' j 1 -> neighbour_at fg e i e' /\ conforming_at fg e i.

(** Contract of the finite elements, for one element: the flux of a function through a facet
    is zero unless it belongs to this facet; then it is the flux density of the facet, which
    changes its sign if the bit of the facet is set, for functions with even number only.
    (dune-localfunctions: the functions of a facet are moments against polynomials of degree
    0, 1, 2, ...; the moments of odd degree change their sign by themselves when the facet is
    seen from the other side.) *)
Definition facet_sign (b : bool) (m : nat) : R := if b && Nat.even m then -1 else 1.
Record fluxes_ok : Prop := {
  fx_size : forall e n xi, In e (fg_elements fg) -> (n < 2 ^ facets (fg_dim fg) (fg_type fg e))%nat ->
    length (lb_eval (basis (FE (fg_type fg e) n)) xi) = length (keys e) /\
    Forall (fun v => length v = d) (lb_eval (basis (FE (fg_type fg e) n)) xi);
  fx_flux : forall e n i t xi q a s c m, In e (fg_elements fg) -> (n < 2 ^ facets (fg_dim fg) (fg_type fg e))%nat ->
    subtype g e i 1 t -> at_facet e i xi q -> nth_error (keys e) a = Some (s, c, m) ->
    dot d (nth a (lb_eval (basis (FE (fg_type fg e) n)) xi) []) (nu e i) =
    if Nat.eqb s i && Nat.eqb c 1 then facet_sign (bit n i) m * psi t m q else 0;
  fx_type : forall t t' m q, same_type t t' -> psi t m q = psi t' m q;
  fx_back : forall q, flip (flip q) = q;
  fx_flip : forall t m q, psi t m (flip q) = (if Nat.even m then 1 else -1) * psi t m q
}.

(** Lowest order: one function per facet, with a constant flux density. *)
Definition constant_fluxes_ok (on_facet : E -> nat -> pt -> Prop) (c0 : gt -> R) : Prop :=
  (forall e n xi, In e (fg_elements fg) -> (n < 2 ^ facets (fg_dim fg) (fg_type fg e))%nat ->
    length (lb_eval (basis (FE (fg_type fg e) n)) xi) = length (keys e) /\
    Forall (fun v => length v = d) (lb_eval (basis (FE (fg_type fg e) n)) xi)) /\
  (forall e n i t xi a s c m, In e (fg_elements fg) -> (n < 2 ^ facets (fg_dim fg) (fg_type fg e))%nat ->
    subtype g e i 1 t -> on_facet e i xi -> nth_error (keys e) a = Some (s, c, m) ->
    dot d (nth a (lb_eval (basis (FE (fg_type fg e) n)) xi) []) (nu e i) =
    if Nat.eqb s i && Nat.eqb c 1 then (if bit n i then -1 else 1) * c0 t else 0) /\
  (forall t t', same_type t t' -> c0 t = c0 t').

(** [xi] in [e] and [xi'] in [e'] are the same point of the facet that is number [i] in [e]
    and [j] in [e']; [N] is the area vector of the facet there, pointing from [e] to [e']. *)
Record same_facet_point (G : E -> geo) (e : E) (i : nat) (xi : pt) (e' : E) (j : nat) (xi' : pt) (N : list R) : Prop := {
  sf_in : In e (fg_elements fg) /\ In e' (fg_elements fg) /\ e <> e';
  sf_types : exists t t', subtype g e i 1 t /\ subtype g e' j 1 t';
  sf_facet : g_sub g e i 1 = g_sub g e' j 1;
  sf_points : exists q, at_facet e i xi q /\ at_facet e' j xi' (flip q);
  sf_geo : geo_ok d (G e) xi /\ geo_ok d (G e') xi';
  sf_normal : length N = d /\ image_area_vector d (G e) xi (nu e i) N /\ image_area_vector d (G e') xi' (nu e' j) (map Ropp N)
}.
End HDiv.
