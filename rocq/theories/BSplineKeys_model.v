(** Local keys of B-spline finite elements (BSplineLocalCoefficients,
    bsplinebasis.hh:182-339).

    A LocalKey is a triple (subEntity, codim, index).  The vector subEntity is written
    from front to back; it is modelled as the list of the values written, and a list
    whose length differs from size() (an access out of range, or the assert) is [None]. *)
From Coq Require Import List Arith Bool.
From Verif Require Import Lib BSpline_model.
Import ListNotations.
Local Open Scope nat_scope.

Notation key := (nat * nat * nat)%type (only parsing).

(** bsplinebasis.hh:198-217 (setup1d) *)
Definition setup1d (n : nat) : list nat :=
  if n =? 1 then [0] else [0] ++ repeat 0 (n - 2) ++ [1].

(** bsplinebasis.hh:219-259 (setup2d), called for n0, n1 > 1 *)
Definition setup2d (n0 n1 : nat) : list nat :=
  ([0] ++ repeat 2 (n0 - 2) ++ [1]) ++
  concat (repeat ([0] ++ repeat 0 (n0 - 2) ++ [1]) (n1 - 2)) ++
  ([2] ++ repeat 3 (n0 - 2) ++ [3]).

(** bsplinebasis.hh:270-283: codimension of the DOF with multi-index [m] (multiindex,
    186-195, is [getIJK] of the B-spline model) *)
Fixpoint lc_codim (sizes m : list nat) : nat :=
  match sizes, m with
  | n :: ns, i :: is => (if (i =? 0) || (i =? n - 1) then 1 else 0) + lc_codim ns is
  | _, _ => 0
  end.

(** bsplinebasis.hh:290-302: index within the subentity; the loop runs from the last
    direction to the first *)
Fixpoint lc_index (sizes m : list nat) : nat :=
  match sizes, m with
  | n :: ns, i :: is =>
      let index := lc_index ns is in
      if (0 <? i) && (i <? n - 1) then (n - 1) * index + (i - 1) else index
  | _, _ => 0
  end.

(** bsplinebasis.hh:304-319: subentities; zero initialised where no setup applies *)
Definition lc_subEntity (sizes : list nat) : option (list nat) :=
  let size := prod sizes in
  let written :=
    if 0 <? size then
      match sizes with
      | [n] => setup1d n
      | [n0; n1] => if (1 <? n0) && (1 <? n1) then setup2d n0 n1 else repeat 0 size
      | _ => repeat 0 size
      end
    else [] in
  if length written =? size then Some written else None.

(** bsplinebasis.hh:263-323 (init) *)
Definition lc_init (sizes : list nat) : option (list key) :=
  subEntity <- lc_subEntity sizes ;;
  Some (map (fun i => let m := getIJK i sizes in (nth i subEntity 0, lc_codim sizes m, lc_index sizes m))
          (seq 0 (prod sizes))).
