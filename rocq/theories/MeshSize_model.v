(** The average mesh size at subentities: /repo/dune/functions/common/mapperutilities.hh.
    Simplifications: FieldType is R; unsigned int is nat; a division by zero adjacent
    elements (NaN in the code) is some real number. *)
From Coq Require Import Reals List Arith.
From Verif Require Import Lib GeometryType_model Mapper_model.
From Verif Require Orientation_model.
Import ListNotations.
Local Open Scope R_scope.

Section MeshSize.
Context {E X : Type}.
Variables (g : grid E X) (mp : mapper X) (lay : gt -> nat).

(** mapperutilities.hh 48-63, MapperElementSubIndices::bind *)
Definition subIndices (e : E) : list nat :=
  flat_map (fun codim =>
    flat_map (fun subEntity =>
      match nth_error (subtypes (g_type g e) codim) subEntity with
      | Some t =>
          let c := lay t in
          if (0 <? c)%nat then let firstIndex := subIndex g mp e subEntity codim in seq firstIndex c else []
      | None => []
      end) (seq 0 (length (subtypes (g_type g e) codim))))
    (seq 0 (g_dim g + 1)).

Variables (elements : list E) (volume : E -> R).
(** mapperutilities.hh 106-107 *)
Definition touch (A : R) (i : nat) (s : list nat * list R) : option (list nat * list R) :=
  n <- nth_error (fst s) i ;; v <- nth_error (snd s) i ;;
  v' <- upd (snd s) i (v + A) ;; n' <- upd (fst s) i (S n) ;; Some (n', v').
(** mapperutilities.hh 95-115, computeAverageSubEntityMeshSize *)
Definition computeAverageSubEntityMeshSize : option (list R) :=
  s <- Orientation_model.foreach elements (fun e => Orientation_model.foreach (subIndices e) (touch (volume e)))
         (repeat 0%nat (mp_size mp), repeat 0 (mp_size mp)) ;;
  Some (map (fun p => Rpower (fst p / INR (snd p)) (1 / INR (g_dim g))) (combine (snd s) (fst s))).
End MeshSize.
(** Dune::mcmgVertexLayout() (dune-grid) *)
(** Used in cubichermitebasis.hh:762. *)
Definition mcmgVertexLayout (t : gt) : nat := if (gt_dim t =? 0)%nat then 1%nat else 0%nat.
