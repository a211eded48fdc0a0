(** Model of the assembly in examples/advection-reaction-dg.cc: as in Assembly_model, and in addition the coupling of
    the DOFs of an element and of its neighbours, with a second local view.

    Simplifications: those of Assembly_model.  The intersections of an element are given as the list of the elements outside
    ([None] at the boundary); the matrices of the intersections (getOffDiagonalLocalMatrix, lines 129-168) are parameters
    with one row for each DOF inside and one column for each DOF outside. *)
From Coq Require Import List Arith Bool Reals.
From Verif Require Import Lib Basis_model Assembly_model.
Import ListNotations.

Section DG.
Context {E : Type}.
(** intersections(gridView, element) with neighbor() and outside() (advection-reaction-dg.cc:247-250 and 348-355). *)
Variable inters : E -> list (option E).
(** elementMatrix and localRhs (lines 328-329, 377-379), and elementMatrix for the k-th intersection of an element (line 357). *)
Variables (loc : E -> nat -> nat -> R) (off : E -> nat -> nat -> nat -> R) (locb : E -> nat -> R).

(** advection-reaction-dg.cc:257-270; index(i)[0] is taken for indices with one digit only. *)
Definition pattern_pair (n : nat) (v w : lview E) (nb : list (nat * nat)) : option (list (nat * nat)) :=
  forl (lv_size v) 0 (fun i nb => r <- view_number v i ;;
    forl (lv_size w) 0 (fun j nb => c <- view_number w j ;; pat_add n r c nb) nb) nb.
(** advection-reaction-dg.cc:246-272 *)
Fixpoint pattern_inters (pb : prebasis E) (n : nat) (v : lview E) (is : list (option E)) (nb : list (nat * nat)) : option (list (nat * nat)) :=
  match is with
  | [] => Some nb
  | None :: r => pattern_inters pb n v r nb
  | Some o :: r => w <- lv_bind pb (lv_new pb) o ;; nb' <- pattern_pair n v w nb ;; pattern_inters pb n v r nb'
  end.
(** advection-reaction-dg.cc:223-274 *)
Fixpoint pattern_dg (pb : prebasis E) (n : nat) (v : lview E) (es : list E) (nb : list (nat * nat)) : option (list (nat * nat)) :=
  match es with
  | [] => Some nb
  | e :: r =>
      v' <- lv_bind pb v e ;; nb1 <- pattern_element n v' nb ;;
      nb2 <- pattern_inters pb n v' (inters e) nb1 ;; pattern_dg pb n v' r nb2
  end.

(** advection-reaction-dg.cc:359-373 *)
Definition add_pair (e : E) (k : nat) (v w : lview E) (A : spm) : option spm :=
  forl (lv_size v) 0 (fun i A => r <- view_number v i ;;
    forl (lv_size w) 0 (fun j A => c <- view_number w j ;; mat_add r c (off e k i j) A) A) A.
(** advection-reaction-dg.cc:348-374, from the k-th intersection on *)
Fixpoint add_inters (pb : prebasis E) (e : E) (v : lview E) (k : nat) (is : list (option E)) (A : spm) : option spm :=
  match is with
  | [] => Some A
  | None :: r => add_inters pb e v (k + 1) r A
  | Some o :: r => w <- lv_bind pb (lv_new pb) o ;; A' <- add_pair e k v w A ;; add_inters pb e v (k + 1) r A'
  end.
(** advection-reaction-dg.cc:315-389 *)
Fixpoint assemble_dg_elements (pb : prebasis E) (n : nat) (v : lview E) (es : list E) (A : spm) (b : nat -> R) : option (spm * (nat -> R)) :=
  match es with
  | [] => Some (A, b)
  | e :: r =>
      v' <- lv_bind pb v e ;;
      A1 <- add_matrix loc e v' A ;;
      A2 <- add_inters pb e v' 0 (inters e) A1 ;;
      b' <- add_rhs locb n e v' b ;;
      assemble_dg_elements pb n v' r A2 b'
  end.
(** advection-reaction-dg.cc:279-391 *)
Definition assemble_dg (pb : prebasis E) (es : list E) : option (spm * (nat -> R)) :=
  n <- pb_size pb [] ;;
  nb <- pattern_dg pb n (lv_new pb) es [] ;;
  assemble_dg_elements pb n (lv_new pb) es (SM n nb (fun _ _ => 0%R)) (fun _ => 0%R).
End DG.
