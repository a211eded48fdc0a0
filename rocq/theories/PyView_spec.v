(** What a Python user expects of bases, local views and tree nodes. *)
From Coq Require Import List Arith Bool ZArith.
From Verif Require Import Lib Basis_model PyView_model.
Import ListNotations.

Section Spec.
Context {E : Type}.

(** Everything a program can see of a basis and a local view of it. *)
Record seen := Seen {
  s_dimension : nat; s_sizes : list (option nat); s_element : option E; s_size : nat; s_maxsize : nat;
  s_tree : option (node E); s_indices : list (option mi) }.
(** after the calls [h] on a new view, with the questions size(p) for [p] in [ps] and index(i)
    for [i] in [is] *)
Definition see (b : pybasis E) (h : list (viewop E)) (ps : list mi) (is : list nat) : option seen :=
  v <- pv_run b (pv_new b) h ;;
  Some (Seen (py_dim b) (map (py_size b) ps) (pv_element v) (pv_size v) (pv_maxsize b) (pv_tree b v) (map (pv_index v) is)).

(** The variables for nodes as a user thinks of them: the path from the tree to the node, and
    whether the view was bound since the node was asked for.  view.tree() is always up to
    date. *)
Definition spec_step (l : list (list nat * bool)) (o : nodeop E) : option (list (list nat * bool)) :=
  match o with
  | NBind _ => Some (map (fun x => (fst x, match fst x with [] => false | _ => true end)) l)
  | NUnbind => Some l
  | NTree => Some (l ++ [([], false)])
  | NChild h i => x <- nth_error l h ;; Some (l ++ [(fst x ++ [i], snd x)])
  end.
Fixpoint spec_run (l : list (list nat * bool)) (h : list (nodeop E)) : option (list (list nat * bool)) :=
  match h with [] => Some l | o :: h => l' <- spec_step l o ;; spec_run l' h end.

(** A basis and subspace bases of subspace bases of it *)
Definition nested (pb : prebasis E) (paths : list (list nat)) : pybasis E := fold_left PSubspace paths (PGlobal pb).

(** All numbers of a basis are below 2^31. *)
Definition fits (n : nat) : Prop := (Z.of_nat n < 2 ^ 31)%Z.
Definition small (pb : prebasis E) : Prop :=
  fits (pb_dim pb) /\ fits (pb_maxnode pb) /\ forall p n, pb_size pb p = Some n -> fits n.
End Spec.
Arguments seen : clear implicits.
