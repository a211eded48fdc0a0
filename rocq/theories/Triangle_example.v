(** Grids of one and of two triangles, as examples. *)
From Coq Require Import Reals Lra Lia List Arith Bool.
From Verif Require Import Nodal_spec Orientation_model Orientation_spec Triangle_spec Triangle_proofs.
From Verif Require Hermite_props.
Import ListNotations.
Local Open Scope R_scope.

Definition P (e : bool) : list (list R) := if e then Hermite_props.ex_P' else Hermite_props.ex_P.
Definition position (n : nat) : list R := match n with 0%nat => [0; 0] | 7%nat => [2; 0] | 2%nat => [1; 3] | _ => [4; 2] end.
Definition vertices (e : bool) : list nat := (if e then [7; 3; 2] else [0; 7; 2])%nat.
Definition view (els : list bool) : fgrid bool :=
  FG bool 2 (length els) els (fun e => if e then 1%nat else 0%nat) (fun _ => Simplex) (fun _ => true) (fun _ => [])
     (fun _ i j => if (j =? 0)%nat then fst (edge_vertices i) else snd (edge_vertices i)) (fun e v => nth v (vertices e) 0%nat).
Definition one := view [false].
Definition two := view [false; true].
Lemma view_ok els : (forall e : bool, In e els -> (if e then 1 else 0) < length els)%nat -> triangles (view els) P position.
Proof.
  intros L. constructor.
  - constructor; cbn [view fg_dim fg_elements fg_type fg_idx fg_size fg_inters]; auto; try contradiction.
    intros e e' _ _. destruct e, e'; auto; discriminate.
  - reflexivity.
  - reflexivity.
  - intros e i _ _. cbn. destruct (edge_vertices i); reflexivity.
  - intros [|] _; [apply Hermite_props.ex_simplex'|apply Hermite_props.ex_simplex].
  - intros e i _. revert i. apply three_cases; destruct e; reflexivity.
Qed.
Lemma one_ok : triangles one P position.
Proof. apply view_ok. intros e [<-|[]]. cbn. lia. Qed.
Lemma two_ok : triangles two P position.
Proof. apply view_ok. intros [|] _; cbn; lia. Qed.
