(** C98: the hypotheses are met. *)
From Coq Require Import List Arith Lia Bool Reals.
From Verif Require Import Lib Basis_model Basis_spec Basis_ok Basis_view Basis_proofs Basis_props
  Container_model Container_spec Container_proofs Container_props Interpolate_model Interpolate_props InterpLinear_props
  Mapper_props Lagrange_props DiscreteFunction_model DiscreteFunction_spec Projection_spec Conforming_props
  SubEntityDOFs_model SubEntityDOFs_spec SubEntityDOFs_props LagrangeNodes_examples BoundaryTrace_spec BoundaryTrace_props BoundaryTrace_examples
  PyArrays_model PyArrays_spec PyArrays_props BoundaryMarks_model BoundaryMarks_spec BoundaryMarks_props.
Import ListNotations.

(** std::vector<std::array<char,2>>: only the scalars are assignable. *)
Definition ex98_assignable (t : cty) : bool := match t with TScalar => true | _ => false end.
Definition ex98_direct (x : bool) (c : cont bool) : cont bool := CVal x.
Example C98_assignment_ok : assignment_ok ex98_assignable ex98_direct.
Proof.
  split; [reflexivity|]. intros [|?|? ?|?] x c; cbn; unfold ex98_direct; try discriminate. intros _. destruct c; [|tauto]. intros _. split; [reflexivity|].
  intros [|i p] y H; cbn in H; [congruence|discriminate].
Qed.
(** BlockVector<FieldVector<char,2>>: all types are assignable, and fill themselves. *)
Fixpoint ex98_fill (x : bool) (c : cont bool) : cont bool := match c with CVal _ => CVal x | CBlk l => CBlk (map (ex98_fill x) l) end.
Example C98_assignment_ok_istl : assignment_ok (fun _ => true) ex98_fill.
Proof.
  split; [reflexivity|]. intros t x c _ _. induction c as [y|l IH] using cont_ind'.
  - split; [reflexivity|]. intros [|i p] z H; cbn in H; [congruence|discriminate].
  - cbn [ex98_fill]. apply filled_blocks. induction IH; cbn; constructor; auto.
Qed.

(** The displacement of third order on a triangle and a square (C93): the marker container is
    a vector that still has three entries from an earlier use. *)
Definition ex98_old : cont bool := CBlk (repeat (CBlk [CVal true; CVal true]) 3).
Example C98_container : has_ty ex67_t ex98_old /\ solid_entries ex67_t (sp_tree (meaning ex63_b)).
Proof. split; [repeat constructor|]. exact (call_entries _ _ _ _ _ _ _ (ex93_call (fun _ _ => 0%R))). Qed.
Definition ex98_marked : res (cont bool) := mark_boundary ex98_assignable ex98_direct ex93_co ex67_t (build ex63_b) [] ex93_bg ex98_old.
Definition ex98_flags (r : res (cont bool)) : list (list bool) :=
  match r with Done (CBlk l) => map (fun c => match c with CBlk l' => map (fun x => match x with CVal y => y | _ => false end) l' | _ => [] end) l | _ => [] end.
Definition on_boundary_22 : list bool :=
  [true; true; true; true; true; true; true; true; true; false; false; true; true; true; true; true; true; false; false; false; false; false].
Example C98_met : ex98_flags ex98_marked = map (fun x => [x; x]) on_boundary_22 /\
  ex98_flags (mark_boundary (fun _ => true) ex98_fill ex93_co ex67_t (build ex63_b) [] ex93_bg ex98_old) = map (fun x => [x; x]) on_boundary_22.
Proof. split; vm_compute; reflexivity. Qed.
(** Only the second component: forEachBoundaryDOF(subspaceBasis(basis, 1), ...). *)
Example C98_component_met : boundary_ok ex63_b ex93_co all_els ex93_bg [1] /\
  ex98_flags (mark_boundary ex98_assignable ex98_direct ex93_co ex67_t (build ex63_b) [1] ex93_bg ex98_old) = map (fun x => [false; x]) on_boundary_22.
Proof.
  split; [|vm_compute; reflexivity]. destruct C93_boundary_ok as [H1 H2 H3 _]. constructor; auto. cbn. eauto.
Qed.

(** The contract of the assignment is needed: std::bitset<2> is assignable from a scalar, which
    sets the bits of a number, so that the backend sets one bit of each block only. *)
Definition ex98_bitset (x : bool) (c : cont bool) : cont bool :=
  match c with CBlk (_ :: r) => CBlk (CVal x :: map (fun _ => CVal false) r) | _ => CVal x end.
Example C98_bitset :
  backend_assign (fun t => match t with TDyn _ => false | _ => true end) ex98_bitset ex67_t true (CBlk (repeat (CBlk [CVal false; CVal false]) 2)) =
  Some (CBlk (repeat (CBlk [CVal true; CVal false]) 2)).
Proof. reflexivity. Qed.

(** Boundary values with this container as mask: all the calls return. *)
Example C98_dirichlet_case : forall corner1 corner2, exists dm d1 d d2, let s := subspace_of_root (build ex63_b) [] in
  ex98_marked = Done dm /\
  interpolate ex67_t (fun _ => true) (ex67_interp corner1) 0%R s [false; true] (CBlk []) = Done d1 /\
  interpolate ex67_t (mask_of ex67_t dm) (ex67_interp corner2) 0%R s [false; true] d1 = Done d /\
  interpolate ex67_t (fun _ => true) (ex67_interp corner2) 0%R s [false; true] (CBlk []) = Done d2 /\
  forall m, boundary_dof ex63_b ex93_co [] ex93_bg m -> contents ex67_t d m = contents ex67_t d2 m.
Proof.
  intros corner1 corner2.
  destruct (C98_marks_iff_resizable ex63_b all_els ex93_co [] ex93_bg ex67_t ex98_assignable ex98_direct (so_wf _ _ _ _ C63_setup_ok) C93_boundary_ok
    C98_assignment_ok (proj2 C98_container) ex98_old (proj1 C98_container)) as (dm & HM).
  { pose proof (C21_resize_returns_iff_compatible ex63_b all_els false ex67_t ex98_old (so_wf _ _ _ _ C63_setup_ok) (proj1 C98_container)) as HR.
    match type of HR with match ?x with _ => _ end => destruct x eqn:Q end; [exact HR|vm_compute in Q; discriminate Q|destruct HR]. }
  pose proof (C98_marks ex63_b all_els ex93_co [] ex93_bg ex67_t ex98_assignable ex98_direct (so_wf _ _ _ _ C63_setup_ok) C93_boundary_ok
    C98_assignment_ok (proj2 C98_container) ex98_old (proj1 C98_container)) as M. rewrite HM in M. destruct M as [_ M].
  set (mask := mask_of ex67_t dm).
  destruct (two_calls ex63_b all_els ex67_t 0%R [] [] (ex67_interp corner1) (ex67_interp corner2) [false; true] [false; true] (CBlk []))
    as [(T1 & T2 & T3 & T4)|(c0 & ws1 & ws2 & ms & HMs & Ht & HA & HP & F1 & F2 & W1 & W2 & R1 & R2)]; auto using ex93_call.
  - intros; exact I.
  - exfalso. pose proof (C25_throws_iff_resize_throws ex63_b all_els [] ex67_t (fun _ => true) (ex67_interp corner1) 0%R (CBlk []) [false; true] (ex93_call corner1)) as HT.
    rewrite T3 in HT. vm_compute in HT. discriminate HT.
  - assert (IN : forall k k' w, In w (marked k ws1 ++ marked k' ws2) -> In (fst w) ms).
    { intros k k' [m x] Hw. apply HMs. exists x. apply in_app_or in Hw as [Hw|Hw]; unfold marked in Hw; apply filter_In in Hw as [Hw _]; apply in_or_app; auto. }
    destruct (writes_final ex67_t ms (marked all ws1) c0 Ht HA HP) as (d1 & E1 & _).
    { intros w Hw. apply (IN all all). apply in_or_app. auto. }
    destruct (writes_final ex67_t ms (marked all ws2) c0 Ht HA HP) as (d2 & E2 & _).
    { intros w Hw. apply (IN all all). apply in_or_app. auto. }
    destruct (writes_final ex67_t ms (marked all ws1 ++ marked mask ws2) c0 Ht HA HP) as (d & E & _).
    { intros w Hw. now apply (IN all mask). }
    specialize (R1 all mask). specialize (W1 all). specialize (W2 all). rewrite E1 in W1. rewrite E2 in W2. rewrite E in R1. rewrite W1 in R1.
    exists dm, d1, d, d2. cbn zeta. split; [exact HM|]. split; [exact W1|]. split; [exact R1|]. split; [exact W2|].
    intros m Hm.
    assert (RR : rbind (interpolate ex67_t all (ex67_interp corner1) 0%R (subspace_of_root (build ex63_b) []) [false; true] (CBlk []))
      (fun c' => interpolate ex67_t mask (ex67_interp corner2) 0%R (subspace_of_root (build ex63_b) []) [false; true] c') = Done d) by (rewrite W1; exact R1).
    destruct (C91_boundary_values ex63_b all_els ex67_t 0%R [] mask (ex67_interp corner1) (ex67_interp corner2) [false; true] (CBlk []) (ex93_call corner1) (ex93_call corner2)) as (_ & _ & Q).
    unfold contents. rewrite (Q d d1 d2 m RR W1 W2).
    + unfold mask, mask_of. destruct (M m) as [M1 _]; [|now rewrite (M1 Hm)].
      apply (boundary_dof_global ex63_b all_els ex93_co [] ex93_bg (so_wf _ _ _ _ C63_setup_ok) C93_boundary_ok m Hm).
    + destruct Hm as (e & x & v & k & Fe & _ & Hv & (p0 & n & i & j & c1 & D & L & LI & _) & Hm). exists e, p0, i. split; auto. exists v, n, k. auto.
Qed.

(** Python: linear functions on two intervals, the end points are the boundary. *)
Definition ex98_co : coeffs nat := CO (fun _ _ => [(0, 1); (1, 1)]) (fun e s c cc j => (cc =? 1) && (c =? 1) && (j =? s)).
Definition ex98_bg : bgrid nat := BG [1; 0] (fun _ => true) (fun e => if e =? 0 then [(true, 0); (false, 1)] else [(false, 0); (true, 1)]).
Example C98_python_met : wf ex_els ex83_b /\ boundary_ok ex83_b ex98_co ex_els ex98_bg [] /\ flat ex83_b /\
  pb_size (build ex83_b) [] = Some (pb_dim (build ex83_b)) /\
  py_mark_boundary ex98_co (build ex83_b) ex98_bg = Some [true; true; false; false; true; true].
Proof.
  split; [exact ex83_wf|]. split; [|split; [exact (proj1 (proj2 C83_hypotheses_met))|split; reflexivity]]. constructor.
  - intros e [<-|[<-|[]]]; unfold ex_els; lia.
  - discriminate.
  - intros e v He Hv q l D L _. destruct (ex83_leaf e v q l) as [_ ->]; [repeat split; auto|]. reflexivity.
  - cbn. eauto.
Qed.
