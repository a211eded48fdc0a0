(** C58: basis.update(gridView) leaves the basis in the state a new basis has. *)
From Coq Require Import List Arith Lia Bool Reals.
From Verif Require Import Lib Basis_model GeometryType_model Mapper_model Mapper_props Mapper_blocks Orientation_model Families_model Update_model Update_spec Update_proofs.
From Verif Require Lagrange_model BSpline_model Periodic_model.
Import ListNotations.
Local Open Scope nat_scope.

Section Theorems.
Context {E X H D : Type}.
Variable mcmg : layout -> view E X -> option (mapper X).
Variable dim : nat.
Variables (lk : nat -> gt -> list localkey) (tk : gt -> list localkey) (fk : family -> gt -> list localkey).
Notation world := (world E X H D).
Notation basis_new := (basis_new mcmg dim lk tk fk).
Notation basis_update := (basis_update mcmg dim).
Notation as_prebasis := (as_prebasis dim lk tk fk).

Lemma new_fits (w : world) r h o : basis_new w r h = Some o -> fits dim r o.
Proof. unfold Update_model.basis_new. intros K. destruct (construct _ _ _ _ _ _ _ _) eqn:Q; [|discriminate]. injection K as <-. apply init_fits. eapply construct_fits. exact Q. Qed.

(** A basis is created, the grid changes and the basis is updated, any number of times and with
    any grid views; some of these updates may throw.  Finally, in the state [w] of the grid, it
    is updated with the grid view [h].  If a new basis can be created there, then the update
    returns normally, and the updated basis is in the very state of the new one: grid view,
    mapper tables, orientations, mesh sizes, maximal node size. *)
Theorem C58_update (r : recipe D) (w0 w : world) (h0 h : H) (o0 fresh : obj X H D) (t : history) :
  complete r ->
  basis_new w0 r h0 = Some o0 ->
  (forall h', no_gaps mcmg (content w h')) ->
  basis_new w r h = Some fresh ->
  basis_update w h (run mcmg dim o0 t) = (fresh, true).
Proof.
  intros C K0 G K. apply new_fits in K0. unfold Update_model.basis_new in K. destruct (construct _ _ _ _ _ w r h) as [o'|] eqn:Q; [|discriminate]. injection K as <-.
  destruct (update_construct mcmg dim lk tk fk w G r C h _ o' (run_fits mcmg dim r t o0 K0) Q) as (o1 & U & I).
  unfold Update_model.basis_update. now rewrite U, I.
Qed.

(** Whatever the history, a normal return means that gridView() is the one passed in last. *)
Theorem C58_grid_view (r : recipe D) (w0 w : world) (h0 h h' : H) (o0 o1 : obj X H D) (t : history) :
  complete r ->
  basis_new w0 r h0 = Some o0 ->
  basis_update w h (run mcmg dim o0 t) = (o1, true) ->
  grid_view o1 = Some h' -> h' = h.
Proof.
  intros C K0 U V. apply new_fits in K0. unfold Update_model.basis_update in U. destruct (update mcmg w h (run mcmg dim o0 t)) as [o2 b] eqn:Q. destruct b; [|discriminate]. injection U as <-.
  exact (update_grid_view mcmg dim w r C h _ o2 h' (run_fits mcmg dim r t o0 K0) Q V).
Qed.

(** For Taylor-Hood and Morley bases, too, and all nestings with them: if update returns
    normally, then sizes, dimension, indices, node sizes and container descriptor are those of
    a new basis.  Missing: gridView(), and the orientations of the Morley element (below). *)
Theorem C58_numbering_partial (r : recipe D) (w0 w : world) (h0 h : H) (o0 o1 fresh : obj X H D) (t : history) :
  numbering r ->
  basis_new w0 r h0 = Some o0 ->
  (forall h', no_gaps mcmg (content w h')) ->
  basis_new w r h = Some fresh ->
  basis_update w h (run mcmg dim o0 t) = (o1, true) ->
  as_prebasis w o1 = as_prebasis w fresh.
Proof.
  intros C K0 G K U. apply new_fits in K0. unfold Update_model.basis_new in K. destruct (construct _ _ _ _ _ w r h) as [o'|] eqn:Q; [|discriminate]. injection K as <-.
  unfold Update_model.basis_update in U. destruct (update mcmg w h (run mcmg dim o0 t)) as [o2 b] eqn:V. destruct b; [|discriminate]. injection U as <-.
  exact (update_numbering mcmg dim lk tk fk w G r C h _ o' o2 (run_fits mcmg dim r t o0 K0) Q V).
Qed.

(** A Lagrange basis accepts in update exactly the grid views its constructor accepts, and an
    update that is refused for the element types changes nothing. *)
Theorem C58_lagrange_checks (n : nat) (w0 w : world) (h0 h : H) (o0 : obj X H D) (t : history) :
  g_dim (vw_grid (content w0 h0)) = dim -> g_dim (vw_grid (content w h)) = dim ->
  basis_new w0 (KLagrange n) h0 = Some o0 ->
  (basis_new w (KLagrange n) h <> None <-> snd (basis_update w h (run mcmg dim o0 t)) = true) /\
  (mcmg (fun g d => Some (lagrange_layout n g d)) (content w h) <> None ->
   snd (basis_update w h (run mcmg dim o0 t)) = false ->
   fst (basis_update w h (run mcmg dim o0 t)) = run mcmg dim o0 t).
Proof.
  intros GD0 GD K0. assert (F := run_fits mcmg dim _ t o0 (new_fits _ _ _ _ K0)).
  assert (N : negb ((dim =? 3) && (Lagrange_model.maxOrder3d <? n)) = true).
  { unfold Update_model.basis_new in K0. cbn [construct] in K0. unfold lagrange_new in K0. destruct (mapper_new _ _ _ _); [cbn [obind] in K0|discriminate].
    unfold Lagrange_model.lagrange_ctor in K0. rewrite GD0 in K0. destruct (negb ((dim =? 3) && _)); [reflexivity|]. rewrite andb_false_r in K0. discriminate. }
  remember (run mcmg dim o0 t) as o. clear Heqo K0 o0. inversion F as [n' l [L1 L2]| | | | | | | |]; subst. unfold Update_model.basis_new, Update_model.basis_update. cbn [construct update].
  unfold lagrange_new, lagrange_update. rewrite mapper_update_new, L2. unfold mapper_new, Lagrange_model.lagrange_ctor, lagrange_check. rewrite GD, N, andb_true_r.
  destruct (mcmg _ _); cbn [obind]; destruct (negb _ && negb _); cbn; repeat split; intros; try discriminate; try congruence.
Qed.
End Theorems.

(** * Concrete grids: disjoint elements of one type *)
Definition triple_eqb (x y : nat * nat * nat) : bool := (fst (fst x) =? fst (fst y)) && (snd (fst x) =? snd (fst y)) && (snd x =? snd y).
Definition gtype_of (t : gt) : gtype := if isSimplex t then Simplex else if isCube t then Cube else if isPyramid t then Pyramid else Prism.
Definition cells (t : gt) (n : nat) : view nat (nat * nat * nat) :=
  VIEW (GRID (gt_dim t) (fun _ => t) (fun e i c => (e, i, c))) [t]
    (FG nat (gt_dim t) n (seq 0 n) (fun e => e) (fun _ => gtype_of t) (fun e => e <? n)
      (fun e => map (fun i => In_ nat i false None) (seq 0 (length (subtypes t 1))))
      (fun _ i j => match i, j with 0, 0 => 0 | 0, _ => 1 | 1, 0 => 0 | 1, _ => 2 | _, 0 => 1 | _, _ => 2 end) (fun e v => 3 * e + v))
    (fun e => e <? n) (fun _ => 1%R) (fun x => fst (fst x) * length (subtypes t (gt_dim t)) + snd (fst x)) (n * length (subtypes t 1))
    (fun x => fst (fst x) * length (subtypes t 1) + snd (fst x))
    (fun _ => Lagrange_model.RE t (fun i _ _ => [i])) (fun e v => 3 * e + v).
(** the mapper: blocks of consecutive indices, as many as the layout says *)
Definition layout_blocks (lay : layout) (v : view nat (nat * nat * nat)) : option (list (nat * nat * nat * nat)) :=
  all_some (flat_map (fun e => flat_map (fun c => map (fun p => option_map (fun k => (e, fst p, c, k)) (lay (snd p) (g_dim (vw_grid v))))
      (combine (seq 0 (length (subtypes (g_type (vw_grid v) e) c))) (subtypes (g_type (vw_grid v) e) c)))
    (seq 0 (g_dim (vw_grid v) + 1))) (fg_elements (vw_fgrid v))).
Definition ex_mcmg (lay : layout) (v : view nat (nat * nat * nat)) : option (mapper (nat * nat * nat)) :=
  l <- layout_blocks lay v ;; Some (block_mapper triple_eqb l).
Definition tria : gt := [false; false].
Definition quad : gt := [true; true].
Definition tetra : gt := [false; false; false].
Definition prism : gt := [true; false; false].
(** Handle h shows h+1 elements, but at most 3; the sub-domain is what handle 0 shows. *)
Definition ex_world (t : gt) : world nat (nat * nat * nat) nat unit := WORLD (fun h => cells t (S (min h 2))) (fun _ => 0).
Definition ex_lk (n : nat) (t : gt) : list localkey := all_keys (fun s => lagrange_layout n s (gt_dim t)) t.
Definition ex_fk (f : family) (t : gt) : list localkey := all_keys (fun s => match family_layout 2 f s (gt_dim t) with Some n => n | None => 0 end) t.
Definition ex_tk (t : gt) : list localkey := map (fun i => (i, 1, 0)) (seq 0 (length (subtypes t 1))).
Notation ex_new := (basis_new ex_mcmg 2 ex_lk ex_tk ex_fk).
Notation ex_update := (basis_update ex_mcmg 2).
Notation ex_pb := (as_prebasis 2 ex_lk ex_tk ex_fk).

(** What a basis holds of the element orientations of the Morley element. *)
Definition morley_data {X H D} (o : obj X H D) : option (list (list bool)) := match o with OMapper Morley _ _ _ (XMorley _ d) => Some d | _ => None end.
Definition morley_mapper {X H D} (o : obj X H D) : option (mobj X H) := match o with OMapper Morley _ _ _ (XMorley m _) => Some m | _ => None end.
(** After adaptation the same handle shows n elements. *)
Definition ex_adapted (t : gt) (n : nat) : world nat (nat * nat * nat) nat unit := WORLD (fun _ => cells t n) (fun _ => 0).

Lemma seq_all n j : j < n -> exists e, In e (seq 0 n) /\ e = j.
Proof. intros Hj. exists j. split; auto. apply in_seq. lia. Qed.
Lemma ex_no_gaps n : n <= 3 -> no_gaps ex_mcmg (cells tria n).
Proof.
  intros Hn. split; [exact (seq_all n)|]. intros t K j Hj. exists j. cbn [cells vw_fgrid fg_elements vw_grid g_sub fg_size] in *. split; [apply in_seq; lia|].
  destruct n as [|[|[|[|n]]]]; try lia; vm_compute in K; injection K as <-; destruct j as [|[|[|j]]]; try lia; reflexivity.
Qed.

Lemma ex_world_ok h : no_gaps ex_mcmg (content (ex_world tria) h).
Proof. apply ex_no_gaps. cbn. lia. Qed.

(** The hypotheses of C58_update are met by a basis with every kind of member, a history with
    two normal updates and one that throws in between. *)
Definition ex_recipe : recipe unit :=
  KComposite CFlatLexicographic
    [KPower true 2 BlockedInterleaved (KLagrange 3); KMapper (RaviartThomas 0 None); KMapper (BDM 1); KMapper (Nedelec None);
     KRestricted tt (KMapper Argyris); KMapper (Hermite false); KRannacherTurek].
Definition ex_history : history :=
  [(ex_world tria, 1); (WORLD (fun _ => cells prism 1) (fun _ => 0), 0); (ex_adapted tria 3, 0)].
Lemma seen {A B} (f : A -> B) {x : option A} {a} : x = Some a -> forall b, option_map f x = Some b -> f a = b.
Proof. intros -> b K. now injection K. Qed.
Example C58_update_met :
  complete ex_recipe /\ (forall h, no_gaps ex_mcmg (content (ex_world tria) h)) /\
  exists o0 fresh, ex_new (ex_world tria) ex_recipe 0 = Some o0 /\ ex_new (ex_world tria) ex_recipe 1 = Some fresh /\
  snd (ex_update (WORLD (fun _ => cells prism 1) (fun _ => 0)) 0 o0) = false /\
  ex_update (ex_world tria) 1 (run ex_mcmg 2 o0 ex_history) = (fresh, true) /\
  ex_update (ex_world tria) 1 o0 = (fresh, true) /\ grid_view fresh = Some 1 /\
  pb_dim (ex_pb (ex_world tria) o0) <> pb_dim (ex_pb (ex_world tria) fresh).
Proof.
  assert (C : complete ex_recipe) by (repeat constructor; discriminate).
  split; [exact C|]. split; [exact ex_world_ok|].
  destruct (ex_new (ex_world tria) ex_recipe 0) as [o0|] eqn:K0; [|vm_compute in K0; discriminate].
  destruct (ex_new (ex_world tria) ex_recipe 1) as [fresh|] eqn:K1; [|vm_compute in K1; discriminate].
  exists o0, fresh. split; [reflexivity|]. split; [reflexivity|].
  split; [refine (seen (fun o => snd (ex_update _ 0 o)) K0 false _); vm_compute; reflexivity|].
  split; [exact (C58_update ex_mcmg 2 ex_lk ex_tk ex_fk ex_recipe _ _ 0 1 o0 fresh ex_history C K0 ex_world_ok K1)|].
  split; [exact (C58_update ex_mcmg 2 ex_lk ex_tk ex_fk ex_recipe _ _ 0 1 o0 fresh [] C K0 ex_world_ok K1)|].
  split; [refine (seen grid_view K1 (Some 1) _); vm_compute; reflexivity|].
  rewrite (seen (fun o => pb_dim (ex_pb (ex_world tria) o)) K0 66), (seen (fun o => pb_dim (ex_pb (ex_world tria) o)) K1 111); [discriminate|vm_compute; reflexivity|vm_compute; reflexivity].
Qed.

Example C58_lagrange_checks_met :
  let w := WORLD (D := unit) (fun h => match h with 0 => cells tetra 1 | 1 => cells prism 1 | _ => cells tetra 2 end) (fun _ => 0) in
  (forall h, g_dim (vw_grid (content w h)) = 3) /\
  exists o0, basis_new ex_mcmg 3 ex_lk ex_tk ex_fk w (KLagrange 3) 0 = Some o0 /\
  snd (basis_update ex_mcmg 3 w 1 o0) = false /\ basis_new ex_mcmg 3 ex_lk ex_tk ex_fk w (KLagrange 3) 1 = None /\
  snd (basis_update ex_mcmg 3 w 2 o0) = true.
Proof.
  cbn zeta. split; [intros [|[|h]]; reflexivity|]. eexists. split; [reflexivity|]. repeat split; vm_compute; reflexivity.
Qed.

(** * What update forgets *)

(** Taylor-Hood: gridView() of the updated basis is still the one passed to the constructor,
    although sizes and indices are those of the new one. *)
Theorem C58_taylor_hood_grid_view_refuted :
  exists o0 o1 fresh, ex_new (ex_world tria) (KTaylorHood false) 0 = Some o0 /\
  ex_update (ex_world tria) 1 o0 = (o1, true) /\ ex_new (ex_world tria) (KTaylorHood false) 1 = Some fresh /\
  grid_view fresh = Some 1 /\ grid_view o1 = Some 0 /\
  pb_size (ex_pb (ex_world tria) o1) [1] = Some 6 /\ pb_size (ex_pb (ex_world tria) o0) [1] = Some 3.
Proof.
  eexists _, _, _. split; [reflexivity|]. split; [reflexivity|]. split; [reflexivity|]. repeat split; vm_compute; reflexivity.
Qed.
(** ... and that is so for every history and every grid. *)
Theorem C58_taylor_hood_grid_view_stays {E X H D} (mcmg : layout -> view E X -> option (mapper X)) dim lk tk fk hi (w0 : world E X H D) h0 o0 t :
  basis_new mcmg dim lk tk fk w0 (KTaylorHood hi) h0 = Some o0 -> grid_view (run mcmg dim o0 t) = Some h0.
Proof.
  intros K. unfold basis_new in K. cbn [construct] in K. destruct (lagrange_new mcmg w0 1 h0) as [q1|]; [cbn [obind] in K|discriminate]. destruct (lagrange_new mcmg w0 2 h0) as [q2|]; [cbn in K|discriminate].
  injection K as <-. revert q1 q2. induction t as [|[w h] t IH]; intros q1 q2; [reflexivity|]. cbn [run fold_left fst snd] in *.
  assert (exists q1' q2', fst (basis_update mcmg dim w h (OTaylorHood hi h0 q1 q2)) = OTaylorHood hi h0 q1' q2') as (q1' & q2' & ->).
  { unfold basis_update. cbn [update]. destruct (lagrange_update mcmg w h q1) as [q1' []]; [destruct (lagrange_update mcmg w h q2) as [q2' []]|]; cbn; eauto. }
  apply IH.
Qed.

Lemma morley_run {E X H D} (mcmg : layout -> view E X -> option (mapper X)) dim m (t : @history E X H D) : forall gv a b c, morley_mapper (run mcmg dim (OMapper Morley gv a b (XMorley m c)) t) = Some m.
Proof.
  induction t as [|[w h] t IH]; intros gv a b c; [reflexivity|]. cbn [run fold_left fst snd].
  assert (exists g' a' b' c', fst (basis_update mcmg dim w h (OMapper Morley gv a b (XMorley m c))) = OMapper Morley g' a' b' (XMorley m c')) as (g' & a' & b' & c' & ->).
  { unfold basis_update. cbn [update]. unfold mapper_based_update. destruct (mapper_update mcmg w h a); cbn [extra_update]; [destruct (edge_orientations w m)|]; cbn; eauto 6. }
  apply IH.
Qed.
(** Morley: the element mapper that numbers the stored edge orientations is the one of the
    first grid, whatever happens. *)
Theorem C58_morley_mapper_stays {E X H D} (mcmg : layout -> view E X -> option (mapper X)) dim lk tk fk (w0 : world E X H D) h0 o0 t :
  basis_new mcmg dim lk tk fk w0 (KMapper Morley) h0 = Some o0 ->
  exists m, morley_mapper o0 = Some m /\ mo_view m = h0 /\ mcmg elementLayout (content w0 h0) = Some (mo_tables m) /\
            morley_mapper (run mcmg dim o0 t) = Some m.
Proof.
  intros K. unfold basis_new in K. cbn [construct] in K. unfold mapper_based_new in K. destruct (mapper_new mcmg w0 h0 _) as [m0|]; [cbn [obind] in K|discriminate].
  cbn [extra_new] in K. unfold mapper_new in K. destruct (mcmg elementLayout (content w0 h0)) as [tb|]; [cbn [obind] in K|discriminate]. destruct (edge_orientations w0 _) as [d|]; [cbn in K|discriminate].
  injection K as <-. exists (MO h0 elementLayout tb). repeat split. apply morley_run.
Qed.
(** A new grid view of more elements: there are orientations only for the old ones.  The same
    grid view after refinement: the update itself writes out of bounds. *)
Theorem C58_morley_refuted :
  exists o0 o1 fresh, ex_new (ex_world tria) (KMapper Morley) 0 = Some o0 /\
  ex_update (ex_world tria) 1 o0 = (o1, true) /\ ex_new (ex_world tria) (KMapper Morley) 1 = Some fresh /\
  option_map (@length _) (morley_data fresh) = Some 2 /\ option_map (@length _) (morley_data o1) = Some 1 /\
  snd (ex_update (ex_adapted tria 2) 0 o0) = false /\ ex_new (ex_adapted tria 2) (KMapper Morley) 0 <> None.
Proof.
  eexists _, _, _. split; [reflexivity|]. split; [reflexivity|]. split; [reflexivity|]. repeat split; try (vm_compute; reflexivity). vm_compute. discriminate.
Qed.

(** Periodic: the identification of indices stays that of the old grid, so that the indices of
    new degrees of freedom are read out of bounds; a new basis has them. *)
Definition ex_indices (w : world nat (nat * nat * nat) nat unit) (o : obj (nat * nat * nat) nat unit) (e : nat) : option (list mi) :=
  v <- lv_bind (ex_pb w o) (lv_new (ex_pb w o)) e ;; Some (lv_indices v).
Theorem C58_periodic_refuted :
  exists o0 o1 fresh, ex_new (ex_world tria) (KPeriodic [(0, 1)] (KLagrange 1)) 0 = Some o0 /\
  ex_update (ex_world tria) 1 o0 = (o1, true) /\ ex_new (ex_world tria) (KPeriodic [(0, 1)] (KLagrange 1)) 1 = Some fresh /\
  pb_dim (ex_pb (ex_world tria) fresh) = 5 /\ pb_dim (ex_pb (ex_world tria) o1) = 2 /\
  ex_indices (ex_world tria) fresh 1 = Some [[2]; [3]; [4]] /\ ex_indices (ex_world tria) o1 1 = None.
Proof.
  eexists _, _, _. split; [reflexivity|]. split; [reflexivity|]. split; [reflexivity|]. repeat split; vm_compute; reflexivity.
Qed.

(** Composite: an update that throws half-way leaves the first component on the new grid view
    and the second on the old one. *)
Theorem C58_composite_atomic_refuted :
  let w := WORLD (D := unit) (fun h => match h with 0 => cells tetra 1 | _ => cells prism 1 end) (fun _ => 0) in
  exists o0 o1 o2 a b, basis_new ex_mcmg 3 ex_lk ex_tk ex_fk w (KComposite CBlockedLexicographic [KLagrange 1; KLagrange 3]) 0 = Some o0 /\
  basis_update ex_mcmg 3 w 1 o0 = (o1, false) /\ o1 = OComposite CBlockedLexicographic [a; b] /\
  grid_view a = Some 1 /\ grid_view b = Some 0 /\ grid_view o0 = Some 0 /\ basis_update ex_mcmg 3 w 0 o1 = (o2, true) /\ o2 = o0.
Proof.
  cbn zeta. eexists _, _, _, _, _. split; [reflexivity|]. split; [reflexivity|]. repeat split.
Qed.

(** The element types are checked by the constructor only: update accepts a grid of
    quadrilaterals for a basis that cannot be created on one. *)
Theorem C58_unchecked_update_refuted :
  Forall (fun r => ex_new (ex_world quad) r 0 = None /\
    exists o0, ex_new (ex_world tria) r 0 = Some o0 /\ snd (ex_update (ex_world quad) 0 o0) = true)
  [KMapper (Hierarchical 1); KMapper (Hierarchical 2); KMapper (Bubble 1); KMapper (Bubble 2); KMapper (Refined 1)].
Proof.
  repeat constructor; try (vm_compute; reflexivity); (eexists; split; [reflexivity|]; vm_compute; reflexivity).
Qed.

Print Assumptions C58_update.
Print Assumptions C58_grid_view.
Print Assumptions C58_numbering_partial.
Print Assumptions C58_lagrange_checks.
Print Assumptions C58_taylor_hood_grid_view_refuted.
Print Assumptions C58_taylor_hood_grid_view_stays.
Print Assumptions C58_morley_mapper_stays.
Print Assumptions C58_morley_refuted.
Print Assumptions C58_periodic_refuted.
Print Assumptions C58_composite_atomic_refuted.
Print Assumptions C58_unchecked_update_refuted.
