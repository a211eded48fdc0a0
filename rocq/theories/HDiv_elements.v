(** C64: the lowest order Raviart-Thomas functions keep the contract; order one on hexahedra
    cannot; examples. *)
From Coq Require Import List Arith Lia Bool Reals Lra.
From Verif Require Import Lib Basis_model Basis_spec GeometryType_model GeometryType_spec GeometryType_props Mapper_model Mapper_spec Mapper_props
  Families_model Families_spec Families_props
  DiscreteFunction_model DiscreteFunction_spec DiscreteFunction_proofs Orientation_model Orientation_spec Orientation_props Piola_model Piola_spec Piola_props
  Conforming_spec Conforming_proofs Conforming_props Keys_check GridCheck HDiv_spec HDiv_props.
Import ListNotations.
#[local] Arguments Nat.ltb : simpl never.
Local Open Scope R_scope.

(** * Lowest order shape functions *)
(** The facet opposite to a vertex [p] of a simplex has the function x - p; the facets of a cube
    have the functions (x_l - 1) e_l and x_l e_l; the facets of a prism have those of the
    triangle and those of the vertical interval.  Numbering as in dune-geometry. *)
Definition co (x : pt) (i : nat) : R := at_ x i.
Definition rt0 (d : nat) (T : gtype) (x : pt) : list (list R) :=
  match d, T with
  | 2%nat, Simplex => [[co x 0; co x 1 - 1]; [co x 0 - 1; co x 1]; [co x 0; co x 1]]
  | 2%nat, Cube => [[co x 0 - 1; 0]; [co x 0; 0]; [0; co x 1 - 1]; [0; co x 1]]
  | 3%nat, Simplex => [[co x 0; co x 1; co x 2 - 1]; [co x 0; co x 1 - 1; co x 2]; [co x 0 - 1; co x 1; co x 2]; [co x 0; co x 1; co x 2]]
  | 3%nat, Cube => [[co x 0 - 1; 0; 0]; [co x 0; 0; 0]; [0; co x 1 - 1; 0]; [0; co x 1; 0]; [0; 0; co x 2 - 1]; [0; 0; co x 2]]
  | 3%nat, Prism => [[co x 0; co x 1 - 1; 0]; [co x 0 - 1; co x 1; 0]; [co x 0; co x 1; 0]; [0; 0; co x 2 - 1]; [0; 0; co x 2]]
  | _, _ => []
  end.
(** Outer area vectors of the facets; the facets are the sets x . nu = b. *)
Definition facet_planes (d : nat) (T : gtype) : list (list R * R) :=
  match d, T with
  | 2%nat, Simplex => [([0; -1], 0); ([-1; 0], 0); ([1; 1], 1)]
  | 2%nat, Cube => [([-1; 0], 0); ([1; 0], 1); ([0; -1], 0); ([0; 1], 1)]
  | 3%nat, Simplex => [([0; 0; -1], 0); ([0; -1; 0], 0); ([-1; 0; 0], 0); ([1; 1; 1], 1)]
  | 3%nat, Cube => [([-1; 0; 0], 0); ([1; 0; 0], 1); ([0; -1; 0], 0); ([0; 1; 0], 1); ([0; 0; -1], 0); ([0; 0; 1], 1)]
  | 3%nat, Prism => [([0; -1; 0], 0); ([-1; 0; 0], 0); ([1; 1; 0], 1); ([0; 0; -1], 0); ([0; 0; 1], 1)]
  | _, _ => []
  end.
Definition plane (d : nat) (T : gtype) (i : nat) : list R * R := nth i (facet_planes d T) ([], 0).
(** Variant [n]: the functions of the facets whose bit is set change their sign. *)
Definition flip_signs (n : nat) (vs : list (list R)) : list (list R) :=
  map (fun iv => map (Rmult (if bit n (fst iv) then -1 else 1)) (snd iv)) (combine (seq 0 (length vs)) vs).
Definition rt0_basis (d : nat) (f : fe) : lbasis :=
  match f with FE T n => LB (length (rt0 d T [])) (fun x => flip_signs n (rt0 d T x)) (fun _ => []) end.

Lemma flip_signs_nth n vs : forall a v, nth_error vs a = Some v -> nth a (flip_signs n vs) [] = map (Rmult (if bit n a then -1 else 1)) v.
Proof.
  intros a v H. unfold flip_signs. apply nth_error_nth. rewrite nth_error_map_eq.
  assert (K : nth_error (combine (seq 0 (length vs)) vs) a = Some (a, v)).
  { assert (G : forall k (ws : list (list R)) b w, nth_error ws b = Some w -> nth_error (combine (seq k (length ws)) ws) b = Some ((k + b)%nat, w)).
    { clear. intros k ws. revert k. induction ws as [|u ws IH]; intros k [|b] w Hb; cbn in Hb |- *; try discriminate.
      - injection Hb as ->. rewrite Nat.add_0_r. reflexivity.
      - rewrite (IH (S k) b w Hb). f_equal. f_equal. lia. }
    apply (G 0%nat vs a v H). }
  rewrite K. reflexivity.
Qed.
Lemma flip_signs_length n vs : length (flip_signs n vs) = length vs.
Proof. unfold flip_signs. now rewrite map_length, combine_length, seq_length, Nat.min_id. Qed.
Lemma dot_scaled d s v w : dot d (map (Rmult s) v) w = s * dot d v w.
Proof.
  unfold dot. rewrite <- rsum_scal. apply rsum_ext. intros i _. unfold at_. destruct (Nat.lt_ge_cases i (length v)) as [L|L].
  - rewrite (nth_indep _ 0 (s * 0)) by (now rewrite map_length). rewrite map_nth. ring.
  - rewrite (nth_overflow (map _ v)), (nth_overflow v) by (rewrite ?map_length; lia). ring.
Qed.
Definition rt0_types : list (nat * gtype) := [(2, Simplex); (2, Cube); (3, Simplex); (3, Cube); (3, Prism)]%nat.
Lemma rt0_fluxes d T i a x : In (d, T) rt0_types -> (i < facets d T)%nat -> (a < facets d T)%nat ->
  dot d x (fst (plane d T i)) = snd (plane d T i) ->
  exists v, nth_error (rt0 d T x) a = Some v /\ length v = d /\ dot d v (fst (plane d T i)) = if Nat.eqb a i then 1 else 0.
Proof.
  intros I Hi Ha H. unfold rt0_types in I. cbn [In] in I.
  destruct I as [I|[I|[I|[I|[I|[]]]]]]; injection I as <- <-; cbn in Hi, Ha;
    do 6 (destruct i as [|i]; [first [exfalso; lia|
       do 6 (destruct a as [|a]; [first [exfalso; lia|eexists; split; [reflexivity|]; split; [reflexivity|];
         unfold plane, facet_planes, dot, rt0, co, at_, rsum in *; cbn [nth fst snd seq map fold_right Nat.eqb] in *; lra]|]); exfalso; lia]|]); exfalso; lia.
Qed.
(** The contract of [C64_lowest_order], for grids of triangles and quadrilaterals, or of
    tetrahedra, hexahedra and prisms, in any mixture. *)
Theorem C64_lowest_order_shape_functions : forall (E X : Type) (g : grid E X) (fg : fgrid E) (keys : E -> list localkey),
  let d := fg_dim fg in
  (forall e, In e (fg_elements fg) -> In (d, fg_type fg e) rt0_types) ->
  (forall e i t, In e (fg_elements fg) -> subtype g e i 1 t -> (i < facets d (fg_type fg e))%nat) ->
  (* function [i] belongs to facet [i] *)
  (forall e, In e (fg_elements fg) -> keys e = map (fun i => (i, 1%nat, 0%nat)) (seq 0 (facets d (fg_type fg e)))) ->
  constant_fluxes_ok g fg d keys (rt0_basis d) (fun e i => fst (plane d (fg_type fg e) i))
    (fun e i x => dot d x (fst (plane d (fg_type fg e) i)) = snd (plane d (fg_type fg e) i)) (fun _ => 1).
Proof.
  intros E X g fg keys d HT HI HK. split; [|split; [|reflexivity]].
  - intros e n xi He _. rewrite (HK e He). cbn [rt0_basis lb_eval]. rewrite flip_signs_length, map_length, seq_length.
    specialize (HT e He). split.
    + unfold rt0_types in HT. cbn [In] in HT. repeat (destruct HT as [HT|HT]; [injection HT as <- <-; reflexivity|]). destruct HT.
    + apply Forall_forall. intros v Hv. unfold flip_signs in Hv. apply in_map_iff in Hv as ([j w] & <- & Hv). rewrite map_length. apply in_combine_r in Hv.
      cbn [snd]. unfold rt0_types in HT. cbn [In] in HT.
      repeat (destruct HT as [HT|HT]; [injection HT as Q1 Q2; rewrite <- Q1, <- Q2 in Hv; cbn [rt0 In] in Hv;
        repeat (destruct Hv as [Hv|Hv]; [rewrite <- Hv, <- Q1; reflexivity|]); destruct Hv|]). destruct HT.
  - intros e n i t xi a s c m He Hn Ht P Ka. rewrite (HK e He) in Ka. rewrite nth_error_map_eq, nth_error_seq in Ka.
    destruct (Nat.ltb_spec a (facets d (fg_type fg e))) as [La|La]; [|discriminate Ka]. injection Ka as <- <- <-.
    destruct (rt0_fluxes d (fg_type fg e) i a xi (HT e He) (HI e i t He Ht) La P) as (v & Hv & _ & F).
    cbn [rt0_basis lb_eval]. rewrite (flip_signs_nth n _ a v Hv), dot_scaled, F. cbn [Nat.add Nat.eqb]. rewrite andb_true_r.
    destruct (Nat.eqb_spec a i) as [->|]; ring.
Qed.
Print Assumptions C64_lowest_order_shape_functions.

(** * Order one on hexahedra *)
(** Two unit cubes side by side, [false] to the left of [true]: facet 1 of the left one is
    facet 0 of the right one.  Either the right cube is just translated, or its local
    coordinate system is also turned by 90 degrees about the first axis. *)
Definition hex_shared (turn : bool) (c : nat) : list (nat * nat) :=
  match c with
  | 1%nat => [(0, 1)]
  | 2%nat => if turn then [(0, 5); (2, 9); (4, 3); (8, 1)] else [(0, 1); (2, 3); (4, 5); (8, 9)]
  | 3%nat => if turn then [(0, 3); (2, 7); (4, 1); (6, 5)] else [(0, 1); (2, 3); (4, 5); (6, 7)]
  | _ => []
  end%nat.
Definition hex_sub (turn e : bool) (i c : nat) : nat :=
  (if e then match List.find (fun p => Nat.eqb (fst p) i) (hex_shared turn c) with Some p => 100 * c + snd p | None => 100 * c + 50 + i end
   else 100 * c + i)%nat.
Definition hex_grid (turn : bool) : grid bool nat := GRID 3 (fun _ => [true; true; true]) (hex_sub turn).
Definition hex_mp : mapper nat := MAP 68 (fun x =>
  if x =? 0 then 44 else if x =? 50 then 56
  else if (100 <=? x) && (x <? 106) then 4 * (x - 100) else if (151 <=? x) && (x <? 156) then 24 + 4 * (x - 151) else 0)%nat.
Definition hex_inters (e : bool) : list (inter bool) :=
  if e then In_ bool 0 true (Some false) :: map (fun i => In_ bool i false None) [1; 2; 3; 4; 5]%nat
  else [In_ bool 0 false None; In_ bool 1 true (Some true)] ++ map (fun i => In_ bool i false None) [2; 3; 4; 5]%nat.
Definition hex_fg (turn : bool) : fgrid bool :=
  FG bool 3 2 [false; true] (fun e => if e then 1 else 0)%nat (fun _ => Cube) (fun _ => true) hex_inters
     (fun _ i j => nth j (nth i [[0; 4]; [1; 5]; [2; 6]; [3; 7]; [0; 2]; [1; 3]; [0; 1]; [2; 3]; [4; 6]; [5; 7]; [4; 5]; [6; 7]] []) 0)%nat
     (fun e v => hex_sub turn e v 3).
(** The positions of the points, the Jacobians, and the point of the right cube at the point
    (1,y,z) of the left one. *)
Definition hex_position (turn e : bool) (x : pt) : list R :=
  if e then (if turn then [1 + co x 0; 1 - co x 2; co x 1] else [1 + co x 0; co x 1; co x 2]) else [co x 0; co x 1; co x 2].
Definition hex_J (turn e : bool) (i j : nat) : R :=
  nth j (nth i (if turn && e then [[1; 0; 0]; [0; 0; -1]; [0; 1; 0]] else [[1; 0; 0]; [0; 1; 0]; [0; 0; 1]]) []) 0.
Definition hex_geo (turn e : bool) : geo :=
  Geo (fun _ j i => hex_J turn e i j) (fun _ => [0; 1; 2]%nat) (fun _ => hex_J turn e) (fun _ => [0; 1; 2]%nat) (fun _ => 1).
Definition hex_other (turn : bool) (y z : R) : pt := if turn then [0; z; 1 - y] else [0; y; z].
Definition hex_lay (t : gt) : nat := rt_layout 1 3 t 3.
Definition hex_els (e : bool) : Prop := In e [false; true].

Example C64_hex_grid_ok : forall turn, grid_ok hex_els (hex_grid turn).
Proof. intros turn. apply (grid_check_ok Bool.eqb eqb_true_iff (hex_grid turn) [false; true]). destruct turn; vm_compute; reflexivity. Qed.
Example C64_hex_mapper_ok : forall turn, mapper_ok hex_els (hex_grid turn) hex_lay hex_mp.
Proof. intros turn. apply (mapper_check_ok (hex_grid turn) [false; true]). destruct turn; vm_compute; reflexivity. Qed.
Example C64_hex_fgrid_ok : forall turn, fgrid_ok (hex_fg turn).
Proof.
  intros turn. constructor; cbn [fg_dim fg_elements fg_idx fg_size fg_type fg_inters hex_fg]; auto.
  - intros [] _; lia.
  - intros [] [] _ _ H; congruence.
  - intros e x _ H. destruct e; cbn in H; intuition (subst; vm_compute; lia).
  - intros e x _ H. destruct e; cbn in H; intuition (subst; cbn in *; eauto; discriminate).
Qed.
Example C64_hex_positions : forall turn y z, hex_position turn true (hex_other turn y z) = hex_position turn false [1; y; z].
Proof. intros [] y z; unfold hex_position, hex_other, co, at_; cbn [nth]; repeat (f_equal; try ring). Qed.
Lemma delta_cases (P : nat -> nat -> Prop) : P 0%nat 0%nat -> P 0%nat 1%nat -> P 0%nat 2%nat -> P 1%nat 0%nat -> P 1%nat 1%nat -> P 1%nat 2%nat ->
  P 2%nat 0%nat -> P 2%nat 1%nat -> P 2%nat 2%nat -> forall i j, (i < 3)%nat -> (j < 3)%nat -> P i j.
Proof. intros. destruct i as [|[|[|i]]]; [| | |exfalso; lia]; (destruct j as [|[|[|j]]]; [auto|auto|auto|exfalso; lia]). Qed.
Example C64_hex_geo_ok : forall turn e x, geo_ok 3 (hex_geo turn e) x.
Proof.
  intros turn e x. constructor; cbn [g_ie hex_geo]; [| |lra]; apply delta_cases; destruct turn, e; unfold rsum, hex_geo, hex_J, delta; cbn; ring.
Qed.

Definition hex_leaf (turn : bool) (K : list localkey) : leaf bool := mapper_leaf (hex_grid turn) hex_mp hex_lay [[true; true; true]] (fun _ => K).
(** The normal components of all global basis functions agree at all points of the common
    facet. *)
Definition hex_continuous (basis : fe -> lbasis) (K : list localkey) (turn : bool) : Prop :=
  exists m f f', rt_update (hex_fg turn) (Some Cube) (FM [] []) = Some m /\
  fm_find (hex_fg turn) m false = Some f /\ fm_find (hex_fg turn) m true = Some f' /\
  let l := hex_leaf turn K in forall y z nb,
  basis_value (length K) (lf_indices l false) (fun a => dot 3 (nth a (gv_eval (contravariant 3 (hex_geo turn false)) (basis f) [1; y; z]) []) [1; 0; 0]) nb =
  basis_value (length K) (lf_indices l true) (fun a => dot 3 (nth a (gv_eval (contravariant 3 (hex_geo turn true)) (basis f') (hex_other turn y z)) []) [1; 0; 0]) nb.

Lemma hex_variants turn m f f' : rt_update (hex_fg turn) (Some Cube) (FM [] []) = Some m ->
  fm_find (hex_fg turn) m false = Some f -> fm_find (hex_fg turn) m true = Some f' -> f = FE Cube 2 /\ f' = FE Cube 0.
Proof.
  intros H F F'. assert (Q : exists m0, rt_update (hex_fg turn) (Some Cube) (FM [] []) = Some m0 /\ fm_find (hex_fg turn) m0 false = Some (FE Cube 2) /\
    fm_find (hex_fg turn) m0 true = Some (FE Cube 0)).
  { destruct turn; eexists; (split; [vm_compute; reflexivity|]); split; vm_compute; reflexivity. }
  destruct Q as (m0 & Q & Q1 & Q2). rewrite H in Q. injection Q as <-. rewrite F in Q1. rewrite F' in Q2. injection Q1 as ->. injection Q2 as ->. auto.
Qed.
Lemma hex_normal turn e x v : length v = 3%nat -> dot 3 (contra_value 3 (hex_geo turn e) x v) [1; 0; 0] = at_ v 0.
Proof.
  intros _. unfold dot, rsum. cbn [seq map fold_right]. rewrite !contra_at by lia. unfold rsum. cbn [seq map fold_right g_JT g_ie hex_geo].
  unfold hex_J, Rdiv. destruct turn, e; cbn [andb nth at_]; unfold at_; cbn [nth]; rewrite Rinv_1; ring.
Qed.
Lemma hex_trace basis K turn a a' m :
  (forall n x, length (lb_eval (basis (FE Cube n)) x) = length K /\ Forall (fun v => length v = 3%nat) (lb_eval (basis (FE Cube n)) x)) ->
  keys_ok hex_els (hex_grid turn) (rt_functions 1 1 3) (fun _ => K) ->
  nth_error K a = Some (1, 1, m)%nat -> nth_error K a' = Some (0, 1, m)%nat -> hex_continuous basis K turn ->
  forall y z, at_ (nth a (lb_eval (basis (FE Cube 2)) [1; y; z]) []) 0 = at_ (nth a' (lb_eval (basis (FE Cube 0)) (hex_other turn y z)) []) 0.
Proof.
  intros HB HK Ka Ka' (mm & f & f' & U & F & F' & C) y z. destruct (hex_variants turn mm f f' U F F') as [-> ->]. cbn zeta in C.
  assert (NUM : numbered hex_els (hex_grid turn) (fun _ => K) (hex_leaf turn K)).
  { apply (C57_raviart_thomas hex_els (hex_grid turn) 1); auto using C64_hex_grid_ok.
    - intros e _. exists [true; true; true]. split; [now left|]. destruct e; split; reflexivity.
    - apply C64_hex_mapper_ok.
    - intros t [<-|[]]. reflexivity. }
  destruct NUM as (LK & ND & EQ).
  assert (E1 : hex_els false) by (left; reflexivity). assert (E2 : hex_els true) by (right; left; reflexivity).
  destruct (EQ false a 1%nat 1%nat m true a' 0%nat 1%nat m E1 E2 Ka Ka') as (n & n' & Hn & Hn' & Q).
  assert (n = n') by (apply Q; split; auto; destruct turn; reflexivity). subst n'.
  specialize (C y z n). rewrite (basis_value_at _ _ _ n a (ND false E1)) in C; auto; [|apply (lok_size _ _ LK false E1)].
  rewrite (basis_value_at _ _ _ n a' (ND true E2)) in C; auto; [|apply (lok_size _ _ LK true E2)].
  assert (La : (a < length K)%nat) by (unfold localkey in *; apply nth_error_Some; congruence).
  assert (La' : (a' < length K)%nat) by (unfold localkey in *; apply nth_error_Some; congruence).
  unfold gv_eval in C. cbn [t_value contravariant] in C.
  destruct (HB 2%nat [1; y; z]) as [B1 B2]. destruct (HB 0%nat (hex_other turn y z)) as [B1' B2']. rewrite Forall_forall in B2, B2'.
  rewrite (nth_indep (map (contra_value 3 (hex_geo turn false) [1; y; z]) _) [] (contra_value 3 (hex_geo turn false) [1; y; z] [])) in C by (rewrite map_length; lia).
  rewrite (nth_indep (map (contra_value 3 (hex_geo turn true) (hex_other turn y z)) _) [] (contra_value 3 (hex_geo turn true) (hex_other turn y z) [])) in C by (rewrite map_length; lia).
  rewrite !map_nth, !hex_normal in C; [exact C| |].
  - apply B2', nth_In. lia.
  - apply B2, nth_In. lia.
Qed.
(** Whatever the finite elements are, if the normal components of the functions of facet 0 are
    bilinear and those of two of them are linearly independent (the finite element has four
    functions there), then the functions are not conforming for one of the two grids.  The
    reason is that nothing in the basis depends on how the two cubes are turned with respect to
    each other. *)
Theorem C64_hexahedra_order_one_refuted : forall (basis : fe -> lbasis) (K : list localkey),
  (forall n x, length (lb_eval (basis (FE Cube n)) x) = length K /\ Forall (fun v => length v = 3%nat) (lb_eval (basis (FE Cube n)) x)) ->
  (forall turn, keys_ok hex_els (hex_grid turn) (rt_functions 1 1 3) (fun _ => K)) ->
  let trace := fun a y z => at_ (nth a (lb_eval (basis (FE Cube 0)) [0; y; z]) []) 0 in
  (forall a m, nth_error K a = Some (0, 1, m)%nat -> exists c0 c1 c2 c3, forall y z, trace a y z = c0 + c1 * y + c2 * z + c3 * (y * z)) ->
  (exists a m b n, nth_error K a = Some (0, 1, m)%nat /\ nth_error K b = Some (0, 1, n)%nat /\
     forall r s, (forall y z, r * trace a y z + s * trace b y z = 0) -> r = 0 /\ s = 0) ->
  ~ (hex_continuous basis K false /\ hex_continuous basis K true).
Proof.
  intros basis K HB HK trace Bil (a & m & b & n & Ka & Kb & Ind) [C1 C2].
  assert (Const : forall a m, nth_error K a = Some (0, 1, m)%nat -> exists c, forall y z, trace a y z = c).
  { intros a0 m0 K0. destruct (HK false false (or_introl eq_refl)) as [_ I].
    assert (I1 : In (1, 1, m0)%nat K).
    { apply I. apply nth_error_In, I in K0 as (t & T & M). exists t. split; auto. }
    apply In_nth_error in I1 as (a1 & K1). destruct (Bil a0 m0 K0) as (c0 & c1 & c2 & c3 & B).
    assert (Q : forall y z, trace a0 y z = trace a0 z (1 - y)).
    { intros y z. pose proof (hex_trace basis K false a1 a0 m0 HB (HK false) K1 K0 C1 y z) as T1.
      pose proof (hex_trace basis K true a1 a0 m0 HB (HK true) K1 K0 C2 y z) as T2. cbn [hex_other] in T1, T2. unfold trace. congruence. }
    exists c0. intros y z. rewrite B.
    assert (Q1 := Q 0 0). assert (Q2 := Q 1 0). assert (Q3 := Q 0 1). assert (Q4 := Q 1 1). rewrite !B in Q1, Q2, Q3, Q4.
    assert (c1 = 0) by lra. assert (c2 = 0) by lra. assert (c3 = 0) by lra. subst. ring. }
  destruct (Const a m Ka) as [c Hc]. destruct (Const b n Kb) as [c' Hc'].
  destruct (Req_dec c 0) as [Z|Z].
  - destruct (Ind 1 0) as [A _]; [intros y z; rewrite Hc, Hc', Z; ring|lra].
  - destruct (Ind c' (- c)) as [_ A]; [intros y z; rewrite Hc, Hc'; ring|lra].
Qed.
Print Assumptions C64_hexahedra_order_one_refuted.

(** * The hypotheses are met *)
(** Finite elements with the four functions 1, y, z, yz on facet 0. *)
Definition hex_K : list localkey := all_keys (rt_functions 1 1 3) [true; true; true].
Definition hex_p (m : nat) (x : pt) : R := nth m [1; co x 1; co x 2; co x 1 * co x 2] 0.
Definition hex_basis (f : fe) : lbasis :=
  LB 36 (fun x => map (fun key : localkey => match key with (0%nat, 1%nat, m) => [(co x 0 - 1) * hex_p m x; 0; 0] | _ => [0; 0; 0] end) hex_K) (fun _ => []).
Example C64_hex_hypotheses :
  (forall n x, length (lb_eval (hex_basis (FE Cube n)) x) = length hex_K /\ Forall (fun v => length v = 3%nat) (lb_eval (hex_basis (FE Cube n)) x)) /\
  (forall turn, keys_ok hex_els (hex_grid turn) (rt_functions 1 1 3) (fun _ => hex_K)) /\
  let trace := fun a y z => at_ (nth a (lb_eval (hex_basis (FE Cube 0)) [0; y; z]) []) 0 in
  (forall a m, nth_error hex_K a = Some (0, 1, m)%nat -> exists c0 c1 c2 c3, forall y z, trace a y z = c0 + c1 * y + c2 * z + c3 * (y * z)) /\
  (exists a m b n, nth_error hex_K a = Some (0, 1, m)%nat /\ nth_error hex_K b = Some (0, 1, n)%nat /\
     forall r s, (forall y z, r * trace a y z + s * trace b y z = 0) -> r = 0 /\ s = 0).
Proof.
  assert (T : forall a m y z, nth_error hex_K a = Some (0, 1, m)%nat -> at_ (nth a (lb_eval (hex_basis (FE Cube 0)) [0; y; z]) []) 0 = - hex_p m [0; y; z]).
  { intros a m y z H. cbn [hex_basis lb_eval]. rewrite (nth_error_nth _ _ [] (x := [(co [0; y; z] 0 - 1) * hex_p m [0; y; z]; 0; 0])).
    - cbn [at_ nth co]. unfold at_, co; cbn [nth]. unfold at_; cbn [nth]. ring.
    - rewrite nth_error_map_eq, H. reflexivity. }
  split; [|split; [|split]].
  - intros n x. split; [apply map_length|]. apply Forall_forall. intros v Hv. apply in_map_iff in Hv as ([[s c] m] & <- & _).
    destruct s; [destruct c as [|[|c]]|]; reflexivity.
  - intros turn e _. split; [apply all_keys_nodup|]. intros i c n. unfold hex_K. rewrite all_keys_in. reflexivity.
  - intros a m H. assert (M : (m < 4)%nat).
    { apply nth_error_In in H. apply all_keys_in in H as (t & Ht & M). cbn in Ht. injection Ht as <-. exact M. }
    destruct m as [|[|[|[|m]]]]; [exists (-1), 0, 0, 0|exists 0, (-1), 0, 0|exists 0, 0, (-1), 0|exists 0, 0, 0, (-1)|exfalso; lia];
      intros y z; rewrite (T a _ y z H); unfold hex_p, co, at_; cbn [nth]; ring.
  - assert (I : forall m, (m < 4)%nat -> exists a, nth_error hex_K a = Some (0, 1, m)%nat).
    { intros m M. apply In_nth_error, all_keys_in. exists [true; true]. split; [reflexivity|exact M]. }
    destruct (I 0%nat ltac:(lia)) as [a Ha]. destruct (I 1%nat ltac:(lia)) as [b Hb]. exists a, 0%nat, b, 1%nat. split; auto. split; auto.
    intros r s Q. assert (Q1 := Q 0 0). assert (Q2 := Q 1 0). rewrite (T a 0%nat _ _ Ha), (T b 1%nat _ _ Hb) in Q1. rewrite (T a 0%nat _ _ Ha), (T b 1%nat _ _ Hb) in Q2.
    unfold hex_p, co, at_ in Q1, Q2. cbn [nth] in Q1, Q2. lra.
Qed.

(** Lowest order: a triangle and a quadrilateral (mirrored) that share an edge; the triangle is the reference
    triangle, the quadrilateral has the vertices (0,1), (1,2), (1,0), (2,1). *)
Definition mix_sub (e : bool) (i c : nat) : nat :=
  (if e then nth i (nth c [[12]; [7; 8; 9; 10]; [2; 3; 1; 4]] []) 0 else nth i (nth c [[11]; [5; 6; 7]; [0; 1; 2]] []) 0)%nat.
Definition mix_grid : grid bool nat := GRID 2 (fun e : bool => if e then [true; true] else [false; false]) mix_sub.
Definition mix_fg : fgrid bool :=
  FG bool 2 2 [false; true] (fun e => if e then 1 else 0)%nat (fun e => if e then Cube else Simplex) (fun _ => true)
     (fun e => if e then [In_ bool 0 true (Some false); In_ bool 1 false None; In_ bool 2 false None; In_ bool 3 false None]
               else [In_ bool 0 false None; In_ bool 1 false None; In_ bool 2 true (Some true)])
     (fun e => if e then sq_ev else tr_ev) (fun e v => mix_sub e v 2).
Definition mix_mp : mapper nat := MAP 6 (fun x => if (5 <=? x)%nat && (x <=? 10)%nat then (x - 5)%nat else 0%nat).
Definition mix_J (e : bool) (i j : nat) : R := nth j (nth i (if e then [[1; 1]; [1; -1]] else [[1; 0]; [0; 1]]) []) 0.
Definition mix_JI (e : bool) (i j : nat) : R := nth j (nth i (if e then [[1/2; 1/2]; [1/2; -1/2]] else [[1; 0]; [0; 1]]) []) 0.
Definition mix_geo (e : bool) : geo :=
  Geo (fun _ j i => mix_J e i j) (fun _ => [0; 1]%nat) (fun _ i j => mix_JI e j i) (fun _ => [0; 1]%nat) (fun _ => if e then 2 else 1).
Definition mix_keys (e : bool) : list localkey := map (fun i => (i, 1%nat, 0%nat)) (seq 0 (facets 2 (if e then Cube else Simplex))).
Definition mix_on (e : bool) (i : nat) (x : pt) : Prop := dot 2 x (fst (plane 2 (fg_type mix_fg e) i)) = snd (plane 2 (fg_type mix_fg e) i).
Example C64_mix_grid_ok : grid_ok (fun e => In e (fg_elements mix_fg)) mix_grid.
Proof. apply (grid_check_ok Bool.eqb eqb_true_iff mix_grid [false; true]). vm_compute. reflexivity. Qed.
Example C64_mix_mapper_ok : mapper_ok (fun e => In e (fg_elements mix_fg)) mix_grid (fun t => rt_layout 0 2 t 2) mix_mp.
Proof. apply (mapper_check_ok mix_grid [false; true]). vm_compute. reflexivity. Qed.
Example C64_mix_fgrid_ok : fgrid_ok mix_fg.
Proof.
  constructor; cbn [fg_dim fg_elements fg_idx fg_size fg_type fg_inters mix_fg]; auto.
  - intros [] _ _; auto.
  - intros [] _; lia.
  - intros [] [] _ _ H; congruence.
  - intros e x _ H. destruct e; cbn in H; intuition (subst; vm_compute; lia).
  - intros e x _ H. destruct e; cbn in H; intuition (subst; cbn in *; eauto; discriminate).
Qed.
Lemma mix_facets e i t : subtype mix_grid e i 1 t -> (i < facets 2 (fg_type mix_fg e))%nat.
Proof.
  intros H. unfold subtype in H. assert (L : (i < length (subtypes (g_type mix_grid e) 1))%nat) by (apply nth_error_Some; congruence).
  destruct e; vm_compute in L |- *; lia.
Qed.
Example C64_mix_neighbours_ok : neighbours_ok mix_grid mix_fg.
Proof.
  intros e i t e' j t' _ _ NE Hi Hj Q. apply mix_facets in Hi, Hj.
  destruct e, e'; try congruence; vm_compute in Hi, Hj;
    destruct i as [|[|[|[|i]]]]; try (exfalso; lia); destruct j as [|[|[|[|j]]]]; try (exfalso; lia); try (vm_compute in Q; discriminate Q).
  - split; [exists (In_ bool 0 true (Some false)); cbn; tauto|].
    intros o o' (x & H & F & _ & O & _) (x' & H' & F' & _ & O' & _). cbn in H, H'. intuition (subst; cbn in *; congruence).
  - split; [exists (In_ bool 2 true (Some true)); cbn; tauto|].
    intros o o' (x & H & F & _ & O & _) (x' & H' & F' & _ & O' & _). cbn in H, H'. intuition (subst; cbn in *; congruence).
Qed.
Example C64_mix_keys_ok : keys_ok (fun e => In e (fg_elements mix_fg)) mix_grid (rt_functions 1 0 2) mix_keys.
Proof.
  intros e _. apply Keys_check.keys_check_ok. destruct e; vm_compute; reflexivity.
Qed.

Example C64_mix_geo_ok : forall e x, geo_ok 2 (mix_geo e) x.
Proof.
  intros e x. constructor; cbn [g_ie mix_geo].
  - intros i j Hi Hj. destruct i as [|[|i]]; [| |exfalso; lia]; (destruct j as [|[|j]]; [| |exfalso; lia]); destruct e; unfold rsum, mix_geo, mix_J, mix_JI, delta; cbn; field.
  - intros i j Hi Hj. destruct i as [|[|i]]; [| |exfalso; lia]; (destruct j as [|[|j]]; [| |exfalso; lia]); destruct e; unfold rsum, mix_geo, mix_J, mix_JI, delta; cbn; field.
  - destruct e; lra.
Qed.
Definition mix_nu (e : bool) (i : nat) : list R := fst (plane 2 (fg_type mix_fg e) i).
(** The common edge: facet 2 of the triangle, facet 0 of the quadrilateral, with area vector
    (1,1). *)
Example C64_mix_normals : forall x x', image_area_vector 2 (mix_geo false) x (mix_nu false 2) [1; 1] /\
  image_area_vector 2 (mix_geo true) x' (mix_nu true 0) (map Ropp [1; 1]).
Proof.
  intros x x'. split; intros w Lw; destruct w as [|a [|b [|]]]; try discriminate Lw;
    unfold image_area_vector, dot, push, rsum, mix_nu, plane, mix_geo, mix_J, at_; cbn; ring.
Qed.
Example C64_mix_example : exists m f f', rt_update mix_fg None (FM [] []) = Some m /\ fm_find mix_fg m false = Some f /\ fm_find mix_fg m true = Some f' /\
  f = FE Simplex 4 /\ f' = FE Cube 0 /\
  let l := mapper_leaf mix_grid mix_mp (fun t => rt_layout 0 2 t 2) [[false; false]; [true; true]] mix_keys in
  forall r nb,
  basis_value 3 (lf_indices l false) (fun a => dot 2 (nth a (gv_eval (contravariant 2 (mix_geo false)) (rt0_basis 2 f) [1 - r; r]) []) [1; 1]) nb =
  basis_value 4 (lf_indices l true) (fun a => dot 2 (nth a (gv_eval (contravariant 2 (mix_geo true)) (rt0_basis 2 f') [0; 1 - r]) []) [1; 1]) nb.
Proof.
  assert (U : exists m, rt_update mix_fg None (FM [] []) = Some m /\ fm_find mix_fg m false = Some (FE Simplex 4) /\ fm_find mix_fg m true = Some (FE Cube 0)).
  { eexists. split; [vm_compute; reflexivity|]. split; vm_compute; reflexivity. }
  destruct U as (m & U & F & F'). exists m, (FE Simplex 4), (FE Cube 0). split; auto. split; auto. split; auto. split; auto. split; auto.
  intros l r nb.
  apply (C64_lowest_order bool nat mix_grid mix_fg [[false; false]; [true; true]] mix_keys mix_mp (rt0_basis 2) mix_nu mix_on (fun _ => 1) None (FM [] []) m mix_geo)
    with (e := false) (i := 2%nat) (t := [false]) (e' := true) (j := 0%nat) (t' := [true]); try reflexivity; try exact I; auto.
  - exact C64_mix_grid_ok.
  - exact C64_mix_fgrid_ok.
  - exact C64_mix_neighbours_ok.
  - intros e _. exists (if e then [true; true] else [false; false]). split; [destruct e; cbn; auto|]. destruct e; split; reflexivity.
  - exact C64_mix_mapper_ok.
  - intros t [<-|[<-|[]]]; reflexivity.
  - exact C64_mix_keys_ok.
  - apply (C64_lowest_order_shape_functions bool nat mix_grid mix_fg mix_keys).
    + intros [] _; cbn; auto.
    + intros e i t _. apply mix_facets.
    + intros [] _; reflexivity.
  - left. reflexivity.
  - right. left. reflexivity.
  - unfold mix_on, dot, rsum, plane, at_; cbn; ring.
  - unfold mix_on, dot, rsum, plane, at_; cbn; ring.
  - apply C64_mix_geo_ok.
  - apply C64_mix_geo_ok.
  - exact (proj1 (C64_mix_normals [1 - r; r] [0; 1 - r])).
  - exact (proj2 (C64_mix_normals [1 - r; r] [0; 1 - r])).
Qed.

(** Order one: two squares side by side.  The parameter of a point of a facet runs from -1 to 1
    counter-clockwise, the flux densities are 1 and q. *)
Definition two_sub (e : bool) (i c : nat) : nat :=
  (if e then nth i (nth c [[20]; [11; 14; 15; 16]; [1; 5; 3; 6]] []) 0 else nth i (nth c [[19]; [10; 11; 12; 13]; [0; 1; 2; 3]] []) 0)%nat.
Definition two_grid : grid bool nat := GRID 2 (fun _ : bool => [true; true]) two_sub.
Definition two_fg : fgrid bool :=
  FG bool 2 2 [false; true] (fun e => if e then 1 else 0)%nat (fun e => Cube) (fun _ => true)
     (fun e => if e then [In_ bool 0 true (Some false); In_ bool 1 false None; In_ bool 2 false None; In_ bool 3 false None]
               else [In_ bool 0 false None; In_ bool 1 true (Some true); In_ bool 2 false None; In_ bool 3 false None])
     (fun e => sq_ev) (fun e v => two_sub e v 2).
Definition two_keys : list localkey := all_keys (rt_functions 1 1 2) [true; true].
Definition two_parameter (i : nat) (x : pt) : R := nth i [1 - 2 * co x 1; 2 * co x 1 - 1; 2 * co x 0 - 1; 1 - 2 * co x 0] 0.
Definition two_at (e : bool) (i : nat) (x : pt) (q : R) : Prop := mix_on true i x /\ q = two_parameter i x.
Definition two_psi (t : gt) (m : nat) (q : R) : R := if Nat.even m then 1 else q.
(** the functions of the facets, and zero for the interior *)
Definition two_basis (f : fe) : lbasis :=
  match f with FE T n => LB 12 (fun x => map (fun key : localkey => let '(s, c, m) := key in
    if Nat.eqb c 1 then map (Rmult (facet_sign (bit n s) m * two_psi [] m (two_parameter s x))) (nth s (rt0 2 Cube x) []) else [0; 0]) two_keys) (fun _ => []) end.
Lemma two_keys_facets a s m : nth_error two_keys a = Some (s, 1%nat, m) -> (s < 4)%nat.
Proof.
  intros H. apply nth_error_In in H. apply all_keys_in in H as (t & Ht & _). change 4%nat with (length (subtypes [true; true] 1)). apply nth_error_Some. congruence.
Qed.
Example C64_two_fluxes_ok : fluxes_ok two_grid two_fg 2 (fun _ => two_keys) two_basis (fun e i => mix_nu true i) two_at Ropp two_psi.
Proof.
  constructor.
  - intros e n xi _ _. split; [apply map_length|]. apply Forall_forall. intros v Hv. cbn [two_basis lb_eval] in Hv. apply in_map_iff in Hv as ([[s c] m] & <- & I).
    destruct (Nat.eqb_spec c 1) as [->|]; [|reflexivity]. rewrite map_length. apply In_nth_error in I as [a Ha]. apply two_keys_facets in Ha.
    do 4 (destruct s as [|s]; [reflexivity|]). exfalso; lia.
  - intros e n i t xi q a s c m _ _ Ht (P & ->) Ka. cbn [two_basis lb_eval].
    set (F := fun key : localkey => let '(s, c, m) := key in
      if Nat.eqb c 1 then map (Rmult (facet_sign (bit n s) m * two_psi [] m (two_parameter s xi))) (nth s (rt0 2 Cube xi) []) else [0; 0]).
    rewrite (nth_error_nth (map F two_keys) a [] (x := F (s, c, m))) by (rewrite nth_error_map_eq, Ka; reflexivity). cbn beta iota delta [F].
    destruct (Nat.eqb_spec c 1) as [->|]; [|rewrite andb_false_r; unfold dot, rsum, at_; cbn; ring]. rewrite andb_true_r, dot_scaled.
    apply two_keys_facets in Ka. assert (Hi : (i < 4)%nat) by (change 4%nat with (length (subtypes [true; true] 1)); apply nth_error_Some; unfold subtype in Ht; cbn [g_type two_grid] in Ht; congruence).
    destruct (rt0_fluxes 2 Cube i s xi) as (v & Hv & _ & Fl); auto; [cbn; auto|]. rewrite (nth_error_nth _ _ _ Hv). unfold mix_nu. cbn [fg_type mix_fg]. rewrite Fl.
    destruct (Nat.eqb_spec s i) as [->|]; [|ring]. unfold two_psi. ring.
  - intros. reflexivity.
  - intros. ring.
  - intros. unfold two_psi. destruct (Nat.even m); ring.
Qed.
Definition two_geo (e : bool) : geo := mix_geo false.
Example C64_two_points : forall y, same_facet_point two_grid two_fg 2 (fun e i => mix_nu true i) two_at Ropp two_geo false 1 [1; y] true 0 [0; y] [1; 0].
Proof.
  intros y. constructor.
  - cbn. split; auto.
  - exists [true], [true]. split; reflexivity.
  - reflexivity.
  - exists (2 * y - 1). split; (split; [unfold mix_on, dot, rsum, plane, at_; cbn; ring|unfold two_parameter, co, at_; cbn [nth]; ring]).
  - split; apply C64_mix_geo_ok.
  - split; [reflexivity|]. split; intros w Lw; destruct w as [|a [|b [|]]]; try discriminate Lw;
      unfold dot, push, rsum, mix_nu, plane, two_geo, mix_geo, mix_J, at_; cbn; ring.
Qed.
