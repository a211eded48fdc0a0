(** C65: the lowest order edge functions keep the contract; examples. *)
From Coq Require Import List Arith Lia Bool Reals Lra.
From Verif Require Import Lib Basis_model Basis_spec GeometryType_model GeometryType_spec GeometryType_props Mapper_model Mapper_spec Mapper_props
  Families_model Families_spec Families_props Lagrange_model Lagrange_spec Lagrange_proofs Lagrange_props
  DiscreteFunction_model DiscreteFunction_spec DiscreteFunction_proofs Orientation_model Orientation_spec Orientation_props Piola_model Piola_spec Piola_props
  Conforming_spec Conforming_proofs Conforming_shapes Conforming_refs Conforming_props Keys_check GridCheck FaceCheck HDiv_spec HDiv_props HDiv_elements HCurl_spec HCurl_props.
Import ListNotations.
#[local] Arguments Nat.ltb : simpl never.
Local Open Scope R_scope.

(** * Lowest order edge functions *)
(** Barycentric or multilinear coordinates and their gradients. *)
Definition vertex_weights (d : nat) (T : gtype) (x : pt) : list R :=
  match d, T with
  | 2%nat, Simplex => [1 - co x 0 - co x 1; co x 0; co x 1]
  | 2%nat, Cube => [(1 - co x 0) * (1 - co x 1); co x 0 * (1 - co x 1); (1 - co x 0) * co x 1; co x 0 * co x 1]
  | 3%nat, Simplex => [1 - co x 0 - co x 1 - co x 2; co x 0; co x 1; co x 2]
  | 3%nat, Cube =>
      [(1 - co x 0) * (1 - co x 1) * (1 - co x 2); co x 0 * (1 - co x 1) * (1 - co x 2);
       (1 - co x 0) * co x 1 * (1 - co x 2); co x 0 * co x 1 * (1 - co x 2);
       (1 - co x 0) * (1 - co x 1) * co x 2; co x 0 * (1 - co x 1) * co x 2;
       (1 - co x 0) * co x 1 * co x 2; co x 0 * co x 1 * co x 2]
  | _, _ => []
  end.
Definition weight_gradients (d : nat) (T : gtype) (x : pt) : list (list R) :=
  match d, T with
  | 2%nat, Simplex => [[-1; -1]; [1; 0]; [0; 1]]
  | 2%nat, Cube => [[- (1 - co x 1); - (1 - co x 0)]; [1 - co x 1; - co x 0]; [- co x 1; 1 - co x 0]; [co x 1; co x 0]]
  | 3%nat, Simplex => [[-1; -1; -1]; [1; 0; 0]; [0; 1; 0]; [0; 0; 1]]
  | 3%nat, Cube =>
      [[- ((1 - co x 1) * (1 - co x 2)); - ((1 - co x 0) * (1 - co x 2)); - ((1 - co x 0) * (1 - co x 1))];
       [(1 - co x 1) * (1 - co x 2); - (co x 0 * (1 - co x 2)); - (co x 0 * (1 - co x 1))];
       [- (co x 1 * (1 - co x 2)); (1 - co x 0) * (1 - co x 2); - ((1 - co x 0) * co x 1)];
       [co x 1 * (1 - co x 2); co x 0 * (1 - co x 2); - (co x 0 * co x 1)];
       [- ((1 - co x 1) * co x 2); - ((1 - co x 0) * co x 2); (1 - co x 0) * (1 - co x 1)];
       [(1 - co x 1) * co x 2; - (co x 0 * co x 2); co x 0 * (1 - co x 1)];
       [- (co x 1 * co x 2); (1 - co x 0) * co x 2; (1 - co x 0) * co x 1];
       [co x 1 * co x 2; co x 0 * co x 2; co x 0 * co x 1]]
  | _, _ => []
  end.
Definition direction (d : nat) (T : gtype) (x : pt) (w : list R) (v : nat) : R := dot d (nth v (weight_gradients d T x) []) w.
Lemma dlim_affine f x b : (forall t, f t = f 0 + b * t) -> derivable_pt_lim f x b.
Proof.
  intros H. apply (dlim_ext' (fun t => f 0 + b * t)); [intros; symmetry; apply H|].
  assert (Q : derivable_pt_lim (fun t => f 0 + b * t) x (0 + b * 1)).
  { apply (derivable_pt_lim_plus (fct_cte (f 0)) (fun t => b * t)); [apply derivable_pt_lim_const|]. apply dlim_scal, derivable_pt_lim_id. }
  replace (0 + b * 1) with b in Q by ring. exact Q.
Qed.
Definition nd0_types : list (nat * gtype * refelem) :=
  [(2%nat, Simplex, triangle2); (2%nat, Cube, square2); (3%nat, Simplex, tetrahedron3); (3%nat, Cube, hexahedron3)].
(** They are the gradients. *)
Lemma weight_gradients_ok d T re x v k : In (d, T, re) nd0_types -> (k < d)%nat -> length x = d ->
  MonomialSet_spec.partial (fun y => at_ (vertex_weights d T y) v) k x (at_ (nth v (weight_gradients d T x) []) k).
Proof.
  intros I Hk Lx. unfold nd0_types in I. cbn [In] in I. unfold MonomialSet_spec.partial.
  destruct I as [I|[I|[I|[I|[]]]]]; injection I as <- <- _;
    (destruct x as [|x0 [|x1 x]]; try discriminate Lx); (destruct x as [|x2 x]; try discriminate Lx); try (destruct x as [|x3 x]; try discriminate Lx);
    (destruct k as [|[|[|k]]]; try (exfalso; lia)); apply dlim_affine; intros t;
    destruct v as [|[|[|[|[|[|[|[|v]]]]]]]]; unfold vertex_weights, weight_gradients, co, at_, MonomialSet_spec.with_coord; cbn [firstn skipn app nth];
    try ring; destruct v; cbn [nth]; ring.
Qed.
(** The edge from [a] to [b] of a simplex has the function mu_a grad mu_b - mu_b grad mu_a, the
    edges of a cube have products of the coordinates.  Numbering as in dune-geometry. *)
Definition nd0 (d : nat) (T : gtype) (x : pt) : list (list R) :=
  match d, T with
  | 2%nat, Simplex => [[1 - co x 1; co x 0]; [co x 1; 1 - co x 0]; [- co x 1; co x 0]]
  | 2%nat, Cube => [[0; 1 - co x 0]; [0; co x 0]; [1 - co x 1; 0]; [co x 1; 0]]
  | 3%nat, Simplex =>
      [[1 - co x 1 - co x 2; co x 0; co x 0]; [co x 1; 1 - co x 0 - co x 2; co x 1]; [- co x 1; co x 0; 0];
       [co x 2; co x 2; 1 - co x 0 - co x 1]; [- co x 2; 0; co x 0]; [0; - co x 2; co x 1]]
  | 3%nat, Cube =>
      [[0; 0; (1 - co x 0) * (1 - co x 1)]; [0; 0; co x 0 * (1 - co x 1)]; [0; 0; (1 - co x 0) * co x 1]; [0; 0; co x 0 * co x 1];
       [0; (1 - co x 0) * (1 - co x 2); 0]; [0; co x 0 * (1 - co x 2); 0]; [(1 - co x 1) * (1 - co x 2); 0; 0]; [co x 1 * (1 - co x 2); 0; 0];
       [0; (1 - co x 0) * co x 2; 0]; [0; co x 0 * co x 2; 0]; [(1 - co x 1) * co x 2; 0; 0]; [co x 1 * co x 2; 0; 0]]
  | _, _ => []
  end.
Definition nd0_basis (d : nat) (f : fe) : lbasis :=
  match f with FE T n => LB (length (nd0 d T [])) (fun x => flip_signs n (nd0 d T x)) (fun _ => []) end.

Definition face_points (d : nat) (T : gtype) (re : refelem) (s c : nat) (x : pt) (w : list R) : Prop :=
  (forall v, ~ In v (re_subs re s c d) -> at_ (vertex_weights d T x) v = 0) /\ (forall v, ~ In v (re_subs re s c d) -> direction d T x w v = 0).
Ltac vertex_eq OF v :=
  let Z := fresh "Z" in pose proof (OF v) as Z;
  first [specialize (Z ltac:(vm_compute; lia)); unfold direction, vertex_weights, weight_gradients, dot, co, at_, rsum in Z; cbn [nth seq map fold_right] in Z
        |clear Z].
Ltac vertex_eqs n OF := match n with S ?k => vertex_eq OF k; vertex_eqs k OF | O => idtac end.
Ltac face_cases I Hc Hs s c :=
  unfold nd0_types in I; cbn [In] in I;
  destruct I as [I|[I|[I|[I|[]]]]]; injection I as <- <- <-; (destruct c as [|[|[|c]]]; try (exfalso; lia)); vm_compute in Hs;
    (destruct s as [|[|[|[|[|[|[|[|[|[|[|[|s]]]]]]]]]]]]; try (exfalso; lia)).
Lemma face_sums d T re s c x w : In (d, T, re) nd0_types -> (0 < c < d)%nat -> (s < length (subtypes (re_type re) c))%nat ->
  (forall v, ~ In v (re_subs re s c d) -> direction d T x w v = 0) -> sum (map (direction d T x w) (re_subs re s c d)) = 0.
Proof.
  intros I Hc Hs OF. face_cases I Hc Hs s c;
    vertex_eqs 8%nat OF; clear OF;
    match goal with |- sum (map _ ?l) = _ => let l' := eval vm_compute in l in change l with l' end;
    unfold sum, direction, vertex_weights, weight_gradients, dot, co, at_, rsum; cbn [nth seq map fold_right]; lra.
Qed.
Ltac coordinate X := first [assert (X = 0) by lra; subst X|assert (X = 1) by lra; subst X|idtac].
Ltac vanishes W := first [assert (W = 0) by lra; subst W|idtac].
Lemma nd0_trace_3 d T re s c s1 X0 X1 X2 W0 W1 W2 : let x := [X0; X1; X2] in let w := [W0; W1; W2] in
  In (d, T, re) nd0_types -> (0 < c < d)%nat -> (s < length (subtypes (re_type re) c))%nat -> (s1 < edges d T)%nat ->
  face_points d T re s c x w ->
  exists v, nth_error (nd0 d T x) s1 = Some v /\ length v = d /\ dot d v w =
    let ev := re_subs re s1 (d - 1) d in let F := re_subs re s c d in
    if incl_check ev F then edge_function F (Nat.min (nth 0 ev 0%nat) (nth 1 ev 0%nat)) (Nat.max (nth 0 ev 0%nat) (nth 1 ev 0%nat))
                              (at_ (vertex_weights d T x)) (direction d T x w)
    else 0.
Proof.
  intros x w I Hc Hs H1 [OF OD]. subst x w. face_cases I Hc Hs s c; vm_compute in H1;
    vertex_eqs 8%nat OF; vertex_eqs 8%nat OD; clear OF OD;
    coordinate X0; coordinate X1; coordinate X2; vanishes W0; vanishes W1; vanishes W2;
    try (assert (X0 = 1 - X1 - X2) by lra; subst X0); try (assert (X0 = 1 - X1) by lra; subst X0); try (assert (X0 = 1 - X2) by lra; subst X0); try (assert (X1 = 1 - X2) by lra; subst X1);
    try (assert (W0 = - W1 - W2) by lra; subst W0); try (assert (W0 = - W1) by lra; subst W0); try (assert (W0 = - W2) by lra; subst W0); try (assert (W1 = - W2) by lra; subst W1);
    repeat match goal with H : _ = _ :> R |- _ => clear H end;
    (destruct s1 as [|[|[|[|[|[|[|[|[|[|[|[|s1]]]]]]]]]]]]; try (exfalso; lia));
    eexists; (split; [reflexivity|]); (split; [reflexivity|]);
    cbv beta iota zeta delta [incl_check forallb memb existsb Nat.eqb Nat.sub Nat.min Nat.max re_subs triangle2 square2 tetrahedron3 hexahedron3 tetrahedron hexahedron complete nth re_type opposite orb andb
      edge_function direction vertex_weights weight_gradients dot co at_ rsum map seq fold_right table3 tet_edges tet_faces hex_edges hex_faces fst snd]; ring.
Qed.
Lemma nd0_trace d T re s c s1 x w : In (d, T, re) nd0_types -> (0 < c < d)%nat -> (s < length (subtypes (re_type re) c))%nat -> (s1 < edges d T)%nat ->
  face_points d T re s c x w ->
  exists v, nth_error (nd0 d T x) s1 = Some v /\ length v = d /\ dot d v w =
    let ev := re_subs re s1 (d - 1) d in let F := re_subs re s c d in
    if incl_check ev F then edge_function F (Nat.min (nth 0 ev 0%nat) (nth 1 ev 0%nat)) (Nat.max (nth 0 ev 0%nat) (nth 1 ev 0%nat))
                              (at_ (vertex_weights d T x)) (direction d T x w)
    else 0.
Proof.
  intros I Hc Hs H1 FP. pose proof (nd0_trace_3 d T re s c s1 (at_ x 0) (at_ x 1) (at_ x 2) (at_ w 0) (at_ w 1) (at_ w 2) I Hc Hs H1) as Q.
  unfold nd0_types in I. cbn [In] in I. destruct I as [I|[I|[I|[I|[]]]]]; injection I as <- <- <-; exact (Q FP).
Qed.
Definition edges_check (d : nat) (T : gtype) (re : refelem) : bool :=
  forallb (fun s1 => let ev := re_subs re s1 (d - 1) d in Nat.ltb s1 (edges d T) && Nat.eqb (length ev) 2 &&
    forallb (fun c => forallb (fun s => let F := re_subs re s c d in
      negb (incl_check ev F) || face_edge_check F (nth 0 ev 0%nat) (nth 1 ev 0%nat)) (seq 0 (length (subtypes (re_type re) c)))) (seq 1 (d - 1)))
    (seq 0 (length (subtypes (re_type re) (d - 1)))).
Lemma nd0_edges d T re : In (d, T, re) nd0_types -> edges_check d T re = true.
Proof.
  intros I. unfold nd0_types in I. cbn [In] in I. destruct I as [I|[I|[I|[I|[]]]]]; injection I as <- <- <-; vm_compute; reflexivity.
Qed.
(** Grids of triangles and quadrilaterals, or of tetrahedra and hexahedra, numbered as in
    dune-geometry: the contracts of [C65_nedelec] hold. *)
Theorem C65_edge_shape_functions : forall (E X : Type) (g : grid E X) (fg : fgrid E) (ref : E -> refelem) (keys : E -> list localkey),
  let d := g_dim g in
  (forall e, In e (fg_elements fg) -> In (d, fg_type fg e, ref e) nd0_types /\ g_type g e = re_type (ref e)) -> fg_dim fg = d ->
  (forall e i j, In e (fg_elements fg) -> (i < edges d (fg_type fg e))%nat -> (j < 2)%nat -> fg_ev fg e i j = nth j (re_subs (ref e) i (d - 1) d) 0%nat) ->
  (* function [i] belongs to edge [i] *)
  (forall e, In e (fg_elements fg) -> keys e = map (fun i => (i, (d - 1)%nat, 0%nat)) (seq 0 (edges d (fg_type fg e)))) ->
  let mu := fun e x v => at_ (vertex_weights d (fg_type fg e) x) v in
  let dmu := fun e x w v => direction d (fg_type fg e) x w v in
  edges_of_faces_ok g fg ref dmu /\ edge_functions_ok g fg ref keys (nd0_basis d) mu dmu.
Proof.
  intros E X g fg ref keys d HT Hd HEv HK mu dmu. fold d.
  assert (LS : forall e s c t, In e (fg_elements fg) -> subtype g e s c t -> (s < length (subtypes (re_type (ref e)) c))%nat).
  { intros e s c t He H. destruct (HT e He) as [_ <-]. apply nth_error_Some. unfold subtype in H. congruence. }
  assert (EC : forall e s1 t1, In e (fg_elements fg) -> subtype g e s1 (d - 1) t1 ->
    (s1 < edges d (fg_type fg e))%nat /\ re_subs (ref e) s1 (d - 1) d = [fg_ev fg e s1 0; fg_ev fg e s1 1] /\
    forall s c t, (0 < c < d)%nat -> subtype g e s c t -> incl (re_subs (ref e) s1 (d - 1) d) (re_subs (ref e) s c d) ->
      face_edge (re_subs (ref e) s c d) (fg_ev fg e s1 0) (fg_ev fg e s1 1)).
  { intros e s1 t1 He H1. destruct (HT e He) as [IT _]. pose proof (nd0_edges _ _ _ IT) as C. unfold edges_check in C. rewrite forallb_forall in C.
    specialize (C s1 ltac:(apply in_seq; specialize (LS e s1 (d - 1)%nat t1 He H1); lia)). cbn zeta in C.
    apply andb_true_iff in C as [C C3]. apply andb_true_iff in C as [C1 C2]. apply Nat.ltb_lt in C1. apply Nat.eqb_eq in C2.
    rewrite !(HEv e) by (auto; lia). split; auto. split.
    - destruct (re_subs (ref e) s1 (d - 1) d) as [|a [|b [|]]]; try discriminate C2. reflexivity.
    - intros s c t Hc Hs I. rewrite forallb_forall in C3. specialize (C3 c ltac:(apply in_seq; lia)). rewrite forallb_forall in C3.
      specialize (C3 s ltac:(apply in_seq; specialize (LS e s c t He Hs); lia)). cbn zeta in C3. apply incl_check_ok in I. rewrite I in C3.
      now apply face_edge_check_ok. }
  assert (SZ : forall e x, In e (fg_elements fg) -> length (nd0 d (fg_type fg e) x) = edges d (fg_type fg e) /\ Forall (fun v => length v = d) (nd0 d (fg_type fg e) x)).
  { intros e x He. destruct (HT e He) as [IT _]. unfold nd0_types in IT. cbn [In] in IT.
    destruct IT as [I|[I|[I|[I|[]]]]]; injection I as <- <- _; (split; [reflexivity|]); cbn [nd0]; repeat (constructor; [reflexivity|]); constructor. }
  assert (TR : forall e n xi s c t w a s1 m, In e (fg_elements fg) -> (0 < c < d)%nat -> subtype g e s c t -> on_face g ref mu e xi s c ->
    tangential g ref dmu e xi s c w -> nth_error (keys e) a = Some (s1, (d - 1)%nat, m) ->
    dot d (nth a (lb_eval (nd0_basis d (FE (fg_type fg e) n)) xi) []) w =
    (if bit n s1 then -1 else 1) *
      if incl_check (re_subs (ref e) s1 (d - 1) d) (re_subs (ref e) s c d) then
        edge_function (re_subs (ref e) s c d) (Nat.min (fg_ev fg e s1 0) (fg_ev fg e s1 1)) (Nat.max (fg_ev fg e s1 0) (fg_ev fg e s1 1)) (mu e xi) (dmu e xi w)
      else 0).
  { intros e n xi s c t w a s1 m He Hc Hs OF [_ TW] Ka. rewrite (HK e He) in Ka. rewrite nth_error_map_eq, nth_error_seq in Ka.
    destruct (Nat.ltb_spec a (edges d (fg_type fg e))) as [La|La]; [|discriminate Ka]. injection Ka as <- _. cbn [Nat.add].
    destruct (HT e He) as [IT _]. destruct (nd0_trace d (fg_type fg e) (ref e) s c a xi w IT Hc (LS e s c t He Hs) La (conj OF TW)) as (v & Hv & _ & Q).
    cbn [nd0_basis lb_eval]. rewrite (flip_signs_nth n _ a v Hv), dot_scaled, Q. cbn zeta. rewrite !(HEv e) by (auto; lia). reflexivity. }
  split.
  - constructor.
    + intros e s t He H. rewrite Hd. destruct (EC e s t He H) as (A & B & _). auto.
    + intros e s t s1 t1 c He Hc Hs H1 [_ P]. eapply (EC e s1 t1 He H1); eauto.
    + intros e xi s c t w He Hc Hs [_ TW]. destruct (HT e He) as [IT _]. unfold vertices. fold d. change (sum (map (direction d (fg_type fg e) xi w) (re_subs (ref e) s c d)) = 0).
      apply (face_sums d (fg_type fg e) (ref e) s c xi w); auto. eapply LS; eauto.
  - constructor.
    + intros e n xi He _. rewrite (HK e He). cbn [nd0_basis lb_eval]. rewrite flip_signs_length, map_length, seq_length. destruct (SZ e xi He) as [A B]. split; auto.
      apply Forall_forall. intros v Hv. unfold flip_signs in Hv. apply in_map_iff in Hv as ([j u] & <- & Hv). rewrite map_length. apply in_combine_r in Hv.
      rewrite Forall_forall in B. now apply B.
    + intros e n xi s c t w a s1 m He _ Hc Hs OF TW Ka [_ P]. fold d. rewrite (TR e n xi s c t w a s1 m) by auto. apply incl_check_ok in P. unfold vertices in P. fold d in P. rewrite P. reflexivity.
    + intros e n xi s c t w a s1 m He _ Hc Hs OF TW Ka P. fold d. rewrite (TR e n xi s c t w a s1 m) by auto.
      destruct (incl_check _ _) eqn:Q; [|ring]. exfalso. apply P. apply incl_check_ok in Q. split; [lia|exact Q].
Qed.
Print Assumptions C65_edge_shape_functions.
