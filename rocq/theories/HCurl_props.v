(** C65: functions of Nedelec bases have continuous tangential components. *)
From Coq Require Import List Arith Lia Bool Reals Lra.
From Verif Require Import Lib Basis_model Basis_spec GeometryType_model GeometryType_spec GeometryType_props Mapper_model Mapper_spec Families_model Families_spec Families_props
  Lagrange_model Lagrange_spec Lagrange_proofs
  Basis_ok Basis_view Basis_proofs Basis_props Container_model Container_spec FlatVector_model FlatVector_props DiscreteFunction_model DiscreteFunction_spec DiscreteFunction_proofs Orientation_model Orientation_spec Orientation_props Piola_model Piola_spec Piola_props
  Conforming_spec Conforming_proofs Conforming_props HDiv_props HCurl_spec.
Import ListNotations.
#[local] Arguments Nat.ltb : simpl never.
#[local] Arguments Nat.pow : simpl never.
#[local] Arguments Nat.min : simpl never.
#[local] Arguments Nat.max : simpl never.

(** * Edge functions of faces *)
Lemma nodup4 {A} (a b c d : A) : NoDup [a; b; c; d] -> a <> b /\ a <> c /\ a <> d /\ b <> c /\ b <> d /\ c <> d.
Proof.
  intros N. inversion N as [|? ? H1 H2]; subst. inversion H2 as [|? ? H3 H4]; subst. inversion H4 as [|? ? H5 H6]; subst. cbn in H1, H3, H5. intuition congruence.
Qed.
Lemma opposite_values a b c d : NoDup [a; b; c; d] ->
  opposite [a; b; c; d] a = d /\ opposite [a; b; c; d] b = c /\ opposite [a; b; c; d] c = b /\ opposite [a; b; c; d] d = a.
Proof.
  intros N. apply nodup4 in N as (? & ? & ? & ? & ? & ?). cbn [opposite].
  repeat match goal with |- context [Nat.eqb ?x ?y] => destruct (Nat.eqb_spec x y); try congruence end. auto.
Qed.
Lemma opposite_ids (f f' : nat -> nat) vs vs' a a' : NoDup (map f vs) -> same_face (map f vs) (map f' vs') -> length vs = 4 ->
  In a vs -> In a' vs' -> f a = f' a' ->
  In (opposite vs a) vs /\ In (opposite vs' a') vs' /\ f (opposite vs a) = f' (opposite vs' a').
Proof.
  intros N S L Ia Ia' Q. pose proof (same_face_nodup _ _ N S) as N'. assert (L' : length vs' = 4) by (destruct S as (L0 & _); rewrite !map_length in L0; lia).
  destruct vs as [|p [|q [|r [|s [|z vs]]]]]; try discriminate L. destruct vs' as [|p' [|q' [|r' [|s' [|z' vs']]]]]; try discriminate L'. clear L L'.
  destruct (opposite_values p q r s (NoDup_map_inv _ _ N)) as (O1 & O2 & O3 & O4).
  destruct (opposite_values p' q' r' s' (NoDup_map_inv _ _ N')) as (O1' & O2' & O3' & O4').
  cbn [map] in *. pose proof (quad_cases _ _ _ _ _ _ _ _ N N' S) as C. apply nodup4 in N as (? & ? & ? & ? & ? & ?). cbn [In] in C, Ia, Ia'.
  destruct C as [C|[C|[C|[C|[C|[C|[C|[C|[]]]]]]]]]; injection C as Q1 Q2 Q3 Q4;
    (destruct Ia as [<-|[<-|[<-|[<-|[]]]]]; destruct Ia' as [<-|[<-|[<-|[<-|[]]]]]; try (exfalso; congruence));
    rewrite ?O1, ?O2, ?O3, ?O4, ?O1', ?O2', ?O3', ?O4'; repeat split; cbn; auto; congruence.
Qed.
Lemma edge_function_ids (f f' : nat -> nat) vs vs' mu mu' dmu dmu' a b a' b' : NoDup (map f vs) -> same_face (map f vs) (map f' vs') ->
  (forall v v', In v vs -> In v' vs' -> f v = f' v' -> mu v = mu' v' /\ dmu v = dmu' v') ->
  In a vs -> In b vs -> In a' vs' -> In b' vs' -> f a = f' a' -> f b = f' b' ->
  edge_function vs a b mu dmu = edge_function vs' a' b' mu' dmu'.
Proof.
  intros N S H Ia Ib Ia' Ib' Qa Qb. destruct (S) as (L & _). rewrite !map_length in L.
  destruct (H a a' Ia Ia' Qa) as [Ma Da]. destruct (H b b' Ib Ib' Qb) as [Mb Db].
  destruct (Nat.eq_dec (length vs) 4) as [L4|L4].
  - destruct (opposite_ids f f' vs vs' a a' N S L4 Ia Ia' Qa) as (I & I' & Q). destruct (H _ _ I I' Q) as [_ Do].
    assert (L4' : length vs' = 4) by lia. destruct vs as [|p [|q [|r [|s [|z vs]]]]]; try discriminate L4. destruct vs' as [|p' [|q' [|r' [|s' [|z' vs']]]]]; try discriminate L4'.
    unfold edge_function. rewrite Ma, Mb, Db, Do. reflexivity.
  - destruct vs as [|p [|q [|r [|s [|z vs]]]]]; try (exfalso; apply L4; reflexivity); destruct vs' as [|p' [|q' [|r' [|s' [|z' vs']]]]]; try discriminate L;
      unfold edge_function; rewrite Ma, Mb, Da, Db; reflexivity.
Qed.
Lemma edge_function_reversed vs mu dmu a b : NoDup vs -> face_edge vs a b -> sum (map dmu vs) = 0%R ->
  edge_function vs b a mu dmu = (- edge_function vs a b mu dmu)%R.
Proof.
  intros N F Z. destruct vs as [|p [|q [|r [|s [|z vs]]]]]; try (unfold edge_function; ring).
  destruct (opposite_values p q r s N) as (O1 & O2 & O3 & O4). apply face_edge_4 in F. unfold sum in Z. cbn [map fold_right] in Z. cbn [edge_function].
  decompose [or] F; match goal with H : a = _ /\ b = _ |- _ => destruct H as [-> ->] end; rewrite ?O1, ?O2, ?O3, ?O4;
    (match goal with |- (_ * ?x = - (_ * ?y))%R => replace x with (- y)%R by lra end); ring.
Qed.

Section Core.
Context {E X : Type}.
Variables (g : grid E X) (fg : fgrid E) (ref : E -> refelem) (keys : E -> list localkey) (basis : fe -> lbasis)
  (bary : E -> pt -> nat -> R) (dbary : E -> pt -> list R -> nat -> R) (types : list gt) (mp : mapper X) (fixed : option gtype) (old m : femap) (G : E -> geo).
Local Notation els := (fun e => In e (fg_elements fg)).
Local Notation d := (g_dim g).
Local Notation lay := (fun t => nedelec_layout t (g_dim g)).
Hypotheses (HG : grid_ok els g) (HGf : fgrid_ok fg) (HT : types_ok els g types) (HM : mapper_ok els g lay mp) (HK : keys_ok els g edge_functions keys)
  (HI : ids_ok els g ref (fg_vidx fg)) (HF : faces_ok els g ref (fg_vidx fg)) (HE : edges_of_faces_ok g fg ref dbary)
  (HB : edge_functions_ok g fg ref keys basis bary dbary)
  (HTM : types_match fg fixed) (HTy : nd_types fg) (HEo : edges_ok fg) (HU : nd_update fg fixed old = Some m).
Local Notation l := (mapper_leaf g mp lay types keys).

Definition component (tau : list R) (e : E) (f : fe) (xi : pt) (a : nat) : R :=
  dot d (nth a (gv_eval (covariant d (G e)) (basis f) xi) []) tau.
Lemma component_local e n xi w a : In e (fg_elements fg) -> n < 2 ^ edges (fg_dim fg) (fg_type fg e) -> a < length (keys e) ->
  geo_ok d (G e) xi -> length w = d ->
  component (push d (G e) xi w) e (FE (fg_type fg e) n) xi a = dot d (nth a (lb_eval (basis (FE (fg_type fg e) n)) xi) []) w.
Proof.
  intros He Hn Ha Hg Lw. destruct (en_size _ _ _ _ _ _ _ HB e n xi He Hn) as [L F]. rewrite Forall_forall in F.
  unfold component, gv_eval. cbn [t_value covariant].
  set (vs := lb_eval (basis (FE (fg_type fg e) n)) xi) in *. rewrite <- L in Ha.
  rewrite (nth_indep _ [] (co_value d (G e) xi [])) by (rewrite map_length; exact Ha). rewrite map_nth.
  apply C48_tangential; auto. apply F, nth_In, Ha.
Qed.
Lemma edge_key e s c k : In e (fg_elements fg) -> In (s, c, k) (keys e) -> c = d - 1 /\ k = 0 /\ 0 < d /\ exists t, subtype g e s c t /\ gt_dim t = 1.
Proof.
  intros He I. apply (HK e He) in I as (t & Ht & Hk). unfold edge_functions in Hk. assert (gt_dim t = 1 /\ k = 0) as [D ->] by (destruct (gt_dim t) as [|[|]]; lia).
  pose proof (Mapper_spec.go_dim _ _ HG e He) as Dd. pose proof (subtypes_dim _ _ _ (nth_error_In _ _ Ht)) as Q. split; [lia|]. split; auto. split; [lia|eauto].
Qed.
Lemma lt_sub e s c t : subtype g e s c t -> s < length (subtypes (g_type g e) c).
Proof. intros H. apply nth_error_Some. unfold subtype in H. congruence. Qed.
Lemma face_nodup e s c t : In e (fg_elements fg) -> 0 < c < d -> subtype g e s c t -> NoDup (map (fg_vidx fg e) (vertices g ref e s c)).
Proof. intros He Hc Hs. apply (io_distinct _ _ _ _ HI e s c He Hc). eapply lt_sub; eauto. Qed.
Lemma face_same e s c t e' s' t' : In e (fg_elements fg) -> In e' (fg_elements fg) -> 0 < c < d -> subtype g e s c t -> subtype g e' s' c t' ->
  g_sub g e s c = g_sub g e' s' c -> same_face (map (fg_vidx fg e) (vertices g ref e s c)) (map (fg_vidx fg e') (vertices g ref e' s' c)).
Proof. intros He He' Hc Hs Hs' Q. apply (io_shared _ _ _ _ HI e s c e' s' He He' Hc); auto; eapply lt_sub; eauto. Qed.

(** The directions that the bits give to a common edge agree, and so do the edge functions. *)
Lemma edge_signs e s1 t1 n e' s1' t1' n' s c t s' t' xi w xi' w' :
  In e (fg_elements fg) -> In e' (fg_elements fg) -> 0 < c < d -> subtype g e s c t -> subtype g e' s' c t' ->
  same_tangent g fg ref bary dbary G c e xi s w e' xi' s' w' ->
  subtype g e s1 (d - 1) t1 -> subtype g e' s1' (d - 1) t1' -> g_sub g e s1 (d - 1) = g_sub g e' s1' (d - 1) ->
  part_of g ref e s1 (d - 1) s c -> part_of g ref e' s1' (d - 1) s' c ->
  fm_find fg m e = Some (FE (fg_type fg e) n) -> fm_find fg m e' = Some (FE (fg_type fg e') n') ->
  ((if bit n s1 then -1 else 1) *
   edge_function (vertices g ref e s c) (Nat.min (fg_ev fg e s1 0) (fg_ev fg e s1 1)) (Nat.max (fg_ev fg e s1 0) (fg_ev fg e s1 1)) (bary e xi) (dbary e xi w))%R =
  ((if bit n' s1' then -1 else 1) *
   edge_function (vertices g ref e' s' c) (Nat.min (fg_ev fg e' s1' 0) (fg_ev fg e' s1' 1)) (Nat.max (fg_ev fg e' s1' 0) (fg_ev fg e' s1' 1)) (bary e' xi') (dbary e' xi' w'))%R.
Proof.
  intros He He' Hc Hs Hs' [(QS & _ & _ & SL) (Tw & Tw') SD _ _] H1 H1' Q1 P P' F F'.
  pose proof (face_nodup e s c t He Hc Hs) as N. pose proof (face_same e s c t e' s' t' He He' Hc Hs Hs' QS) as SF.
  destruct (ef_vertices _ _ _ _ HE e s1 t1 He H1) as [B1 V1]. destruct (ef_vertices _ _ _ _ HE e' s1' t1' He' H1') as [B1' V1'].
  pose proof (face_same e s1 (d - 1) t1 e' s1' t1' He He' ltac:(lia) H1 H1' Q1) as SE. rewrite V1, V1' in SE. cbn [map] in SE.
  assert (Ends : edge_ends fg e s1 = edge_ends fg e' s1' \/ edge_ends fg e s1 = (snd (edge_ends fg e' s1'), fst (edge_ends fg e' s1'))).
  { unfold edge_ends. cbn [fst snd]. destruct SE as (_ & I & _). destruct (HEo e s1 He B1) as [_ D]. cbn [fst snd edge_ends] in D.
    pose proof (proj1 (I _) (or_introl eq_refl)) as I1. pose proof (proj1 (I _) (or_intror (or_introl eq_refl))) as I2. cbn [In] in I1, I2.
    destruct I1 as [I1|[I1|[]]], I2 as [I2|[I2|[]]]; try (exfalso; congruence); [left|right]; congruence. }
  pose proof (C47_shared_edges_agree fg HGf fixed old m e e' s1 s1' n n' HTM HTy HEo HU He He' B1 B1' Ends F F') as Dir.
  pose proof (ef_edge _ _ _ _ HE e s t s1 t1 c He Hc Hs H1 P) as FE1.
  destruct P as [_ PI]. destruct P' as [_ PI']. rewrite V1 in PI. rewrite V1' in PI'.
  set (v0 := fg_ev fg e s1 0) in *. set (v1 := fg_ev fg e s1 1) in *. set (u0 := fg_ev fg e' s1' 0) in *. set (u1 := fg_ev fg e' s1' 1) in *.
  assert (Iv0 : In v0 (vertices g ref e s c)) by (apply PI; cbn; auto). assert (Iv1 : In v1 (vertices g ref e s c)) by (apply PI; cbn; auto).
  assert (Iu0 : In u0 (vertices g ref e' s' c)) by (apply PI'; cbn; auto). assert (Iu1 : In u1 (vertices g ref e' s' c)) by (apply PI'; cbn; auto).
  assert (FE2 : face_edge (vertices g ref e s c) (Nat.min v0 v1) (Nat.max v0 v1)).
  { destruct (le_ge_dec v0 v1); [rewrite Nat.min_l, Nat.max_r by lia; exact FE1|rewrite Nat.min_r, Nat.max_l by lia].
    destruct FE1 as (p & q & H & Hp & Hq). exists q, p. tauto. }
  assert (MM : forall a b, Nat.min a b = a /\ Nat.max a b = b \/ Nat.min a b = b /\ Nat.max a b = a) by (intros; lia).
  assert (Il : In (Nat.min v0 v1) (vertices g ref e s c) /\ In (Nat.max v0 v1) (vertices g ref e s c)) by (destruct (MM v0 v1) as [[-> ->]|[-> ->]]; auto).
  assert (Il' : In (Nat.min u0 u1) (vertices g ref e' s' c) /\ In (Nat.max u0 u1) (vertices g ref e' s' c)) by (destruct (MM u0 u1) as [[-> ->]|[-> ->]]; auto).
  unfold edge_dir in Dir. fold v0 v1 u0 u1 in Dir. cbn zeta in Dir.
  set (lo := Nat.min v0 v1) in *. set (hi := Nat.max v0 v1) in *. set (lo' := Nat.min u0 u1) in *. set (hi' := Nat.max u0 u1) in *.
  destruct Il as [Il Ih], Il' as [Il' Ih'].
  assert (Same : forall a b a' b', In a (vertices g ref e s c) -> In b (vertices g ref e s c) -> In a' (vertices g ref e' s' c) -> In b' (vertices g ref e' s' c) ->
    fg_vidx fg e a = fg_vidx fg e' a' -> fg_vidx fg e b = fg_vidx fg e' b' ->
    edge_function (vertices g ref e s c) a b (bary e xi) (dbary e xi w) = edge_function (vertices g ref e' s' c) a' b' (bary e' xi') (dbary e' xi' w')).
  { intros a b a' b' Ia Ib Ia' Ib' Qa Qb. apply (edge_function_ids (fg_vidx fg e) (fg_vidx fg e')); auto. }
  assert (Rev : edge_function (vertices g ref e s c) hi lo (bary e xi) (dbary e xi w) = (- edge_function (vertices g ref e s c) lo hi (bary e xi) (dbary e xi w))%R).
  { apply edge_function_reversed; auto; [now apply NoDup_map_inv in N|]. apply (ef_sum _ _ _ _ HE e xi s c t w); auto. }
  destruct (bit n s1), (bit n' s1'); injection Dir as D1 D2.
  - rewrite (Same lo hi lo' hi'); auto.
  - rewrite <- (Same hi lo lo' hi'), Rev; auto. ring.
  - rewrite <- (Same hi lo lo' hi'), Rev; auto. ring.
  - rewrite (Same lo hi lo' hi'); auto.
Qed.

Lemma component_partner e n e' n' s c t s' t' xi w xi' w' a nb :
  In e (fg_elements fg) -> In e' (fg_elements fg) -> 0 < c < d -> subtype g e s c t -> subtype g e' s' c t' ->
  same_tangent g fg ref bary dbary G c e xi s w e' xi' s' w' ->
  fm_find fg m e = Some (FE (fg_type fg e) n) -> fm_find fg m e' = Some (FE (fg_type fg e') n') ->
  n < 2 ^ edges (fg_dim fg) (fg_type fg e) -> n' < 2 ^ edges (fg_dim fg) (fg_type fg e') ->
  nth_error (lf_indices l e) a = Some nb ->
  component (push d (G e) xi w) e (FE (fg_type fg e) n) xi a = 0%R \/
  exists a', nth_error (lf_indices l e') a' = Some nb /\
    component (push d (G e) xi w) e' (FE (fg_type fg e') n') xi' a' = component (push d (G e) xi w) e (FE (fg_type fg e) n) xi a.
Proof.
  intros He He' Hc Hs Hs' ST F F' Bn Bn' Ha. pose proof ST as [(QS & OF & OF' & SL) (Tw & Tw') SD (Hg & Hg') SV].
  destruct (C57_nedelec els g types keys mp HG HT HM HK) as (LK & _ & NUM).
  assert (La : a < length (keys e)) by (change (length (keys e)) with (lf_fe l e); rewrite <- (lok_size _ _ LK e He); apply nth_error_Some; congruence).
  destruct (nth_error_lt_Some _ _ La) as ([[s1 c1] k] & Ka). pose proof (nth_error_In _ _ Ka) as I1.
  destruct (edge_key e s1 c1 k He I1) as (-> & -> & Dd & t1 & H1 & D1).
  rewrite (component_local e n xi w a) by (auto; apply Tw).
  destruct (incl_or (vertices g ref e s1 (d - 1)) (vertices g ref e s c)) as [I|I].
  2: { left. apply (en_zero _ _ _ _ _ _ _ HB e n xi s c t w a s1 0); auto. intros [_ J]. auto. }
  assert (P : part_of g ref e s1 (d - 1) s c) by (split; [lia|auto]). right.
  destruct (fo_closed _ _ _ _ HF e s c t e' s' t' s1 (d - 1) t1 He He' ltac:(lia) Hs Hs' QS H1 P) as (s1' & t1' & H1' & Q1 & P').
  destruct (Mapper_spec.go_type _ _ HG e s1 (d - 1) t1 e' s1' (d - 1) t1' He He' H1 H1' Q1) as [STy _].
  assert (I2 : In (s1', d - 1, 0) (keys e')).
  { apply (HK e' He'). exists t1'. split; auto. unfold edge_functions. rewrite <- (same_dim _ _ STy), D1. lia. }
  apply In_nth_error in I2 as (a' & Ka'). exists a'.
  destruct (NUM e a s1 (d - 1) 0 e' a' s1' (d - 1) 0 He He' Ka Ka') as (z & z' & Z & Z' & EQ). rewrite Ha in Z. injection Z as <-.
  assert (nb = z') by (apply EQ; auto). subst z'. split; auto.
  assert (La' : a' < length (keys e')) by (unfold localkey in *; apply nth_error_Some; congruence).
  rewrite SV, (component_local e' n' xi' w' a') by (auto; apply Tw').
  rewrite (en_trace _ _ _ _ _ _ _ HB e n xi s c t w a s1 0), (en_trace _ _ _ _ _ _ _ HB e' n' xi' s' c t' w' a' s1' 0) by auto.
  symmetry. apply (edge_signs e s1 t1 n e' s1' t1' n' s c t s' t' xi w xi' w'); auto.
Qed.
Lemma variant_of e f : In e (fg_elements fg) -> fm_find fg m e = Some f -> exists n, f = FE (fg_type fg e) n /\ n < 2 ^ edges (fg_dim fg) (fg_type fg e).
Proof.
  intros He F. destruct (C47_nedelec fg HGf fixed old HTM HTy HEo) as (m' & U & P). rewrite HU in U. injection U as <-.
  destruct (P e He) as (n & F1 & B & _). rewrite F in F1. injection F1 as ->. eauto.
Qed.
Lemma tangent_sym c e xi s w e' xi' s' w' : same_tangent g fg ref bary dbary G c e xi s w e' xi' s' w' -> same_tangent g fg ref bary dbary G c e' xi' s' w' e xi s w.
Proof.
  intros [(QS & OF & OF' & SL) (Tw & Tw') SD (Hg & Hg') SV]. constructor; auto.
  - repeat split; auto. intros v v' I I' Q. symmetry. auto.
  - intros v v' I I' Q. symmetry. auto.
Qed.
Lemma component_zero_or e e' s c t s' t' xi w xi' w' f f' nb :
  In e (fg_elements fg) -> In e' (fg_elements fg) -> 0 < c < d -> subtype g e s c t -> subtype g e' s' c t' ->
  same_tangent g fg ref bary dbary G c e xi s w e' xi' s' w' -> fm_find fg m e = Some f -> fm_find fg m e' = Some f' ->
  basis_value (length (keys e)) (lf_indices l e) (component (push d (G e) xi w) e f xi) nb = 0%R \/
  basis_value (length (keys e)) (lf_indices l e) (component (push d (G e) xi w) e f xi) nb =
  basis_value (length (keys e')) (lf_indices l e') (component (push d (G e) xi w) e' f' xi') nb.
Proof.
  intros He He' Hc Hs Hs' ST F F'. destruct (variant_of e f He F) as (n & -> & B). destruct (variant_of e' f' He' F') as (n' & -> & B').
  destruct (C57_nedelec els g types keys mp HG HT HM HK) as (LK & ND & _).
  destruct (in_dec Nat.eq_dec nb (lf_indices l e)) as [I|I]; [|left; now apply basis_value_none].
  apply In_nth_error in I as (a & Ha). rewrite (basis_value_at _ _ _ nb a (ND e He)); auto; [|apply (lok_size _ _ LK e He)].
  destruct (component_partner e n e' n' s c t s' t' xi w xi' w' a nb) as [Z|(a' & Ha' & <-)]; auto. right.
  symmetry. apply (basis_value_at _ _ _ nb a'); auto. apply (lok_size _ _ LK e' He').
Qed.
Lemma component_continuous e e' s c t s' t' xi w xi' w' f f' nb :
  In e (fg_elements fg) -> In e' (fg_elements fg) -> 0 < c < d -> subtype g e s c t -> subtype g e' s' c t' ->
  same_tangent g fg ref bary dbary G c e xi s w e' xi' s' w' -> fm_find fg m e = Some f -> fm_find fg m e' = Some f' ->
  basis_value (length (keys e)) (lf_indices l e) (component (push d (G e) xi w) e f xi) nb =
  basis_value (length (keys e')) (lf_indices l e') (component (push d (G e) xi w) e' f' xi') nb.
Proof.
  intros He He' Hc Hs Hs' ST F F'.
  destruct (component_zero_or e e' s c t s' t' xi w xi' w' f f' nb He He' Hc Hs Hs' ST F F') as [Z|Z]; auto.
  destruct (component_zero_or e' e s' c t' s t xi' w' xi w f' f nb He' He Hc Hs' Hs (tangent_sym _ _ _ _ _ _ _ _ _ ST) F' F) as [Z'|Z'];
    rewrite <- (st_vector _ _ _ _ _ _ _ _ _ _ _ _ _ _ _ ST) in Z'; congruence.
Qed.
End Core.

(** The component of every global basis function in the direction of a tangential vector [tau]
    of a face or an edge is the same on all elements with this face or edge. *)
Theorem C65_nedelec : forall (E X : Type) (g : grid E X) (fg : fgrid E) (ref : E -> refelem) (keys : E -> list localkey) (basis : fe -> lbasis)
    (bary : E -> pt -> nat -> R) (dbary : E -> pt -> list R -> nat -> R) (types : list gt) (mp : mapper X) (fixed : option gtype) (old m : femap) (G : E -> geo),
  let els := fun e => In e (fg_elements fg) in let d := g_dim g in let lay := fun t => nedelec_layout t d in
  grid_ok els g -> fgrid_ok fg -> types_ok els g types -> mapper_ok els g lay mp -> keys_ok els g edge_functions keys ->
  ids_ok els g ref (fg_vidx fg) -> faces_ok els g ref (fg_vidx fg) -> edges_of_faces_ok g fg ref dbary -> edge_functions_ok g fg ref keys basis bary dbary ->
  types_match fg fixed -> nd_types fg -> edges_ok fg -> nd_update fg fixed old = Some m ->
  let l := mapper_leaf g mp lay types keys in
  forall e s t xi w e' s' t' xi' w' c f f' nb, els e -> els e' -> 0 < c < d -> subtype g e s c t -> subtype g e' s' c t' ->
  same_tangent g fg ref bary dbary G c e xi s w e' xi' s' w' -> fm_find fg m e = Some f -> fm_find fg m e' = Some f' ->
  let tau := push d (G e) xi w in
  basis_value (length (keys e)) (lf_indices l e) (fun a => dot d (nth a (gv_eval (covariant d (G e)) (basis f) xi) []) tau) nb =
  basis_value (length (keys e')) (lf_indices l e') (fun a => dot d (nth a (gv_eval (covariant d (G e')) (basis f') xi') []) tau) nb.
Proof.
  intros E X g fg ref keys basis bary dbary types mp fixed old m G els d lay HG HGf HT HM HK HI HF HE HB HTM HTy HEo HU l
    e s t xi w e' s' t' xi' w' c f f' nb He He' Hc Hs Hs' ST F F' tau.
  exact (component_continuous g fg ref keys basis bary dbary types mp fixed old m G HG HGf HT HM HK HI HF HE HB HTM HTy HEo HU
    e e' s c t s' t' xi w xi' w' f f' nb He He' Hc Hs Hs' ST F F').
Qed.
Print Assumptions C65_nedelec.

(** The tangential components of the entries of a discrete function that belong to a Nedelec
    basis are continuous, whatever tree the basis is part of and whatever the coefficients are. *)
Theorem C65_tangential_component_continuous : forall (E X : Type) (g : grid E X) (fg : fgrid E) (ref : E -> refelem) (keys : E -> list localkey) (basis : fe -> lbasis)
    (bary : E -> pt -> nat -> R) (dbary : E -> pt -> list R -> nat -> R) (types : list gt) (mp : mapper X) (fixed : option gtype) (old m : femap) (G : E -> geo)
    (b : bexpr E) (path : list nat) (su : setup E pt) (p : list nat),
  let els := fun e => In e (fg_elements fg) in let d := g_dim g in let lay := fun t => nedelec_layout t d in
  setup_ok b path els su ->
  grid_ok els g -> fgrid_ok fg -> types_ok els g types -> mapper_ok els g lay mp -> keys_ok els g edge_functions keys ->
  ids_ok els g ref (fg_vidx fg) -> faces_ok els g ref (fg_vidx fg) -> edges_of_faces_ok g fg ref dbary -> edge_functions_ok g fg ref keys basis bary dbary ->
  types_match fg fixed -> nd_types fg -> edges_ok fg -> nd_update fg fixed old = Some m ->
  (* leaf [p] of the basis is this Nedelec basis *)
  leaf_at b (path ++ p) = Some (mapper_leaf g mp lay types keys) -> su_vdim su p = d ->
  (forall e x f, els e -> fm_find fg m e = Some f -> su_shape su e p x = gv_eval (covariant d (G e)) (basis f) x) ->
  forall (coefficients : mi -> option (list R)) e s t xi w e' s' t' xi' w' c y y' v n v' n', els e -> els e' -> 0 < c < d -> subtype g e s c t -> subtype g e' s' c t' ->
  same_tangent g fg ref bary dbary G c e xi s w e' xi' s' w' ->
  is_value b path su e coefficients xi y -> is_value b path su e' coefficients xi' y' ->
  leaf_of b path e v p n -> leaf_of b path e' v' p n' -> node_size n <> 0 -> node_size n' <> 0 ->
  let tau := push d (G e) xi w in
  exists z z', node_to_range p y = Some z /\ node_to_range p y' = Some z' /\ forall q, q < su_cdim su ->
    rsum d (fun r => (nth (q * d + r) (scalars z) 0 * at_ tau r)%R) = rsum d (fun r => (nth (q * d + r) (scalars z') 0 * at_ tau r)%R).
Proof.
  intros E X g fg ref keys basis bary dbary types mp fixed old m G b path su p els d lay OKS HG HGf HT HM HK HI HF HE HB HTM HTy HEo HU Hl Hd Hsh
    cf e s t xi w e' s' t' xi' w' c y y' v n v' n' He He' Hc Hs Hs' ST V V' Lf Lf' NZ NZ' tau.
  set (l := mapper_leaf g mp lay types keys) in *.
  destruct (C47_nedelec fg HGf fixed old HTM HTy HEo) as (m' & U' & VV). rewrite HU in U'. injection U' as <-.
  destruct (VV e He) as (q & Hf & Bq & _). destruct (VV e' He') as (q' & Hf' & Bq' & _).
  rewrite <- Hd. apply (C64_functions_follow_basis_functions b path els su OKS cf e xi y v n e' xi' y' v' n' p l); auto.
  intros nb. rewrite Hd.
  assert (SZ : forall e0 v0 n0 (x0 : pt) w0, els e0 -> leaf_of b path e0 v0 p n0 -> fm_find fg m e0 = Some (FE (fg_type fg e0) w0) ->
    w0 < 2 ^ edges (fg_dim fg) (fg_type fg e0) -> node_size n0 = length (keys e0)).
  { intros e0 v0 n0 x0 w0 H0 L0 F0 B0. destruct (so_shape _ _ _ _ OKS e0 v0 p n0 x0 H0 L0) as [A _]. rewrite (Hsh e0 x0 _ H0 F0) in A. unfold gv_eval in A.
    rewrite map_length in A. rewrite <- A. apply (en_size _ _ _ _ _ _ _ HB e0 w0 x0 H0 B0). }
  rewrite (SZ e v n xi q), (SZ e' v' n' xi' q'); auto.
  assert (BV : forall sz idx (f1 f2 : nat -> R), (forall a, f1 a = f2 a) -> basis_value sz idx f1 nb = basis_value sz idx f2 nb).
  { intros sz idx f1 f2 Hf0. apply rsum_ext. intros a _. destruct (nth_error idx a); auto. destruct (_ =? _); auto. }
  pose proof (C65_nedelec E X g fg ref keys basis bary dbary types mp fixed old m G HG HGf HT HM HK HI HF HE HB HTM HTy HEo HU
    e s t xi w e' s' t' xi' w' c _ _ nb He He' Hc Hs Hs' ST Hf Hf') as C. cbn zeta in C. fold d lay l tau in C.
  etransitivity; [|etransitivity; [exact C|]]; apply BV; intros a; unfold dot, shape_of.
  - rewrite (Hsh e xi _ He Hf). reflexivity.
  - rewrite (Hsh e' xi' _ He' Hf'). reflexivity.
Qed.
Print Assumptions C65_tangential_component_continuous.
