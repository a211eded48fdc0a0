(** C02: OverflowArray behaves as a bounded sequence. *)
From Coq Require Import List Arith Lia.
From Verif Require Import Lib OverflowArray_model OverflowArray_spec OverflowArray_proofs.
Import ListNotations.

(** Every history of push_back, pop_back, resize, clear and element assignment
    that a sequence of capacity base+overflow allows runs without a failing
    assert and shows that sequence, whatever the split into base and overflow;
    the base-class part is its prefix.  (push_front: see below.) *)
Theorem C02_overflow_array_sequence_partial :
  forall (T : Type) (junkb junko : list T) (h : list (oaop T)) (q : list (option T)),
    sq_run (length junkb + length junko) [] h = Some q ->
    exists a, oa_run (oa_default junkb junko) h = Some a /\
              oa_agrees a q /\ base_is_prefix a q /\ length (oa_base a) = length junkb.
Proof.
  intros T jb jo h q Hq.
  destruct (orun_inv _ _ h _ _ _ (default_oinv jb jo) Hq) as (a & E & I).
  exists a. destruct (oinv_agrees _ _ _ _ I). repeat split; auto; apply H || apply I.
Qed.

(** The initializer list constructor builds the listed sequence. *)
Theorem C02_init_list :
  forall (T : Type) (junkb junko l : list T),
    length l <= length junkb + length junko ->
    exists a, oa_init_list junkb junko l = Some a /\
              oa_agrees a (map Some l) /\ base_is_prefix a (map Some l).
Proof.
  intros T jb jo l H. destruct (init_list_oinv jb jo l H) as (a & E & I).
  exists a. destruct (oinv_agrees _ _ _ _ I). auto.
Qed.

(** operator== is equality of the sequences (for arrays all of whose entries the
    histories have determined), for any two base/overflow splits. *)
Theorem C02_equality :
  forall (T : Type) (eqb : T -> T -> bool) (jb jo jb' jo' : list T)
         (h h' : list (oaop T)) (q q' : list T) a b,
    (forall x y, eqb x y = true <-> x = y) ->
    sq_run (length jb + length jo) [] h = Some (map Some q) ->
    sq_run (length jb' + length jo') [] h' = Some (map Some q') ->
    oa_run (oa_default jb jo) h = Some a -> oa_run (oa_default jb' jo') h' = Some b ->
    exists r, oa_eq eqb a b = Some r /\ (r = true <-> q = q').
Proof.
  intros T eqb jb jo jb' jo' h h' q q' a b Heq Hq Hq' Ha Hb.
  destruct (orun_inv _ _ h _ _ _ (default_oinv jb jo) Hq) as (a1 & E & I).
  destruct (orun_inv _ _ h' _ _ _ (default_oinv jb' jo') Hq') as (b1 & E' & I').
  rewrite Ha in E; rewrite Hb in E'. injection E as <-. injection E' as <-.
  eapply oa_eq_spec; eauto.
Qed.

(** push_front can never be used with asserts enabled: some assert fails on
    every array. *)
Theorem C02_push_front_always_asserts :
  forall (T : Type) (a : oarray T) (t : T), oa_push_front true a t = None.
Proof. intros; apply push_front_asserts. Qed.

(** Without asserts, push_front(t) on x::q does not give t::x::q: the size stays
    and all entries but the first become copies of x. *)
Theorem C02_push_front_release_effect :
  forall (T : Type) (jb jo : list T) (h : list (oaop T)) (x : T) (q : list T) a (t : T),
    sq_run (length jb + length jo) [] h = Some (map Some (x :: q)) ->
    S (length q) < length jb + length jo ->
    oa_run (oa_default jb jo) h = Some a ->
    exists a', oa_push_front false a t = Some a' /\
               oa_agrees a' (map Some (t :: repeat x (length q))).
Proof.
  intros T jb jo h x q a t Hq Hl Ha.
  destruct (orun_inv _ _ h _ _ _ (default_oinv jb jo) Hq) as (a1 & E & I).
  rewrite Ha in E; injection E as <-.
  destruct (push_front_release _ _ _ _ _ t I Hl) as (a' & E' & I').
  exists a'; split; auto. apply (oinv_agrees _ _ _ _ I').
Qed.

(** Hence the claim with push_front included is false. *)
Theorem C02_push_front_refuted :
  exists (jb jo : list nat) (h : list (oaop nat)) (q : list (option nat)) a a' (t : nat),
    sq_run (length jb + length jo) [] h = Some q /\ length q < length jb + length jo /\
    oa_run (oa_default jb jo) h = Some a /\
    oa_push_front true a t = None /\
    oa_push_front false a t = Some a' /\ ~ oa_agrees a' (Some t :: q).
Proof.
  exists [0;0], [0;0], [OPushBack 1; OPushBack 2; OPushBack 3], [Some 1; Some 2; Some 3].
  do 2 eexists. exists 9. repeat split; try (vm_compute; reflexivity); try (simpl; lia).
  intros (Hs & _). vm_compute in Hs. discriminate.
Qed.

Example C02_sequence_applies :
  sq_run 4 [] [OPushBack 1; OPushBack 2; OPushBack 3; OPopBack; OResize 4; OAssign 3 8]
  = Some [Some 1; Some 2; None; Some 8].
Proof. reflexivity. Qed.
Example C02_equality_applies :
  sq_run (length [0;0] + length [0]) [] [OPushBack 1; OPushBack 2; OPushBack 3] = Some (map Some [1;2;3]) /\
  sq_run (length [0] + length [0;0;0]) [] [OPushBack 1; OPushBack 2; OPushBack 4] = Some (map Some [1;2;4]).
Proof. split; reflexivity. Qed.

Print Assumptions C02_overflow_array_sequence_partial.
Print Assumptions C02_init_list.
Print Assumptions C02_equality.
Print Assumptions C02_push_front_always_asserts.
Print Assumptions C02_push_front_release_effect.
Print Assumptions C02_push_front_refuted.
