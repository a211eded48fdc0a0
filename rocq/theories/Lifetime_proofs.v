(** Proofs about the lifetimes of grid functions and local functions. *)
From Coq Require Import List Arith Bool Reals Lia.
From Verif Require Import Lib LocalFunction_model LocalFunction_spec Lifetime_model Lifetime_spec.
From Verif Require LocalFunction_props.
Import ListNotations.

Section Proofs.
Context {E X Y V : Type}.
Notation memory := (memory E V).
Notation cell := (cell E V).
Notation gobj := (gobj E X Y V).
Notation robj := (robj E X Y V).
Notation desc := (desc E X Y V).
Notation lobj := (lobj E X Y V).
Notation gf := (gf E X Y V).

Lemma NoDup_app_parts {A} (l l' : list A) : NoDup (l ++ l') -> NoDup l /\ NoDup l'.
Proof.
  induction l as [|a l IH]; cbn; intros H; [split; auto using NoDup_nil|]. inversion H as [|? ? N1 N2]; subst. destruct (IH N2) as [A1 A2]. split; auto. constructor; auto.
  intros Ha. apply N1, in_or_app. now left.
Qed.
(** * Memory *)
Lemma get_lt (m : memory) a c : get m a = Some c -> a < length m.
Proof. unfold get. destruct (nth_error m a) eqn:H; [|discriminate]. intros _. now apply nth_error_Some_lt in H. Qed.
Lemma get_app (m m' : memory) a : get (m ++ m') a = if a <? length m then get m a else get m' (a - length m).
Proof. unfold get. rewrite nth_error_app_eq. now destruct (a <? length m). Qed.
Lemma put_length (m : memory) a c : length (put m a c) = length m.
Proof. unfold put. destruct (upd m a c) eqn:H; auto. now apply upd_length in H. Qed.
Lemma get_put (m : memory) a c b : get (put m a c) b = if b =? a then (if a <? length m then c else None) else get m b.
Proof.
  unfold put, get. destruct (upd m a c) as [m'|] eqn:H.
  - rewrite (upd_nth_error _ _ _ _ b H). destruct (b =? a); auto. apply upd_lt in H. apply Nat.ltb_lt in H. now rewrite H.
  - apply upd_None in H. destruct (Nat.eqb_spec b a) as [->|]; auto. assert (Q : a <? length m = false) by (apply Nat.ltb_ge; lia). rewrite Q.
    now rewrite (proj2 (nth_error_None m a) H).
Qed.
Lemma kill_length (m : memory) l : length (kill m l) = length m.
Proof. revert m. induction l as [|a l IH]; intros m; cbn; auto. unfold kill in IH. now rewrite IH, put_length. Qed.
Lemma get_kill (m : memory) l b : ~ In b l -> get (kill m l) b = get m b.
Proof.
  revert m. induction l as [|a l IH]; intros m Hb; cbn; auto. unfold kill in IH. rewrite IH by (intros H; apply Hb; now right).
  rewrite get_put. destruct (Nat.eqb_spec b a) as [->|]; auto. exfalso. apply Hb. now left.
Qed.
Lemma get_new (m : memory) c : get (m ++ [Some c]) (length m) = Some c.
Proof. rewrite get_app, Nat.ltb_irrefl, Nat.sub_diag. reflexivity. Qed.
Definition ext (m m' : memory) : Prop := forall a c, get m a = Some c -> get m' a = Some c.
Lemma ext_refl m : ext m m. Proof. now intros a c. Qed.
Lemma ext_trans m1 m2 m3 : ext m1 m2 -> ext m2 m3 -> ext m1 m3. Proof. intros H1 H2 a c H. auto. Qed.
Lemma ext_app (m : memory) l : ext m (m ++ l).
Proof. intros a c H. rewrite get_app. assert (L := get_lt _ _ _ H). apply Nat.ltb_lt in L. now rewrite L. Qed.

(** * Objects and their values *)
Inductive rep (m : memory) : gobj -> desc -> Prop :=
| rep_ana a es f : get m a = Some (CSet es) -> rep m (NAna a f) (DAna es f)
| rep_normal a es f : get m a = Some (CSet es) -> rep m (NNormal a f) (DNormal es f)
| rep_dis es deps v dv : rep m (NDis es deps v dv) (DDis es deps v dv)
| rep_comp a h l ds : get m a = Some (COuter h) -> l <> [] -> reps m l ds -> rep m (NComp a l) (DComp h ds)
| rep_coarse a es n d : get m a = Some (CSet es) -> rep m n d -> rep m (NCoarse a n) (DCoarse es d)
| rep_fine a es n d : get m a = Some (CSet es) -> rep m n d -> rep m (NFine a n) (DFine es d)
| rep_erased n d : rep m n d -> rep m (NErased n) (DErased d)
with reps (m : memory) : list gobj -> list desc -> Prop :=
| reps_nil : reps m [] []
| reps_cons n d l ds : rep m n d -> reps m l ds -> reps m (n :: l) (d :: ds).
Scheme rep_mind := Induction for rep Sort Prop with reps_mind := Induction for reps Sort Prop.
Combined Scheme rep_reps_ind from rep_mind, reps_mind.

Definition addrss : list gobj -> list nat := fix go l := match l with [] => [] | m :: r => addrs m ++ go r end.
Lemma addrs_comp a (l : list gobj) : addrs (NComp a l) = a :: addrss l. Proof. reflexivity. Qed.
Definition clones : memory -> list gobj -> option (memory * list gobj) :=
  fix go m l := match l with [] => Some (m, []) | i :: r => '(m1, i') <- clone m i ;; '(m2, r') <- go m1 r ;; Some (m2, i' :: r') end.
Lemma clone_comp m a l : clone m (NComp a l) = (c <- get m a ;; '(m', l') <- clones (m ++ [Some c]) l ;; Some (m', NComp (length m) l')).
Proof. reflexivity. Qed.

Lemma rep_frame_both m :
  (forall n d, rep m n d -> forall m', (forall a, In a (addrs n) -> get m' a = get m a) -> rep m' n d) /\
  (forall l ds, reps m l ds -> forall m', (forall a, In a (addrss l) -> get m' a = get m a) -> reps m' l ds).
Proof.
  apply rep_reps_ind.
  - intros a es f H m' F. constructor. rewrite F; cbn; auto.
  - intros a es f H m' F. constructor. rewrite F; cbn; auto.
  - constructor.
  - intros a h l ds H Hl _ IH m' F. constructor; auto. { rewrite F; [auto|rewrite addrs_comp; now left]. } apply IH. intros b Hb. apply F. rewrite addrs_comp. now right.
  - intros a es n d H _ IH m' F. constructor. { rewrite F; cbn; auto. } apply IH. intros b Hb. apply F. now right.
  - intros a es n d H _ IH m' F. constructor. { rewrite F; cbn; auto. } apply IH. intros b Hb. apply F. now right.
  - intros n d _ IH m' F. constructor. now apply IH.
  - constructor.
  - intros n d l ds _ IH1 _ IH2 m' F. constructor; [apply IH1|apply IH2]; intros a Ha; apply F; cbn; apply in_or_app; auto.
Qed.
Lemma rep_frame m m' n d : rep m n d -> (forall a, In a (addrs n) -> get m' a = get m a) -> rep m' n d.
Proof. intros H. now apply rep_frame_both. Qed.
Lemma reps_frame m m' l ds : reps m l ds -> (forall a, In a (addrss l) -> get m' a = get m a) -> reps m' l ds.
Proof. intros H. now apply rep_frame_both. Qed.
Lemma rep_live_both m :
  (forall n d, rep m n d -> forall a, In a (addrs n) -> exists c, get m a = Some c) /\
  (forall l ds, reps m l ds -> forall a, In a (addrss l) -> exists c, get m a = Some c).
Proof.
  apply rep_reps_ind.
  - intros a es f H b [<-|[]]. eauto.
  - intros a es f H b [<-|[]]. eauto.
  - intros es deps v dv b [].
  - intros a h l ds H Hl _ IH b. rewrite addrs_comp. intros [<-|Hb]; eauto.
  - intros a es n d H _ IH b [<-|Hb]; eauto.
  - intros a es n d H _ IH b [<-|Hb]; eauto.
  - intros n d _ IH b Hb. eauto.
  - intros b [].
  - intros n d l ds _ IH1 _ IH2 b Hb. cbn in Hb. apply in_app_or in Hb as [Hb|Hb]; eauto.
Qed.
Lemma rep_live m n d a : rep m n d -> In a (addrs n) -> exists c, get m a = Some c.
Proof. intros H. now apply (proj1 (rep_live_both m) n d). Qed.
Lemma rep_lt m n d a : rep m n d -> In a (addrs n) -> a < length m.
Proof. intros H Ha. destruct (rep_live m n d a H Ha) as [c Hc]. now apply get_lt in Hc. Qed.
Lemma reps_lt m l ds a : reps m l ds -> In a (addrss l) -> a < length m.
Proof. intros H Ha. destruct (proj2 (rep_live_both m) l ds H a Ha) as [c Hc]. now apply get_lt in Hc. Qed.
Lemma rep_ext m m' n d : rep m n d -> ext m m' -> rep m' n d.
Proof. intros H X0. apply (rep_frame m); auto. intros a Ha. destruct (rep_live m n d a H Ha) as [c Hc]. rewrite Hc. now apply X0. Qed.
Lemma reps_ext m m' l ds : reps m l ds -> ext m m' -> reps m' l ds.
Proof. intros H X0. apply (reps_frame m); auto. intros a Ha. destruct (proj2 (rep_live_both m) l ds H a Ha) as [c Hc]. rewrite Hc. now apply X0. Qed.

Lemma clone_both m :
  (forall n d, rep m n d -> forall m1, ext m m1 -> exists new n', clone m1 n = Some (m1 ++ map Some new, n') /\ rep (m1 ++ map Some new) n' d /\ addrs n' = seq (length m1) (length new)) /\
  (forall l ds, reps m l ds -> forall m1, ext m m1 -> exists new l', clones m1 l = Some (m1 ++ map Some new, l') /\ reps (m1 ++ map Some new) l' ds /\ addrss l' = seq (length m1) (length new)).
Proof.
  apply rep_reps_ind.
  - intros a es f H m1 X1. exists [CSet es], (NAna (length m1) f). cbn. rewrite (X1 _ _ H). cbn. split; auto. split; auto. constructor. apply get_new.
  - intros a es f H m1 X1. exists [CSet es], (NNormal (length m1) f). cbn. rewrite (X1 _ _ H). cbn. split; auto. split; auto. constructor. apply get_new.
  - intros es deps v dv m1 X1. exists [], (NDis es deps v dv). cbn. rewrite app_nil_r. split; auto. split; auto. constructor.
  - intros a h l ds H Hl Hr IH m1 X1. destruct (IH (m1 ++ [Some (COuter h)])) as (new & l' & E1 & E2 & E3); [eapply ext_trans; [eauto|apply ext_app]|].
    exists (COuter h :: new), (NComp (length m1) l'). rewrite clone_comp, (X1 _ _ H). cbn [obind]. rewrite E1. cbn [obind]. rewrite <- app_assoc in *. cbn [app map] in *. split; auto. split.
    + constructor; auto. { change (Some (COuter h) :: map Some new) with ([Some (COuter h)] ++ map Some new). rewrite app_assoc. apply ext_app. apply get_new. }
      intros ->. inversion E2; subst. inversion Hr; subst. congruence.
    + rewrite addrs_comp, E3. cbn. now rewrite app_length, Nat.add_1_r.
  - intros a es n d H Hr IH m1 X1. destruct (IH (m1 ++ [Some (CSet es)])) as (new & n' & E1 & E2 & E3); [eapply ext_trans; [eauto|apply ext_app]|].
    exists (CSet es :: new), (NCoarse (length m1) n'). cbn [clone]. rewrite (X1 _ _ H). cbn [obind]. rewrite E1. cbn [obind]. rewrite <- app_assoc in *. cbn [app map] in *. split; auto. split.
    + constructor; auto. change (Some (CSet es) :: map Some new) with ([@Some cell (CSet es)] ++ map Some new). rewrite app_assoc. apply ext_app. apply get_new.
    + cbn. rewrite E3. now rewrite app_length, Nat.add_1_r.
  - intros a es n d H Hr IH m1 X1. destruct (IH (m1 ++ [Some (CSet es)])) as (new & n' & E1 & E2 & E3); [eapply ext_trans; [eauto|apply ext_app]|].
    exists (CSet es :: new), (NFine (length m1) n'). cbn [clone]. rewrite (X1 _ _ H). cbn [obind]. rewrite E1. cbn [obind]. rewrite <- app_assoc in *. cbn [app map] in *. split; auto. split.
    + constructor; auto. change (Some (CSet es) :: map Some new) with ([@Some cell (CSet es)] ++ map Some new). rewrite app_assoc. apply ext_app. apply get_new.
    + cbn. rewrite E3. now rewrite app_length, Nat.add_1_r.
  - intros n d Hr IH m1 X1. destruct (IH m1 X1) as (new & n' & E1 & E2 & E3). exists new, (NErased n'). cbn. rewrite E1. cbn. split; auto. split; auto. now constructor.
  - intros m1 X1. exists [], []. cbn. rewrite app_nil_r. split; auto. split; auto. constructor.
  - intros n d l ds Hr1 IH1 Hr2 IH2 m1 X1. destruct (IH1 m1 X1) as (new & n' & E1 & E2 & E3).
    destruct (IH2 (m1 ++ map Some new)) as (new2 & l' & F1 & F2 & F3); [eapply ext_trans; [eauto|apply ext_app]|].
    exists (new ++ new2), (n' :: l'). cbn. rewrite E1. cbn. rewrite F1. cbn. rewrite map_app, app_assoc. split; auto. split.
    + constructor; auto. eapply rep_ext; [exact E2|apply ext_app].
    + rewrite E3, F3. rewrite app_length, map_length, <- seq_app, app_length. reflexivity.
Qed.
Lemma clone_ok m n d : rep m n d -> exists new n', clone m n = Some (m ++ map Some new, n') /\ rep (m ++ map Some new) n' d /\ addrs n' = seq (length m) (length new).
Proof. intros H. apply (proj1 (clone_both m) n d H). apply ext_refl. Qed.
Lemma derive_ok m n d : rep m n d -> forall m1 d', ext m m1 -> dderiv d = Some d' ->
  exists new n', derive m1 n = Some (m1 ++ map Some new, n') /\ rep (m1 ++ map Some new) n' d' /\ addrs n' = seq (length m1) (length new).
Proof.
  induction 1 as [a es f H|a es f H|es deps v dv|a h l ds H|a es n d H Hr IH|a es n d H Hr IH|n d Hr IH]; intros m1 d' X1 Hd; cbn in Hd; try discriminate.
  - injection Hd as <-. exists [CSet es], (NAna (length m1) (fun k => f (S k))). cbn. rewrite (X1 _ _ H). cbn. split; auto. split; auto. constructor. apply get_new.
  - destruct dv as [v'|]; [|discriminate]. injection Hd as <-. exists [], (NDis es deps v' None). cbn. rewrite app_nil_r. split; auto. split; auto. constructor.
  - apply obind_Some in Hd as (d1 & Hd & [= <-]). destruct (IH (m1 ++ [Some (CSet es)]) d1) as (new & n' & E1 & E2 & E3); [eapply ext_trans; [eauto|apply ext_app]|auto|].
    exists (CSet es :: new), (NCoarse (length m1) n'). cbn [derive]. rewrite (X1 _ _ H). cbn [obind]. rewrite E1. cbn [obind]. rewrite <- app_assoc in *. cbn [app map] in *. split; auto. split.
    + constructor; auto. change (Some (CSet es) :: map Some new) with ([@Some cell (CSet es)] ++ map Some new). rewrite app_assoc. apply ext_app. apply get_new.
    + cbn. rewrite E3. now rewrite app_length, Nat.add_1_r.
  - apply obind_Some in Hd as (d1 & Hd & [= <-]). destruct (IH (m1 ++ [Some (CSet es)]) d1) as (new & n' & E1 & E2 & E3); [eapply ext_trans; [eauto|apply ext_app]|auto|].
    exists (CSet es :: new), (NFine (length m1) n'). cbn [derive]. rewrite (X1 _ _ H). cbn [obind]. rewrite E1. cbn [obind]. rewrite <- app_assoc in *. cbn [app map] in *. split; auto. split.
    + constructor; auto. change (Some (CSet es) :: map Some new) with ([@Some cell (CSet es)] ++ map Some new). rewrite app_assoc. apply ext_app. apply get_new.
    + cbn. rewrite E3. now rewrite app_length, Nat.add_1_r.
  - apply obind_Some in Hd as (d1 & Hd & [= <-]). destruct (IH m1 d1 X1 Hd) as (new & n' & E1 & E2 & E3). exists new, (NErased n'). cbn. rewrite E1. cbn. split; auto. split; auto. now constructor.
Qed.

(** * Assignment *)
Fixpoint gobj_ind' (P : gobj -> Prop) (HA : forall a f, P (NAna a f)) (HN : forall a f, P (NNormal a f)) (HD : forall es deps v dv, P (NDis es deps v dv))
  (HC : forall a l, Forall P l -> P (NComp a l)) (HO : forall a n, P n -> P (NCoarse a n)) (HF : forall a n, P n -> P (NFine a n)) (HE : forall n, P n -> P (NErased n)) (n : gobj) : P n :=
  match n with
  | NAna a f => HA a f | NNormal a f => HN a f | NDis es deps v dv => HD es deps v dv
  | NComp a l => HC a l ((fix go l := match l return Forall P l with [] => Forall_nil _ | n :: r => Forall_cons _ (gobj_ind' P HA HN HD HC HO HF HE n) (go r) end) l)
  | NCoarse a n => HO a n (gobj_ind' P HA HN HD HC HO HF HE n)
  | NFine a n => HF a n (gobj_ind' P HA HN HD HC HO HF HE n)
  | NErased n => HE n (gobj_ind' P HA HN HD HC HO HF HE n)
  end.
Definition assigns : memory -> list gobj -> list gobj -> option (memory * list gobj) :=
  fix go m l l' := match l, l' with
                   | [], [] => Some (m, [])
                   | i :: r, j :: r' => '(m1, i') <- assign m i j ;; '(m2, q) <- go m1 r r' ;; Some (m2, i' :: q)
                   | _, _ => None
                   end.
Definition assignables : list desc -> list desc -> bool := fix go l l' := match l, l' with [], [] => true | d :: r, d' :: r' => assignable d d' && go r r' | _, _ => false end.
Lemma assign_comp m a l b l' : assign m (NComp a l) (NComp b l') = (c <- get m b ;; '(m', l'') <- assigns (put m a (Some c)) l l' ;; Some (m', NComp a l'')).
Proof. reflexivity. Qed.
(** memory after writing to the object n *)
Definition wrote (m m' : memory) (l l' : list nat) : Prop :=
  length m <= length m' /\ NoDup l' /\ (forall a, In a l' -> In a l \/ length m <= a) /\ (forall a, a < length m -> ~ In a l -> get m' a = get m a).
Definition assign_good (n : gobj) : Prop := forall m d k d', rep m n d -> rep m k d' -> assignable d d' = true -> NoDup (addrs n) -> (forall a, In a (addrs n) -> ~ In a (addrs k)) ->
  exists m' n', assign m n k = Some (m', n') /\ rep m' n' d' /\ wrote m m' (addrs n) (addrs n').
Lemma wrote_put (m : memory) a c : a < length m -> wrote m (put m a c) [a] [a].
Proof.
  intros L. split; [rewrite put_length; lia|]. split; [repeat constructor; intros []|]. split; [intros b Hb; now left|]. intros b Lb Hb. rewrite get_put. destruct (Nat.eqb_spec b a) as [->|]; auto.
  exfalso. apply Hb. now left.
Qed.
Lemma assigns_good l : Forall assign_good l -> forall m ds k ds', reps m l ds -> reps m k ds' -> assignables ds ds' = true -> NoDup (addrss l) -> (forall a, In a (addrss l) -> ~ In a (addrss k)) ->
  exists m' l', assigns m l k = Some (m', l') /\ reps m' l' ds' /\ wrote m m' (addrss l) (addrss l').
Proof.
  induction 1 as [|n l Hn Hl IH]; intros m ds k ds' R1 R2 HA ND D.
  - inversion R1; subst. destruct ds'; [|discriminate]. inversion R2; subst. exists m, []. split; auto. split; [constructor|]. repeat split; auto using NoDup_nil.
  - inversion R1 as [|? d ? ds1 Ra Rb]; subst. destruct ds' as [|d' ds1']; [discriminate|]. inversion R2 as [|j ? l1' ? Rc Rd]; subst. cbn in HA. apply andb_true_iff in HA as [HA1 HA2]. cbn [addrss] in *.
    change (NoDup (addrs n ++ addrss l)) in ND. change (forall a, In a (addrs n ++ addrss l) -> ~ In a (addrs j ++ addrss l1')) in D.
    destruct (NoDup_app_parts _ _ ND) as [ND1 ND2].
    assert (DJ : forall a, In a (addrs n) -> ~ In a (addrss l)).
    { clear - ND. intros a H1 H2. induction (addrs n) as [|b r IHr]; [destruct H1|]. cbn in ND. inversion ND as [|? ? N1 N2]; subst. destruct H1 as [->|H1]; [apply N1, in_or_app; now right|auto]. }
    destruct (Hn m d j d' Ra Rc HA1 ND1) as (m1 & n' & E1 & E2 & W1 & W2 & W3 & W4).
    { intros a Ha Hb. apply (D a); apply in_or_app; now left. }
    destruct (IH m1 ds1 l1' ds1') as (m2 & l' & F1 & F2 & U1 & U2 & U3 & U4); auto.
    { apply (reps_frame m); auto. intros a Ha. apply W4; [now apply (reps_lt m l ds1)|]. intros Hb. now apply (DJ a). }
    { apply (reps_frame m); auto. intros a Ha. apply W4; [now apply (reps_lt m l1' ds1')|]. intros Hb. apply (D a); apply in_or_app; auto. }
    { intros a Ha Hb. apply (D a); apply in_or_app; auto. }
    exists m2, (n' :: l'). cbn. rewrite E1. cbn. rewrite F1. cbn. split; auto.
    assert (SEP : forall a, In a (addrs n') -> ~ In a (addrss l)).
    { intros a Ha Hb. destruct (W3 a Ha) as [H|H]; [now apply (DJ a)|]. assert (L := reps_lt m l ds1 a Rb Hb). lia. }
    assert (LT : forall a, In a (addrs n') -> a < length m1) by (intros a Ha; now apply (rep_lt m1 n' d')).
    split; [|split; [lia|split; [|split]]].
    + constructor; auto. apply (rep_frame m1); auto.
    + change (NoDup (addrs n' ++ addrss l')). clear - W2 U2 U3 SEP LT. induction (addrs n') as [|b r IHr]; cbn; auto. inversion W2 as [|? ? N1 N2]; subst. constructor.
      * intros H. apply in_app_or in H as [H|H]; auto. destruct (U3 b H) as [Hb|Hb]; [apply (SEP b); auto; now left|]. assert (L := LT b (or_introl eq_refl)). lia.
      * apply IHr; auto; intros a Ha; [apply SEP|apply LT]; now right.
    + change (forall a, In a (addrs n' ++ addrss l') -> In a (addrs n ++ addrss l) \/ length m <= a). intros a Ha. apply in_app_or in Ha as [Ha|Ha].
      * destruct (W3 a Ha); [left; apply in_or_app; now left|now right].
      * destruct (U3 a Ha); [left; apply in_or_app; now right|right; lia].
    + change (forall a, a < length m -> ~ In a (addrs n ++ addrss l) -> get m2 a = get m a). intros a La Ha. rewrite U4; [apply W4; auto; intros H; apply Ha, in_or_app; now left|lia|intros H; apply Ha, in_or_app; now right].
Qed.
Lemma assign_ok n : assign_good n.
Proof.
  induction n as [a f|a f|es deps v dv|a l IH|a n IH|a n IH|n IH] using gobj_ind'; intros m d k d' R1 R2 HA ND D.
  - inversion R1; subst. destruct d'; try discriminate. inversion R2; subst. cbn in D. cbn [assign]. match goal with H : get m a0 = _ |- _ => rewrite H end. cbn [obind].
    assert (L : a < length m) by (eapply get_lt; eauto). eexists. eexists. split; [reflexivity|]. split; [|now apply wrote_put].
    constructor. rewrite get_put, Nat.eqb_refl. apply Nat.ltb_lt in L. now rewrite L.
  - inversion R1; subst. destruct d'; try discriminate. inversion R2; subst. cbn in D. cbn [assign]. match goal with H : get m a0 = _ |- _ => rewrite H end. cbn [obind].
    assert (L : a < length m) by (eapply get_lt; eauto). eexists. eexists. split; [reflexivity|]. split; [|now apply wrote_put].
    constructor. rewrite get_put, Nat.eqb_refl. apply Nat.ltb_lt in L. now rewrite L.
  - inversion R1; subst. destruct d'; try discriminate. inversion R2; subst. eexists. eexists. split; [reflexivity|]. split; [constructor|]. repeat split; auto using NoDup_nil.
  - inversion R1 as [| | |? h ? ds G1 G2 Rl| | |]; subst. destruct d' as [| | |h' ds'| | |]; try discriminate. inversion R2 as [| | |b ? k' ? G3 G4 Rk| | |]; subst. rewrite assign_comp, G3. cbn [obind].
    rewrite !addrs_comp in *. inversion ND as [|? ? N1 N2]; subst. assert (L : a < length m) by (eapply get_lt; eauto).
    assert (FR : forall l0, ~ In a l0 -> forall b0, In b0 l0 -> get (put m a (Some (COuter h'))) b0 = get m b0).
    { intros l0 H b0 Hb. rewrite get_put. destruct (Nat.eqb_spec b0 a) as [->|]; auto. contradiction. }
    destruct (assigns_good l IH (put m a (Some (COuter h'))) ds k' ds') as (m' & l' & E1 & E2 & W1 & W2 & W3 & W4); auto.
    + apply (reps_frame m); auto. now apply FR.
    + apply (reps_frame m); auto. apply FR. intros H. apply (D a); [now left|]. now right.
    + intros c Hc H. apply (D c); now right.
    + rewrite put_length in *. rewrite E1. cbn [obind]. exists m', (NComp a l'). split; auto.
      assert (NA : ~ In a (addrss l')) by (intros H; destruct (W3 a H); [contradiction|lia]).
      split; [|rewrite addrs_comp; split; [lia|split; [|split]]].
      * constructor; auto; [|destruct l'; [inversion E2; subst; inversion Rk; subst; congruence|discriminate]]. rewrite W4 by auto. rewrite get_put, Nat.eqb_refl. apply Nat.ltb_lt in L. now rewrite L.
      * now constructor.
      * intros c [<-|Hc]; [left; now left|]. destruct (W3 c Hc); [left; now right|now right].
      * intros c Lc Hc. rewrite W4; [|auto|intros H; apply Hc; now right]. rewrite get_put. destruct (Nat.eqb_spec c a) as [->|]; auto. exfalso. apply Hc. now left.
  - inversion R1 as [| | | |? es ? d0 G1 Rn| |]; subst. destruct d' as [| | | |es' d1| |]; try discriminate. inversion R2 as [| | | |b ? k' ? G3 Rk| |]; subst. cbn [assign]. rewrite G3. cbn [obind addrs] in *.
    inversion ND as [|? ? N1 N2]; subst. assert (L : a < length m) by (eapply get_lt; eauto).
    assert (FR : forall l0, ~ In a l0 -> forall b0, In b0 l0 -> get (put m a (Some (CSet es'))) b0 = get m b0).
    { intros l0 H b0 Hb. rewrite get_put. destruct (Nat.eqb_spec b0 a) as [->|]; auto. contradiction. }
    destruct (IH (put m a (Some (CSet es'))) d0 k' d1) as (m' & n' & E1 & E2 & W1 & W2 & W3 & W4); auto.
    + apply (rep_frame m); auto. now apply FR.
    + apply (rep_frame m); auto. apply FR. intros H. apply (D a); [now left|]. now right.
    + intros c Hc H. apply (D c); now right.
    + rewrite put_length in *. rewrite E1. cbn [obind]. exists m', (NCoarse a n'). split; auto. cbn [addrs].
      assert (NA : ~ In a (addrs n')) by (intros H; destruct (W3 a H); [contradiction|lia]).
      split; [|split; [lia|split; [|split]]].
      * constructor; auto. rewrite W4 by auto. rewrite get_put, Nat.eqb_refl. apply Nat.ltb_lt in L. now rewrite L.
      * now constructor.
      * intros c [<-|Hc]; [left; now left|]. destruct (W3 c Hc); [left; now right|now right].
      * intros c Lc Hc. rewrite W4; [|auto|intros H; apply Hc; now right]. rewrite get_put. destruct (Nat.eqb_spec c a) as [->|]; auto. exfalso. apply Hc. now left.
  - inversion R1 as [| | | | |? es ? d0 G1 Rn|]; subst. destruct d' as [| | | | |es' d1|]; try discriminate. inversion R2 as [| | | | |b ? k' ? G3 Rk|]; subst. cbn [assign]. rewrite G3. cbn [obind addrs] in *.
    inversion ND as [|? ? N1 N2]; subst. assert (L : a < length m) by (eapply get_lt; eauto).
    assert (FR : forall l0, ~ In a l0 -> forall b0, In b0 l0 -> get (put m a (Some (CSet es'))) b0 = get m b0).
    { intros l0 H b0 Hb. rewrite get_put. destruct (Nat.eqb_spec b0 a) as [->|]; auto. contradiction. }
    destruct (IH (put m a (Some (CSet es'))) d0 k' d1) as (m' & n' & E1 & E2 & W1 & W2 & W3 & W4); auto.
    + apply (rep_frame m); auto. now apply FR.
    + apply (rep_frame m); auto. apply FR. intros H. apply (D a); [now left|]. now right.
    + intros c Hc H. apply (D c); now right.
    + rewrite put_length in *. rewrite E1. cbn [obind]. exists m', (NFine a n'). split; auto. cbn [addrs].
      assert (NA : ~ In a (addrs n')) by (intros H; destruct (W3 a H); [contradiction|lia]).
      split; [|split; [lia|split; [|split]]].
      * constructor; auto. rewrite W4 by auto. rewrite get_put, Nat.eqb_refl. apply Nat.ltb_lt in L. now rewrite L.
      * now constructor.
      * intros c [<-|Hc]; [left; now left|]. destruct (W3 c Hc); [left; now right|now right].
      * intros c Lc Hc. rewrite W4; [|auto|intros H; apply Hc; now right]. rewrite get_put. destruct (Nat.eqb_spec c a) as [->|]; auto. exfalso. apply Hc. now left.
  - inversion R1 as [| | | | | |? d0 Rn]; subst. destruct d' as [| | | | | |d1]; try discriminate. inversion R2 as [| | | | | |k' ? Rk]; subst. cbn [assign addrs] in *.
    assert (RK : rep (kill m (addrs n)) k' d1) by (apply (rep_frame m); auto; intros a Ha; apply get_kill; intros H; now apply (D a)).
    destruct (clone_ok _ _ _ RK) as (new & n' & E1 & E2 & E3). rewrite kill_length in E3. rewrite E1. cbn [obind]. eexists. exists (NErased n'). split; [reflexivity|]. split; [now constructor|]. cbn [addrs]. rewrite E3.
    split; [rewrite app_length, kill_length; lia|]. split; [apply seq_NoDup|]. split; [intros a Ha; apply in_seq in Ha; right; lia|].
    intros a La Ha. rewrite get_app, kill_length. apply Nat.ltb_lt in La. rewrite La. now apply get_kill.
Qed.

(** * Local functions with references and without *)
Arguments alive : simpl never.
Section Sim.
Variable P : nat -> cell -> Prop.
Definition sref (s : eref E) (cs : E -> bool) : Prop := match s with RCell a => P a (CSet cs) | RData es => es = cs end.
Inductive rsim : robj -> lobj -> Prop :=
| sim_ana f el ge : rsim (RAna f el ge) (OAna f el ge)
| sim_normal f el ge : rsim (RNormal f el ge) (ONormal f el ge)
| sim_dis deps v dv el : rsim (RDis deps v dv el) (ODis v dv el)
| sim_comp a h l os : P a (COuter h) -> rsims l os -> rsim (RComp a l) (OComp h os)
| sim_coarse s cs el r o geos : sref s cs -> rsim r o -> rsim (RCoarse s el r geos) (OCoarse cs el o geos)
| sim_fine s fs el r o fwd : sref s fs -> rsim r o -> rsim (RFine s el r fwd) (OFine fs el o fwd)
with rsims : list robj -> list lobj -> Prop :=
| sims_nil : rsims [] []
| sims_cons r o l os : rsim r o -> rsims l os -> rsims (r :: l) (o :: os).
End Sim.
Scheme rsim_mind := Induction for rsim Sort Prop with rsims_mind := Induction for rsims Sort Prop.
Combined Scheme rsim_rsims_ind from rsim_mind, rsims_mind.
Lemma sim_mono_both (P P' : nat -> cell -> Prop) : (forall a c, P a c -> P' a c) ->
  (forall r o, rsim P r o -> rsim P' r o) /\ (forall l os, rsims P l os -> rsims P' l os).
Proof.
  intros H. apply rsim_rsims_ind; try (constructor; auto; fail).
  - intros s cs el r o geos Hs _ IH. constructor; auto. destruct s; cbn in *; auto.
  - intros s cs el r o geos Hs _ IH. constructor; auto. destruct s; cbn in *; auto.
Qed.
Lemma sim_mono (P P' : nat -> cell -> Prop) r o : (forall a c, P a c -> P' a c) -> rsim P r o -> rsim P' r o.
Proof. intros H. now apply sim_mono_both. Qed.

Fixpoint rdeps (r : robj) : list nat :=
  match r with
  | RAna _ _ _ | RNormal _ _ _ => []
  | RDis deps _ _ _ => deps
  | RComp _ l => (fix go l := match l with [] => [] | r :: q => rdeps r ++ go q end) l
  | RCoarse _ _ r _ | RFine _ _ r _ => rdeps r
  end.
Definition rdepss : list robj -> list nat := fix go l := match l with [] => [] | r :: q => rdeps r ++ go q end.
Definition ddepss : list desc -> list nat := fix go l := match l with [] => [] | r :: q => ddeps r ++ go q end.
Lemma alive_app exts l l' : alive exts (l ++ l') = alive exts l && alive exts l'.
Proof. apply forallb_app. Qed.
Fixpoint gshape (g : gf) : shape := match g with GAna _ | GNormal _ | GDis _ _ => SLeaf | GComp _ l => SComp (map gshape l) | GCoarse _ g | GFine _ g => SWrap (gshape g) end.
Lemma sim_shape_both P : (forall r o, rsim P r o -> rshape r = gshape (lfn o)) /\ (forall l os, rsims P l os -> map rshape l = map gshape (map lfn os)).
Proof. apply rsim_rsims_ind; cbn; intros; auto; try (f_equal; auto; fail). Qed.
Lemma sim_bound_both P : (forall r o, rsim P r o -> rbound r = lbound o) /\ (forall l os, rsims P l os -> forallb rbound l = forallb lbound os).
Proof. apply rsim_rsims_ind; cbn; intros; auto. now f_equal. Qed.
Lemma sim_context_both P : (forall r o, rsim P r o -> rcontext r = lcontext o) /\
  (forall l os, rsims P l os -> match l with [] => None | r :: _ => rcontext r end = match os with [] => None | o :: _ => lcontext o end).
Proof. apply rsim_rsims_ind; cbn; intros; auto. Qed.
Lemma sim_unbind_both P : (forall r o, rsim P r o -> rsim P (runbind r) (lunbind o) /\ rdeps (runbind r) = rdeps r) /\
  (forall l os, rsims P l os -> rsims P (map runbind l) (map lunbind os) /\ rdepss (map runbind l) = rdepss l).
Proof.
  apply rsim_rsims_ind; cbn; intros; try (split; [constructor; auto|auto]; fail).
  - destruct H. split; [now constructor|auto].
  - destruct H, H0. split; [now constructor|]. now f_equal.
Qed.
Lemma sim_copy_both P exts : (forall r o, rsim P r o -> alive exts (rdeps r) = true -> rcopy exts r = Some r) /\
  (forall l os, rsims P l os -> alive exts (rdepss l) = true -> (fix go l := match l with [] => Some [] | i :: r => i' <- rcopy exts i ;; r' <- go r ;; Some (i' :: r') end) l = Some l).
Proof.
  apply rsim_rsims_ind; cbn; intros; auto.
  - now rewrite H.
  - now rewrite H.
  - now rewrite H.
  - now rewrite H.
  - rewrite alive_app in H1. apply andb_true_iff in H1 as [A B]. rewrite H by auto. cbn. now rewrite H0.
Qed.
Lemma sim_deriv P exts r o : rsim P r o -> forall o', alive exts (rdeps r) = true -> lderivative o = Some o' ->
  exists r', rderivative exts r = Some r' /\ rsim P r' o' /\ rdeps r' = rdeps r.
Proof.
  induction 1 as [f el ge|f el ge|deps v dv el|a h l os|s cs el r o geos Hs Hr IH|s fs el r o fwd Hs Hr IH]; cbn; intros o' HA Hd; try discriminate.
  - injection Hd as <-. eexists. split; [reflexivity|]. split; auto. constructor.
  - destruct dv as [d|]; [|discriminate]. injection Hd as <-. cbn. rewrite HA. eexists. split; [reflexivity|]. split; auto. constructor.
  - apply obind_Some in Hd as (o1 & H1 & H2). destruct el as [e|]; [|discriminate]. injection H2 as <-. destruct (IH o1 HA H1) as (r1 & -> & S1 & S2). cbn. eexists. split; [reflexivity|]. split; auto. now constructor.
  - apply obind_Some in Hd as (o1 & H1 & H2). injection H2 as <-. destruct (IH o1 HA H1) as (r1 & -> & S1 & S2). cbn. eexists. split; [reflexivity|]. split; auto. now constructor.
Qed.

Variable G : grid E X Y.
Section Live.
Variable P : nat -> cell -> Prop.
Variable m : memory.
Variable exts : list bool.
Hypothesis HP : forall a c, P a c -> get m a = Some c.
Lemma sref_deref s cs : sref P s cs -> deref_set m s = Some cs.
Proof. destruct s as [a|es]; cbn; [|congruence]. intros H. now rewrite (HP _ _ H). Qed.
Lemma sim_bind_both :
  (forall r o, rsim P r o -> forall e o', alive exts (rdeps r) = true -> lbind G o e = Some o' -> exists r', rbind G m exts r e = Some r' /\ rsim P r' o' /\ rdeps r' = rdeps r) /\
  (forall l os, rsims P l os -> forall e os', alive exts (rdepss l) = true ->
    (fix go l := match l with [] => Some [] | a :: r => a' <- lbind G a e ;; r' <- go r ;; Some (a' :: r') end) os = Some os' ->
    exists l', (fix go l := match l with [] => Some [] | i :: r => i' <- rbind G m exts i e ;; r' <- go r ;; Some (i' :: r') end) l = Some l' /\ rsims P l' os' /\ rdepss l' = rdepss l).
Proof.
  apply rsim_rsims_ind.
  - intros f el ge e o' _ H. injection H as <-. eexists. split; [reflexivity|]. split; auto. constructor.
  - intros f el ge e o' _ H. injection H as <-. eexists. split; [reflexivity|]. split; auto. constructor.
  - intros deps v dv el e o' HA H. injection H as <-. cbn in *. rewrite HA. eexists. split; [reflexivity|]. split; auto. constructor.
  - intros a h l os Ha Hl IH e o' HA H. cbn [lbind] in H. destruct ((fix go l := match l with [] => Some [] | a :: r => a' <- lbind G a e ;; r' <- go r ;; Some (a' :: r') end) os) as [os'|] eqn:Eo; [|discriminate].
    injection H as <-. destruct (IH e os' HA Eo) as (l' & E1 & E2 & E3). cbn [rbind]. rewrite E1. eexists. split; [reflexivity|]. split; auto. now constructor.
  - intros s cs el r o geos Hs Hr IH e o' HA H. cbn [lbind] in H. apply obind_Some in H as ([a g] & H1 & H2). apply obind_Some in H2 as (o1 & H2 & H3). injection H3 as <-.
    cbn [rbind]. rewrite (sref_deref _ _ Hs). cbn [obind]. rewrite H1. cbn [obind]. destruct (IH a o1 HA H2) as (r1 & -> & S1 & S2). cbn [obind]. eexists. split; [reflexivity|]. split; auto. now constructor.
  - intros s fs el r o fwd Hs Hr IH e o' HA H. cbn [lbind] in H. cbn [rbind]. rewrite (sref_deref _ _ Hs). cbn [obind]. destruct (fs e).
    + apply obind_Some in H as (o1 & H2 & H3). injection H3 as <-. destruct (IH e o1 HA H2) as (r1 & -> & S1 & S2). cbn [obind]. eexists. split; [reflexivity|]. split; auto. now constructor.
    + injection H as <-. eexists. split; [reflexivity|]. split; auto. now constructor.
  - intros e os' _ H. injection H as <-. eexists. split; [reflexivity|]. split; auto. constructor.
  - intros r o l os Hr IH1 Hl IH2 e os' HA H. change (rdepss (r :: l)) with (rdeps r ++ rdepss l) in HA. rewrite alive_app in HA. apply andb_true_iff in HA as [HA1 HA2].
    apply obind_Some in H as (o1 & H1 & H2). apply obind_Some in H2 as (os1 & H2 & H3). injection H3 as <-.
    destruct (IH1 e o1 HA1 H1) as (r1 & -> & S1 & S2). destruct (IH2 e os1 HA2 H2) as (l1 & -> & T1 & T2). cbn [obind]. eexists. split; [reflexivity|]. split; [now constructor|].
    change (rdeps r1 ++ rdepss l1 = rdeps r ++ rdepss l). now rewrite S2, T2.
Qed.
Lemma sim_bind r o e o' : rsim P r o -> alive exts (rdeps r) = true -> lbind G o e = Some o' -> exists r', rbind G m exts r e = Some r' /\ rsim P r' o' /\ rdeps r' = rdeps r.
Proof. intros H. now apply sim_bind_both. Qed.
Lemma sim_eval g : forall r o x v o', rsim P r o -> alive exts (rdeps r) = true -> leval_at G g o x = Some (v, o') ->
  exists r', reval_at G m exts (gshape g) r x = Some (v, r') /\ rsim P r' o' /\ rdeps r' = rdeps r.
Proof.
  induction g as [f|f|v0 dv0|h0 gs IH|cs0 g IH|fs0 g IH] using LocalFunction_props.gf_ind'; intros r o x v o' S HA H;
    destruct S as [f' el ge|f' el ge|deps v' dv' el|a h l os Ha Hl|s cs el r o geos Hs Hr|s fs el r o fwd Hs Hr]; try discriminate.
  - cbn [leval_at] in H. apply obind_Some in H as (e & -> & H). injection H as <- <-. eexists. split; [reflexivity|]. split; auto. constructor.
  - cbn [leval_at] in H. apply obind_Some in H as (e & -> & H). injection H as <- <-. eexists. split; [reflexivity|]. split; auto. constructor.
  - cbn [leval_at] in H. apply obind_Some in H as (e & -> & H). injection H as <- <-. cbn in *. rewrite HA. eexists. split; [reflexivity|]. split; auto. constructor.
  - cbn [leval_at] in H. apply obind_Some in H as ([vs os'] & H1 & H2). injection H2 as <- <-. cbn [gshape reval_at].
    assert (HH : exists l', (fix go shs l := match shs, l with [], [] => Some ([], []) | s :: shs', i :: r => '(v, i') <- reval_at G m exts s i x ;; '(vs, r') <- go shs' r ;; Some (v :: vs, i' :: r') | _, _ => None end) (map gshape gs) l = Some (vs, l') /\
       rsims P l' os' /\ rdepss l' = rdepss l).
    { change (alive exts (rdepss l) = true) in HA. clear Ha. revert l os vs os' Hl HA H1. induction gs as [|g gs IHg]; intros l os vs os' Hl HA H1.
      - destruct os; [|discriminate]. injection H1 as <- <-. inversion Hl; subst. eexists. split; [reflexivity|]. split; auto.
      - inversion IH as [|? ? A B]; subst. destruct Hl as [|r o l os Hr Hl]; [discriminate|]. apply obind_Some in H1 as ([v1 o1] & H1 & H2). apply obind_Some in H2 as ([vs1 os1] & H2 & H3). injection H3 as <- <-.
        change (alive exts (rdeps r ++ rdepss l) = true) in HA. rewrite alive_app in HA. apply andb_true_iff in HA as [HA1 HA2].
        destruct (A r o x v1 o1 Hr HA1 H1) as (r1 & E1 & S1 & S2). destruct (IHg B l os vs1 os1 Hl HA2 H2) as (l1 & E2 & T1 & T2).
        cbn [map]. rewrite E1. cbn [obind]. rewrite E2. cbn [obind]. eexists. split; [reflexivity|]. split; [now constructor|]. change (rdeps r1 ++ rdepss l1 = rdeps r ++ rdepss l). now rewrite S2, T2. }
    destruct HH as (l' & -> & S1 & S2). cbn [obind]. unfold deref_outer. rewrite (HP _ _ Ha). cbn [obind]. eexists. split; [reflexivity|]. split; auto. now constructor.
  - cbn [leval_at] in H. apply obind_Some in H as ([v1 o1] & H1 & H2). injection H2 as <- <-. cbn [gshape reval_at]. destruct (IH r o _ v1 o1 Hr HA H1) as (r1 & -> & S1 & S2). cbn [obind]. eexists. split; [reflexivity|]. split; auto. now constructor.
  - cbn [leval_at] in H. cbn [gshape reval_at]. destruct fwd.
    + apply obind_Some in H as ([v1 o1] & H1 & H2). injection H2 as <- <-. destruct (IH r o _ v1 o1 Hr HA H1) as (r1 & -> & S1 & S2). cbn [obind]. eexists. split; [reflexivity|]. split; auto. now constructor.
    + apply obind_Some in H as (e & -> & H). apply obind_Some in H as ([c y] & H1 & H). apply obind_Some in H as (o1 & H2 & H). apply obind_Some in H as ([v1 o2] & H3 & H4). injection H4 as <- <-.
      cbn [obind]. rewrite (sref_deref _ _ Hs). cbn [obind]. rewrite H1. cbn [obind]. destruct (sim_bind r o c o1 Hr HA H2) as (r1 & -> & S1 & S2). cbn [obind].
      cbn in HA. rewrite <- S2 in HA. destruct (IH r1 o1 y v1 o2 S1 HA H3) as (r2 & -> & T1 & T2). cbn [obind]. eexists. split; [reflexivity|]. split; [now constructor|]. cbn. congruence.
Qed.
End Live.

(** * New local functions *)
Lemma eset_both m :
  (forall n d, rep m n d -> exists s, entitySet n = Some s /\ if shared d then s = RData (dset d) else exists a, s = RCell a /\ In a (addrs n) /\ get m a = Some (CSet (dset d))) /\
  (forall l ds, reps m l ds -> match l, ds with
     | n :: _, d :: _ => exists s, entitySet n = Some s /\ if shared d then s = RData (dset d) else exists a, s = RCell a /\ In a (addrs n) /\ get m a = Some (CSet (dset d))
     | _, _ => True end).
Proof.
  apply rep_reps_ind.
  - intros a es f H. exists (RCell a). split; auto. cbn. exists a. auto.
  - intros a es f H. exists (RCell a). split; auto. cbn. exists a. auto.
  - intros es deps v dv. exists (RData es). cbn. auto.
  - intros a h l ds H Hl Hr IH. destruct Hr as [|n d l ds Hn Hr]; [congruence|]. destruct IH as (s & E1 & E2). exists s. split; auto. cbn [shared dset]. destruct (shared d); auto.
    destruct E2 as (b & -> & B1 & B2). exists b. split; auto. split; auto. rewrite addrs_comp. right. cbn. apply in_or_app. now left.
  - intros a es n d H Hr _. exists (RCell a). split; auto. cbn. exists a. auto.
  - intros a es n d H Hr _. exists (RCell a). split; auto. cbn. exists a. auto.
  - intros n d Hr IH. exact IH.
  - exact I.
  - intros n d l ds Hn IH _ _. exact IH.
Qed.
Lemma eset_ok m n d : rep m n d -> exists s, entitySet n = Some s /\ if shared d then s = RData (dset d) else exists a, s = RCell a /\ In a (addrs n) /\ get m a = Some (CSet (dset d)).
Proof. intros H. now apply (proj1 (eset_both m) n d). Qed.
Lemma eset_sref m n d (P : nat -> cell -> Prop) : rep m n d -> (forall a c, shared d = false -> In a (addrs n) -> get m a = Some c -> P a c) ->
  exists s, entitySet n = Some s /\ sref P s (dset d).
Proof.
  intros H HP. destruct (eset_ok m n d H) as (s & E1 & E2). exists s. split; auto. destruct (shared d).
  - subst s. reflexivity.
  - destruct E2 as (a & -> & A1 & A2). cbn. auto.
Qed.
Lemma new_both m exts :
  (forall n d, rep m n d -> forall P : nat -> cell -> Prop, (forall a c, refers d = true -> In a (addrs n) -> get m a = Some c -> P a c) -> alive exts (ddeps d) = true ->
    exists r, rnew exts n = Some r /\ rsim P r (lnew (fn d)) /\ rdeps r = ddeps d) /\
  (forall l ds, reps m l ds -> forall P : nat -> cell -> Prop, (forall a c, In a (addrss l) -> get m a = Some c -> P a c) -> alive exts (ddepss ds) = true ->
    exists q, (fix go l := match l with [] => Some [] | m :: r => m' <- rnew exts m ;; r' <- go r ;; Some (m' :: r') end) l = Some q /\ rsims P q (map lnew (map fn ds)) /\ rdepss q = ddepss ds).
Proof.
  apply rep_reps_ind.
  - intros a es f H P HP HA. eexists. split; [reflexivity|]. split; auto. constructor.
  - intros a es f H P HP HA. eexists. split; [reflexivity|]. split; auto. constructor.
  - intros es deps v dv P HP HA. cbn in *. rewrite HA. eexists. split; [reflexivity|]. split; auto. constructor.
  - intros a h l ds H Hl Hr IH P HP HA. destruct (IH P) as (q & E1 & E2 & E3); auto.
    { intros b c Hb Hc. apply HP; auto. rewrite addrs_comp. now right. }
    cbn [rnew]. rewrite E1. eexists. split; [reflexivity|]. split; auto. constructor; auto. apply HP; auto. rewrite addrs_comp. now left.
  - intros a es n d H Hr IH P HP HA. cbn [refers addrs] in HP. destruct (eset_sref m n d P Hr) as (s & E1 & E2).
    { intros b c Hs Hb Hc. apply HP; [now rewrite Hs, orb_true_r|now right|auto]. }
    destruct (IH P) as (r & F1 & F2 & F3); auto. { intros b c Hf Hb Hc. apply HP; [now rewrite Hf|now right|auto]. }
    cbn [rnew]. rewrite E1. cbn [obind]. rewrite F1. cbn [obind]. eexists. split; [reflexivity|]. split; auto. now constructor.
  - intros a es n d H Hr IH P HP HA. cbn [refers addrs] in HP. destruct (eset_sref m n d P Hr) as (s & E1 & E2).
    { intros b c Hs Hb Hc. apply HP; [now rewrite Hs, orb_true_r|now right|auto]. }
    destruct (IH P) as (r & F1 & F2 & F3); auto. { intros b c Hf Hb Hc. apply HP; [now rewrite Hf|now right|auto]. }
    cbn [rnew]. rewrite E1. cbn [obind]. rewrite F1. cbn [obind]. eexists. split; [reflexivity|]. split; auto. now constructor.
  - intros n d Hr IH P HP HA. exact (IH P HP HA).
  - intros P HP HA. eexists. split; [reflexivity|]. split; auto. constructor.
  - intros n d l ds Hn IH1 Hl IH2 P HP HA. change (alive exts (ddeps d ++ ddepss ds) = true) in HA. rewrite alive_app in HA. apply andb_true_iff in HA as [HA1 HA2].
    change (forall a c, In a (addrs n ++ addrss l) -> get m a = Some c -> P a c) in HP.
    destruct (IH1 P) as (r & E1 & E2 & E3); auto. { intros a c _ Ha Hc. apply HP; auto. apply in_or_app. now left. }
    destruct (IH2 P) as (q & F1 & F2 & F3); auto. { intros a c Ha Hc. apply HP; auto. apply in_or_app. now right. }
    rewrite E1. cbn [obind]. rewrite F1. cbn [obind]. eexists. split; [reflexivity|]. split; [now constructor|]. change (rdeps r ++ rdepss q = ddeps d ++ ddepss ds). now rewrite E3, F3.
Qed.
Lemma rep_composed_both m : (forall n d, rep m n d -> composed_ok (fn d)) /\
  (forall l ds, reps m l ds -> (fix go l := match l with [] => True | g :: r => composed_ok g /\ go r end) (map fn ds)).
Proof.
  apply rep_reps_ind; cbn; intros; auto. split; auto. destruct r; [congruence|discriminate].
Qed.
Lemma dderiv_keeps (d : desc) : forall d', dderiv d = Some d' -> ddeps d' = ddeps d /\ dset d' = dset d /\ shared d' = shared d /\ refers d' = refers d /\ dgf (fn d) = Some (fn d').
Proof.
  induction d as [es f|es f|es deps v dv|h l|es d IH|es d IH|d IH]; cbn; intros d' H; try discriminate.
  - injection H as <-. cbn. auto.
  - destruct dv; [|discriminate]. injection H as <-. cbn. auto.
  - apply obind_Some in H as (d1 & H1 & [= <-]). destruct (IH d1 H1) as (A & B & C & D & F). cbn. rewrite A, B, C, D, F. cbn. auto.
  - apply obind_Some in H as (d1 & H1 & [= <-]). destruct (IH d1 H1) as (A & B & C & D & F). cbn. rewrite A, B, C, D, F. cbn. auto.
  - apply obind_Some in H as (d1 & H1 & [= <-]). destruct (IH d1 H1) as (A & B & C & D & F). cbn. auto.
Qed.

(** * Programs *)
Hypothesis OK : grid_ok G.
Lemma F2_nth {A B} (R : A -> B -> Prop) l l' i b : Forall2 R l l' -> nth_error l' i = Some b -> exists a, nth_error l i = Some a /\ R a b.
Proof. intros H. revert i. induction H; intros [|i] Hi; try discriminate; cbn in *; eauto. injection Hi as ->. eauto. Qed.
Lemma F2_upd {A B} (R : A -> B -> Prop) l l' i a b l1' : Forall2 R l l' -> R a b -> upd l' i b = Some l1' -> exists l1, upd l i a = Some l1 /\ Forall2 R l1 l1'.
Proof.
  intros H. revert i l1'. induction H as [|x y l l' Hxy HF IH]; intros i l1' Hab Hu; [destruct i; discriminate|]. destruct i as [|i]; cbn in *.
  - injection Hu as <-. eexists. split; [reflexivity|]. now constructor.
  - destruct (upd l' i b) as [q|] eqn:Eq; [|discriminate]. injection Hu as <-. destruct (IH i q Hab Eq) as (l1 & -> & H1). eexists. split; [reflexivity|]. now constructor.
Qed.
Lemma F2_length {A B} (R : A -> B -> Prop) l l' : Forall2 R l l' -> length l = length l'.
Proof. induction 1; cbn; auto. Qed.
Lemma F2_impl {A B} (R R' : A -> B -> Prop) l l' : (forall a b, R a b -> R' a b) -> Forall2 R l l' -> Forall2 R' l l'.
Proof. intros H. induction 1; constructor; auto. Qed.
Lemma F2_map {A B C} (R : A -> C -> Prop) (f : B -> C) l l' : Forall2 (fun a b => R a (f b)) l l' -> Forall2 R l (map f l').
Proof. induction 1; cbn; constructor; auto. Qed.

Notation gfs := (list (option gobj)).
Definition slot_ok (m : memory) (n : option gobj) (d : option desc) : Prop :=
  match n, d with Some n, Some d => rep m n d /\ NoDup (addrs n) | None, None => True | _, _ => False end.
Definition Q (m : memory) (gs : gfs) (d : desc) (src : option nat) (a : nat) (c : cell) : Prop :=
  refers d = true /\ forall i, src = Some i -> exists n, nth_error gs i = Some (Some n) /\ In a (addrs n) /\ get m a = Some c.
Definition lok (m : memory) (gs : gfs) (r : robj) (l : slocal E X Y V) : Prop :=
  let '(d, s, src) := l in exists o, LocalFunction_props.ok G (fn d) o s /\ rdeps r = ddeps d /\ rsim (Q m gs d src) r o.
Definition apart (gs : gfs) : Prop := forall i j n k a, i <> j -> nth_error gs i = Some (Some n) -> nth_error gs j = Some (Some k) -> In a (addrs n) -> ~ In a (addrs k).
Definition inv (w : world E X Y V) (sw : sworld E X Y V) : Prop :=
  w_exts w = s_exts sw /\ Forall2 (slot_ok (w_mem w)) (w_gfs w) (s_gfs sw) /\ apart (w_gfs w) /\ Forall2 (lok (w_mem w) (w_gfs w)) (w_lfs w) (s_lfs sw).

Lemma at_ok w sw i d : inv w sw -> s_at sw i = Some d -> exists n, gf_at w i = Some n /\ nth_error (w_gfs w) i = Some (Some n) /\ rep (w_mem w) n d /\ NoDup (addrs n).
Proof.
  intros (_ & HF & _ & _) H. unfold s_at in H. destruct (nth_error (s_gfs sw) i) as [o|] eqn:Eo; [|discriminate]. subst o.
  destruct (F2_nth _ _ _ _ _ HF Eo) as ([n|] & E1 & E2); [|contradiction]. exists n. unfold gf_at. rewrite E1. destruct E2. auto.
Qed.
Lemma slot_lt w sw i n a : inv w sw -> nth_error (w_gfs w) i = Some (Some n) -> In a (addrs n) -> a < length (w_mem w).
Proof.
  intros (_ & HF & _ & _) Hn Ha. assert (HL : i < length (s_gfs sw)).
  { assert (L := nth_error_Some_lt _ _ _ Hn). now rewrite (F2_length _ _ _ HF) in L. }
  destruct (nth_error_lt_Some _ _ HL) as [d Hd]. destruct (F2_nth _ _ _ _ _ HF Hd) as (o & E1 & E2). rewrite Hn in E1. injection E1 as <-. destruct d as [d|]; [|contradiction].
  eapply rep_lt; eauto. apply E2.
Qed.
Lemma add_ok w sw m' n d : inv w sw -> ext (w_mem w) m' -> rep m' n d -> NoDup (addrs n) -> (forall a, In a (addrs n) -> length (w_mem w) <= a) ->
  inv (add_gf w (m', n)) (s_add sw d).
Proof.
  intros HI HX HR HN HF. pose proof HI as (H1 & H2 & H3 & H4). split; [exact H1|]. cbn. split; [|split].
  - apply Forall2_app; [|repeat constructor; auto]. eapply F2_impl; [|exact H2]. intros [k|] [d'|]; cbn; auto. intros [A B]. split; auto. eapply rep_ext; eauto.
  - intros i j k k' a Hij Hi Hj Ha Hb. rewrite nth_error_app_eq in Hi, Hj.
    destruct (Nat.ltb_spec i (length (w_gfs w))) as [Li|Li], (Nat.ltb_spec j (length (w_gfs w))) as [Lj|Lj].
    + now apply (H3 i j k k' a).
    + assert (L := slot_lt w sw i k a HI Hi Ha). destruct (j - length (w_gfs w)) as [|[|?]] eqn:Ej; try discriminate. injection Hj as <-. apply HF in Hb. lia.
    + assert (L := slot_lt w sw j k' a HI Hj Hb). destruct (i - length (w_gfs w)) as [|[|?]] eqn:Ei; try discriminate. injection Hi as <-. apply HF in Ha. lia.
    + destruct (i - length (w_gfs w)) as [|[|?]] eqn:Ei; try discriminate. destruct (j - length (w_gfs w)) as [|[|?]] eqn:Ej; try discriminate. lia.
  - eapply F2_impl; [|exact H4]. intros r [[d' s] src] (o & A & B & C). exists o. split; auto. split; auto. eapply sim_mono; [|exact C]. intros a c [D1 D2]. split; auto.
    intros i Hi. destruct (D2 i Hi) as (k & K1 & K2 & K3). exists k. split; auto. rewrite nth_error_app_eq. assert (L := nth_error_Some_lt _ _ _ K1). apply Nat.ltb_lt in L. now rewrite L.
Qed.
Lemma seq_fresh (m : memory) k a : In a (seq (length m) k) -> length m <= a.
Proof. intros H. apply in_seq in H. lia. Qed.
Lemma live_Q w sw d src : inv w sw -> usable sw d src -> forall a c, Q (w_mem w) (w_gfs w) d src a c -> get (w_mem w) a = Some c.
Proof. intros _ [_ HU] a c [H1 H2]. destruct src as [i|]; [|now specialize (HU H1)]. now destruct (H2 i eq_refl) as (n & _ & _ & H). Qed.
Lemma add_lf_ok w sw r l : inv w sw -> lok (w_mem w) (w_gfs w) r l -> inv (add_lf w r) (s_addl sw l).
Proof. intros (H1 & H2 & H3 & H4) HL. split; [exact H1|]. split; [exact H2|]. split; [exact H3|]. cbn. apply Forall2_app; auto. Qed.
Lemma set_lf_ok w sw j r l ls : inv w sw -> lok (w_mem w) (w_gfs w) r l -> upd (s_lfs sw) j l = Some ls -> exists w', set_lf w j r = Some w' /\ inv w' (SWorld (s_exts sw) (s_gfs sw) ls).
Proof. intros (H1 & H2 & H3 & H4) HL Hu. destruct (F2_upd _ _ _ _ _ _ _ H4 HL Hu) as (q & E1 & E2). unfold set_lf. rewrite E1. cbn. eexists. split; [reflexivity|]. split; auto. Qed.
(** a slot is destroyed or assigned to *)
Lemma change_ok w sw i n m' (v : option gobj) (dv : option desc) gs : inv w sw -> nth_error (w_gfs w) i = Some (Some n) -> slot_ok m' v dv ->
  (forall a, a < length (w_mem w) -> ~ In a (addrs n) -> get m' a = get (w_mem w) a) ->
  (forall k, v = Some k -> forall a, In a (addrs k) -> In a (addrs n) \/ length (w_mem w) <= a) ->
  upd (s_gfs sw) i dv = Some gs -> exists gs', upd (w_gfs w) i v = Some gs' /\ inv (World m' (w_exts w) gs' (w_lfs w)) (SWorld (s_exts sw) gs (map (orphan i) (s_lfs sw))).
Proof.
  intros HI Hn Hv HF HA Hu. pose proof HI as (H1 & H2 & H3 & H4).
  assert (FR : forall j k, j <> i -> nth_error (w_gfs w) j = Some (Some k) -> forall a, In a (addrs k) -> get m' a = get (w_mem w) a).
  { intros j k Hj Hk a Ha. apply HF; [eapply slot_lt; eauto|]. intros H. apply (H3 j i k n a Hj Hk Hn Ha H). }
  destruct (LocalFunction_props.upd_same (w_gfs w) i (Some n) v Hn) as [gs' Egs']. exists gs'. split; auto. split; [exact H1|]. cbn. split; [|split].
  - assert (LEN : length gs' = length gs) by (rewrite (upd_length _ _ _ _ Egs'), (upd_length _ _ _ _ Hu); now apply (F2_length _ _ _ H2)).
    assert (PW : forall j x y, nth_error gs' j = Some x -> nth_error gs j = Some y -> slot_ok m' x y).
    { intros j x y Hx Hy. rewrite (upd_nth_error _ _ _ _ _ Egs') in Hx. rewrite (upd_nth_error _ _ _ _ _ Hu) in Hy. destruct (Nat.eqb_spec j i) as [->|Hj].
      - injection Hx as <-. injection Hy as <-. exact Hv.
      - destruct (F2_nth _ _ _ _ _ H2 Hy) as (x' & E1 & E2). rewrite Hx in E1. injection E1 as <-. destruct x as [k|], y as [d|]; cbn in *; auto. destruct E2 as [A B]. split; auto.
        apply (rep_frame (w_mem w)); auto. intros a Ha. now apply (FR j k). }
    clear - LEN PW. revert gs LEN PW. induction gs' as [|x gs' IH]; intros [|y gs] LEN PW; try discriminate; constructor.
    + now apply (PW 0).
    + apply IH; [cbn in LEN; lia|]. intros j. apply (PW (S j)).
  - intros j k x y a Hjk Hx Hy Hax Hay. rewrite (upd_nth_error _ _ _ _ j Egs') in Hx. rewrite (upd_nth_error _ _ _ _ k Egs') in Hy. destruct (Nat.eqb_spec j i) as [->|Hj], (Nat.eqb_spec k i) as [->|Hk]; try contradiction.
    + injection Hx as Hx. destruct (HA x Hx a Hax) as [H|H]; [apply (H3 i k n y a); auto|]. assert (L := slot_lt w sw k y a HI Hy Hay). lia.
    + injection Hy as Hy. destruct (HA y Hy a Hay) as [H|H]; [apply (H3 j i x n a); auto|]. assert (L := slot_lt w sw j x a HI Hx Hax). lia.
    + apply (H3 j k x y a); auto.
  - apply F2_map. eapply F2_impl; [|exact H4]. intros r [[d s] src] (o & A & B & C). exists o. split; auto. split; auto. eapply sim_mono; [|exact C]. intros a c [D1 D2]. split; auto.
    intros k Hk. destruct src as [j|]; [|discriminate]. destruct (Nat.eqb_spec j i) as [->|Hj]; [discriminate|]. injection Hk as <-. destruct (D2 j eq_refl) as (x & X1 & X2 & X3). exists x.
    rewrite (upd_nth_error _ _ _ _ _ Egs'). apply Nat.eqb_neq in Hj as Hj'. rewrite Hj'. split; auto. split; auto. rewrite (FR j x Hj X1 a X2). auto.
Qed.
Lemma clone_all_ok w sw is ds : inv w sw -> Forall2 (fun i d => s_at sw i = Some d) is ds -> forall m1, ext (w_mem w) m1 ->
  exists new l, clone_all w m1 is = Some (m1 ++ map Some new, l) /\ reps (m1 ++ map Some new) l ds /\ addrss l = seq (length m1) (length new).
Proof.
  intros HI. induction 1 as [|i d is ds Hi Hr IH]; intros m1 X1.
  - exists [], []. cbn. rewrite app_nil_r. split; auto. split; auto. constructor.
  - destruct (at_ok w sw i d HI Hi) as (n & Hn & _ & Rn & _). cbn. rewrite Hn. cbn.
    destruct (proj1 (clone_both (w_mem w)) n d Rn m1 X1) as (new & n' & E1 & E2 & E3). rewrite E1. cbn.
    destruct (IH (m1 ++ map Some new)) as (new2 & l & F1 & F2 & F3); [eapply ext_trans; [eauto|apply ext_app]|]. rewrite F1. cbn.
    exists (new ++ new2), (n' :: l). rewrite map_app, app_assoc. split; auto. split.
    + constructor; auto. eapply rep_ext; [exact E2|apply ext_app].
    + change (addrs n' ++ addrss l = seq (length m1) (length (new ++ new2))). rewrite E3, F3, app_length, map_length, <- seq_app, app_length. reflexivity.
Qed.

Lemma step_ok w sw o sw' : sstep G sw o sw' -> inv w sw -> exists w', step G w o = Some w' /\ inv w' sw'.
Proof.
  intros Hs HI. pose proof HI as (HX & HG & HP & HL). destruct Hs; cbn [step].
  - eexists. split; [reflexivity|]. split; [cbn; now rewrite HX|auto].
  - rewrite HX, H. cbn. eexists. split; [reflexivity|]. split; auto.
  - eexists. split; [reflexivity|]. apply add_ok; auto using ext_app. { constructor. apply get_new. } { repeat constructor. intros []. } intros a [<-|[]]. auto.
  - eexists. split; [reflexivity|]. apply add_ok; auto using ext_app. { constructor. apply get_new. } { repeat constructor. intros []. } intros a [<-|[]]. auto.
  - eexists. split; [reflexivity|]. apply add_ok; auto using ext_refl. { constructor. } { constructor. } intros a [].
  - destruct (clone_all_ok w w0 is ds HI H0 (w_mem w ++ [Some (COuter h)]) (ext_app _ _)) as (new & l & E1 & E2 & E3). rewrite E1. cbn [obind]. eexists. split; [reflexivity|].
    rewrite app_length, Nat.add_1_r in E3. apply add_ok; auto.
    + eapply ext_trans; apply ext_app.
    + constructor; auto; [apply ext_app, get_new|]. inversion H0; subst; [congruence|]. inversion E2; subst. discriminate.
    + rewrite addrs_comp, E3. constructor; [|apply seq_NoDup]. intros Ha. apply in_seq in Ha. lia.
    + intros a. rewrite addrs_comp, E3. intros [<-|Ha]; [auto|]. apply in_seq in Ha. lia.
  - destruct (at_ok w w0 i d HI H) as (n & -> & _ & Rn & _). cbn [obind]. destruct (proj1 (clone_both (w_mem w)) n d Rn (w_mem w ++ [Some (CSet es)]) (ext_app _ _)) as (new & n' & -> & E2 & E3).
    cbn [obind]. rewrite app_length, Nat.add_1_r in E3. eexists. split; [reflexivity|]. apply add_ok; auto.
    + eapply ext_trans; apply ext_app.
    + constructor; auto. apply ext_app, get_new.
    + cbn. rewrite E3. constructor; [|apply seq_NoDup]. intros Ha. apply in_seq in Ha. lia.
    + intros a. cbn. rewrite E3. intros [<-|Ha]; [auto|]. apply in_seq in Ha. lia.
  - destruct (at_ok w w0 i d HI H) as (n & -> & _ & Rn & _). cbn [obind]. destruct (proj1 (clone_both (w_mem w)) n d Rn (w_mem w ++ [Some (CSet es)]) (ext_app _ _)) as (new & n' & -> & E2 & E3).
    cbn [obind]. rewrite app_length, Nat.add_1_r in E3. eexists. split; [reflexivity|]. apply add_ok; auto.
    + eapply ext_trans; apply ext_app.
    + constructor; auto. apply ext_app, get_new.
    + cbn. rewrite E3. constructor; [|apply seq_NoDup]. intros Ha. apply in_seq in Ha. lia.
    + intros a. cbn. rewrite E3. intros [<-|Ha]; [auto|]. apply in_seq in Ha. lia.
  - destruct (at_ok w w0 i d HI H) as (n & -> & _ & Rn & _). cbn [obind]. destruct (clone_ok _ _ _ Rn) as (new & n' & -> & E2 & E3). cbn [obind].
    eexists. split; [reflexivity|]. apply add_ok; auto using ext_app. { now constructor. } { cbn. rewrite E3. apply seq_NoDup. } cbn. rewrite E3. intros a. apply seq_fresh.
  - destruct (at_ok w w0 i d HI H) as (n & -> & _ & Rn & _). cbn [obind]. destruct (clone_ok _ _ _ Rn) as (new & n' & -> & E2 & E3). cbn [obind].
    eexists. split; [reflexivity|]. apply add_ok; auto using ext_app. { rewrite E3. apply seq_NoDup. } rewrite E3. intros a. apply seq_fresh.
  - destruct (at_ok w w0 i d HI H) as (n & -> & _ & Rn & _). cbn [obind]. destruct (derive_ok _ _ _ Rn _ d' (ext_refl _) H0) as (new & n' & -> & E2 & E3). cbn [obind].
    eexists. split; [reflexivity|]. apply add_ok; auto using ext_app. { rewrite E3. apply seq_NoDup. } rewrite E3. intros a. apply seq_fresh.
  - destruct (at_ok w w0 i d HI H0) as (n & -> & Hn & Rn & Nn). destruct (at_ok w w0 j d' HI H1) as (k & -> & Hk & Rk & Nk). cbn [obind].
    destruct (assign_ok n (w_mem w) d k d' Rn Rk H2 Nn) as (m' & n' & E1 & E2 & W1 & W2 & W3 & W4). { intros a Ha. now apply (HP i j n k a). } rewrite E1. cbn [obind].
    destruct (change_ok w w0 i n m' (Some n') (Some d') gs HI Hn) as (gs' & F1 & F2); auto. { split; auto. } { intros x [= <-]. auto. }
    rewrite F1. cbn [obind]. eexists. split; [reflexivity|]. exact F2.
  - destruct (at_ok w w0 i d HI H) as (n & -> & Hn & Rn & Nn). cbn [obind].
    destruct (change_ok w w0 i n (kill (w_mem w) (addrs n)) None None gs HI Hn) as (gs' & F1 & F2); auto. { exact I. } { intros a _ Ha. now apply get_kill. } { discriminate. }
    rewrite F1. cbn [obind]. eexists. split; [reflexivity|]. exact F2.
  - destruct (at_ok w w0 i d HI H) as (n & -> & Hn & Rn & Nn). cbn [obind]. rewrite <- HX in H0.
    destruct (proj1 (new_both (w_mem w) (w_exts w)) n d Rn (Q (w_mem w) (w_gfs w) d (Some i))) as (r & -> & E2 & E3); auto.
    { intros a c Hr Ha Hc. split; auto. intros j [= <-]. eauto. }
    cbn [obind]. eexists. split; [reflexivity|]. apply add_lf_ok; auto. exists (lnew (fn d)). split; auto. apply LocalFunction_props.new_ok. now apply (proj1 (rep_composed_both (w_mem w)) n).
  - destruct (F2_nth _ _ _ _ _ HL H) as (r & -> & o & O1 & O2 & O3). cbn [obind]. destruct (LocalFunction_props.bind_ok G OK _ _ _ e O1 H1) as (o' & B1 & B2).
    destruct (sim_bind _ (w_mem w) (w_exts w) (live_Q w w0 d src HI H0) r o e o' O3) as (r' & -> & S1 & S2); auto. { rewrite O2, HX. apply H0. }
    cbn [obind]. apply (set_lf_ok w w0 j r' (d, Some e, src)); auto. exists o'. split; auto. split; auto. congruence.
  - destruct (F2_nth _ _ _ _ _ HL H) as (r & -> & o & O1 & O2 & O3). cbn [obind]. destruct (proj1 (sim_unbind_both _) r o O3) as [S1 S2].
    apply (set_lf_ok w w0 j _ (d, None, src)); auto. exists (lunbind o). split; [eapply LocalFunction_props.unbind_ok; eauto|]. split; auto. congruence.
  - destruct (F2_nth _ _ _ _ _ HL H) as (r & -> & o & O1 & O2 & O3). cbn [obind]. rewrite (proj1 (sim_copy_both _ (w_exts w)) r o O3) by (rewrite O2, HX; auto).
    cbn [obind]. eexists. split; [reflexivity|]. apply add_lf_ok; auto. exists o. auto.
  - destruct (F2_nth _ _ _ _ _ HL H) as (r & -> & o & O1 & O2 & O3). cbn [obind]. destruct (dderiv_keeps d d' H1) as (A & _ & _ & B & C).
    destruct (LocalFunction_props.deriv_ok G _ _ _ _ O1 C H2) as (o' & D1 & D2). destruct (sim_deriv _ (w_exts w) r o O3 o') as (r' & -> & S1 & S2); auto. { rewrite O2, HX; auto. }
    cbn [obind]. eexists. split; [reflexivity|]. apply add_lf_ok; auto. exists o'. split; auto. split; [congruence|]. eapply sim_mono; [|exact S1]. intros a c [Q1 Q2]. split; auto. congruence.
  - destruct (F2_nth _ _ _ _ _ HL H) as (r & -> & o & O1 & O2 & O3). cbn [obind]. destruct (LocalFunction_props.eval_ok G OK _ _ _ x O1) as (v & o' & B1 & B2 & B3).
    assert (SH : rshape r = gshape (fn d)). { rewrite (proj1 (sim_shape_both _) r o O3). now rewrite (LocalFunction_props.fn_ok G _ _ _ O1). }
    destruct (sim_eval _ (w_mem w) (w_exts w) (live_Q w w0 d src HI H0) (fn d) r o x v o' O3) as (r' & E1 & S1 & S2); auto. { rewrite O2, HX. apply H0. }
    unfold reval. rewrite SH, E1. cbn [obind].
    destruct (set_lf_ok w w0 j r' (d, Some e, src) (s_lfs w0) HI) as (w' & F1 & F2). { exists o'. split; auto. split; auto. congruence. } { now apply LocalFunction_props.upd_id. }
    exists w'. auto.
Qed.
Lemma run_ok sw h sw' : srun G sw h sw' -> forall w, inv w sw -> exists w', run G w h = Some w' /\ inv w' sw'.
Proof.
  induction 1 as [sw|sw o sw1 h sw2 Hs Hr IH]; intros w HI; cbn; [eauto|]. destruct (step_ok _ _ _ _ Hs HI) as (w1 & -> & HI1). cbn. auto.
Qed.
Lemma empty_ok : inv empty s_empty.
Proof. split; auto. split; [constructor|]. split; [|constructor]. intros i j n k a _ H. destruct i; discriminate. Qed.
End Proofs.
