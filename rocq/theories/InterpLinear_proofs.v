(** interpolate() moves coefficients around and does not look at them: lemmas for C91. *)
From Coq Require Import List Arith Bool Lia.
From Verif Require Import Lib Basis_model Basis_spec Basis_proofs Basis_ok Basis_view Basis_props
  Container_model Container_spec Container_proofs Container_desc Container_props Interpolate_model Interpolate_props
  Interrupt_props.
Import ListNotations.

Lemma cont_ind'' {V} (P : cont V -> Prop) : (forall x, P (CVal x)) -> (forall l, Forall P l -> P (CBlk l)) -> forall c, P c.
Proof.
  intros H1 H2. fix IH 1. intros [x|l]; [apply H1|]. apply H2. induction l; constructor; auto.
Qed.

(** Applying a function to all entries of a container. *)
Fixpoint cmap {V W : Type} (h : V -> W) (c : cont V) : cont W :=
  match c with CVal x => CVal (h x) | CBlk l => CBlk (map (cmap h) l) end.
Definition rmap {A B} (f : A -> B) (r : res A) : res B :=
  match r with Done a => Done (f a) | Throw => Throw | Undef => Undef end.

Lemma cmap_shape {V W} (h : V -> W) c : shape (cmap h c) = shape c.
Proof.
  induction c as [x|l IH] using cont_ind''; [reflexivity|]. cbn. f_equal. rewrite map_map. apply map_ext_in.
  intros x Hx. rewrite Forall_forall in IH. auto.
Qed.
Lemma cmap_cmap {U V W} (g : U -> V) (h : V -> W) c : cmap h (cmap g c) = cmap (fun x => h (g x)) c.
Proof.
  induction c as [x|l IH] using cont_ind''; [reflexivity|]. cbn. f_equal. rewrite map_map. apply map_ext_in.
  intros x Hx. rewrite Forall_forall in IH. auto.
Qed.
Lemma cmap_id {V} (h : V -> V) c : (forall x, h x = x) -> cmap h c = c.
Proof.
  intros Hh. induction c as [x|l IH] using cont_ind''; [cbn; now rewrite Hh|]. cbn. f_equal.
  rewrite <- (map_id l) at 2. apply map_ext_in. intros x Hx. rewrite Forall_forall in IH. auto.
Qed.
Lemma cmap_unit {V W} (c : cont V) : forall (c' : cont W), shape c = shape c' -> cmap (fun _ => tt) c = cmap (fun _ => tt) c'.
Proof.
  induction c as [x|l IH] using cont_ind''; intros [y|l'] H; try discriminate; [reflexivity|]. cbn. f_equal. injection H as H.
  revert l' H. induction IH as [|x l Hx _ IHl]; intros [|y l'] H; try discriminate; [reflexivity|]. cbn in *. injection H as H1 H2. f_equal; auto.
Qed.
Lemma nth_cmap {V W} (h : V -> W) l i : nth_error (map (cmap h) l) i = option_map (cmap h) (nth_error l i).
Proof. apply nth_error_map_eq. Qed.
Lemma at_path_cmap {V W} (h : V -> W) p : forall c, at_path (cmap h c) p = option_map (cmap h) (at_path c p).
Proof.
  induction p as [|i p IH]; intros [x|l]; try reflexivity. cbn. rewrite nth_cmap. destruct (nth_error l i); cbn; auto.
Qed.
Lemma upd_map {A B} (f : A -> B) l : forall i x, upd (map f l) i (f x) = option_map (map f) (upd l i x).
Proof. induction l as [|a l IH]; intros [|i] x; cbn; auto. rewrite IH. destruct (upd l i x); reflexivity. Qed.
Lemma put_cmap {V W} (h : V -> W) p : forall c x, put (cmap h c) p (cmap h x) = option_map (cmap h) (put c p x).
Proof.
  induction p as [|i p IH]; intros [y|l] x; try reflexivity. cbn. rewrite nth_cmap. destruct (nth_error l i) as [y|]; cbn; auto.
  rewrite IH. destruct (put y p x) as [y'|]; cbn; auto. rewrite upd_map. destruct (upd l i y'); reflexivity.
Qed.
Lemma resolve_cmap {V W} (h : V -> W) final t : forall c idx off, resolve final t (cmap h c) idx off = resolve final t c idx off.
Proof.
  induction t as [|t IH|n t IH|ts IH] using cty_ind'; intros c idx off; cbn [resolve];
    (match goal with |- context [if final ?t then _ else _] => destruct (final t) end; [reflexivity|]).
  - reflexivity.
  - destruct c as [x|l]; [reflexivity|]. cbn [cmap]. destruct (shifted_at idx off 0) as [i|]; [|reflexivity]. cbn [obind].
    rewrite nth_cmap. destruct (nth_error l i); cbn [option_map obind]; [|reflexivity]. now rewrite IH.
  - destruct c as [x|l]; [reflexivity|]. cbn [cmap]. destruct (shifted_at idx off 0) as [i|]; [|reflexivity]. cbn [obind].
    rewrite nth_cmap. destruct (nth_error l i); cbn [option_map obind]; [|reflexivity]. now rewrite IH.
  - destruct c as [x|l]; [reflexivity|]. cbn [cmap]. destruct (shifted_at idx off 0) as [i|]; [|reflexivity]. cbn [obind].
    set (j := if i <? length ts then i else 0).
    assert (G : forall j', (fix pick ts l k :=
             match ts, l, k with
             | t' :: _, x :: _, 0 => p <- resolve final t' x idx (off + 1) ;; Some (j' :: p)
             | _ :: ts', _ :: l', S k' => pick ts' l' k'
             | _, _, _ => None
             end) ts (map (cmap h) l) j = (fix pick ts l k :=
             match ts, l, k with
             | t' :: _, x :: _, 0 => p <- resolve final t' x idx (off + 1) ;; Some (j' :: p)
             | _ :: ts', _ :: l', S k' => pick ts' l' k'
             | _, _, _ => None
             end) ts l j); [|apply G].
    clearbody j. intros j'. revert l j. induction IH as [|t ts Ht _ IHts]; intros [|x l] j; try reflexivity.
    cbn [map]. destruct j as [|j]; [now rewrite Ht|apply IHts].
Qed.
Lemma default_cmap {V W} (h : V -> W) zero t : default (h zero) t = cmap h (default zero t).
Proof.
  induction t as [|t IH|n t IH|ts IH] using cty_ind'; cbn; auto.
  - f_equal. rewrite IH, map_repeat. reflexivity.
  - f_equal. rewrite map_map. apply map_ext_in. intros t Ht. rewrite Forall_forall in IH. auto.
Qed.
Lemma vresize_cmap {V W} (h : V -> W) l n d : vresize (map (cmap h) l) n (cmap h d) = map (cmap h) (vresize l n d).
Proof. unfold vresize. rewrite map_app, firstn_map, map_length, map_repeat. reflexivity. Qed.
Lemma each_cmap {V W} (h : V -> W) f g l : forall i,
  (forall i x, In x l -> g i (cmap h x) = rmap (cmap h) (f i x)) -> each g i (map (cmap h) l) = rmap (map (cmap h)) (each f i l).
Proof.
  induction l as [|x l IH]; intros i H; [reflexivity|]. cbn [map each]. rewrite (H i x (or_introl eq_refl)).
  destruct (f i x) as [y| |]; cbn [rmap rbind]; auto. rewrite IH by (intros; apply H; now right).
  destruct (each f (i + 1) l); reflexivity.
Qed.
Lemma resize_cmap {V W} (h : V -> W) zero size t : forall c pre,
  resize (h zero) size t (cmap h c) pre = rmap (cmap h) (resize zero size t c pre).
Proof.
  induction t as [|t IH|n t IH|ts IH] using cty_ind'; intros c pre; cbn [resize]; (destruct (size pre) as [n0|]; [|reflexivity]).
  - destruct c; [|reflexivity]. cbn [cmap]. destruct (n0 =? 0); reflexivity.
  - destruct c as [x|l]; [reflexivity|]. cbn [cmap]. rewrite map_length. destruct (n0 =? 0); [destruct (length l =? 0); reflexivity|].
    rewrite default_cmap, vresize_cmap.
    rewrite (each_cmap h (fun i x => resize zero size t x (pre ++ [i])) (fun i x => resize (h zero) size t x (pre ++ [i]))) by auto.
    destruct (each _ 0 _); reflexivity.
  - destruct c as [x|l]; [reflexivity|]. cbn [cmap]. rewrite map_length. destruct (n0 =? 0); [reflexivity|]. destruct (negb (length l =? n0)); [reflexivity|].
    rewrite (each_cmap h (fun i x => resize zero size t x (pre ++ [i])) (fun i x => resize (h zero) size t x (pre ++ [i]))) by auto.
    destruct (each _ 0 _); reflexivity.
  - destruct c as [x|l]; [reflexivity|]. cbn [cmap]. rewrite map_length. destruct (n0 =? 0); [reflexivity|]. destruct (negb (length l =? n0)); [reflexivity|].
    match goal with |- rbind (?f ts (map (cmap h) l) 0) _ = rmap _ (rbind (?g ts l 0) _) =>
      assert (G : forall l i, f ts (map (cmap h) l) i = rmap (map (cmap h)) (g ts l i)) end.
    { clear l. induction IH as [|t ts Ht _ IHts]; intros [|x l] i; try reflexivity.
      cbn [map]. rewrite Ht. destruct (resize zero size t x (pre ++ [i])); cbn [rmap rbind]; auto. rewrite IHts.
      match goal with |- rbind (rmap _ ?r) _ = _ => destruct r; reflexivity end. }
    rewrite G. match goal with |- rbind (rmap _ ?r) _ = _ => destruct r; reflexivity end.
Qed.

(** * interpolate *)
Section Natural.
Context {E V W : Type}.
Variables (b : bexpr E) (path : list nat) (t : cty) (mask : mi -> bool) (h : V -> W).
Variables (interp : E -> list nat -> list V) (interp' : E -> list nat -> list W) (es : list E).
Notation s := (subspace_of_root (build b) path).
(** whenever the first interpolation gives a coefficient, the second one gives its image *)
Hypothesis Himg : forall e p i x, In e es -> nth_error (interp e p) i = Some x -> nth_error (interp' e p) i = Some (h x).

Lemma write_cmap c m x : backend_write t (cmap h c) m (h x) = option_map (cmap h) (backend_write t c m x).
Proof.
  unfold backend_write, backend_at, resolve_final. rewrite resolve_cmap. destruct (resolve _ t c m 0) as [a|]; cbn [obind option_map]; [|reflexivity].
  apply (put_cmap h a c (CVal x)).
Qed.
Lemma forl_sim {S S'} (f : S -> S') (body : nat -> S -> option S) (body' : nat -> S' -> option S') n : forall k0 c r,
  (forall i c c1, body i c = Some c1 -> body' i (f c) = Some (f c1)) ->
  forl n k0 body c = Some r -> forl n k0 body' (f c) = Some (f r).
Proof.
  induction n as [|n IH]; intros k0 c r H HF; cbn in *; [congruence|].
  destruct (body k0 c) as [c1|] eqn:B; [|discriminate]. cbn in HF. rewrite (H _ _ _ B). cbn. apply IH; auto.
Qed.
Lemma leaf_cmap v e p n c r : In e es -> (node_size n <> 0 -> exists m g fe, n = NLeaf m g fe (Some e)) ->
  interpolate_leaf t mask interp v (p, n) c = Some r -> interpolate_leaf t mask interp' v (p, n) (cmap h c) = Some (cmap h r).
Proof.
  intros He Hn. unfold interpolate_leaf. destruct (Nat.eqb_spec (node_size n) 0) as [Z|NZ]; [congruence|].
  destruct (Hn NZ) as (m & g & fe & ->). apply forl_sim. intros i c1 c2.
  destruct (local_index _ i) as [k|]; cbn [obind]; [|discriminate]. destruct (lv_index v k) as [mi|]; cbn [obind]; [|discriminate].
  destruct (mask mi); [|congruence]. destruct (nth_error (interp e p) i) as [x|] eqn:X; cbn [obind]; [|discriminate].
  rewrite (Himg e p i x He X). cbn [obind]. rewrite write_cmap. intros ->. reflexivity.
Qed.
Lemma leaves_cmap v e l : In e es -> (forall p n, In (p, n) l -> node_size n <> 0 -> exists m g fe, n = NLeaf m g fe (Some e)) -> forall c r,
  interpolate_leaves t mask interp v l c = Some r -> interpolate_leaves t mask interp' v l (cmap h c) = Some (cmap h r).
Proof.
  intros He. induction l as [|[p n] l IH]; intros Hl c r; cbn [interpolate_leaves]; [congruence|].
  destruct (interpolate_leaf t mask interp v (p, n) c) as [c1|] eqn:L; cbn [obind]; [|discriminate].
  rewrite (leaf_cmap v e p n c c1 He (Hl p n (or_introl eq_refl)) L). cbn [obind]. apply IH. intros p0 n0 H. apply (Hl p0 n0). now right.
Qed.
Lemma bound_tree v e v' tree : sv_bind s v e = Some v' -> sv_tree s v' = Some tree ->
  forall p n, In (p, n) (for_each_leaf tree) -> node_size n <> 0 -> exists m g fe, n = NLeaf m g fe (Some e).
Proof.
  intros HB HT p n Hn NZ. unfold sv_bind, lv_bind in HB. cbn [ss_root subspace_of_root] in HB.
  destruct (pb_indices _ _ _ _) as [[q u]|]; cbn [obind] in HB; [|discriminate]. injection HB as <-.
  unfold sv_tree in HT. cbn [ss_path subspace_of_root lv_tree] in HT. rewrite for_each_leaf_eq in Hn.
  apply leaf_nodes_descendant in Hn as [Hd Hl].
  assert (HI : In (path ++ p, n) (leaf_nodes (bind_tree e 0 (lv_tree v)))).
  { apply leaf_nodes_descendant. split; auto. rewrite descendant_app', HT. exact Hd. }
  destruct (bound_leaf e (lv_tree v) 0 (path ++ p) n HI NZ) as (mx & g & fe & -> & _). eauto.
Qed.
Lemma elements_cmap l : (forall e, In e l -> In e es) -> forall v c r,
  interpolate_elements t mask interp s v l c = Some r -> interpolate_elements t mask interp' s v l (cmap h c) = Some (cmap h r).
Proof.
  induction l as [|e l IH]; intros Hl v c r; cbn [interpolate_elements]; [congruence|].
  destruct (sv_bind s v e) as [v'|] eqn:B; cbn [obind]; [|discriminate].
  unfold interpolate_local. destruct (sv_tree s v') as [tree|] eqn:T; cbn [obind]; [|discriminate].
  destruct (interpolate_leaves t mask interp v' _ c) as [c1|] eqn:L; cbn [obind]; [|discriminate].
  rewrite (leaves_cmap v' e _ (Hl e (or_introl eq_refl)) (bound_tree v e v' tree B T) c c1 L). cbn [obind]. apply IH. intros; apply Hl; now right.
Qed.
(** If a call returns [r], the call for the images of all coefficients returns the image of [r]. *)
Lemma interpolate_cmap zero c r :
  interpolate t mask interp zero s es c = Done r -> interpolate t mask interp' (h zero) s es (cmap h c) = Done (cmap h r).
Proof.
  unfold interpolate, backend_resize. cbn [ss_root subspace_of_root]. rewrite resize_cmap.
  destruct (resize zero _ t c []) as [c0| |]; cbn [rmap]; try discriminate.
  destruct (interpolate_elements t mask interp s _ es c0) as [c1|] eqn:L; [|discriminate]. intros [= <-].
  now rewrite (elements_cmap es (fun e H => H) _ _ _ L).
Qed.
End Natural.

(** * The writes of a call, for every mask *)
Section Writes.
Context {E V : Type}.
Notation cont := (cont V).
Variables (t : cty) (interp : E -> list nat -> list V).
Lemma forl_writes_any (n k0 : nat) (body : (mi -> bool) -> nat -> cont -> option cont) (P : nat -> mi * V -> Prop) :
  (forall i, k0 <= i < k0 + n -> exists w, P i w /\ forall mask c, body mask i c = write1 t mask c w) ->
  exists ws, (forall mask c, forl n k0 (body mask) c = writes t mask ws c) /\ Forall2 P (seq k0 n) ws.
Proof.
  revert k0. induction n as [|n IH]; intros k0 H; [exists []; split; [reflexivity|constructor]|].
  destruct (H k0) as (w & HP & Hw); [lia|]. destruct (IH (S k0)) as (ws & H1 & H2).
  { intros i Hi. apply H. lia. }
  exists (w :: ws). split; [|constructor; auto]. intros mask c. cbn. rewrite Hw. destruct (write1 t mask c w); cbn; auto.
  rewrite Nat.add_1_r. apply H1.
Qed.
Variables (b : bexpr E) (els : E -> Prop) (path : list nat).
Hypothesis Hwf : wf els b.
Let s := subspace_of_root (build b) path.
Let OK := build_ok b els Hwf.
Hypothesis Hpath : exists n, descendant (pb_node (build b)) path = Some n.
Hypothesis Hint : interp_ok b path els interp.
Notation view_ok := (view_ok b).
Lemma element_writes_any v e : view_ok v -> els e ->
  exists v' ws, sv_bind s v e = Some v' /\ view_ok v' /\
    (forall mask c, interpolate_local t mask interp s v' c = writes t mask ws c) /\
    (forall m x, In (m, x) ws <-> local_value b path interp e m x).
Proof.
  intros Hv He. unfold sv_bind, s. cbn [ss_root subspace_of_root].
  assert (Hsk : skel (lv_tree v) = skel (pb_node (build b))) by (rewrite (tskel_skel _ _ Hv); apply new_skel).
  rewrite (bind_ok els _ _ v e OK He Hsk). set (v' := LV _ _ _). exists v'.
  assert (Hnew : lv_bind (build b) (lv_new (build b)) e = Some (LV (Some e)
            (bind_tree e 0 (fst (init_tree 0 (pb_node (build b))))) (lv_indices v'))).
  { apply (bind_new_ok els _ _ e OK He). }
  set (v1 := LV (Some e) (bind_tree e 0 (fst (init_tree 0 (pb_node (build b))))) (lv_indices v')) in Hnew.
  assert (HST : same_tree (lv_tree v') (lv_tree v1)) by (apply same_bind; exact Hv).
  assert (Hsz : length (lv_indices v') = node_size (lv_tree v')).
  { cbn [v' lv_indices lv_tree]. rewrite map_length. symmetry. apply (ok_nsize _ _ _ OK _ e 0 He Hsk). }
  destruct (descendant (lv_tree v') path) as [tr|] eqn:Etr.
  2:{ exfalso. destruct Hpath as [n0 Hn0]. cbn in Etr.
      apply (skel_descendant (fun _ => true) path _ (pb_node (build b))) in Etr; [congruence|]. rewrite skel_bind. exact Hsk. }
  (* each leaf *)
  assert (HL : forall p n, In (p, n) (leaf_nodes tr) ->
    exists ws, (forall mask c, interpolate_leaf t mask interp v' (p, n) c = writes t mask ws c) /\
      forall m x, In (m, x) ws <-> exists j k, local_index n j = Some k /\ lv_index v' k = Some m /\ nth_error (interp e p) j = Some x).
  { intros p n Hn. unfold interpolate_leaf. destruct (Nat.eqb_spec (node_size n) 0) as [Hz|Hnz].
    - exists []. split; auto. intros m x. split; [intros []|]. intros (j & k & H1 & _). apply local_index_Some in H1. lia.
    - pose proof Hn as Hn'. apply leaf_nodes_descendant in Hn' as [Hd Hlf].
      assert (Hd' : descendant (lv_tree v') (path ++ p) = Some n) by (rewrite descendant_app', Etr; exact Hd).
      assert (HI : In (path ++ p, n) (leaf_nodes (lv_tree v'))) by (apply leaf_nodes_descendant; auto).
      destruct (bound_leaf e (lv_tree v) 0 (path ++ p) n HI Hnz) as (mx & g & fe & -> & Hfe).
      assert (HR : forall i k, local_index (NLeaf mx g fe (Some e)) i = Some k -> exists m, lv_index v' k = Some m).
      { intros i k Hk. pose proof (C12_leaf_indices_in_range (lv_tree v) e 0 (path ++ p) _ i k Hd' Hlf Hk) as Hr. cbn in Hr.
        apply nth_error_lt_Some. rewrite Hsz. cbn. lia. }
      assert (HX : fe e <= length (interp e p)).
      { pose proof (HST (path ++ p)) as Q. rewrite Hd' in Q. destruct (descendant (lv_tree v1) (path ++ p)) as [n1|] eqn:En1; [|contradiction].
        destruct Q as (Q1 & Q2 & _ & _ & Q3 & _). rewrite <- Hfe, Q2. eapply Hint; eauto. }
      destruct (forl_writes_any (fe e) 0 (fun mask i c =>
          k <- local_index (NLeaf mx g fe (Some e)) i ;; m <- lv_index v' k ;;
          if mask m then x <- nth_error (interp e p) i ;; backend_write t c m x else Some c)
        (fun i w => exists k, local_index (NLeaf mx g fe (Some e)) i = Some k /\ lv_index v' k = Some (fst w) /\
                              nth_error (interp e p) i = Some (snd w))) as (ws & W1 & W2).
      { intros i Hi.
        assert (Hk : local_index (NLeaf mx g fe (Some e)) i = Some (node_offset (NLeaf mx g fe (Some e)) + i)).
        { apply local_index_Some. rewrite Hfe. split; [lia|reflexivity]. }
        destruct (HR _ _ Hk) as [m Hm]. destruct (nth_error_lt_Some (interp e p) i) as [x Hx]; [lia|].
        exists (m, x). split; [eauto|]. intros mask c. rewrite Hk. cbn [obind]. rewrite Hm. cbn [obind].
        unfold write1. cbn [fst snd]. destruct (mask m); [|reflexivity]. now rewrite Hx. }
      exists ws. split; [exact W1|]. intros m x. split.
      + intros HI2. apply In_nth_error in HI2 as [i Hi].
        destruct (Forall2_nth_r _ _ _ _ _ W2 Hi) as (i' & _ & k & P1 & P2 & P3). exists i', k. auto.
      + intros (j & k & P1 & P2 & P3). pose proof P1 as P1'. apply local_index_Some in P1' as [Hj _]. rewrite Hfe in Hj.
        destruct (Forall2_nth_l _ _ _ j j W2) as ([m' x'] & Hw & k' & R1 & R2 & R3).
        { rewrite nth_error_seq. destruct (Nat.ltb_spec j (fe e)); [f_equal; lia|lia]. }
        cbn [fst snd] in *. assert (k' = k) as -> by congruence.
        assert (m' = m) as -> by congruence. assert (x' = x) as -> by congruence.
        eapply nth_error_In; eauto. }
  (* all leaves *)
  assert (HA : forall l, (forall p n, In (p, n) l -> In (p, n) (leaf_nodes tr)) ->
    exists ws, (forall mask c, interpolate_leaves t mask interp v' l c = writes t mask ws c) /\
      forall m x, In (m, x) ws <-> exists p n j k, In (p, n) l /\ local_index n j = Some k /\ lv_index v' k = Some m /\ nth_error (interp e p) j = Some x).
  { induction l as [|[p n] l IHl]; intros Hl.
    - exists []. split; [reflexivity|]. intros m x. split; [intros []|]. intros (p & n & j & k & [] & _).
    - destruct (HL p n (Hl p n (or_introl eq_refl))) as (ws1 & A1 & A2).
      destruct IHl as (ws2 & B1 & B2); [intros; apply Hl; now right|].
      exists (ws1 ++ ws2). split.
      + intros mask c. cbn [interpolate_leaves]. rewrite A1, writes_app. destruct (writes t mask ws1 c); cbn; auto.
      + intros m x. rewrite in_app_iff, A2, B2. split.
        * intros [(j & k & P)|(p' & n' & j & k & P1 & P2)].
          -- exists p, n, j, k. split; [now left|]. exact P.
          -- exists p', n', j, k. split; [now right|]. exact P2.
        * intros (p' & n' & j & k & [[= <- <-]|P1] & P2); [left; eauto|right; eauto 8]. }
  destruct (HA (leaf_nodes tr)) as (ws & W1 & W2); [auto|].
  exists ws. split; [reflexivity|]. split.
  { unfold view_ok. cbn [v' lv_tree]. rewrite tskel_bind. exact Hv. }
  split.
  { intros mask c. unfold interpolate_local, sv_tree. cbn [ss_path subspace_of_root]. rewrite Etr. cbn [obind].
    rewrite for_each_leaf_eq. apply W1. }
  intros m x. rewrite W2. split.
  - intros (p & n & j & k & Hn & P1 & P2 & P3). apply leaf_nodes_descendant in Hn as [Hd Hlf].
    assert (Hd' : descendant (lv_tree v') (path ++ p) = Some n) by (rewrite descendant_app', Etr; exact Hd).
    pose proof (HST (path ++ p)) as Q. rewrite Hd' in Q. destruct (descendant (lv_tree v1) (path ++ p)) as [n1|] eqn:En1; [|contradiction].
    destruct Q as (Q1 & Q2 & _ & _ & Q3 & _). exists v1, p, n1, j, k. split; [exact Hnew|]. split; auto. split; [congruence|].
    split; [|split; auto]. apply local_index_Some. apply local_index_Some in P1. lia.
  - intros (v2 & p & n & j & k & P0 & P1 & P2 & P3 & P4 & P5). rewrite Hnew in P0. injection P0 as <-.
    pose proof (HST (path ++ p)) as Q. rewrite P1 in Q. destruct (descendant (lv_tree v') (path ++ p)) as [n1|] eqn:En1; [|contradiction].
    destruct Q as (Q1 & Q2 & _ & _ & Q3 & _). rewrite descendant_app', Etr in En1.
    exists p, n1, j, k. split; [apply leaf_nodes_descendant; split; [exact En1|congruence]|].
    split; [|split; auto]. apply local_index_Some. apply local_index_Some in P3. lia.
Qed.
Lemma elements_writes_any es : forall v, view_ok v -> (forall e, In e es -> els e) ->
  exists ws, (forall mask c, interpolate_elements t mask interp s v es c = writes t mask ws c) /\
    forall m x, In (m, x) ws <-> exists e, In e es /\ local_value b path interp e m x.
Proof.
  induction es as [|e es IH]; intros v Hv Hes.
  - exists []. split; [reflexivity|]. intros m x. split; [intros []|intros (e & [] & _)].
  - destruct (element_writes_any v e Hv (Hes e (or_introl eq_refl))) as (v' & ws & H1 & H2 & H3 & H4).
    destruct (IH v' H2) as (ws' & H5 & H6); [intros; apply Hes; now right|].
    exists (ws ++ ws'). split.
    + intros mask c. cbn [interpolate_elements]. rewrite H1. cbn [obind]. rewrite H3, writes_app. destruct (writes t mask ws c); cbn; auto.
    + intros m x. rewrite in_app_iff, H4, H6. split.
      * intros [H|(e' & He' & H)]; [exists e|exists e']; auto using in_eq, in_cons.
      * intros (e' & [<-|He'] & H); [auto|right; eauto].
Qed.
End Writes.
