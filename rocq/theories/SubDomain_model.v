(** Sub-domains of a grid view: dune/functions/common/subdomain.hh.
    The host grid view, its all-codimension mapper and the reference elements
    are external (dune-grid, dune-geometry): they appear as the record [host].
    IndexType is nat, so the magic value std::numeric_limits<IndexType>::max()
    ("unused", subdomain.hh:221) is modelled by [None] in a cell of indices_; no
    count reaches that value.  Geometry types are identified with their
    GlobalGeometryTypeIndex. *)
From Coq Require Import List Arith Bool.
From Verif Require Import Lib Basis_model.
Import ListNotations.

(** What insertElement and the iterators ask the host grid view for. *)
(** Used in subdomain.hh:225-345 and 380-419. *)
Record host {E I : Type} := Host {
  h_dim : nat;                          (* dimension *)
  h_types : nat;                        (* GlobalGeometryTypeIndex::size(dimension) *)
  h_size : nat;                         (* allEntityMapper_.size() *)
  h_nsub : E -> nat -> nat;             (* referenceElement(e).size(codim) *)
  h_rtype : E -> nat -> nat -> nat;     (* type index of referenceElement(e).type(i,codim) *)
  h_subidx : E -> nat -> nat -> nat;    (* allEntityMapper_.subIndex(e,i,codim) *)
  h_idx : E -> nat;                     (* allEntityMapper_.index(e), e of codim 0 *)
  h_elements : list E;                  (* begin<0>() .. end<0>() *)
  h_inters : E -> list I;               (* ibegin(e) .. iend(e) *)
  h_inside : I -> E;
  h_outside : I -> option E;            (* outside(); None: there is none *)
  h_neighbor : I -> bool;
  h_boundary : I -> bool
}.
Arguments host : clear implicits.

(** subdomain.hh:342-349, the data members. *)
Record iset := IS {
  is_gt : list nat;                     (* sizePerGT_ *)
  is_cd : list nat;                     (* sizePerCodim_ *)
  is_ty : list (list nat);              (* typesPerCodim_ *)
  is_ix : list (option nat)             (* indices_ *)
}.

Section SubDomain.
Context {E I : Type} (h : host E I).

(** subdomain.hh:226-231, 327-337: constructor and clear(). *)
Definition is_new : iset :=
  IS (repeat 0 (h_types h)) (repeat 0 (h_dim h + 1)) (repeat [] (h_dim h + 1))
     (repeat None (h_size h)).

(** subdomain.hh:237-243: size(gt); [gtdim] is gt.dim(). *)
Definition is_size_gt (s : iset) (gtdim t : nat) : option nat :=
  if gtdim <=? h_dim h then nth_error (is_gt s) t else Some 0.
(** subdomain.hh:245-248. *)
Definition is_size_codim (s : iset) (c : nat) : option nat := nth_error (is_cd s) c.
(** subdomain.hh:250-257, 265-272: index() and subIndex() on the mapper index of
    the (sub)entity; [Some None] is the exception for entities not contained. *)
Definition is_index (s : iset) (x : nat) : option (option nat) := nth_error (is_ix s) x.
(** subdomain.hh:280-284. *)
Definition is_contains (s : iset) (x : nat) : option bool :=
  match nth_error (is_ix s) x with
  | Some (Some _) => Some true
  | Some None => Some false
  | None => None
  end.
(** subdomain.hh:286-289. *)
Definition is_types (s : iset) (c : nat) : option (list nat) := nth_error (is_ty s) c.

(** subdomain.hh:309-319: the body of the inner loop of insertElement. *)
Definition insert_sub (e : E) (c i : nat) (s : iset) : option iset :=
  cell <- nth_error (is_ix s) (h_subidx h e i c) ;;
  match cell with
  | Some _ => Some s
  | None =>
      let t := h_rtype h e i c in
      n <- nth_error (is_gt s) t ;;
      ix' <- upd (is_ix s) (h_subidx h e i c) (Some n) ;;
      ty' <- (if n =? 0
              then l <- nth_error (is_ty s) c ;; upd (is_ty s) c (l ++ [t])
              else Some (is_ty s)) ;;
      gt' <- upd (is_gt s) t (n + 1) ;;
      m <- nth_error (is_cd s) c ;;
      cd' <- upd (is_cd s) c (m + 1) ;;
      Some (IS gt' cd' ty' ix')
  end.
(** subdomain.hh:302-322. *)
Definition insert_element (e : E) (s : iset) : option iset :=
  forl (h_dim h + 1) 0 (fun c => forl (h_nsub h e c) 0 (insert_sub e c)) s.

(** A client that inserts the elements of a list, in order. *)
(** A sequence of calls; no counterpart in the library. *)
Fixpoint is_run (es : list E) (s : iset) : option iset :=
  match es with
  | [] => Some s
  | e :: r => s' <- insert_element e s ;; is_run r s'
  end.

(** SubDomainGridView::ElementIterator, subdomain.hh:380-419.  The iterator is the
    list of host elements from hostIt_ to hostEndIt_; [cont] is
    indexSet_->contains(). *)
Fixpoint ei_skip (cont : E -> bool) (l : list E) : list E :=
  match l with
  | [] => []
  | x :: r => if cont x then l else ei_skip cont r
  end.
(** subdomain.hh:388-395 (constructor; begin() at 485-489, end() at 493-497). *)
Definition ei_begin (cont : E -> bool) : list E := ei_skip cont (h_elements h).
(** subdomain.hh:380-419: the iterator made from the host's end iterator. *)
Definition ei_end (cont : E -> bool) : list E := ei_skip cont [].
(** subdomain.hh:397-403; incrementing the end iterator is undefined. *)
Definition ei_next (cont : E -> bool) (it : list E) : option (list E) :=
  match it with [] => None | _ :: r => Some (ei_skip cont r) end.
(** subdomain.hh:405-408. *)
Definition ei_deref (it : list E) : option E := hd_error it.
(** subdomain.hh:410-413: positions in the same host range are equal iff equally
    many elements are left. *)
Definition ei_eqb (a b : list E) : bool := length a =? length b.
(** for (auto&& e : elements(gridView)): at most [n] increments, [None] when the
    loop is not finished by then. *)
(** A range-based for loop of the user over the iterators of subdomain.hh:380-419. *)
Fixpoint ei_for (cont : E -> bool) (n : nat) (it : list E) : option (list E) :=
  if ei_eqb it (ei_end cont) then Some [] else
  match n with
  | 0 => None
  | S n' => e <- ei_deref it ;; it' <- ei_next cont it ;; l <- ei_for cont n' it' ;; Some (e :: l)
  end.

(** Impl::GlobalIntersectionIt, subdomain.hh:34-163.  [gi_els]: the elements from
    elementIt_ to elementEnd_; [gi_is]: the intersections of the current element
    from iIt_ to iend.  The caches element_ and intersection_ (49-82) always hold
    the dereferenced iterators and are not modelled; filling one from an end
    iterator is undefined, [None]. *)
Record giter := GI { gi_els : list E; gi_is : list I }.
(** subdomain.hh:120-138; the while loop runs at most [fuel] times ([None] when
    it would run longer). *)
Fixpoint gi_next (p : I -> bool) (fuel : nat) (it : giter) : option giter :=
  match fuel with
  | 0 => None
  | S f =>
      match gi_is it with
      | [] => None
      | _ :: r =>
          match r with
          | [] =>
              match tl (gi_els it) with
              | [] => Some (GI [] [])
              | e :: es =>
                  x <- hd_error (h_inters h e) ;;
                  (if p x then Some (GI (e :: es) (h_inters h e))
                   else gi_next p f (GI (e :: es) (h_inters h e)))
              end
          | x :: _ => if p x then Some (GI (gi_els it) r) else gi_next p f (GI (gi_els it) r)
          end
      end
  end.
(** subdomain.hh:89-103. *)
Definition gi_begin (p : I -> bool) (fuel : nat) (els : list E) : option giter :=
  match els with
  | [] => Some (GI [] [])
  | e :: _ =>
      x <- hd_error (h_inters h e) ;;
      (if p x then Some (GI els (h_inters h e)) else gi_next p fuel (GI els (h_inters h e)))
  end.
(** subdomain.hh:115-118. *)
Definition gi_deref (it : giter) : option I := hd_error (gi_is it).
(** subdomain.hh:149-152: comparison with the sentinel. *)
Definition gi_at_end (it : giter) : bool := match gi_els it with [] => true | _ => false end.
(** The range-based loop until the sentinel is reached. *)
(** A range-based for loop of the user over the iterators of subdomain.hh:34-163. *)
Fixpoint gi_for (p : I -> bool) (fuel n : nat) (it : giter) : option (list I) :=
  if gi_at_end it then Some [] else
  match n with
  | 0 => None
  | S n' => x <- gi_deref it ;; it' <- gi_next p fuel it ;;
            l <- gi_for p fuel n' it' ;; Some (x :: l)
  end.

(** SubDomain::contains and SubDomainIndexSet::contains of an element,
    subdomain.hh:280-284, 628-631; out of range cannot be asked for. *)
Definition sd_contains (s : iset) (e : E) : bool :=
  match is_contains s (h_idx h e) with Some b => b | None => false end.

(** Any element set, as used by interface and skeleton; an intersection without
    outside element is never asked for it. *)
(** Used in subdomain.hh:676-697, 710 and 745-750. *)
Definition out_in (b : E -> bool) (x : I) : bool :=
  match h_outside h x with Some e => b e | None => false end.
(** SubDomainInterface::contains, subdomain.hh:676-682. *)
Definition if_contains (a b : E -> bool) (x : I) : bool :=
  if h_boundary h x || negb (h_neighbor h x) then false
  else (a (h_inside h x) && out_in b x) || (out_in a x && b (h_inside h x)).
(** SubDomainInterface::isOriented, subdomain.hh:692-697. *)
Definition if_oriented (a b : E -> bool) (x : I) : bool :=
  if h_boundary h x || negb (h_neighbor h x) then false
  else a (h_inside h x) && out_in b x.
(** SubDomainInterface::begin(), subdomain.hh:705-712: GlobalIntersectionIt over
    the elements of A's grid view (an ElementIterator range). *)
Definition if_pred (b : E -> bool) (x : I) : bool :=
  if h_boundary h x || negb (h_neighbor h x) then false else out_in b x.
(** The complete loop over an interface: element iterator of A's grid view inside
    the intersection iterator.  The element range is first listed; the code asks
    for it one element at a time, which gives the same elements because nothing
    is inserted meanwhile. *)
(** A range-based for loop of the user over a SubDomainInterface, subdomain.hh:644-722. *)
Definition if_for (a b : E -> bool) (n : nat) : option (list I) :=
  els <- ei_for a n (ei_begin a) ;;
  it <- gi_begin (if_pred b) n els ;;
  gi_for (if_pred b) n n it.
(** SubDomainSkeleton::contains, subdomain.hh:745-750. *)
Definition sk_contains (a : E -> bool) (x : I) : bool :=
  if h_boundary h x || negb (h_neighbor h x) then false
  else a (h_inside h x) && out_in a x.
End SubDomain.
