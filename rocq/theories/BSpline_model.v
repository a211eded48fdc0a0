(** B-spline bases (bsplinebasis.hh).

    Simplifications: double is R; unsigned and size_t are nat, differences are
    truncated at 0 (std::max((int)(a-b),0) is [a - b]).  The test std::isnan of a
    quotient is [divnan] below: 0/0 is replaced by 0, and a nonzero number divided
    by 0 (which the code would return as an infinity) is [None].  Entries of the
    knot vector and of the table N are read with [nth]; all of these accesses are in
    range when the knot vector has at least order+2 entries.  Template dimension
    [dim] = length of the lists. *)
From Coq Require Import List Arith Reals Bool.
From Verif Require Import Lib Basis_model.
Import ListNotations.
Open Scope R_scope.

(** One coordinate direction of BSplinePreBasis (bsplinebasis.hh:1217-1225):
    knotVectors_[d], order_[d], elements_[d]. *)
Record dir := DIR { d_knots : list R; d_order : nat; d_elements : nat }.
(** bsplinebasis.hh:1217 and its uses: knotVectors_[d].size() *)
Definition knots_size (d : dir) : nat := length (d_knots d).

(** * Construction *)

(** bsplinebasis.hh:597-629, one direction of the constructor with a knot vector;
    [None] for an empty one (its front and back are read, and size()-1 wraps). *)
Definition ctor_knots (knotVector : list R) (order : nat) (makeOpen : bool) : option dir :=
  match knotVector with
  | [] => None
  | k0 :: _ =>
      let pre := if makeOpen then repeat k0 order else [] in
      let post := if makeOpen then repeat (last knotVector 0) order else [] in
      Some (DIR (pre ++ knotVector ++ post) order (length knotVector - 1))
  end.

(** bsplinebasis.hh:648-680, one direction of the constructor with a bounding box *)
Definition ctor_uniform (lowerLeft upperRight : R) (elements order : nat) (makeOpen : bool) : dir :=
  let pre := if makeOpen then repeat lowerLeft order else [] in
  let inner := map (fun j => lowerLeft + INR j * (upperRight - lowerLeft) / INR elements) (seq 0 (elements + 1)) in
  let post := if makeOpen then repeat upperRight order else [] in
  DIR (pre ++ inner ++ post) order elements.

(** * Binding to an element *)

(** bsplinebasis.hh:409, 417: 1e-8 *)
Definition tol8 : R := / 10 ^ 8.
(** bsplinebasis.hh:1039, 1042, 1092, 1095: 1e-10 *)
Definition tol10 : R := / 10 ^ 10.

(** bsplinebasis.hh:409-410, 416-417: skip over degenerate knot spans.  An access
    outside of the knot vector is [None]; [fuel] is the size of the vector. *)
Fixpoint skip (knots : list R) (fuel s : nat) : option nat :=
  match fuel with
  | 0%nat => None
  | S fuel' =>
      a <- nth_error knots s ;; b <- nth_error knots (s + 1) ;;
      if Rlt_dec b (a + tol8) then skip knots fuel' (s + 1) else Some s
  end.

(** bsplinebasis.hh:401-418: currentKnotSpan_ of one direction *)
Definition bind1 (knots : list R) (elementIdx : nat) : option nat :=
  s <- skip knots (length knots) 0 ;;
  forl elementIdx 0 (fun _ s => skip knots (length knots) (s + 1)) s.

(** bsplinebasis.hh:470-479 (size(i)); repeated in 797-805, 931-938, 1018-1022, 1119-1123 *)
Definition fe_size (d : dir) (s : nat) : nat :=
  let p := d_order d in
  let r := (p + 1)%nat in
  let r := if (s <? p)%nat then (r - (p - s))%nat else r in
  if (knots_size d - s - 2 <? p)%nat then (r - (p - (knots_size d - s - 2)))%nat else r.

(** bsplinebasis.hh:993-1002 (getIJK) *)
Fixpoint getIJK (idx : nat) (elements : list nat) : list nat :=
  match elements with
  | [] => []
  | n :: ns => (idx mod n)%nat :: getIJK (idx / n) ns
  end.

(** Loops over the directions that stop at the first failure; no counterpart of its own. *)
Fixpoint map_opt {A B} (f : A -> option B) (l : list A) : option (list B) :=
  match l with
  | [] => Some []
  | a :: r => b <- f a ;; bs <- map_opt f r ;; Some (b :: bs)
  end.

(** BSplineNode::bind (1262-1268) and the span of each direction (401-418) *)
Definition bind (dirs : list dir) (elementIndex : nat) : option (list nat) :=
  map_opt (fun de => bind1 (d_knots (fst de)) (snd de))
    (combine dirs (getIJK elementIndex (map d_elements dirs))).

(** * Numbering *)

(** bsplinebasis.hh:755-758 (size(d)) *)
Definition size1 (d : dir) : nat := (knots_size d - d_order d - 1)%nat.
(** bsplinebasis.hh 747-753 (dimension), 708-715 (maxNodeSize), 452-458 (size()) *)
Definition prod (l : list nat) : nat := fold_left Nat.mul l 1%nat.
(** bsplinebasis.hh:747-753 (dimension) *)
Definition dimension (dirs : list dir) : nat := prod (map size1 dirs).
(** bsplinebasis.hh:708-715 (maxNodeSize) *)
Definition maxNodeSize (dirs : list dir) : nat := prod (map (fun d => d_order d + 1)%nat dirs).
(** bsplinebasis.hh:470-479: size(i) of every direction *)
Definition node_sizes (dirs : list dir) (spans : list nat) : list nat :=
  map (fun ds => fe_size (fst ds) (snd ds)) (combine dirs spans).
(** bsplinebasis.hh:452-458: size() *)
Definition node_size (dirs : list dir) (spans : list nat) : nat := prod (node_sizes dirs spans).

(** bsplinebasis.hh:737-741: one flat index from a tuple; the size of the last
    direction is not used *)
Fixpoint flatIndex (sizes ijk : list nat) : nat :=
  match sizes, ijk with
  | _, [] => 0%nat
  | _, [g] => g
  | n :: ns, g :: gs => (flatIndex ns gs * n + g)%nat
  | [], g :: _ => g
  end.

(** bsplinebasis.hh:717-744 (indices) *)
Definition indices (dirs : list dir) (spans : list nat) : list nat :=
  let localSizes := node_sizes dirs spans in
  map (fun i =>
         let localIJK := getIJK i localSizes in
         let globalIJK := map (fun dsl => match dsl with (d, s, l) => (s - d_order d) + l end)%nat
                            (combine (combine dirs spans) localIJK) in
         flatIndex (map size1 dirs) globalIJK)
    (seq 0 (node_size dirs spans)).

(** The basis as a leaf of the tree of pre-bases; elements are given by their index *)
Definition bspline_leaf (dirs : list dir) : leaf nat :=
  LF (dimension dirs) (maxNodeSize dirs)
    (fun e => match bind dirs e with Some spans => node_size dirs spans | None => 0%nat end)
    (fun e => match bind dirs e with Some spans => indices dirs spans | None => [] end).

(** * One-dimensional functions *)

Section OneD.
Variable d : dir.
Variable s : nat.   (* currentKnotSpan *)
Variable x : R.     (* in *)
Let t (i : nat) : R := nth i (d_knots d) 0.

(** bsplinebasis.hh:1024-1047 = 1076-1099: row [r] of the table N *)
Definition factor1 (r i : nat) : R :=
  if Rgt_dec (t (i + r) - t i) tol10 then (x - t i) / (t (i + r) - t i) else 0.
(** bsplinebasis.hh:1042-1044, 1095-1097: factor2 *)
Definition factor2 (r i : nat) : R :=
  if Rgt_dec (t (i + r + 1) - t (i + 1)) tol10 then (t (i + r + 1) - x) / (t (i + r + 1) - t (i + 1)) else 0.
(** bsplinebasis.hh:1031-1047 = 1084-1099: row [r] of the table N *)
Fixpoint table (r : nat) : list R :=
  match r with
  | 0%nat => map (fun i => if (i =? s)%nat then 1 else 0) (seq 0 (knots_size d - 1))
  | S r' =>
      let N := table r' in
      map (fun i => if (i <? knots_size d - r - 1)%nat
                    then factor1 r i * nth i N 0 + factor2 r i * nth (i + 1) N 0 else 0)
        (seq 0 (knots_size d - 1))
  end.

(** bsplinebasis.hh:1012-1055 (evaluateFunction, one direction) *)
Definition eval1 : list R :=
  map (fun i => nth (s - d_order d + i) (table (d_order d)) 0) (seq 0 (fe_size d s)).

(** bsplinebasis.hh:852-858, 1171-1177: a quotient that is replaced by 0 if std::isnan *)
Definition divnan (a b : R) : option R :=
  if Req_EM_T b 0 then (if Req_EM_T a 0 then Some 0 else None) else Some (a / b).
(** bsplinebasis.hh:1195-1208: the same for the quotients with two divisors *)
Definition divnan2 (a b c : R) : option R :=
  if Req_EM_T b 0 then (if Req_EM_T a 0 then Some 0 else None) else divnan (a / b) c.

(** bsplinebasis.hh:838-863 = 1155-1176: first derivatives *)
Definition jac1 : option (list R) :=
  let p := d_order d in
  if (p =? 0)%nat then Some (repeat 0 (fe_size d s))
  else
    map_opt (fun j =>
        a1 <- divnan (nth j (table (p - 1)) 0) (t (j + p) - t j) ;;
        a2 <- divnan (nth (j + 1) (table (p - 1)) 0) (t (j + p + 1) - t (j + 1)) ;;
        Some (INR p * (a1 - a2)))
      (seq (s - p) (fe_size d s)).

(** bsplinebasis.hh:1178-1211: second derivatives *)
Definition hess1 : option (list R) :=
  let p := d_order d in
  if (p <? 2)%nat then Some (repeat 0 (fe_size d s))
  else
    let N := table (p - 2) in
    map_opt (fun j =>
        a1 <- divnan2 (nth j N 0) (t (j + p) - t j) (t (j + p - 1) - t j) ;;
        a2 <- divnan2 (nth (j + 1) N 0) (t (j + p) - t j) (t (j + p) - t (j + 1)) ;;
        a3 <- divnan2 (nth (j + 1) N 0) (t (j + p + 1) - t (j + 1)) (t (j + p) - t (j + 1)) ;;
        a4 <- divnan2 (nth (j + 2) N 0) (t (j + p + 1) - t (j + 1)) (t (j + 1 + p) - t (j + 2)) ;;
        Some (INR p * (INR p - 1) * (a1 - a2 - a3 + a4)))
      (seq (s - p) (fe_size d s)).
End OneD.

(** * Tensor products *)

(** bsplinebasis.hh:523-537 (MultiDigitCounter::operator++) *)
Fixpoint counter_inc (limits c : list nat) : list nat :=
  match limits, c with
  | l :: ls, a :: cs => if (S a <? l)%nat then S a :: cs else 0%nat :: counter_inc ls cs
  | _, _ => []
  end.
(** bsplinebasis.hh:516-520 (the constructor of MultiDigitCounter) *)
Definition counter_start (limits : list nat) : list nat := map (fun _ => 0%nat) limits.

(** one entry: the product over the directions of the entries selected by the counter *)
Definition entry (values : list (list R)) (c : list nat) : R :=
  fold_left (fun acc vi => acc * nth (snd vi) (fst vi) 0) (combine values c) 1.
(** bsplinebasis.hh:783-788, 884-891, 956-983: the loop over the counter; [n] rounds *)
Fixpoint tensor_loop {A} (n : nat) (limits c : list nat) (f : list nat -> A) : list A :=
  match n with
  | 0%nat => []
  | S n' => f c :: tensor_loop n' limits (counter_inc limits c) f
  end.
(** bsplinebasis.hh:779-783: the loop starts with the zero counter and has cycle() (546-552)
    rounds *)
Definition tensor {A} (limits : list nat) (f : list nat -> A) : list A :=
  tensor_loop (prod limits) limits (counter_start limits) f.

Section Tensor.
Variable dirs : list dir.
Variable spans : list nat.

(** bsplinebasis.hh:770-773: direction, knot span and coordinate, as handed to the
    one-dimensional functions *)
Definition dsx (xs : list R) : list (dir * nat * R) := combine (combine dirs spans) xs.
(** bsplinebasis.hh:769-773: oneDValues, for every direction *)
Definition values (xs : list R) : list (list R) := map (fun q => match q with (d, s, x) => eval1 d s x end) (dsx xs).
(** bsplinebasis.hh:841-863, 913: oneDDerivatives, for every direction *)
Definition jacs (xs : list R) : option (list (list R)) := map_opt (fun q => match q with (d, s, x) => jac1 d s x end) (dsx xs).
(** bsplinebasis.hh:916: the second derivatives from evaluateAll, for every direction *)
Definition hesss (xs : list R) : option (list (list R)) := map_opt (fun q => match q with (d, s, x) => hess1 d s x end) (dsx xs).

(** bsplinebasis.hh:763-789 (evaluateFunction) *)
Definition evaluateFunction (xs : list R) : list R :=
  tensor (map (@length R) (values xs)) (entry (values xs)).

(** entry selected by a choice per direction *)
Definition choose (f : nat -> list (list R)) : list (list R) := map (fun k => nth k (f k) []) (seq 0 (length dirs)).

(** bsplinebasis.hh:796-893 (evaluateJacobian): entry [j] of each row is the
    product with the derivative in direction [j] *)
Definition evaluateJacobian (xs : list R) : option (list (list R)) :=
  js <- jacs xs ;;
  Some (tensor (node_sizes dirs spans)
          (fun c => map (fun j => entry (choose (fun k => if (j =? k)%nat then js else values xs)) c)
                      (seq 0 (length dirs)))).

(** bsplinebasis.hh:897-986 (evaluate), k = 1 and k = 2 *)
Definition evaluate_1 (dir0 : nat) (xs : list R) : option (list R) :=
  js <- jacs xs ;;
  Some (tensor (node_sizes dirs spans) (entry (choose (fun l => if (dir0 =? l)%nat then js else values xs)))).
(** bsplinebasis.hh:897-986 (evaluate), k = 2 *)
Definition evaluate_2 (dir0 dir1 : nat) (xs : list R) : option (list R) :=
  js <- jacs xs ;;
  hs <- hesss xs ;;
  Some (tensor (node_sizes dirs spans) (entry (choose (fun j =>
          if negb (dir0 =? dir1)%nat
          then (if (dir0 =? j)%nat || (dir1 =? j)%nat then js else values xs)
          else (if (dir0 =? j)%nat then hs else values xs))))).

(** * BSplineLocalBasis: coordinates of the knot span *)

(** bsplinebasis.hh:420-422: offset_ and scaling_ *)
Definition offsets : list R := map (fun ds => nth (snd ds) (d_knots (fst ds)) 0) (combine dirs spans).
(** bsplinebasis.hh:423: the diagonal of scaling_ *)
Definition scalings : list R :=
  map (fun ds => nth (snd ds + 1) (d_knots (fst ds)) 0 - nth (snd ds) (d_knots (fst ds)) 0) (combine dirs spans).
(** globalIn = offset_ + scaling_ * in *)
Definition globalIn (xs : list R) : list R :=
  map (fun q => match q with (o, sc, x) => o + sc * x end) (combine (combine offsets scalings) xs).

(** bsplinebasis.hh:76-83 (evaluateFunction) *)
Definition lb_evaluateFunction (xs : list R) : list R := evaluateFunction (globalIn xs).
(** bsplinebasis.hh:89-100 (evaluateJacobian) *)
Definition lb_evaluateJacobian (xs : list R) : option (list (list R)) :=
  out <- evaluateJacobian (globalIn xs) ;;
  Some (map (fun row => map (fun rs => fst rs * snd rs) (combine row scalings)) out).
(** bsplinebasis.hh:103-137 (evaluate) *)
Definition lb_evaluate_1 (dir0 : nat) (xs : list R) : option (list R) :=
  out <- evaluate_1 dir0 (globalIn xs) ;; Some (map (fun o => o * nth dir0 scalings 0) out).
(** bsplinebasis.hh:103-137 (evaluate), k = 2 *)
Definition lb_evaluate_2 (dir0 dir1 : nat) (xs : list R) : option (list R) :=
  out <- evaluate_2 dir0 dir1 (globalIn xs) ;;
  Some (map (fun o => o * (nth dir0 scalings 0 * nth dir1 scalings 0)) out).
End Tensor.
