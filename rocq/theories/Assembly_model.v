(** Model of the assembly loops that users write with local views, as in
    examples/poisson-pq2.cc:140-257 and 340-400: occupation pattern, global matrix and right
    hand side, and the elimination of Dirichlet values.

    Simplifications.  Numbers are real numbers.  The element matrices and vectors
    (getLocalMatrix, getVolumeTerm, lines 36-135) are parameters; they have as many rows as
    the view has DOFs.  A sparse matrix (dune-istl) is its size, its occupation
    pattern, a list without duplicates, and its values; using an entry outside of the pattern is
    undefined: [None].  Vectors are functions, with bounds checks for writing. *)
From Coq Require Import List Arith Bool Reals.
From Verif Require Import Lib Basis_model.
Import ListNotations.

Section Assembly.
Context {E : Type}.
(** elementMatrix[i][j] and localRhs[i] on an element (poisson-pq2.cc:223, 242). *)
Variables (loc : E -> nat -> nat -> R) (locb : E -> nat -> R).

(** BCRSMatrix<double> (poisson-pq2.cc:330). *)
Record spm := SM { sm_n : nat; sm_pat : list (nat * nat); sm_val : nat -> nat -> R }.
(** Comparison of positions. *)
(** No counterpart in the code: MatrixIndexSet (poisson-pq2.cc:140) keeps sets. *)
Definition pos_eqb (p q : nat * nat) : bool := (fst p =? fst q) && (snd p =? snd q).

(** The conversion of an index to a number (common/multiindex.hh:62-64): only for indices
    with one digit. *)
Definition number (m : mi) : option nat := match m with [k] => Some k | _ => None end.
(** localView.index(i) as number. *)
(** poisson-pq2.cc:161-162, 229, 234, 249. *)
Definition view_number (v : lview E) (i : nat) : option nat := m <- lv_index v i ;; number m.

(** MatrixIndexSet::add in a set of size n x n (poisson-pq2.cc:165). *)
Definition pat_add (n r c : nat) (nb : list (nat * nat)) : option (list (nat * nat)) :=
  if (r <? n) && (c <? n) then Some (if existsb (pos_eqb (r, c)) nb then nb else (r, c) :: nb) else None.
(** poisson-pq2.cc:157-169. *)
Definition pattern_element (n : nat) (v : lview E) (nb : list (nat * nat)) : option (list (nat * nat)) :=
  forl (lv_size v) 0 (fun i nb =>
    forl (lv_size v) 0 (fun j nb => r <- view_number v i ;; c <- view_number v j ;; pat_add n r c nb) nb) nb.
(** poisson-pq2.cc:151-171. *)
Fixpoint pattern_elements (pb : prebasis E) (n : nat) (v : lview E) (es : list E) (nb : list (nat * nat)) : option (list (nat * nat)) :=
  match es with
  | [] => Some nb
  | e :: r => v' <- lv_bind pb v e ;; nb' <- pattern_element n v' nb ;; pattern_elements pb n v' r nb'
  end.

(** matrix[row][col] += x (poisson-pq2.cc:235). *)
Definition mat_add (r c : nat) (x : R) (A : spm) : option spm :=
  if existsb (pos_eqb (r, c)) (sm_pat A)
  then Some (SM (sm_n A) (sm_pat A) (fun r' c' => if pos_eqb (r', c') (r, c) then (sm_val A r' c' + x)%R else sm_val A r' c'))
  else None.
(** rhs[row] += x (poisson-pq2.cc:250). *)
Definition vec_add (n r : nat) (x : R) (b : nat -> R) : option (nat -> R) :=
  if r <? n then Some (fun k => if k =? r then (b k + x)%R else b k) else None.
(** poisson-pq2.cc:226-239 *)
Definition add_matrix (e : E) (v : lview E) (A : spm) : option spm :=
  forl (lv_size v) 0 (fun i A =>
    r <- view_number v i ;;
    forl (lv_size v) 0 (fun j A => c <- view_number v j ;; mat_add r c (loc e i j) A) A) A.
(** poisson-pq2.cc:246-252 *)
Definition add_rhs (n : nat) (e : E) (v : lview E) (b : nat -> R) : option (nat -> R) :=
  forl (lv_size v) 0 (fun i b => r <- view_number v i ;; vec_add n r (locb e i) b) b.
(** poisson-pq2.cc:213-254 *)
Fixpoint assemble_elements (pb : prebasis E) (n : nat) (v : lview E) (es : list E) (A : spm) (b : nat -> R) : option (spm * (nat -> R)) :=
  match es with
  | [] => Some (A, b)
  | e :: r =>
      v' <- lv_bind pb v e ;;
      A' <- add_matrix e v' A ;;
      b' <- add_rhs n e v' b ;;
      assemble_elements pb n v' r A' b'
  end.
(** poisson-pq2.cc:178-256 *)
Definition assemble (pb : prebasis E) (es : list E) : option (spm * (nat -> R)) :=
  n <- pb_size pb [] ;;
  nb <- pattern_elements pb n (lv_new pb) es [] ;;
  assemble_elements pb n (lv_new pb) es (SM n nb (fun _ _ => 0%R)) (fun _ => 0%R).
End Assembly.

(** The columns of the stored entries of a row. *)
(** sparseRange(stiffnessMatrix[i]), poisson-pq2.cc:382 and 387. *)
Definition row (A : spm) (i : nat) : list nat := map snd (filter (fun p => fst p =? i) (sm_pat A)).
(** stiffnessMatrix.mmv(x, rhs) (poisson-pq2.cc:375): rhs -= A x, by the stored entries. *)
Definition mmv (A : spm) (x b : nat -> R) : nat -> R :=
  fun i => (b i - fold_right Rplus 0%R (map (fun c => (sm_val A i c * x c)%R) (row A i)))%R.
(** poisson-pq2.cc:378-392: the loop over the rows; each pass changes its own row and entry of
    the right hand side only, so that the result is given row by row. *)
Definition eliminate (d : nat -> bool) (x : nat -> R) (A : spm) (b : nat -> R) : spm * (nat -> R) :=
  let b1 := mmv A x b in
  (SM (sm_n A) (sm_pat A) (fun i c =>
     if existsb (Nat.eqb c) (row A i) then
       if d i then (if i =? c then 1%R else 0%R)
       else if d c then 0%R else sm_val A i c
     else sm_val A i c),
   fun i => if d i then x i else b1 i).
