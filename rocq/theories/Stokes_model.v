(** Model of the assembly in examples/stokes-taylorhood.cc (with BLOCKEDBASIS, the default): multi-indices with two or
    three digits, a 2x2 matrix of sparse matrices with dense blocks, and rows of the identity for the
    Dirichlet DOFs.

    Simplifications.  Numbers are real numbers.  The element matrix (getLocalMatrix, lines 47-159) is a parameter with as
    many rows as the view has DOFs.  A MultiTypeBlockMatrix of BCRSMatrix of FieldMatrix (dune-istl) is the list of
    the stored blocks and its values by address; an access outside of the stored blocks or out of the
    range of a block is undefined: [None].  The flags of the boundary DOFs are a function of the
    index; C98 says which function. *)
From Coq Require Import List Arith Bool Reals.
From Verif Require Import Lib Basis_model.
Import ListNotations.

(** stokes-taylorhood.cc:330-338 *)
Definition stokes_basis {E} (dim : nat) (v p : leaf E) : bexpr E :=
  BComposite CBlockedLexicographic [BPower true dim BlockedInterleaved (BLeaf v); BLeaf p].

(** Where an entry is: block row and column, row and column of the block, row and column in it. *)
(** stokes-taylorhood.cc:371-377 *)
Definition addr : Type := list nat.
(** stokes-taylorhood.cc:371-377: rows and columns of the FieldMatrix blocks, by block row (column). *)
Definition inner (dim k : nat) : nat := if k =? 0 then dim else 1.
(** stokes-taylorhood.cc:371-377 *)
Record bmat := BM { bm_pat : list addr; bm_val : addr -> R }.

(** Comparison of addresses (no counterpart in the code). *)
(** stokes-taylorhood.cc:371-377 *)
Definition addr_eqb (a a' : addr) : bool := if list_eq_dec Nat.eq_dec a a' then true else false.

(** matrixEntry (stokes-taylorhood.cc:219-232). *)
Definition matrix_entry (row col : mi) : option addr :=
  r0 <- nth_error row 0 ;; c0 <- nth_error col 0 ;;
  r1 <- nth_error row 1 ;; c1 <- nth_error col 1 ;;
  if (r0 =? 0) && (c0 =? 0) then r2 <- nth_error row 2 ;; c2 <- nth_error col 2 ;; Some [0; 0; r1; c1; r2; c2]
  else if (r0 =? 0) && (c0 =? 1) then r2 <- nth_error row 2 ;; Some [0; 1; r1; c1; r2; 0]
  else if (r0 =? 1) && (c0 =? 0) then c2 <- nth_error col 2 ;; Some [1; 0; r1; c1; 0; c2]
  else Some [1; 1; r1; c1; 0; 0].
(** The address is one of an entry that is stored. *)
(** stokes-taylorhood.cc:225-231, the calls of operator[]. *)
Definition stored (dim : nat) (M : bmat) (a : addr) : bool :=
  match a with
  | [r0; c0; r1; c1; r2; c2] => existsb (addr_eqb [r0; c0; r1; c1]) (bm_pat M) && (r2 <? inner dim r0) && (c2 <? inner dim c0)
  | _ => false
  end.
(** Change of an entry by [f] (stokes-taylorhood.cc:288 and 459). *)
Definition change (dim : nat) (row col : mi) (f : R -> R) (M : bmat) : option bmat :=
  a <- matrix_entry row col ;;
  if stored dim M a then Some (BM (bm_pat M) (fun a' => if addr_eqb a' a then f (bm_val M a') else bm_val M a')) else None.

Section Stokes.
Context {E : Type}.
(** elementMatrix[i][j] (stokes-taylorhood.cc:273-274). *)
Variables (loc : E -> nat -> nat -> R) (dim : nat) (pb : prebasis E).

(** nb[row[0]][col[0]].add(row[1],col[1]) (stokes-taylorhood.cc:198) in index sets of the sizes of line 176. *)
Definition block_add (row col : mi) (nb : list addr) : option (list addr) :=
  r0 <- nth_error row 0 ;; c0 <- nth_error col 0 ;;
  r1 <- nth_error row 1 ;; c1 <- nth_error col 1 ;;
  if negb ((r0 <? 2) && (c0 <? 2)) then None else
  n <- pb_size pb [r0] ;; m <- pb_size pb [c0] ;;
  if (r1 <? n) && (c1 <? m) then Some ([r0; c0; r1; c1] :: nb) else None.
(** stokes-taylorhood.cc:187-202 *)
Definition block_pattern_element (v : lview E) (nb : list addr) : option (list addr) :=
  forl (lv_size v) 0 (fun i nb => row <- lv_index v i ;;
    forl (lv_size v) 0 (fun j nb => col <- lv_index v j ;; block_add row col nb) nb) nb.
(** stokes-taylorhood.cc:178-204 *)
Fixpoint block_pattern (v : lview E) (es : list E) (nb : list addr) : option (list addr) :=
  match es with
  | [] => Some nb
  | e :: r => v' <- lv_bind pb v e ;; nb' <- block_pattern_element v' nb ;; block_pattern v' r nb'
  end.
(** stokes-taylorhood.cc:279-290 *)
Definition add_element (e : E) (v : lview E) (M : bmat) : option bmat :=
  forl (lv_size v) 0 (fun i M => row <- lv_index v i ;;
    forl (lv_size v) 0 (fun j M => col <- lv_index v j ;; change dim row col (fun x => (x + loc e i j)%R) M) M) M.
(** stokes-taylorhood.cc:258-292 *)
Fixpoint add_elements (v : lview E) (es : list E) (M : bmat) : option bmat :=
  match es with
  | [] => Some M
  | e :: r => v' <- lv_bind pb v e ;; M' <- add_element e v' M ;; add_elements v' r M'
  end.
(** assembleStokesMatrix (stokes-taylorhood.cc:242-294). *)
Definition assemble_stokes (es : list E) : option bmat :=
  nb <- block_pattern (lv_new pb) es [] ;; add_elements (lv_new pb) es (BM nb (fun _ => 0%R)).

(** stokes-taylorhood.cc:450-461, with [d] for isBoundaryBackend. *)
Definition identity_element (d : mi -> bool) (v : lview E) (M : bmat) : option bmat :=
  forl (lv_size v) 0 (fun i M => row <- lv_index v i ;;
    if d row then
      forl (lv_size v) 0 (fun j M => col <- lv_index v j ;; change dim row col (fun _ => if i =? j then 1%R else 0%R) M) M
    else Some M) M.
(** stokes-taylorhood.cc:446-462 *)
Fixpoint identity_rows (d : mi -> bool) (v : lview E) (es : list E) (M : bmat) : option bmat :=
  match es with
  | [] => Some M
  | e :: r => v' <- lv_bind pb v e ;; M' <- identity_element d v' M ;; identity_rows d v' r M'
  end.
End Stokes.
