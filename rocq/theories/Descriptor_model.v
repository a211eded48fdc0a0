(** functionaldescriptor.hh, and the descriptors of the Hermite, Morley and Argyris elements. *)
From Coq Require Import List Arith.
Import ListNotations.

(** functionaldescriptor.hh:36-89; [dim] entries in partialDerivativeOrder_ *)
Record descriptor := FD { partialDerivativeOrder : list nat; normalDerivativeOrder : nat }.
(** functionaldescriptor.hh 43-46, the default constructor: FunctionalDescriptor() *)
Definition fd_value (dim : nat) : descriptor := FD (repeat 0 dim) 0.
(** functionaldescriptor.hh 48-51, explicit FunctionalDescriptor(const Order&) *)
Definition fd_partial (order : list nat) : descriptor := FD order 0.
(** functionaldescriptor.hh 53-56, explicit FunctionalDescriptor(unsigned int) *)
Definition fd_normal (dim n : nat) : descriptor := FD (repeat 0 dim) n.
(** FunctionalDescriptor({n0,...}): overload resolution.  The argument is a braced list.  It
    initialises a std::array<unsigned int,dim> by a user-defined conversion (C++20
    [over.ics.list]/8).  If it has just one element then it initialises an unsigned int by a
    standard conversion ([over.ics.list]/10), which is better ([over.ics.rank]/2). *)
(** functionaldescriptor.hh:48-56, called with a braced list as in cubichermitebasis.hh:408. *)
Definition fd_braces (dim : nat) (l : list nat) : descriptor :=
  match l with [n] => fd_normal dim n | _ => fd_partial l end.
(** functionaldescriptor.hh 58-61.  isPartialDerivative (63-71) calls partialDerivativeOrder(i), which does not exist:
    using it does not compile. *)
Definition isNormalDerivative (d : descriptor) : bool := 0 <? normalDerivativeOrder d.

(** cubichermitebasis.hh:405-448 *)
Definition hermite_descriptors (dim : nat) (reduced : bool) : list descriptor :=
  match dim with
  | 1 => [fd_value 1; fd_braces 1 [1]; fd_value 1; fd_braces 1 [1]]
  | 2 => [fd_value 2; fd_braces 2 [1; 0]; fd_braces 2 [0; 1];
          fd_value 2; fd_braces 2 [1; 0]; fd_braces 2 [0; 1];
          fd_value 2; fd_braces 2 [1; 0]; fd_braces 2 [0; 1]] ++ (if reduced then [] else [fd_value 2])
  | 3 => [fd_value 3; fd_braces 3 [1; 0; 0]; fd_braces 3 [0; 1; 0]; fd_braces 3 [0; 0; 1];
          fd_value 3; fd_braces 3 [1; 0; 0]; fd_braces 3 [0; 1; 0]; fd_braces 3 [0; 0; 1];
          fd_value 3; fd_braces 3 [1; 0; 0]; fd_braces 3 [0; 1; 0]; fd_braces 3 [0; 0; 1];
          fd_value 3; fd_braces 3 [1; 0; 0]; fd_braces 3 [0; 1; 0]; fd_braces 3 [0; 0; 1];
          fd_value 3; fd_value 3; fd_value 3; fd_value 3]
  | _ => []
  end.
(** morleybasis.hh:278-283 *)
Definition morley_descriptors : list descriptor :=
  [fd_value 2; fd_value 2; fd_value 2; fd_normal 2 1; fd_normal 2 1; fd_normal 2 1].
(** argyrisbasis.hh:440-465 *)
Definition argyris_descriptors : list descriptor :=
  [fd_value 2; fd_braces 2 [1; 0]; fd_braces 2 [0; 1]; fd_braces 2 [2; 0]; fd_braces 2 [1; 1]; fd_braces 2 [0; 2];
   fd_value 2; fd_braces 2 [1; 0]; fd_braces 2 [0; 1]; fd_braces 2 [2; 0]; fd_braces 2 [1; 1]; fd_braces 2 [0; 2];
   fd_value 2; fd_braces 2 [1; 0]; fd_braces 2 [0; 1]; fd_braces 2 [2; 0]; fd_braces 2 [1; 1]; fd_braces 2 [0; 2];
   fd_normal 2 1; fd_normal 2 1; fd_normal 2 1].
