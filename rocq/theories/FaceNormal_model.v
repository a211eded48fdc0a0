(** closestFaceIndex and FaceNormalGridFunction::LocalFunction::operator().
    Source: /repo/dune/functions/gridfunctions/facenormalgridfunction.hh.
    Simplification: exact reals; the largest double is a parameter.  Vectors have a
    coordinate for every number, of which those below dim count.  The reference element
    is given by the number of its facets, their centers and their normals. *)
From Coq Require Import Reals Arith List.
From Verif Require Import Lib.
Open Scope R_scope.

(** FieldVector (dune-common), used in facenormalgridfunction.hh:27-49. *)
Definition vec := nat -> R.
(** FieldVector: a*b and two_norm() (dune-common) *)
(** FieldVector::operator* (dune-common), used in facenormalgridfunction.hh:41. *)
Fixpoint dot (dim : nat) (a b : vec) : R := match dim with 0%nat => 0 | S d => dot d a b + a d * b d end.
(** FieldVector::two_norm (dune-common), used in facenormalgridfunction.hh:39 and 139. *)
Definition two_norm (dim : nat) (a : vec) : R := sqrt (dot dim a a).

Section Closest.
Variables (dim faces : nat) (center normal : nat -> vec) (max_double : R).
(** facenormalgridfunction.hh 38-41 *)
Definition face_distance (x : vec) (i : nat) : R :=
  let n := fun k => normal i k / two_norm dim (normal i) in
  let c := fun k => center i k - x k in
  dot dim c n.
(** facenormalgridfunction.hh 27-49 *)
Definition closest_face (x : vec) : nat :=
  fst (fold_left (fun '(index, best) i =>
                    if Rlt_dec (face_distance x i) best then (i, face_distance x i) else (index, best))
                 (seq 0 faces) (0%nat, max_double)).
(** facenormalgridfunction.hh 128-141; [jit] is jacobianInverseTransposed(x) with its rows as vectors, and
    [gdim] the dimension of the range *)
Definition face_normal (gdim : nat) (jit : nat -> vec) (x : vec) : vec :=
  let face := closest_face x in
  let local := normal face in
  let n := fun r => dot dim (jit r) local in
  fun r => n r / two_norm gdim n.
End Closest.
