(** Descriptions of bases in Python, and the C++ types made from them:
    python/dune/functions/tree.py, globalbasis.py and subspacebasis.py.

    Python integers are [Z], strings are strings.  Not modelled: the list of included
    headers, the compilation of the generated module and its name (a hash of the type
    name), and __repr__. *)
From Coq Require Import String Ascii List ZArith DecimalString DecimalZ.
From Verif Require Import Lib.
Import ListNotations.
Local Open Scope string_scope.

(** tree.py:6-90.  [OtherTree]: an instance of the base class Tree itself. *)
Inductive tree :=
| Lagrange (order : Z)
| DG (order dimRange : Z)
| Nedelec (kind order : Z)
| RaviartThomas (order : Z)
| Composite (children : list tree) (blocked : bool) (layout : string)
| Power (child : tree) (exponent : Z) (blocked : bool) (layout : string)
| OtherTree (name : string) (children : list tree).

(** kwargs.get(name, default), tree.py:67-68, 81, 84. *)
Definition get {A} (o : option A) (d : A) : A := match o with Some x => x | None => d end.
(** tree.py:63-68: Composite( *args, **kwargs); [None]: the assertion fails.  The arguments
    are trees (line 11 asserts that). *)
Definition composite (args : list tree) (blocked : option bool) (layout : option string) : option tree :=
  match args with [] => None | _ => Some (Composite args (get blocked false) (get layout "lexicographic")) end.
(** tree.py:75-84: Power(children, exponent, **kwargs) *)
Definition power (child : tree) (exponent : Z) (blocked : option bool) (layout : option string) : tree :=
  Power child exponent (get blocked false) (get layout "lexicographic").
(** tree.py:14-18: a * b and a ** p *)
Definition mul (a b : tree) : option tree := composite [a; b] None None.
(** tree.py:17-18. *)
Definition pow (a : tree) (p : Z) : tree := power a p None None.

(** str(n) of an integer *)
(** Used in globalbasis.py:15, 19, 21, 29. *)
Definition str (n : Z) : string := NilZero.string_of_int (Z.to_int n).

(** globalbasis.py:6; [None]: KeyError *)
Definition duneFunctionsLayouts (layout : string) : option string :=
  if layout =? "lexicographic" then Some "Lexicographic"
  else if layout =? "interleaved" then Some "Interleaved" else None.
(** globalbasis.py:8-9 *)
Definition indexMergingStrategy (blocked : bool) (layout : string) : option string :=
  l <- duneFunctionsLayouts layout ;;
  Some ("Dune::Functions::BasisFactory::" ++ (if blocked then "Blocked" else "Flat") ++ l).

(** sep.join(l) *)
(** Used in globalbasis.py:24. *)
Fixpoint join (sep : string) (l : list string) : string :=
  match l with [] => "" | [x] => x | x :: r => x ++ sep ++ join sep r end.
(** The generator in globalbasis.py:24: an exception in one of the calls is an exception of all. *)
Fixpoint sequence {A} (l : list (option A)) : option (list A) :=
  match l with [] => Some [] | x :: r => y <- x ;; t <- sequence r ;; Some (y :: t) end.

(** globalbasis.py:12-32; [None]: an exception *)
Fixpoint preBasisTypeName (t : tree) (gv : string) : option string :=
  match t with
  | Lagrange k => Some ("Dune::Functions::LagrangePreBasis< " ++ gv ++ " , " ++ str k ++ " >")
  | DG _ _ => None
  | Nedelec kind k =>
      Some ("Dune::Functions::NedelecPreBasis< " ++ gv ++ ", double, " ++ str kind ++ ", " ++ str k ++ " >")
  | RaviartThomas k => Some ("Dune::Functions::RaviartThomasPreBasis< " ++ gv ++ ", " ++ str k ++ " >")
  | Composite cs blocked layout =>
      IMS <- indexMergingStrategy blocked layout ;;
      names <- sequence (map (fun c => preBasisTypeName c gv) cs) ;;
      Some ("Dune::Functions::CompositePreBasis< " ++ IMS ++ " , " ++ join " , " names ++ " >")
  | Power c n blocked layout =>
      IMS <- indexMergingStrategy blocked layout ;;
      name <- preBasisTypeName c gv ;;
      Some ("Dune::Functions::PowerPreBasis< " ++ IMS ++ " , " ++ name ++ " , " ++ str n ++ " >")
  | OtherTree _ _ => None
  end.

(** globalbasis.py:35-45: the type of defaultGlobalBasis(gridView, tree) *)
Definition globalBasisTypeName (t : tree) (gv : string) : option string :=
  p <- preBasisTypeName t gv ;; Some ("Dune::Functions::DefaultGlobalBasis< " ++ p ++ " >").

(** subspacebasis.py:17-31: the type of subspaceBasis(basis, args...) *)
Definition subspaceTypeName (basis : string) (args : list Z) : string :=
  let prefixPath := "Dune::TypeTree::TreePath<" ++
    join "," (map (fun i => "Dune::index_constant<" ++ str i ++ ">") args) ++ ">" in
  "Dune::Functions::SubspaceBasis< " ++ basis ++ "," ++ prefixPath ++ " >".
