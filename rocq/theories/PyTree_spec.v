(** What texts mean as C++ types, and types as bases. *)
From Coq Require Import String Ascii List ZArith Bool DecimalString DecimalZ.
From Verif Require Import Lib Basis_model PyTree_model.
Import ListNotations.
Local Open Scope string_scope.

(** * Texts *)

(** The text is cut into words, brackets and commas; a word is a name (qualified by
    namespaces) or a number. *)
Inductive token := Word (w : string) | Less | Greater | Comma.
Definition punctuation (c : ascii) : option token :=
  if (c =? "<")%char then Some Less else if (c =? ">")%char then Some Greater
  else if (c =? ",")%char then Some Comma else None.
Definition word (w : list ascii) : list token :=
  match w with [] => [] | _ => [Word (string_of_list_ascii w)] end.
(** [w]: the part of the current word that was read already *)
Fixpoint tokens (w : list ascii) (s : list ascii) : list token :=
  match s with
  | [] => word w
  | c :: r => if (c =? " ")%char then (word w ++ tokens [] r)%list
              else match punctuation c with
                   | Some p => (word w ++ p :: tokens [] r)%list
                   | None => tokens (w ++ [c])%list r
                   end
  end.

(** A C++ type, or a number as argument of a template *)
Inductive cpp := Plain (w : string) | Template (w : string) (args : list cpp).
Fixpoint with_commas (l : list (list token)) : list token :=
  match l with [] => [] | [x] => x | x :: r => (x ++ Comma :: with_commas r)%list end.
Fixpoint written (t : cpp) : list token :=
  match t with
  | Plain w => [Word w]
  | Template w args => (Word w :: Less :: with_commas (map written args) ++ [Greater])%list
  end.
(** The text [s] is the C++ type [t]. *)
Definition is_type (s : string) (t : cpp) : Prop := tokens [] (list_ascii_of_string s) = written t.

(** * Types *)
Definition is_number (t : cpp) (n : Z) : Prop :=
  exists w d, t = Plain w /\ NilZero.int_of_string w = Some d /\ Z.of_int d = n.
(** arguments for template parameters of type int and std::size_t *)
Definition is_int (t : cpp) (n : Z) : Prop := is_number t n /\ (- 2 ^ 31 <= n < 2 ^ 31)%Z.
Definition is_size (t : cpp) (n : nat) : Prop := is_number t (Z.of_nat n) /\ (Z.of_nat n < 2 ^ 64)%Z.

Inductive power_strategy : cpp -> ims -> Prop :=
| FL : power_strategy (Plain "Dune::Functions::BasisFactory::FlatLexicographic") FlatLexicographic
| FI : power_strategy (Plain "Dune::Functions::BasisFactory::FlatInterleaved") FlatInterleaved
| BL : power_strategy (Plain "Dune::Functions::BasisFactory::BlockedLexicographic") BlockedLexicographic
| BI : power_strategy (Plain "Dune::Functions::BasisFactory::BlockedInterleaved") BlockedInterleaved.
(** compositebasis.hh:185-214, 294-340: there is no code for the interleaved strategies *)
Inductive composite_strategy : cpp -> cims -> Prop :=
| CFL : composite_strategy (Plain "Dune::Functions::BasisFactory::FlatLexicographic") CFlatLexicographic
| CBL : composite_strategy (Plain "Dune::Functions::BasisFactory::BlockedLexicographic") CBlockedLexicographic.

Section Spec.
Context {E : Type}.
(** The type of the grid view; the bases of the families for a given grid view.  [None]: the
    class exists for that order, but has no finite elements. *)
Variables (gv : cpp) (lagrange : Z -> option (leaf E)) (nedelec : Z -> Z -> option (leaf E)) (raviartthomas : Z -> option (leaf E)).

(** The pre-basis a C++ type stands for: LagrangePreBasis<GV,k>, where k = -1 stands for
    an order given at run time (lagrangebasis.hh:717, 740-780), NedelecPreBasis<GV,Range,kind,order>
    (nedelecbasis.hh:147), RaviartThomasPreBasis<GV,k> (raviartthomasbasis.hh:260),
    CompositePreBasis<IMS,SPB...> (compositebasis.hh:55), PowerPreBasis<IMS,SPB,C>
    (powerbasis.hh:51). *)
Inductive prebasis_type : cpp -> bexpr E -> Prop :=
| TLagrange a k l : is_int a k -> (0 <= k)%Z -> lagrange k = Some l ->
    prebasis_type (Template "Dune::Functions::LagrangePreBasis" [gv; a]) (BLeaf l)
| TNedelec a b kind k l : is_size a kind -> is_int b k -> nedelec (Z.of_nat kind) k = Some l ->
    prebasis_type (Template "Dune::Functions::NedelecPreBasis" [gv; Plain "double"; a; b]) (BLeaf l)
| TRaviartThomas a k l : is_int a k -> raviartthomas k = Some l ->
    prebasis_type (Template "Dune::Functions::RaviartThomasPreBasis" [gv; a]) (BLeaf l)
| TComposite s i ts bs : composite_strategy s i -> ts <> [] -> Forall2 prebasis_type ts bs ->
    prebasis_type (Template "Dune::Functions::CompositePreBasis" (s :: ts)) (BComposite i bs)
| TPower s i t b a n : power_strategy s i -> prebasis_type t b -> is_size a n ->
    prebasis_type (Template "Dune::Functions::PowerPreBasis" [s; t; a]) (BPower true n i b).

(** The basis that a tree describes. *)
Definition strategy (blocked : bool) (layout : string) (i : ims) : Prop :=
  match i with
  | FlatLexicographic => blocked = false /\ layout = "lexicographic"
  | FlatInterleaved => blocked = false /\ layout = "interleaved"
  | BlockedLexicographic => blocked = true /\ layout = "lexicographic"
  | BlockedInterleaved => blocked = true /\ layout = "interleaved"
  end.
Definition as_composite (i : cims) : ims :=
  match i with CFlatLexicographic => FlatLexicographic | CBlockedLexicographic => BlockedLexicographic end.
Inductive describes : tree -> bexpr E -> Prop :=
| DLagrange k l : (0 <= k < 2 ^ 31)%Z -> lagrange k = Some l -> describes (Lagrange k) (BLeaf l)
| DNedelec kind k l : (0 <= kind < 2 ^ 64)%Z -> (- 2 ^ 31 <= k < 2 ^ 31)%Z -> nedelec kind k = Some l ->
    describes (Nedelec kind k) (BLeaf l)
| DRaviartThomas k l : (- 2 ^ 31 <= k < 2 ^ 31)%Z -> raviartthomas k = Some l -> describes (RaviartThomas k) (BLeaf l)
| DComposite cs blocked layout i bs : strategy blocked layout (as_composite i) -> cs <> [] -> Forall2 describes cs bs ->
    describes (Composite cs blocked layout) (BComposite i bs)
| DPower c n blocked layout i b : strategy blocked layout i -> describes c b -> (Z.of_nat n < 2 ^ 64)%Z ->
    describes (Power c (Z.of_nat n) blocked layout) (BPower true n i b).

(** Bases: DefaultGlobalBasis<PB>, and SubspaceBasis<RB,TP> for the subspace at the path
    TP below the one of RB.  TreePath<index_constant<i>...> is the path with entries i. *)
Inductive path_type : cpp -> list nat -> Prop :=
| TPath args p : Forall2 (fun t i => exists a, t = Template "Dune::index_constant" [a] /\ is_size a i) args p ->
    path_type (Template "Dune::TypeTree::TreePath" args) p.
Inductive basis_type : cpp -> bexpr E -> list nat -> Prop :=
| TGlobal t b : prebasis_type t b -> basis_type (Template "Dune::Functions::DefaultGlobalBasis" [t]) b []
| TSubspace t b p a q : basis_type t b p -> path_type a q ->
    basis_type (Template "Dune::Functions::SubspaceBasis" [t; a]) b (p ++ q)%list.
End Spec.

(** Trees with a DG node, a plain Tree or an unknown layout in them *)
Inductive unsupported : tree -> Prop :=
| UDG k d : unsupported (DG k d)
| UOther n cs : unsupported (OtherTree n cs)
| UComposite cs blocked layout : layout <> "lexicographic" -> layout <> "interleaved" -> unsupported (Composite cs blocked layout)
| UPower c n blocked layout : layout <> "lexicographic" -> layout <> "interleaved" -> unsupported (Power c n blocked layout)
| UChild cs c blocked layout : In c cs -> unsupported c -> unsupported (Composite cs blocked layout)
| UPowerChild c n blocked layout : unsupported c -> unsupported (Power c n blocked layout).

(** The trees that a program can make with the constructors of tree.py. *)
Inductive constructed : tree -> Prop :=
| KLagrange k : constructed (Lagrange k)
| KDG k d : constructed (DG k d)
| KNedelec i k : constructed (Nedelec i k)
| KRaviartThomas k : constructed (RaviartThomas k)
| KComposite cs blocked layout t : Forall constructed cs -> composite cs blocked layout = Some t -> constructed t
| KPower c n blocked layout : constructed c -> constructed (power c n blocked layout)
| KOther n cs : Forall constructed cs -> constructed (OtherTree n cs).
