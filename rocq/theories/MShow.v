(** Model of the String methods of expression.go: the text that expressions show of
    themselves.

    Simplifications: the text that package fmt gives for floating-point numbers, times
    and values of other types is a parameter; sub-expressions are not nil. *)
From Coq Require Import String.
From Verif Require Import Base MTokenizer MLit MFastVal SEvents MExpr.
From Coq Require Import List NArith ZArith Arith Lia Bool.
Import ListNotations.
Open Scope nat_scope.

(** utils.go:9-11 - [reindentString], with the indentation of two spaces that all callers
    use. *)
Definition reindent (s : bytes) : bytes := s2b "  " ++ flat_map (fun c => if N.eqb c 10 then [10; 32; 32]%N else [c]) s.
(** strings.Join *)
Definition joinWith (sep : bytes) (l : list bytes) : bytes :=
  match l with [] => [] | a :: r => a ++ flat_map (fun b => sep ++ b) r end.
(** expression.go:80-93 and 97-110: the shown members of AndExpr and OrExpr, put together. *)
Definition showGroup (word : bytes) (l : list bytes) : bytes :=
  match l with
  | [] => s2b "%%ERROR%%"
  | [a] => a
  | a :: r => reindent a ++ flat_map (fun b => [10%N] ++ word ++ [10%N] ++ reindent b) r
  end.
(** expression.go:153, 164, 175: the three kinds of loops. *)
Definition loopWord (m : lmode) : bytes := match m with LAny => s2b "any" | LEvery => s2b "every" | LAnyEvery => s2b "any and every" end.
(** expression.go:184-257 *)
Definition cmpWord (k : cmpk) : bytes :=
  match k with
  | CEq => s2b "=" | CNe => s2b "!=" | CLt => s2b "<" | CLe => s2b "<=" | CGt => s2b ">" | CGe => s2b ">=" | CLike => s2b "=~"
  end.
(** The formats of package fmt for values of the types not written out below. *)
Record formats := { f_float : float -> bytes; f_time : Z -> bytes; f_other : bytes }.

Section Show.
  Variable x : formats.
  (** expression.go:42-44: fmt's %v. *)
  Definition showValue (g : gval) : bytes :=
    match g with
    | GInt z => appendInt z
    | GUint n => appendUint n
    | GFloat f => f_float x f
    | GBool b => if b then s2b "true" else s2b "false"
    | GString s => s
    | GBytes b => s2b "[" ++ joinWith (s2b " ") (map (fun c => appendUint (Z.of_N c)) b) ++ s2b "]"
    | GTime t => f_time x t
    | GNil => s2b "<nil>"
    | GOther => f_other x
    end.
  (** expression.go:117-128 *)
  Definition showField (root : nat) (path : list bytes) : bytes :=
    let r := match root with O => s2b "$doc" | _ => s2b "$" ++ appendUint (Z.of_nat root) end in
    match path with [] => r | _ => r ++ s2b "." ++ joinWith (s2b ".") path end.
  (** expression.go:27-257 *)
  Fixpoint showE (e : expr) : bytes :=
    match e with
    | XTrue => s2b "True"
    | XFalse => s2b "False"
    | XValue v => showValue v
    | XTime s => s
    | XRegex s | XPcre s => s2b "/" ++ s ++ s2b "/"
    | XNot a => s2b "NOT " ++ showE a
    | XAnd l => showGroup (s2b "AND") (map showE l)
    | XOr l => showGroup (s2b "OR") (map showE l)
    | XField r p => showField r p
    | XFunc n l => s2b "func:" ++ n ++ s2b "(" ++ joinWith (s2b ",") (map showE l) ++ s2b ")"
    | XLoop m v i s => loopWord m ++ s2b " $" ++ appendUint (Z.of_nat v) ++ s2b " in " ++ showE i ++ [10%N] ++ reindent (showE s) ++ [10%N] ++ s2b "end"
    | XExists a => showE a ++ s2b " EXISTS"
    | XNotExists a => showE a ++ s2b " IS MISSING"
    | XCmp k l r => showE l ++ s2b " " ++ cmpWord k ++ s2b " " ++ showE r
    end.
End Show.
