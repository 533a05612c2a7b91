(** Specification: of which filters a sequence of tokens is a text. *)
From Coq Require Import String.
From Verif Require Import Base MTokenizer MLit MFastVal MMath MExpr MTransform MText SText MGrammar SGrammar.
From Coq Require Import List NArith ZArith Arith Lia Bool.
From Coq Require Import Floats.SpecFloat.
Import ListNotations.
Open Scope string_scope.
Open Scope list_scope.
Open Scope nat_scope.

(** What a place in a text may hold: a token with this text, whatever its kind; a token
    of this kind and text; a token that is converted to this number; minus signs, none
    or any number; one or more terms behind a field, of which the last operator and the
    last number (if there is none, the last field) count. *)
Inductive pat := PWord (b : bytes) | PTok (k : tkind) (b : bytes) | PInt (z : Z) | PFloat (f : float) | PSigns (neg : bool) | PTail (p : aop) (x : num + field).
Definition w_ (s : string) : pat := PWord (s2b s).
Definition t_ (t : token) : pat := PWord (tk_text t).

Definition qNum (n : num) : list pat := match n with NInt neg z => [PSigns neg; PInt z] | NFloat neg f => [PSigns neg; PFloat f] end.
Definition qValue (v : value) : list pat := match v with VNum n => qNum n | VStr s => [PTok KString s] end.
Definition qName (n : name) : list pat :=
  match n with NIdent b => [PTok KIdent b] | NRaw b => [PTok KRaw b] | NChar b => [PTok KChar b] | NMeta => [w_ "META"; w_ "("; w_ ")"] end.
Definition qIdx (i : bytes) : list pat := [w_ "["; PTok KInt i; w_ "]"].
Definition qSeg (s : seg) : list pat := qName (s_name s) ++ flat_map qIdx (s_idx s).
Definition qField (f : field) : list pat := PSigns (fl_neg f) :: qSeg (fl_first f) ++ flat_map (fun s => w_ "." :: qSeg s) (fl_rest f).
Definition qTerm (t : aop * (num + field)) : list pat := t_ (aopSym (fst t)) :: match snd t with inl n => qNum n | inr f => qField f end.
Definition qMath (m : fmath) : list pat :=
  match m with
  | FPlain f => qField f
  | FNumL n p f => qNum n ++ t_ (aopSym p) :: qField f
  | FNumR f p n => qField f ++ [PTail p (inl n)]
  | FTwo f p g => qField f ++ [PTail p (inr g)]
  end.
Fixpoint qCall (c : call) : list pat :=
  match c with
  | CPi neg => [PSigns neg; w_ "PI"; w_ "("; w_ ")"]
  | CE neg => [PSigns neg; w_ "E"; w_ "("; w_ ")"]
  | COne neg f a => PSigns neg :: t_ (fun1Word f) :: w_ "(" :: qArg a ++ [w_ ")"]
  | CAtan2 neg a b => PSigns neg :: w_ "ATAN2" :: w_ "(" :: qArg a ++ w_ "," :: qArg b ++ [w_ ")"]
  | CPow neg a b => PSigns neg :: w_ "POW" :: w_ "(" :: qArg a ++ w_ "," :: qArg b ++ [w_ ")"]
  end
with qArg (a : arg) : list pat := match a with ACall c => qCall c | AField m => qMath m | AValue v => qValue v end.
Definition qSide (s : side) : list pat :=
  match s with SCall c => qCall c | SBool u b => [t_ (boolWord u b)] | SField m => qMath m | SValue v => qValue v end.
Definition qIs (neg : bool) : list pat := w_ "IS" :: (if neg then [w_ "NOT"] else []).
Definition qBasic (b : tbasic) : list pat :=
  match b with
  | BConst u c => [t_ (boolWord u c)]
  | BRegex a p => w_ "REGEXP_CONTAINS" :: w_ "(" :: qArg a ++ w_ "," :: qValue p ++ [w_ ")"]
  | BRegexCall a c => w_ "REGEXP_CONTAINS" :: w_ "(" :: qArg a ++ w_ "," :: qCall c ++ [w_ ")"]
  | BExists f => w_ "EXISTS" :: w_ "(" :: qField f ++ [w_ ")"]
  | BCmp l p r => qSide l ++ map t_ (wCop p) ++ qSide r
  | BNull neg l => qSide l ++ qIs neg ++ [w_ "NULL"]
  | BMissing neg l => qSide l ++ qIs neg ++ [w_ "MISSING"]
  end.
Fixpoint qCond (c : cond) : list pat := match c with CNot d => w_ "NOT" :: qCond d | CBasic b => qBasic b end.
Fixpoint qFilter (f : tfilter) : list pat :=
  match f with FOr a l => qConj a ++ (fix go l := match l with [] => [] | c :: r => w_ "OR" :: qConj c ++ go r end) l end
with qConj (c : tconj) : list pat :=
  match c with FAnd a l => qTerm_ a ++ (fix go l := match l with [] => [] | t :: r => w_ "AND" :: qTerm_ t ++ go r end) l end
with qTerm_ (t : tterm) : list pat :=
  match t with TParen f => w_ "(" :: qFilter f ++ [w_ ")"] | TCond c => qCond c end.

(** The last operator of a list of terms; its last number, otherwise its last field. *)
Definition numbers (l : list (aop * (num + field))) : list num := flat_map (fun t => match snd t with inl n => [n] | inr _ => [] end) l.
Definition fields (l : list (aop * (num + field))) : list field := flat_map (fun t => match snd t with inl _ => [] | inr f => [f] end) l.
Definition isLast {A : Type} (l : list A) (a : A) : Prop := exists r, l = r ++ [a].
Definition counts (l : list (aop * (num + field))) (p : aop) (x : num + field) : Prop :=
  isLast (map fst l) p /\ match x with inl n => isLast (numbers l) n | inr f => numbers l = [] /\ isLast (fields l) f end.

Section Fits.
  Variable intOf : bytes -> option Z.
  Variable floatOf : bytes -> option float.
  Inductive textOf : list pat -> list token -> Prop :=
  | f_nil : textOf [] []
  | f_word : forall b t q ts, tk_text t = b -> textOf q ts -> textOf (PWord b :: q) (t :: ts)
  | f_tok : forall k b q ts, textOf q ts -> textOf (PTok k b :: q) (Tk k b :: ts)
  | f_int : forall z b q ts, intOf b = Some z -> textOf q ts -> textOf (PInt z :: q) (Tk KInt b :: ts)
  | f_float : forall f b q ts, floatOf b = Some f -> textOf q ts -> textOf (PFloat f :: q) (Tk KFloat b :: ts)
  | f_signs : forall neg sg q ts, Forall (fun t => tk_text t = s2b "-") sg -> (neg = false <-> sg = []) -> textOf q ts -> textOf (PSigns neg :: q) (sg ++ ts)
  | f_tail : forall p x l us q ts, counts l p x -> textOf (flat_map qTerm l) us -> textOf q ts -> textOf (PTail p x :: q) (us ++ ts).
End Fits.
