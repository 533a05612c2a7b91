(** Specification: the textbook meaning of a filter on a document, with two truth
    values; when documents cannot be told apart by a filter. *)
From Verif Require Import Base MTokenizer SJson MFastVal SFormula SEvents MExpr MTransform MMatcher MTree SFilter SDoc SSat.
From Coq Require Import List NArith ZArith Arith Lia Bool Permutation.
Import ListNotations.
Open Scope nat_scope.

Section Truth.
  Variable o : oracles.
  Variable doc : cst.

  Definition present (cur : cst) (f : fieldref) : bool :=
    match fieldAt doc cur (fst f) (snd f) with Some _ => true | None => false end.
  Definition allPresent (cur : cst) (e : expr) : bool := forallb (present cur) (frefs e).

  (** A comparison holds when all its fields are present and the values compare. *)
  Definition cmpTruth (cur : cst) (k : cmpk) (l r : expr) : bool :=
    allPresent cur l && allPresent cur r &&
    match oval o doc cur l, oval o doc cur r with Ok x, Ok y => cmpHolds o k x y | _, _ => false end.

  (** [cur]: the element of the innermost loop; the document, outside loops. *)
  Fixpoint truth (cur : cst) (e : expr) : bool :=
    match e with
    | XTrue => true
    | XFalse => false
    | XNot a => negb (truth cur a)
    | XAnd l => forallb (truth cur) l
    | XOr l => existsb (truth cur) l
    | XExists a => allPresent cur a
    | XNotExists a => negb (allPresent cur a)
    | XCmp CNe l r => negb (cmpTruth cur CEq l r)
    | XCmp k l r => cmpTruth cur k l r
    | XLoop m _ (XField r q) s =>
        match fieldAt doc cur r q with
        | Some (CArr es _) => quant m (map (fun e => truth (e_v e) s) es)
        | _ => false
        end
    | _ => false
    end.

  (** ** Documents on which absent fields do no harm inside loops *)
  Definition funFields (e : expr) : list fieldref := match e with XFunc _ _ => frefs e | _ => [] end.
  Definition opFuns (e : expr) : list fieldref :=
    match e with
    | XExists a => funFields a
    | XCmp _ l r => funFields l ++ funFields r
    | _ => []
    end.
  (** Fields of the document inside functions are present. *)
  Definition steadyAtom (e : expr) : Prop := forall q, In (0, q) (opFuns e) -> at_ q doc <> None.
  Definition knownAtom (cv : nat) (cur : cst) (e : expr) : Prop :=
    steadyAtom e /\ forall q, In q (pathsOf cv e) -> at_ q cur <> None.

  (** Below a negation inside a loop, all fields of the element are present and all
      loops run over arrays ([neg]: below a negation). *)
  Fixpoint fair (neg : bool) (cv : nat) (cur : cst) (e : expr) : Prop :=
    match e with
    | XNot a => fair true cv cur a
    | XAnd l | XOr l => (fix go l := match l with [] => True | x :: r => fair neg cv cur x /\ go r end) l
    | XCmp CNe l r => knownAtom cv cur (XCmp CEq l r)
    | XExists _ | XCmp _ _ _ => if neg then knownAtom cv cur e else steadyAtom e
    | XLoop m v (XField r q) s =>
        (if neg then exists es w, at_ q cur = Some (CArr es w) else True)
        /\ (forall es w e, at_ q cur = Some (CArr es w) -> In e es -> fair false v (e_v e) s)
    | _ => True
    end.
  (** Outside loops nothing is asked. *)
  Fixpoint fairTop (e : expr) : Prop :=
    match e with
    | XNot a => fairTop a
    | XAnd l | XOr l => (fix go l := match l with [] => True | x :: r => fairTop x /\ go r end) l
    | XLoop m v (XField r q) s => forall es w e, at_ q doc = Some (CArr es w) -> In e es -> fair false v (e_v e) s
    | _ => True
    end.
End Truth.

(** ** The conditions together *)

(** Filters: what the compiler handles, without the constructs that go wrong; not
    all of them are the constant FALSE. *)
Definition supported (o : oracles) (es : list expr) : Prop :=
  (exists e, In e es /\ e <> XFalse) /\ Forall (compilable o 0) es /\ Forall (regular (pathsOf 0 (XOr es)) 0) es.
(** Tests that name at most one path, below the variable of the innermost loop. *)
Fixpoint lone (cv : nat) (e : expr) : Prop :=
  match e with
  | XNot a => lone cv a
  | XAnd l | XOr l => (fix go l := match l with [] => True | x :: r => lone cv x /\ go r end) l
  | XExists _ | XNotExists _ | XCmp _ _ _ => ~ two (pathsOf cv e) /\ (cv <> 0 -> pathsOf 0 e = [])
  | XLoop _ v _ s => pathsOf 0 s = [] /\ lone v s
  | _ => True
  end.
(** Loops whose bodies mention other fields of the document find their own. *)
Fixpoint loopsFound (doc : cst) (e : expr) : Prop :=
  match e with
  | XNot a => loopsFound doc a
  | XAnd l | XOr l => (fix go l := match l with [] => True | x :: r => loopsFound doc x /\ go r end) l
  | XLoop _ _ (XField _ q) s => two (loopPaths 0 q s) -> at_ q doc <> None
  | _ => True
  end.
Definition container (doc : cst) : Prop := match doc with CLit _ _ => False | _ => True end.
(** The kinds of documents: on an object nothing is asked. *)
Definition readable (doc : cst) (es : list expr) : Prop :=
  match doc with
  | CObj _ _ => True
  | CArr _ _ => Forall (loopsFound doc) es
  | CLit _ _ => Forall (lone 0) es
  end.
(** Documents: without repeated names, on which the filters meet no empty container
    and no harmful absent field; unless it is an object, see above. *)
Definition benign (es : list expr) (doc : cst) : Prop :=
  readable doc es /\ distinct doc
  /\ Forall (tame doc 0 doc) es /\ Forall (looped doc) es /\ Forall (fairTop doc) es.

(** ** Documents a filter cannot tell apart *)
Section Alike.
  Variable o : oracles.
  Variables doc doc' : cst.

  Definition samePres (a b : option cst) : Prop :=
    match a, b with
    | None, None => True
    | Some w, Some w' => emptyC w = emptyC w'
    | _, _ => False
    end.
  Definition sameVal (a b : option cst) : Prop :=
    samePres a b /\ match a, b with Some w, Some w' => valOf o w = valOf o w' | _, _ => True end.

  Definition alikeAtom (cv : nat) (cur cur' : cst) (e : expr) : Prop :=
    (pathsOf cv e = [] -> emptyC cur = emptyC cur') /\
    match e with
    | XExists (XField r q) => samePres (fieldAt doc cur r q) (fieldAt doc' cur' r q)
    | _ => forall r q, In (r, q) (frefs e) -> sameVal (fieldAt doc cur r q) (fieldAt doc' cur' r q)
    end.
  Fixpoint alike (cv : nat) (cur cur' : cst) (e : expr) : Prop :=
    match e with
    | XNot a => alike cv cur cur' a
    | XAnd l | XOr l => (fix go l := match l with [] => True | x :: r => alike cv cur cur' x /\ go r end) l
    | XExists _ | XCmp _ _ _ => alikeAtom cv cur cur' e
    | XNotExists a => alikeAtom cv cur cur' (XExists a)
    | XLoop m v (XField r q) s =>
        (forall q', In q' (pathsOf 0 s) -> samePres (at_ q' doc) (at_ q' doc'))
        /\ samePres (at_ q cur) (at_ q cur')
        /\ match at_ q cur, at_ q cur' with
           | Some (CArr es _), Some (CArr es' _) => Forall2 (fun e e' => alike v (e_v e) (e_v e') s) es es'
           | Some (CArr _ _), _ | _, Some (CArr _ _) => False
           | _, _ => True
           end
    | _ => True
    end.
End Alike.

(** Equal up to whitespace, order of members, spelling of names and literals. *)
Inductive eqv (o : oracles) : cst -> cst -> Prop :=
| eqv_lit : forall t x t' x', valOf o (CLit t x) = valOf o (CLit t' x') -> eqv o (CLit t x) (CLit t' x')
| eqv_arr : forall es w es' w', Forall2 (fun e e' => eqv o (e_v e) (e_v e')) es es' -> eqv o (CArr es w) (CArr es' w')
| eqv_obj : forall ms w ms1 ms' w',
    Forall2 (fun m m' => keyOf (m_kt m) (m_kx m) = keyOf (m_kt m') (m_kx m') /\ eqv o (m_v m) (m_v m')) ms ms1 ->
    Permutation ms1 ms' -> eqv o (CObj ms w) (CObj ms' w').

(** No array or object is an operand of a comparison or function: their text is
    compared. *)
Definition scalarAt (v : option cst) : Prop := match v with Some (CArr _ _) | Some (CObj _ _) => False | _ => True end.
Definition scalarAtom (doc cur : cst) (e : expr) : Prop :=
  match e with
  | XExists (XField _ _) => True
  | _ => forall r q, In (r, q) (frefs e) -> scalarAt (fieldAt doc cur r q)
  end.
Fixpoint scalar (doc cur : cst) (e : expr) : Prop :=
  match e with
  | XNot a => scalar doc cur a
  | XAnd l | XOr l => (fix go l := match l with [] => True | x :: r => scalar doc cur x /\ go r end) l
  | XExists _ | XCmp _ _ _ => scalarAtom doc cur e
  | XNotExists a => scalarAtom doc cur (XExists a)
  | XLoop m v (XField r q) s => forall es w e, at_ q cur = Some (CArr es w) -> In e es -> scalar doc (e_v e) s
  | _ => True
  end.
