(** Specification: what the status reported with an answer says.

    Two values that cannot be compared as numbers, strings, ... are ordered by
    their types instead; the status of an answer says that this was done. *)
From Verif Require Import Base MTokenizer SJson MFastVal SFormula SEvents MExpr MTransform MMatcher MTree SFilter SDoc SSat SSem.
From Coq Require Import List NArith ZArith Arith Lia Bool.
Import ListNotations.
Open Scope nat_scope.

(** The values are compared as what they are, not by their types. *)
Definition straight (o : oracles) (k : cmpk) (x y : fastval) : bool :=
  match k with
  | CEq | CNe => snd (equals o x y)
  | CLike => snd (matches o x y)
  | _ => snd (compare o x y)
  end.
(** Any other way to decide the comparisons that are not straight. *)
Definition rule := cmpk -> fastval -> fastval -> bool.
Definition lawful (o : oracles) (h : rule) : Prop := forall k x y, straight o k x y = true -> h k x y = cmpHolds o k x y.

Section By.
  Variable o : oracles.
  Variable h : rule.
  Variable doc : cst.

  (** ** The truth of a filter, with comparisons decided by [h] *)
  Definition cmpTruthBy (cur : cst) (k : cmpk) (l r : expr) : bool :=
    allPresent doc cur l && allPresent doc cur r &&
    match oval o doc cur l, oval o doc cur r with Ok x, Ok y => h k x y | _, _ => false end.
  Fixpoint truthBy (cur : cst) (e : expr) : bool :=
    match e with
    | XTrue => true
    | XFalse => false
    | XNot a => negb (truthBy cur a)
    | XAnd l => forallb (truthBy cur) l
    | XOr l => existsb (truthBy cur) l
    | XExists a => allPresent doc cur a
    | XNotExists a => negb (allPresent doc cur a)
    | XCmp CNe l r => negb (cmpTruthBy cur CEq l r)
    | XCmp k l r => cmpTruthBy cur k l r
    | XLoop m _ (XField r q) s =>
        match fieldAt doc cur r q with
        | Some (CArr es _) => quant m (map (fun e => truthBy (e_v e) s) es)
        | _ => false
        end
    | _ => false
    end.

  (** ** The same with three values (as in SSat.v) *)
  Definition atom3By (cv : nat) (cur : cst) (e : expr) : option bool :=
    if existsb (fun q => match at_ q cur with None => true | _ => false end) (pathsOf cv e) then None
    else match e with
         | XExists a => if absentField doc cur a then Some false else Some true
         | XCmp k l r =>
             if absentField doc cur l || absentField doc cur r then Some false
             else match oval o doc cur l, oval o doc cur r with
                  | Ok x, Ok y => Some (h k x y)
                  | _, _ => None
                  end
         | _ => None
         end.
  Fixpoint sat3By (cv : nat) (cur : cst) (e : expr) : option bool :=
    match e with
    | XTrue => Some true
    | XFalse => Some false
    | XNot a => k_not (sat3By cv cur a)
    | XAnd l => (fix go l := match l with [] => Some true | x :: r => k_bin BAnd (sat3By cv cur x) (go r) end) l
    | XOr l => (fix go l := match l with [] => Some false | x :: r => k_bin BOr (sat3By cv cur x) (go r) end) l
    | XExists _ => atom3By cv cur e
    | XNotExists a => k_not (atom3By cv cur (XExists a))
    | XCmp CNe l r => k_not (atom3By cv cur (XCmp CEq l r))
    | XCmp _ _ _ => atom3By cv cur e
    | XLoop m v (XField r q) s =>
        match fieldAt doc cur r q with
        | Some (CArr es _) => Some (quant m (map (fun e => known_true (sat3By v (e_v e) s)) es))
        | _ => None
        end
    | _ => None
    end.
  Fixpoint satBy (e : expr) : bool :=
    match e with
    | XTrue => true
    | XFalse => false
    | XNot a => negb (satBy a)
    | XAnd l => forallb satBy l
    | XOr l => existsb satBy l
    | XNotExists a => negb (known_true (atom3By 0 doc (XExists a)))
    | XCmp CNe l r => negb (known_true (atom3By 0 doc (XCmp CEq l r)))
    | _ => known_true (sat3By 0 doc e)
    end.
End By.

(** ** Some comparison of the filter, on the document or on an array element that a
    loop around it ranges over, is not straight. *)
Section Mixed.
  Variable o : oracles.
  Variable doc : cst.
  Definition mixedCmp (cur : cst) (k : cmpk) (l r : expr) : Prop :=
    absentField doc cur l = false /\ absentField doc cur r = false
    /\ exists x y, oval o doc cur l = Ok x /\ oval o doc cur r = Ok y /\ straight o k x y = false.
  Fixpoint mixed (cur : cst) (e : expr) : Prop :=
    match e with
    | XNot a => mixed cur a
    | XAnd l | XOr l => (fix go l := match l with [] => False | x :: r => mixed cur x \/ go r end) l
    | XCmp k l r => mixedCmp cur k l r
    | XLoop _ _ (XField r q) s => exists es w e, fieldAt doc cur r q = Some (CArr es w) /\ In e es /\ mixed (e_v e) s
    | _ => False
    end.
End Mixed.

(** ** Values of one kind *)
Inductive vkind := KNull | KBool | KNum | KStr | KArr | KObj.
Definition vkindOf (v : fval) : option vkind :=
  match v with
  | VNull => Some KNull
  | VTrue | VFalse => Some KBool
  | VInt _ => Some KNum
  | VFloat f => if isNaN f then None else Some KNum
  | VString _ | VBinString _ | VJsonString _ => Some KStr
  | VArray _ => Some KArr
  | VObject _ => Some KObj
  | _ => None
  end.
