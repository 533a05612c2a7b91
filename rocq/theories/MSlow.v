(** Model of slowmatcher.go: the reference matcher, on decoded documents.

    Simplifications: json.Unmarshal is a parameter; the members of an object are a
    list, and a loop over an object takes them in that order (Go: any order); a
    constant of another type than nil, bool, float64, string is not told apart
    further (in particular it is not a map or a slice). *)
From Verif Require Import Base MTokenizer MLit MFastVal SEvents MBinTree MExpr MExprJson.
From Coq Require Import List NArith ZArith Arith Lia Bool.
From Coq Require Import Floats.SpecFloat.
Import ListNotations.
Open Scope nat_scope.

(** An interface{} value: of the types json.Unmarshal produces, or another. *)
Inductive sval := SV (v : jv) | SOther.

(** The map [vars]. *)
Definition svars := list (nat * jv).
Fixpoint vget (r : nat) (vs : svars) : jv :=
  match vs with
  | [] => JNull (* the zero value of interface{} *)
  | (k, v) :: t => if Nat.eqb r k then v else vget r t
  end.
Definition vdel (r : nat) (vs : svars) : svars := filter (fun p => negb (Nat.eqb (fst p) r)) vs.
Definition vset (r : nat) (v : jv) (vs : svars) : svars := (r, v) :: vdel r vs.

(** [mapVal[field]]: nil when there is none. *)
Fixpoint mget (k : bytes) (m : list (bytes * jv)) : jv :=
  match m with
  | [] => JNull
  | (k', v) :: t => if bytes_eqb k k' then v else mget k t
  end.

(** slowmatcher.go:24-37 - [resolveFieldParam]. *)
Fixpoint walk (v : jv) (path : list bytes) : outcome jv :=
  match path with
  | [] => Ok v
  | k :: r => match v with JObj m => walk (mget k m) r | _ => Err end
  end.

(** A constant as the type switches see it. *)
Definition svalue (g : gval) : sval :=
  match g with
  | GNil => SV JNull
  | GBool b => SV (JBool b)
  | GFloat f => SV (JNum f)
  | GString s => SV (JStr s)
  | _ => SOther
  end.

(** slowmatcher.go:39-48 - [resolveParam]. *)
Definition resolveParam (vs : svars) (e : expr) : outcome sval :=
  match e with
  | XField r q => do v <- walk (vget r vs) q; Ok (SV v)
  | XValue g => Ok (svalue g)
  | _ => Panic
  end.

(** slowmatcher.go:95-131 - the comparison in [compareExprs]. *)
Definition compareVals (x y : sval) : outcome Z :=
  match x with
  | SV (JStr a) => match y with SV (JStr b) => Ok (cmpBytes a b) | _ => Err end
  | SV (JNum a) => match y with SV (JNum b) => Ok (if fltb a b then -1 else if fltb b a then 1 else 0)%Z | _ => Err end
  | SV (JBool a) =>
      match y with
      | SV (JBool b) => Ok (if a && negb b then 1 else if negb a && b then -1 else 0)%Z
      | _ => Err
      end
  | SV JNull => match y with SV JNull => Ok 0%Z | _ => Ok (-1)%Z end
  | _ => Err
  end.

(** slowmatcher.go:84-132 - [compareExprs]. *)
Definition compareExprs (vs : svars) (l r : expr) : outcome Z :=
  do x <- resolveParam vs l;
  do y <- resolveParam vs r;
  compareVals x y.

(** slowmatcher.go:178-230 - the six comparisons; LikeExpr has no case. *)
Definition slowCmp (vs : svars) (k : cmpk) (l r : expr) : outcome bool :=
  match k with
  | CLike => Panic (* line 254 *)
  | _ =>
      do c <- compareExprs vs l r;
      Ok (match k with
          | CEq => (c =? 0)%Z
          | CNe => negb (c =? 0)%Z
          | CLt => (c <? 0)%Z
          | CLe => (c <=? 0)%Z
          | CGt => (0 <? c)%Z
          | _ => (0 <=? c)%Z
          end)
  end.

(** What a matching function leaves: the variables, and its result. *)
Definition sres := (svars * outcome bool)%type.

Section Loop.
  (** [matchOne] of the body. *)
  Variable body : svars -> sres.
  (** slowmatcher.go:142-154, 158-170 - the loops of [matchAnyInExpr]. *)
  Fixpoint anyLoop (vs : svars) (v : nat) (l : list jv) : sres :=
    match l with
    | [] => (vs, Ok false)
    | x :: r =>
        let '(vs', res) := body (vset v x vs) in
        let vs' := vdel v vs' in
        match res with
        | Ok true => (vs', Ok true)
        | Ok false => anyLoop vs' v r
        | e => (vs', e)
        end
    end.
End Loop.

(** slowmatcher.go:232-255 - [matchOne]. *)
Fixpoint matchOne (vs : svars) (e : expr) : sres :=
  match e with
  | XOr l => (* 50-63 *)
      (fix go (vs : svars) (l : list expr) : sres :=
        match l with
        | [] => (vs, Ok false)
        | x :: r =>
            let '(vs', res) := matchOne vs x in
            match res with Ok false => go vs' r | res => (vs', res) end
        end) vs l
  | XAnd [] => (vs, Ok false) (* 66-68 *)
  | XAnd l => (* 70-80 *)
      (fix go (vs : svars) (l : list expr) : sres :=
        match l with
        | [] => (vs, Ok true)
        | x :: r =>
            let '(vs', res) := matchOne vs x in
            match res with Ok true => go vs' r | res => (vs', res) end
        end) vs l
  | XLoop LAny v i s => (* 134-176 *)
      match resolveParam vs i with
      | Ok (SV (JObj m)) => anyLoop (fun vs => matchOne vs s) vs v (map snd m)
      | Ok (SV (JArr l)) => anyLoop (fun vs => matchOne vs s) vs v l
      | Ok _ => (vs, Panic) (* line 175 *)
      | Err => (vs, Err)
      | Panic => (vs, Panic)
      | OutOfFuel => (vs, OutOfFuel)
      end
  | XCmp k l r => (vs, slowCmp vs k l r)
  | _ => (vs, Panic) (* line 254 *)
  end.

(** slowmatcher.go:257-267 - [matchOneRootExpr]. *)
Definition matchOneRoot (vs : svars) (e : expr) : sres :=
  match e with
  | XTrue => (vs, Ok true)
  | XFalse => (vs, Ok false)
  | _ => matchOne vs e
  end.

(** slowmatcher.go:11-15 - [SlowMatcher]; a nil map [vars] is an empty one. *)
Record slow := Slow { sl_exprs : list expr; sl_matches : list bool; sl_vars : svars }.

(** slowmatcher.go:17-22 - [NewSlowMatcher]. *)
Definition newSlow (es : list expr) : slow := Slow es (repeat false (length es)) [].

(** slowmatcher.go:269-276 - [Reset]. *)
Definition resetSlow (m : slow) : slow := Slow (sl_exprs m) (map (fun _ => false) (sl_matches m)) [].

Fixpoint setNth (i : nat) (b : bool) (l : list bool) : list bool :=
  match l, i with
  | [], _ => []
  | _ :: r, O => b :: r
  | x :: r, S i => x :: setNth i b r
  end.

(** slowmatcher.go:290-303 - the loop over the expressions. *)
Fixpoint rootLoop (vs : svars) (ms : list bool) (matched : bool) (i : nat) (l : list expr) : svars * list bool * outcome bool :=
  match l with
  | [] => (vs, ms, Ok matched)
  | e :: r =>
      let '(vs', res) := matchOneRoot vs e in
      match res with
      | Ok b =>
          let matched' := if Nat.eqb i 0 && b then true else if negb b then false else matched in
          rootLoop vs' (setNth i b ms) matched' (S i) r
      | e => (vs', ms, e)
      end
  end.

Section Match.
  (** json.Unmarshal into an interface{}; [None]: an error. *)
  Variable unmarshal : bytes -> option jv.

  (** slowmatcher.go:278-307 - [Match]. *)
  Definition slowMatch (data : bytes) (m : slow) : slow * outcome bool :=
    match unmarshal data with
    | None => (m, Err)
    | Some d =>
        let '(vs, ms, res) := rootLoop (vset 0 d (sl_vars m)) (sl_matches m) false 0 (sl_exprs m) in
        let vs := match res with Ok _ => vdel 0 vs | _ => vs end in
        (Slow (sl_exprs m) ms vs, res)
    end.
End Match.

(** slowmatcher.go:315-317 - [ExpressionMatched]. *)
Definition slowExpressionMatched (m : slow) (i : nat) : outcome bool := idx (sl_matches m) i.
