(** Model of bintree.go: the predicate tree and its evaluation state.

    Simplifications: node pointers (Go [int]) are [nat], i.e. never negative; the
    state object is split into the tree (immutable), the data array and the stall
    index, which are passed explicitly; recursion takes fuel. *)
From Verif Require Import Base.
From Coq Require Import List Arith Lia Bool.
Import ListNotations.

(** bintree.go:13-20 - node types. *)
Inductive ntype := NLeaf | NOr | NAnd | NNot | NNeor | NLoop.

(** bintree.go:40-42. *)
Definition hasLeft (t : ntype) : bool := match t with NLeaf => false | _ => true end.
(** bintree.go:44-46. *)
Definition hasRight (t : ntype) : bool :=
  match t with NLeaf | NNot | NLoop => false | _ => true end.

(** bintree.go:48-66. *)
Record node := Node { n_type : ntype; n_parent : nat; n_left : nat; n_right : nat }.

(** bintree.go:103-110 - state values. *)
Inductive sval := SUnknown | SResolved | STrue | SFalse.
Definition isUnknown (s : sval) : bool := match s with SUnknown => true | _ => false end.
Definition isTrueS (s : sval) : bool := match s with STrue => true | _ => false end.
Definition isFalseS (s : sval) : bool := match s with SFalse => true | _ => false end.

Notation sdata := (list sval).

(** Slice indexing: out of range is a panic. *)
Definition idx {A} (l : list A) (i : nat) : outcome A :=
  match nth_error l i with Some x => Ok x | None => Panic end.

(** bintree.go:143-148 - [NewState]. *)
Definition newState (T : list node) : sdata := repeat SUnknown (length T).

(** bintree.go:150-214 - [validateItem]: next position, [Err] for a returned error. *)
Fixpoint validateItem (fuel : nat) (T : list node) (item parent : nat) : outcome nat :=
  match fuel with
  | O => OutOfFuel
  | S f =>
      do d <- idx T item;
      if negb (Nat.eqb (n_parent d) parent) then Err
      else
        match n_type d with
        | NLeaf => Ok (S item)
        | nt =>
            if Nat.leb (n_left d) 0 || Nat.leb (length T) (n_left d) then Err
            else if (if hasRight nt
                     then Nat.leb (n_right d) 0 || Nat.leb (length T) (n_right d)
                     else negb (Nat.eqb (n_right d) 0)) then Err
            else
              do pos <- validateItem f T (S item) item;
              if hasRight nt then validateItem f T pos item else Ok pos
        end
  end.

(** bintree.go:220-231 - [Validate]. The recursion depth cannot exceed the number
    of nodes plus one. *)
Definition validate (T : list node) : outcome unit :=
  do pos <- validateItem (S (length T)) T 0 0;
  if Nat.eqb pos (length T) then Ok tt else Err.

(** bintree.go:237-245 - [CopyFrom] (same tree). *)
Definition copyFrom (dst src : sdata) : outcome sdata :=
  if Nat.leb (length src) (length dst) then Ok (src ++ skipn (length src) dst) else Panic.

(** bintree.go:303-317 - [resolveRecursive]. *)
Fixpoint resolveRecursive (fuel : nat) (T : list node) (data : sdata) (index : nat)
  : outcome sdata :=
  match fuel with
  | O => OutOfFuel
  | S f =>
      do d <- idx T index;
      do data1 <-
        (if hasLeft (n_type d) then
           do s <- idx data (n_left d);
           if isUnknown s then resolveRecursive f T (upd data (n_left d) SResolved) (n_left d)
           else Ok data
         else Ok data);
      if hasRight (n_type d) then
        do s <- idx data1 (n_right d);
        if isUnknown s then resolveRecursive f T (upd data1 (n_right d) SResolved) (n_right d)
        else Ok data1
      else Ok data1
  end.

(** bintree.go:319-365 - [checkNode], up to the call of [MarkNode]: the value to
    mark the node with, or nothing. *)
Definition checkNode (T : list node) (data : sdata) (index : nat) : outcome (option bool) :=
  do d <- idx T index;
  match n_type d with
  | NLeaf => Panic
  | NOr =>
      do l <- idx data (n_left d); do r <- idx data (n_right d);
      Ok (if isTrueS l || isTrueS r then Some true
          else if isFalseS l && isFalseS r then Some false else None)
  | NNeor =>
      do l <- idx data (n_left d); do r <- idx data (n_right d);
      Ok (if negb (isUnknown l) && negb (isUnknown r)
          then Some (isTrueS l || isTrueS r) else None)
  | NAnd =>
      do l <- idx data (n_left d); do r <- idx data (n_right d);
      Ok (if isTrueS l && isTrueS r then Some true
          else if isFalseS l || isFalseS r then Some false else None)
  | NNot =>
      do l <- idx data (n_left d);
      Ok (if isTrueS l then Some false else if isFalseS l then Some true else None)
  | NLoop =>
      do l <- idx data (n_left d);
      Ok (if isTrueS l then Some true else if isFalseS l then Some false else None)
  end.

Definition sbool (b : bool) : sval := if b then STrue else SFalse.

(** bintree.go:367-393 - [MarkNode]; the [checkNode] call at the end is inlined
    because the two Go functions are mutually recursive. *)
Fixpoint markNode (fuel : nat) (T : list node) (stall : nat) (data : sdata)
         (index : nat) (value : bool) : outcome sdata :=
  match fuel with
  | O => OutOfFuel
  | S f =>
      do s <- idx data index;
      if negb (isUnknown s) then Panic
      else
        do data1 <- resolveRecursive (S (length T)) T (upd data index (sbool value)) index;
        if Nat.eqb index 0 || Nat.eqb index stall then Ok data1
        else
          do d <- idx T index;
          do c <- checkNode T data1 (n_parent d);
          match c with
          | None => Ok data1
          | Some v => markNode f T stall data1 (n_parent d) v
          end
  end.

(** [MarkNode] as called from outside: enough fuel for the height of the tree. *)
Definition mark (T : list node) (stall : nat) (data : sdata) (index : nat) (value : bool)
  : outcome sdata := markNode (S (length T)) T stall data index value.

(** bintree.go:395-401 - [IsResolved], [IsTrue]. *)
Definition isResolved (data : sdata) (i : nat) : outcome bool :=
  do s <- idx data i; Ok (negb (isUnknown s)).
Definition isTrue (data : sdata) (i : nat) : outcome bool :=
  do s <- idx data i; Ok (isTrueS s).

(** bintree.go:276-281 - [Reset]: data and stall index. *)
Definition resetState (data : sdata) : sdata * nat := (map (fun _ => SUnknown) data, 0).

(** bintree.go:283-301 - [ResetNode]. *)
Fixpoint resetNodeRec (fuel : nat) (T : list node) (data : sdata) (index : nat) : outcome sdata :=
  match fuel with
  | O => OutOfFuel
  | S f =>
      do _ <- idx data index;
      let data0 := upd data index SUnknown in
      do d <- idx T index;
      do data1 <- (if hasLeft (n_type d) then resetNodeRec f T data0 (n_left d) else Ok data0);
      if hasRight (n_type d) then resetNodeRec f T data1 (n_right d) else Ok data1
  end.
Definition resetNode (T : list node) (data : sdata) (index : nat) : outcome sdata :=
  resetNodeRec (S (length T)) T data index.

(** bintree.go:262-273 - the loop of [Resolve]; [n] counts the indexes left, the
    current one is [n-1]. *)
Fixpoint resolveLoop (n : nat) (T : list node) (stall : nat) (data : sdata) : outcome sdata :=
  match n with
  | O => Ok data
  | S i =>
      do s <- idx data i;
      do data1 <- (if isUnknown s then mark T stall data i false else Ok data);
      do r <- idx data1 0;
      if negb (isUnknown r) then Ok data1 else resolveLoop i T stall data1
  end.

(** bintree.go:255-274 - [Resolve]. *)
Definition resolveAll (T : list node) (stall : nat) (data : sdata) : outcome sdata :=
  do r <- isResolved data 0;
  if r then Ok data else resolveLoop (length data) T stall data.
