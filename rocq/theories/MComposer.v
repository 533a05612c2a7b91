(** Model of jsonComposer.go: removing members from the text of a JSON object.

    Simplifications: [dst] has no capacity beyond its length, and a nil [dst] is the
    caller's own [make([]byte, len(src))] (81); error values are not told apart; on
    error the bytes written so far are not returned. *)
From Verif Require Import Base MTokenizer MFastVal MExpr MMatcher.
From Coq Require Import List NArith ZArith Arith Lia Bool.
Import ListNotations.
Open Scope nat_scope.

(** jsonComposer.go:18-27 - [jsonObjComposer]. *)
Record composer := Composer { c_body : bytes; c_pos : nat; c_prev : tok }.

(** jsonComposer.go:31-51 - [Write].  Slicing past the end of [body] panics (44). *)
Definition cwrite (c : composer) (data : bytes) (t : tok) : outcome composer :=
  let back := tok_eqb t TObjectEnd && tok_eqb (c_prev c) TListDelim in
  if back && (c_pos c =? 0) then Panic
  else
    let pos := if back then c_pos c - 1 else c_pos c in
    if pos + length data <=? length (c_body c)
    then Ok (Composer (firstn pos (c_body c) ++ data ++ skipn (pos + length data) (c_body c)) (pos + length data) t)
    else Panic.

(** The map [removed]: later entries overwrite earlier ones of the same name. *)
Definition rmap := list (bytes * bytes).
Definition rmap_set (m : rmap) (k v : bytes) : rmap := (k, v) :: filter (fun p => negb (bytes_eqb (fst p) k)) m.

(** jsonComposer.go:289-299 - [BytesEqualsString]. *)
Definition bytesEqualsString (a b : bytes) : bool := bytes_eqb a b.

(** jsonComposer.go:197-235 - the loop over the tokens of a removed value: where it
    ends. *)
Fixpoint valueLoop (fuel : nat) (src : bytes) (pos valueDepth : nat) : outcome nat :=
  match fuel with
  | O => OutOfFuel
  | S fuel =>
      match step src pos with
      | SErr => Err
      | SOk t3 _ valEnd =>
          if isLiteralToken t3 then
            if valueDepth =? 0 then Ok valEnd else valueLoop fuel src valEnd valueDepth
          else
            match t3 with
            | TObjectStart | TArrayStart => valueLoop fuel src valEnd (S valueDepth)
            | TObjectEnd | TArrayEnd =>
                match valueDepth with
                | 0 => Err
                | 1 => Ok valEnd
                | S d => valueLoop fuel src valEnd d
                end
            | TEnd => Err
            | TUnknown => Err
            | _ => valueLoop fuel src valEnd valueDepth
            end
      end
  end.

(** State of the main loop: position of the tokenizer, composer, depth, removed. *)
Record cst8 := C8 { k_pos : nat; k_c : composer; k_depth : nat; k_rm : rmap; k_n : nat }.

(** jsonComposer.go:184-260 - the loop over the names to remove; the flag is
    [matched]. *)
Fixpoint removeLoop (src key : bytes) (names : list bytes) (s : cst8) (matched : bool) : outcome (cst8 * bool) :=
  match names with
  | [] => Ok (s, matched)
  | nm :: r =>
      if negb (bytesEqualsString key nm) then removeLoop src key r s matched
      else
        let valStart := k_pos s in
        do valEnd <- valueLoop (S (length src)) src valStart 0;
        let rm := rmap_set (k_rm s) nm (slice src valStart valEnd) in
        match step src valEnd with
        | SOk TObjectEnd a b =>
            do c <- cwrite (k_c s) (slice src a b) TObjectEnd;
            match k_depth s with
            | 0 => Err
            | S d => removeLoop src key r (C8 b c d rm (S (k_n s))) true
            end
        | SOk TListDelim _ b => removeLoop src key r (C8 b (k_c s) (k_depth s) rm (S (k_n s))) true
        | _ => Err (* lines 242-245 *)
        end
  end.

(** jsonComposer.go:97-273 - the main loop. *)
Fixpoint mainLoop (fuel : nat) (src : bytes) (names : list bytes) (s : cst8) : outcome cst8 :=
  match fuel with
  | O => OutOfFuel
  | S fuel =>
      match step src (k_pos s) with
      | SErr => Err
      | SOk t1 a1 b1 =>
          let x1 := slice src a1 b1 in
          match t1 with
          | TString =>
              match step src b1 with
              | SErr => Err
              | SOk TObjectKeyDelim a2 b2 =>
                  if b1 - a1 <? 2 then Panic (* line 181 *)
                  else
                    let key := slice x1 1 (b1 - a1 - 1) in
                    do (s', matched) <- removeLoop src key names (C8 b2 (k_c s) (k_depth s) (k_rm s) (k_n s)) false;
                    if matched then mainLoop fuel src names s'
                    else
                      do c1 <- cwrite (k_c s') x1 t1;
                      do c2 <- cwrite c1 (slice src a2 b2) t1;
                      mainLoop fuel src names (C8 (k_pos s') c2 (k_depth s') (k_rm s') (k_n s'))
              | SOk t2 a2 b2 =>
                  match t2 with
                  | TUnknown | TEnd => Err
                  | _ =>
                      do c1 <- cwrite (k_c s) x1 t1;
                      do c2 <- cwrite c1 (slice src a2 b2) t2;
                      match t2 with
                      | TObjectEnd =>
                          match k_depth s with
                          | 0 => Err
                          | S d => mainLoop fuel src names (C8 b2 c2 d (k_rm s) (k_n s))
                          end
                      | _ => mainLoop fuel src names (C8 b2 c2 (k_depth s) (k_rm s) (k_n s))
                      end
                  end
              end
          | TObjectStart | TArrayStart =>
              do c <- cwrite (k_c s) x1 t1;
              mainLoop fuel src names (C8 b1 c (S (k_depth s)) (k_rm s) (k_n s))
          | TObjectEnd | TArrayEnd =>
              match k_depth s with
              | 0 => Err
              | S d => do c <- cwrite (k_c s) x1 t1; mainLoop fuel src names (C8 b1 c d (k_rm s) (k_n s))
              end
          | TEnd => Ok (C8 b1 (k_c s) (k_depth s) (k_rm s) (k_n s))
          | TUnknown => Err
          | _ => do c <- cwrite (k_c s) x1 t1; mainLoop fuel src names (C8 b1 c (k_depth s) (k_rm s) (k_n s))
          end
      end
  end.

(** jsonComposer.go:74 *)
Definition looksLikeObject (src : bytes) : bool :=
  (2 <=? length src) && (nth 0 src 0 =? 123)%N && (nth (length src - 1) src 0 =? 125)%N.

(** What the caller sees: [dst], [removed], length, number removed, whether anything
    is left. *)
Record cres := CRes { r_dst : bytes; r_removed : rmap; r_len : nat; r_count : nat; r_left : bool }.

(** jsonComposer.go:73-285 - [MatchAndRemoveItemsFromJsonObject], with [Commit] (55-63). *)
Definition removeItems (src : bytes) (names : list bytes) (dst : bytes) (removed : rmap) : outcome cres :=
  if looksLikeObject src then
    do s <- mainLoop (S (S (length src))) src names (C8 0 (Composer dst 0 TUnknown) 0 removed 0);
    if k_depth s =? 0 then
      let c := k_c s in Ok (CRes (c_body c) (k_rm s) (c_pos c) (k_n s) (2 <? c_pos c))
    else Err
  else Err.
