(** Model of jsontokenizer.go.

    Simplifications: a token's bytes are given as a (start, end) pair of
    positions into the data (Go returns the sub-slice [data[start:end]] and its
    length, jsontokenizer.go:479-486); error values carry no message. *)
From Verif Require Import Base.
From Coq Require Import List NArith Arith Lia Bool.
Import ListNotations.
Open Scope N_scope.

(** jsontokenizer.go:8-26 - token types. *)
Inductive tok : Type :=
| TUnknown | TObjectStart | TObjectEnd | TObjectKeyDelim | TArrayStart | TArrayEnd
| TListDelim | TString | TEscString | TInteger | TNumber | TNull | TTrue | TFalse | TEnd.

Definition tok_eqb (a b : tok) : bool :=
  match a, b with
  | TUnknown, TUnknown | TObjectStart, TObjectStart | TObjectEnd, TObjectEnd
  | TObjectKeyDelim, TObjectKeyDelim | TArrayStart, TArrayStart | TArrayEnd, TArrayEnd
  | TListDelim, TListDelim | TString, TString | TEscString, TEscString
  | TInteger, TInteger | TNumber, TNumber | TNull, TNull | TTrue, TTrue
  | TFalse, TFalse | TEnd, TEnd => true
  | _, _ => false
  end.

Lemma tok_eqb_eq : forall a b, tok_eqb a b = true <-> a = b.
Proof. destruct a, b; cbn; split; congruence. Qed.

(** jsontokenizer.go:68-99 - scanner states. *)
Inductive tstate : Type :=
| sBeginValueOrEmpty | sBeginValue | sBeginStringOrEmpty | sBeginString
| sInString | sInStringEsc | sInStringEscU | sInStringEscU1 | sInStringEscU12 | sInStringEscU123
| sNeg | s0 | sT | sTr | sTru | sF | sFa | sFal | sFals | sN | sNu | sNul
| s1 | sDot | sDot0 | sE | sESign | sE0.

(** jsontokenizer.go:101-103 - [tokIsSpaceChar]. *)
Definition tokIsSpaceChar (c : N) : bool :=
  (c =? 32) || (c =? 9) || (c =? 13) || (c =? 10).

(** The guard [c <= ' ' && tokIsSpaceChar(c)] (jsontokenizer.go:169,180,232,243). *)
Definition skipsSpace (c : N) : bool := (c <=? 32) && tokIsSpaceChar c.

(** What one iteration of the loop body does with the byte just read. *)
Inductive act : Type :=
| AGo (s : tstate)     (** state = s; continue DataLoop *)
| ASkip                (** startPos = dataPos; continue DataLoop *)
| ABreak (t : tok)     (** tokenType = t; break DataLoop *)
| ARewind (t : tok)    (** dataPos--; tokenType = t; break DataLoop *)
| AErr.                (** return an error *)

(** jsontokenizer.go:284 et al. - hexadecimal digit test. *)
Definition isHex (c : N) : bool :=
  ((48 <=? c) && (c <=? 57)) || ((97 <=? c) && (c <=? 102)) || ((65 <=? c) && (c <=? 70)).

Definition isDigit (c : N) : bool := (48 <=? c) && (c <=? 57).
Definition isDigit19 (c : N) : bool := (49 <=? c) && (c <=? 57).

(** jsontokenizer.go:179-229 - case toksBeginValue. *)
Definition actBeginValue (c : N) : act :=
  if skipsSpace c then ASkip
  else if c =? 123 then ABreak TObjectStart
  else if c =? 125 then ABreak TObjectEnd
  else if c =? 58 then ABreak TObjectKeyDelim
  else if c =? 91 then ABreak TArrayStart
  else if c =? 93 then ABreak TArrayEnd
  else if c =? 44 then ABreak TListDelim
  else if c =? 34 then AGo sInString
  else if c =? 45 then AGo sNeg
  else if c =? 48 then AGo s0
  else if c =? 116 then AGo sT
  else if c =? 102 then AGo sF
  else if c =? 110 then AGo sN
  else if isDigit19 c then AGo s1
  else AErr.

(** jsontokenizer.go:242-251 - case toksBeginString. *)
Definition actBeginString (c : N) : act :=
  if skipsSpace c then ASkip
  else if c =? 34 then AGo sInString
  else AErr.

(** jsontokenizer.go:332-345 - case toks0 (also reached by fallthrough from toks1). *)
Definition act0 (c : N) : act :=
  if c =? 46 then AGo sDot
  else if (c =? 101) || (c =? 69) then AGo sE
  else ARewind TNumber.

(** jsontokenizer.go:380-385 - case toksESign (also reached by fallthrough from toksE). *)
Definition actESign (c : N) : act :=
  if isDigit c then AGo sE0 else AErr.

Definition expect (c want : N) (next : act) : act := if c =? want then next else AErr.

(** jsontokenizer.go:167-468 - the switch on the scanner state. *)
Definition stepChar (s : tstate) (c : N) : act :=
  match s with
  | sBeginValueOrEmpty =>
      if skipsSpace c then ASkip
      else if c =? 93 then ABreak TArrayEnd
      else actBeginValue c
  | sBeginValue => actBeginValue c
  | sBeginStringOrEmpty =>
      if skipsSpace c then ASkip
      else if c =? 125 then ABreak TObjectEnd
      else actBeginString c
  | sBeginString => actBeginString c
  | sInString =>
      if c =? 34 then ABreak TEscString
      else if c =? 92 then AGo sInStringEsc
      else if c <? 32 then AErr
      else AGo sInString
  | sInStringEsc =>
      if (c =? 98) || (c =? 102) || (c =? 110) || (c =? 114) || (c =? 116)
         || (c =? 92) || (c =? 47) || (c =? 34) then AGo sInString
      else if c =? 117 then AGo sInStringEscU
      else AErr
  | sInStringEscU => if isHex c then AGo sInStringEscU1 else AErr
  | sInStringEscU1 => if isHex c then AGo sInStringEscU12 else AErr
  | sInStringEscU12 => if isHex c then AGo sInStringEscU123 else AErr
  | sInStringEscU123 => if isHex c then AGo sInString else AErr
  | sNeg =>
      if c =? 48 then AGo s0
      else if isDigit19 c then AGo s1
      else AErr
  | s1 => if isDigit c then AGo s1 else act0 c
  | s0 => act0 c
  | sDot => if isDigit c then AGo sDot0 else AErr
  | sDot0 =>
      if isDigit c then AGo sDot0
      else if (c =? 101) || (c =? 69) then AGo sE
      else ARewind TNumber
  | sE => if (c =? 43) || (c =? 45) then AGo sESign else actESign c
  | sESign => actESign c
  | sE0 => if isDigit c then AGo sE0 else ARewind TNumber
  | sT => expect c 114 (AGo sTr)
  | sTr => expect c 117 (AGo sTru)
  | sTru => expect c 101 (ABreak TTrue)
  | sF => expect c 97 (AGo sFa)
  | sFa => expect c 108 (AGo sFal)
  | sFal => expect c 115 (AGo sFals)
  | sFals => expect c 101 (ABreak TFalse)
  | sN => expect c 117 (AGo sNu)
  | sNu => expect c 108 (AGo sNul)
  | sNul => expect c 108 (ABreak TNull)
  end.

(** jsontokenizer.go:270 - [strHasEscapes = true] on entry to toksInStringEsc. *)
Definition setsEscapes (s : tstate) : bool :=
  match s with sInStringEsc => true | _ => false end.

(** jsontokenizer.go:348,372 - [numberIsNonInteger = true] on entry to toksDot / toksE. *)
Definition setsNonInteger (s : tstate) : bool :=
  match s with sDot | sE => true | _ => false end.

(** jsontokenizer.go:147-162 - what happens when the input is exhausted. *)
Definition atEnd (s : tstate) : option tok :=
  match s with
  | s1 | s0 | sDot0 | sE0 => Some TNumber
  | sBeginValue => Some TEnd
  | _ => None
  end.

(** jsontokenizer.go:471-477 - refine the token type. *)
Definition refineTok (t : tok) (esc nonint : bool) : tok :=
  match t with
  | TNumber => if nonint then TNumber else TInteger
  | TEscString => if esc then TEscString else TString
  | _ => t
  end.

(** A successful step: token type, start and end positions of its bytes; the
    end position is also the tokenizer's new position. *)
Inductive stepres : Type :=
| SOk (t : tok) (start stop : nat)
| SErr.

(** jsontokenizer.go:145-469 - DataLoop, on the bytes not yet read. *)
Fixpoint dataLoop (rest : bytes) (dataPos startPos : nat) (s : tstate)
         (esc nonint : bool) : stepres :=
  match rest with
  | [] =>
      match atEnd s with
      | Some t => SOk (refineTok t esc nonint) startPos dataPos
      | None => SErr
      end
  | c :: rest' =>
      let esc' := esc || setsEscapes s in
      let nonint' := nonint || setsNonInteger s in
      match stepChar s c with
      | AGo s' => dataLoop rest' (S dataPos) startPos s' esc' nonint'
      | ASkip => dataLoop rest' (S dataPos) (S dataPos) s esc' nonint'
      | ABreak t => SOk (refineTok t esc' nonint') startPos (S dataPos)
      | ARewind t => SOk (refineTok t esc' nonint') startPos dataPos
      | AErr => SErr
      end
  end.

(** jsontokenizer.go:125-488 - [Step].  When the position is already at or past
    the end, Go returns tknEnd with nil data and leaves the position alone. *)
Definition step (data : bytes) (pos : nat) : stepres :=
  if Nat.leb (length data) pos then SOk TEnd pos pos
  else dataLoop (skipn pos data) pos pos sBeginValue false false.

(** The tokenizer object (jsontokenizer.go:105-123): [Reset], [Position], [Seek]. *)
Record tokenizer := Tkn { tk_data : bytes; tk_pos : nat }.
Definition tk_reset (data : bytes) : tokenizer := Tkn data 0.
Definition tk_position (t : tokenizer) : nat := tk_pos t.
Definition tk_seek (t : tokenizer) (pos : nat) : tokenizer := Tkn (tk_data t) pos.

(** One [Step] call on the object: the returned token and bytes, and the new
    object; on an error the object is unchanged. *)
Definition tk_step (t : tokenizer) : option (tok * bytes) * tokenizer :=
  match step (tk_data t) (tk_pos t) with
  | SOk k a b => (Some (k, slice (tk_data t) a b), Tkn (tk_data t) b)
  | SErr => (None, t)
  end.
