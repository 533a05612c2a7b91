(** Model of fastlitescape.go and of the literal readers of fastlitparse.go. *)
From Verif Require Import Base MTokenizer.
From Coq Require Import List NArith ZArith Arith Lia Bool.
Import ListNotations.
Open Scope N_scope.

(** ** 64-bit integers *)

(** Two's complement wrap of a mathematical integer to int64. *)
Definition wrap64 (z : Z) : Z := ((z + 2 ^ 63) mod 2 ^ 64 - 2 ^ 63)%Z.
Definition in_int64 (z : Z) : Prop := (- 2 ^ 63 <= z < 2 ^ 63)%Z.

(** ** fastlitescape.go *)

(** fastlitescape.go:24-26 - [combineUTF16Surrogates] (runes are non-negative
    here, so the int32 arithmetic is exact). *)
Definition combineUTF16Surrogates (high low : N) : N :=
  65536 + N.shiftl (high - 55296) 10 + (low - 56320).

(** fastlitescape.go:30-40 - [h2I]; [None] is badHex. *)
Definition h2I (c : N) : option N :=
  if (48 <=? c) && (c <=? 57) then Some (c - 48)
  else if (65 <=? c) && (c <=? 70) then Some (c - 65 + 10)
  else if (97 <=? c) && (c <=? 102) then Some (c - 97 + 10)
  else None.

(** fastlitescape.go:46-60 - [decodeSingleUnicodeEscape]; the first two bytes are
    not looked at. *)
Definition decodeSingleUnicodeEscape (inp : bytes) : option N :=
  match inp with
  | _ :: _ :: c1 :: c2 :: c3 :: c4 :: _ =>
      match h2I c1, h2I c2, h2I c3, h2I c4 with
      | Some h1, Some h2, Some h3, Some h4 =>
          Some (N.shiftl h1 12 + N.shiftl h2 8 + N.shiftl h3 4 + h4)
      | _, _, _, _ => None
      end
  | _ => None
  end.

(** fastlitescape.go:65-67 - [isUTF16EncodedRune]. *)
Definition isUTF16EncodedRune (r : N) : bool := (55296 <=? r) && (r <=? 57343).

(** fastlitescape.go:69-86 - [decodeUnicodeEscape]: rune and number of bytes
    consumed; [None] for the -1 result.  [in[6:]] cannot be out of range because
    the first decode succeeded. *)
Definition decodeUnicodeEscape (inp : bytes) : option (N * nat) :=
  match decodeSingleUnicodeEscape inp with
  | None => None
  | Some r =>
      if (r <=? 65535) && negb (isUTF16EncodedRune r) then Some (r, 6%nat)
      else
        match decodeSingleUnicodeEscape (skipn 6 inp) with
        | None => None
        | Some r2 =>
            if r2 <? 56320 then None
            else Some (combineUTF16Surrogates r r2, 12%nat)
        end
  end.

(** Go's [utf8.EncodeRune] (standard library, unicode/utf8): the bytes written. *)
Definition encodeRune (r0 : N) : bytes :=
  if r0 <=? 127 then [r0]
  else if r0 <=? 2047 then [N.lor 192 (N.shiftr r0 6); N.lor 128 (N.land r0 63)]
  else
    let r := if (1114111 <? r0) || ((55296 <=? r0) && (r0 <=? 57343)) then 65533 else r0 in
    if r <=? 65535 then
      [N.lor 224 (N.shiftr r 12); N.lor 128 (N.land (N.shiftr r 6) 63); N.lor 128 (N.land r 63)]
    else
      [N.lor 240 (N.shiftr r 18); N.lor 128 (N.land (N.shiftr r 12) 63);
       N.lor 128 (N.land (N.shiftr r 6) 63); N.lor 128 (N.land r 63)].

(** fastlitescape.go:89-98 - [backslashCharEscapeTable] on the accepted bytes. *)
Definition backslashCharEscape (e : N) : option N :=
  if e =? 34 then Some 34
  else if e =? 92 then Some 92
  else if e =? 47 then Some 47
  else if e =? 98 then Some 8
  else if e =? 102 then Some 12
  else if e =? 110 then Some 10
  else if e =? 114 then Some 13
  else if e =? 116 then Some 9
  else None.

(** fastlitescape.go:103-128 - [unescapeToUTF8].  [avail] is len(out); writing
    more than that is an index-out-of-range panic.  Result: bytes consumed and
    bytes written, [None] for (-1, -1). *)
Definition unescapeToUTF8 (inp : bytes) (avail : nat) : outcome (option (nat * bytes)) :=
  match inp with
  | c0 :: e :: _ =>
      if negb (c0 =? 92) then Ok None
      else
        match backslashCharEscape e with
        | Some b => if Nat.leb 1 avail then Ok (Some (2%nat, [b])) else Panic
        | None =>
            if e =? 117 then
              match decodeUnicodeEscape inp with
              | None => Ok None
              | Some (r, n) =>
                  let bs := encodeRune r in
                  if Nat.leb (length bs) avail then Ok (Some (n, bs)) else Panic
              end
            else Ok None
        end
  | _ => Ok None
  end.

(** Go's [bytes.IndexByte]. *)
Fixpoint indexByte (l : bytes) (c : N) : option nat :=
  match l with
  | [] => None
  | x :: r => if x =? c then Some O
              else match indexByte r c with Some n => Some (S n) | None => None end
  end.

(** Writing [bs] at offset [o] of the output buffer; the caller has checked that
    it fits. *)
Definition blit (out : bytes) (o : nat) (bs : bytes) : bytes :=
  firstn o out ++ bs ++ skipn (o + length bs) out.

(** fastlitescape.go:155-176 - the loop.  [o] is the offset of [buf] inside
    [out].  [copy(buf, x)] followed by [buf = buf[len(x):]] panics when
    len(x) > len(buf).  Result: [None] for the error, otherwise the buffer and
    the final offset. *)
Fixpoint unescapeLoop (fuel : nat) (inp : bytes) (out : bytes) (o : nat)
  : outcome (option nat * bytes) :=
  match inp with
  | [] => Ok (Some o, out)
  | _ :: _ =>
      match fuel with
      | O => OutOfFuel
      | S fuel' =>
          match unescapeToUTF8 inp (length out - o) with
          | Ok None => Ok (None, out)
          | Ok (Some (inLen, bs)) =>
              let out1 := blit out o bs in
              let o1 := (o + length bs)%nat in
              let inp1 := skipn inLen inp in
              match indexByte inp1 92 with
              | None =>
                  if Nat.leb (length inp1) (length out1 - o1)
                  then Ok (Some (o1 + length inp1)%nat, blit out1 o1 inp1)
                  else Panic
              | Some nb =>
                  let chunk := firstn nb inp1 in
                  if Nat.leb (length chunk) (length out1 - o1)
                  then unescapeLoop fuel' (skipn nb inp1) (blit out1 o1 chunk) (o1 + length chunk)
                  else Panic
              end
          | Err => Err
          | Panic => Panic
          | OutOfFuel => OutOfFuel
          end
      end
  end.

(** Result of [unescapeJsonString]: the returned slice contents ([None] = error),
    the contents of the caller's scratch buffer afterwards, and whether the
    returned slice points into that scratch buffer. *)
Record unesc := Unesc { u_res : option bytes; u_scratch : bytes; u_aliased : bool }.

(** fastlitescape.go:137-180 - [unescapeJsonString].  [scratch] is the caller's
    [out]; its capacity is its length. *)
Definition unescapeJsonString (inp scratch : bytes) : outcome unesc :=
  match indexByte inp 92 with
  | None => Ok (Unesc (Some inp) scratch false)
  | Some fb =>
      let useScratch := Nat.leb (length inp) (length scratch) in
      let out := if useScratch then firstn (length inp) scratch else repeat 0 (length inp) in
      let chunk := firstn fb inp in
      let out1 := blit out 0 chunk in
      match unescapeLoop (length inp) (skipn fb inp) out1 fb with
      | Ok (r, outN) =>
          let scratch' := if useScratch then outN ++ skipn (length inp) scratch else scratch in
          Ok (Unesc (match r with Some n => Some (firstn n outN) | None => None end)
                    scratch' useScratch)
      | Err => Err
      | Panic => Panic
      | OutOfFuel => OutOfFuel
      end
  end.

(** ** fastlitparse.go *)

(** fastlitparse.go:30-36 - digits loop with int64 wrap-around; [None] when a
    non-digit makes [ParseInt] return 0. *)
Fixpoint parseDigits (v : Z) (l : bytes) : option Z :=
  match l with
  | [] => Some v
  | c :: r =>
      if (48 <=? c) && (c <=? 57)
      then parseDigits (wrap64 (10 * v + Z.of_N (c - 48))) r
      else None
  end.

(** fastlitparse.go:17-43 - [ParseInt]. *)
Definition parseInt (l : bytes) : Z :=
  match l with
  | [] => 0%Z
  | c :: r =>
      if c =? 45
      then match parseDigits 0 r with Some v => wrap64 (- v) | None => 0%Z end
      else match parseDigits 0 l with Some v => v | None => 0%Z end
  end.

(** fastlitparse.go:50-52 - [ParseString]: [bytes[1:len-1]]. *)
Definition parseString (l : bytes) : bytes := slice l 1 (length l - 1).

(** fastlitparse.go:58-61 - [ParseEscString]: the error is dropped and the nil
    slice it comes with is an empty string.  Result: contents, new scratch
    buffer, aliasing flag. *)
Definition parseEscString (l scratch : bytes) : outcome (bytes * bytes * bool) :=
  match unescapeJsonString (slice l 1 (length l - 1)) scratch with
  | Ok u => match u_res u with
            | Some b => Ok (b, u_scratch u, u_aliased u)
            | None => Ok ([], u_scratch u, false)
            end
  | Err => Err
  | Panic => Panic
  | OutOfFuel => OutOfFuel
  end.
