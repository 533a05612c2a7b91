(** Specification: the order of texts by their characters (C50). *)
From Verif Require Import Base SUnicode MFastVal MExpr.
From Coq Require Import List NArith Bool.
Import ListNotations.
Open Scope N_scope.

(** Character by character, by code points; a text comes before its continuations. *)
Inductive earlierText : list N -> list N -> Prop :=
| et_end : forall v vs, earlierText [] (v :: vs)
| et_here : forall u v us vs, u < v -> earlierText (u :: us) (v :: vs)
| et_next : forall u us vs, earlierText us vs -> earlierText (u :: us) (u :: vs).
Definition orderedText (k : cmpk) (us vs : list N) : Prop :=
  match k with
  | CEq => us = vs | CNe => us <> vs
  | CLt => earlierText us vs | CLe => ~ earlierText vs us
  | CGt => earlierText vs us | CGe => ~ earlierText us vs
  | CLike => False
  end.
(** Characters that need no escaping. *)
Definition plainChars (isPrint : N -> bool) (us : list N) : Prop :=
  Forall (fun u => scalar u /\ isPrint u = true /\ u <> 34 /\ u <> 92) us.
(** The printable characters of ASCII other than the quote and the backslash. *)
Definition asciiText (b : bytes) : Prop := Forall (fun c => 32 <= c < 127 /\ c <> 34 /\ c <> 92) b.
(** unicode.IsPrint, as far as ASCII. *)
Definition printsAscii (isPrint : N -> bool) : Prop := forall u, 32 <= u < 127 -> isPrint u = true.
