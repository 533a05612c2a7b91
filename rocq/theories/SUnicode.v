(** Specification: Unicode strings, UTF-8 (RFC 3629) and the legal spellings of
    a string in JSON (RFC 8259, section 7). *)
From Verif Require Import Base SJson.
From Coq Require Import List NArith ZArith Arith Lia Bool.
Import ListNotations.
Open Scope N_scope.

(** Unicode scalar values. *)
Definition scalar (u : N) : Prop := u < 55296 \/ (57344 <= u /\ u <= 1114111).

(** UTF-8, by arithmetic. *)
Definition utf8 (u : N) : bytes :=
  if u <? 128 then [u]
  else if u <? 2048 then [192 + u / 64; 128 + u mod 64]
  else if u <? 65536 then [224 + u / 4096; 128 + (u / 64) mod 64; 128 + u mod 64]
  else [240 + u / 262144; 128 + (u / 4096) mod 64; 128 + (u / 64) mod 64; 128 + u mod 64].

Definition utf8s (us : list N) : bytes := flat_map utf8 us.

(** Value of a hexadecimal digit, either case. *)
Inductive hexval : N -> N -> Prop :=
| hv_digit : forall k, k < 10 -> hexval (48 + k) k
| hv_upper : forall k, 10 <= k < 16 -> hexval (55 + k) k
| hv_lower : forall k, 10 <= k < 16 -> hexval (87 + k) k.

(** [ucode x u]: [x] is the escape backslash-u with four hex digits of value [u]. *)
Inductive ucode : bytes -> N -> Prop :=
| uc_intro : forall c1 c2 c3 c4 k1 k2 k3 k4,
    hexval c1 k1 -> hexval c2 k2 -> hexval c3 k3 -> hexval c4 k4 ->
    ucode [92; 117; c1; c2; c3; c4] (4096 * k1 + 256 * k2 + 16 * k3 + k4).

(** Two-character escapes. *)
Definition short_escapes : list (N * N) :=
  [(34, 34); (92, 92); (47, 47); (98, 8); (102, 12); (110, 10); (114, 13); (116, 9)].

(** [spell x u]: [x] is a legal spelling of the single character [u]. *)
Inductive spell : bytes -> N -> Prop :=
| sp_literal : forall u, scalar u -> 32 <= u -> u <> 34 -> u <> 92 -> spell (utf8 u) u
| sp_short : forall c u, In (c, u) short_escapes -> spell [92; c] u
| sp_ucode : forall x u, ucode x u -> scalar u -> spell x u
| sp_pair : forall xh xl u, 65536 <= u -> u <= 1114111 ->
    ucode xh (55296 + (u - 65536) / 1024) -> ucode xl (56320 + (u - 65536) mod 1024) ->
    spell (xh ++ xl) u.

(** [spells x us]: [x] is a legal spelling of the string [us]. *)
Inductive spells : bytes -> list N -> Prop :=
| sps_nil : spells [] []
| sps_cons : forall x u xs us, spell x u -> spells xs us -> spells (x ++ xs) (u :: us).

(** Value of a decimal integer literal. *)
Fixpoint dec_val (acc : Z) (l : bytes) : Z :=
  match l with
  | [] => acc
  | c :: r => dec_val (10 * acc + (Z.of_N c - 48)) r
  end.
Definition int_val (l : bytes) : Z :=
  match l with
  | 45 :: r => (- dec_val 0 r)%Z
  | _ => dec_val 0 l
  end.

(** An illustration: four spellings of the one-character string "A". *)
Example ex_spell1 : spells [65] [65].
Proof.
  apply (sps_cons [65] 65 [] []); [|constructor].
  apply (sp_literal 65); unfold scalar; lia.
Qed.
Example ex_spell2 : spells [92; 117; 48; 48; 52; 49] [65].
Proof.
  apply (sps_cons [92; 117; 48; 48; 52; 49] 65 [] []); [|constructor].
  apply sp_ucode; [|unfold scalar; lia].
  apply (uc_intro 48 48 52 49 0 0 4 1);
    [apply (hv_digit 0)|apply (hv_digit 0)|apply (hv_digit 4)|apply (hv_digit 1)]; lia.
Qed.
(** U+1F600 as a surrogate pair D83D DE00. *)
Example ex_spell3 :
  spells [92; 117; 68; 56; 51; 68; 92; 117; 100; 101; 48; 48] [128512].
Proof.
  apply (sps_cons [92; 117; 68; 56; 51; 68; 92; 117; 100; 101; 48; 48] 128512 [] []); [|constructor].
  apply (sp_pair [92; 117; 68; 56; 51; 68] [92; 117; 100; 101; 48; 48]); try lia.
  - apply (uc_intro 68 56 51 68 13 8 3 13);
    [apply (hv_upper 13)|apply (hv_digit 8)|apply (hv_digit 3)|apply (hv_upper 13)]; lia.
  - apply (uc_intro 100 101 48 48 13 14 0 0);
    [apply (hv_lower 13)|apply (hv_lower 14)|apply (hv_digit 0)|apply (hv_digit 0)]; lia.
Qed.
