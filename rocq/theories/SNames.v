(** Specification: member names and paths of a document, from the text of the
    names alone (RFC 8259), without the decoding routines of the model. *)
From Verif Require Import Base MTokenizer SJson SUnicode.
From Coq Require Import List NArith ZArith Arith Lia Bool.
Import ListNotations.
Open Scope nat_scope.

(** The literal [x], of kind [t], writes the name [k]: without escapes the bytes
    between the quotes, else the UTF-8 of the characters spelled. *)
Inductive nameIs : tok -> bytes -> bytes -> Prop :=
| ni_plain : forall b, nameIs TString (34 :: b ++ [34])%N b
| ni_esc : forall x us, spells x us -> nameIs TEscString (34 :: x ++ [34])%N (utf8s us).

(** [d] is the number [i] in decimal, without leading zeros. *)
Definition isDecimal (i : nat) (d : bytes) : Prop := nat_part d /\ dec_val 0 d = Z.of_nat i.

(** The value under a key of a container. *)
Inductive child : bytes -> cst -> cst -> Prop :=
| ch_mem : forall ms w m k, In m ms -> nameIs (m_kt m) (m_kx m) k -> child k (CObj ms w) (m_v m)
| ch_elt : forall es w i e d, nth_error es i = Some e -> isDecimal i d -> child (91 :: d ++ [93])%N (CArr es w) (e_v e).

(** The value at a path. *)
Inductive valueAt : list bytes -> cst -> cst -> Prop :=
| va_here : forall v, valueAt [] v v
| va_step : forall k p v w x, child k v w -> valueAt p w x -> valueAt (k :: p) v x.

(** Every name is decodable, and no object has two members of one name. *)
Inductive named : cst -> Prop :=
| nd_lit : forall t x, named (CLit t x)
| nd_arr : forall es w, (forall e, In e es -> named (e_v e)) -> named (CArr es w)
| nd_obj : forall ms w,
    (forall m, In m ms -> exists k, nameIs (m_kt m) (m_kx m) k) ->
    (forall i j m m' k, nth_error ms i = Some m -> nth_error ms j = Some m' ->
       nameIs (m_kt m) (m_kx m) k -> nameIs (m_kt m') (m_kx m') k -> i = j) ->
    (forall m, In m ms -> named (m_v m)) -> named (CObj ms w).

(** The same document up to whitespace, order of members and the spelling of names
    and strings. *)
From Coq Require Import Permutation.
Inductive respelled : cst -> cst -> Prop :=
| rs_lit : forall t x, respelled (CLit t x) (CLit t x)
| rs_str : forall t x t' x' b, nameIs t x b -> nameIs t' x' b -> respelled (CLit t x) (CLit t' x')
| rs_arr : forall es w es' w', Forall2 (fun e e' => respelled (e_v e) (e_v e')) es es' -> respelled (CArr es w) (CArr es' w')
| rs_obj : forall ms w ms1 ms' w',
    Forall2 (fun m m' => (exists k, nameIs (m_kt m) (m_kx m) k /\ nameIs (m_kt m') (m_kx m') k) /\ respelled (m_v m) (m_v m')) ms ms1 ->
    Permutation ms1 ms' -> respelled (CObj ms w) (CObj ms' w').
