(** Specification: the same simple filter with other spacing.  White space between words may
    be of any kind and amount, and the operator may touch what is before and after it. *)
From Coq Require Import String.
From Verif Require Import Base MTokenizer MLit MFastVal MMath MExpr SUnicode SSimple.
From Coq Require Import List NArith ZArith Arith Lia Bool.
Import ListNotations.
Open Scope nat_scope.

(** ** White space *)

(** Unicode's white space. *)
Definition whites : list N :=
  [9; 10; 11; 12; 13; 32; 133; 160; 5760; 8192; 8193; 8194; 8195; 8196; 8197; 8198; 8199; 8200; 8201; 8202; 8232; 8233; 8239; 8287; 12288]%N.
Definition white (g : bytes) : Prop := exists us, Forall (fun u => In u whites) us /\ g = utf8s us.
(** The words with white space before each, and after the last. *)
Inductive trail : list bytes -> bytes -> Prop :=
| trail_end : forall g, white g -> trail [] g
| trail_word : forall g w ws t, white g -> g <> [] -> trail ws t -> trail (w :: ws) (g ++ w ++ t).
(** A text with these words: before the first one there may also be nothing. *)
Inductive spread : list bytes -> bytes -> Prop :=
| spread_none : forall g, white g -> spread [] g
| spread_words : forall g w ws t, white g -> trail ws t -> spread (w :: ws) (g ++ w ++ t).

(** ** Operators that touch *)

(** Is there a space before the operator, and after it. *)
Record spacing := { sp_before : bool; sp_after : bool }.
(** The operator, when it is one of symbols, and the words after it. *)
Definition symbolOf (t : stest) : option (bytes * list bytes) :=
  match t with
  | TCmp op v => Some (copText op, valWords v)
  | TCall op c => Some (copText op, [argText c])
  | TLike PTilde dbl re => Some (s2b "=~", [[quote dbl] ++ re ++ [quote dbl]])
  | _ => None
  end.
(** The words of a test so written. *)
Definition tightWords (g : spacing) (a : satom) : list bytes :=
  match symbolOf (a_test a) with
  | Some (op, v :: vs) =>
      let s := argText (a_subj a) in
      match sp_before g, sp_after g with
      | true, true => s :: op :: v :: vs
      | true, false => s :: (op ++ v) :: vs
      | false, true => (s ++ op) :: v :: vs
      | false, false => (s ++ op ++ v) :: vs
      end
  | _ => atomWords a
  end.
(** What may be written so: the subject has no symbol and no operator in it, and what comes
    after is not a call. *)
Definition spacingOk (g : spacing) (a : satom) : Prop :=
  (sp_before g = false -> noOps (argText (a_subj a)) /\ without (argText (a_subj a)) [33; 38; 124; 126]%N)
  /\ (sp_after g = false -> match a_test a with TCall _ _ => False | _ => True end).

(** ** Chains *)
Record tchain := { t_first : spacing * satom; t_rest : list (sjoin * (spacing * satom)) }.
Definition plain (c : tchain) : schain := {| ch_first := snd (t_first c); ch_rest := map (fun p => (fst p, snd (snd p))) (t_rest c) |}.
Definition tightRest (r : list (sjoin * (spacing * satom))) : list bytes :=
  concat (map (fun p => joinText (fst p) :: tightWords (fst (snd p)) (snd (snd p))) r).
Definition tightChain (c : tchain) : list bytes := tightWords (fst (t_first c)) (snd (t_first c)) ++ tightRest (t_rest c).
Definition tightOk (o : oracles) (c : tchain) : Prop :=
  chainOk o (plain c) /\ spacingOk (fst (t_first c)) (snd (t_first c)) /\ Forall (fun p => spacingOk (fst (snd p)) (snd (snd p))) (t_rest c).
