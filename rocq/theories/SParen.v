(** What it means for the parentheses of a text to pair up. *)
From Verif Require Import Base.
From Coq Require Import List NArith Arith Bool.
Import ListNotations.
Open Scope nat_scope.

(** How many parentheses are open after the text, if [d] are before it; [None] if one
    closes that was not opened. *)
Fixpoint openAfter (d : nat) (t : list N) : option nat :=
  match t with
  | [] => Some d
  | c :: r =>
      if N.eqb c 40 then openAfter (S d) r
      else if N.eqb c 41 then match d with O => None | S d' => openAfter d' r end
      else openAfter d r
  end.
Definition balanced (t : list N) : Prop := openAfter 0 t = Some 0.

(** A letter or a digit (ASCII). *)
Definition alnum (c : N) : bool := ((N.leb 48 c && N.leb c 57) || (N.leb 65 c && N.leb c 90) || (N.leb 97 c && N.leb c 122))%bool%N.
(** No parenthesis opens directly after a letter or digit, as it does in a call. *)
Definition noCall (t : list N) : Prop := forall a c b, t = a ++ c :: 40%N :: b -> alnum c = false.
(** No quotes of any kind (within which parentheses mean nothing) and no calls. *)
Definition bare (t : list N) : Prop := ~ In 34%N t /\ ~ In 39%N t /\ ~ In 96%N t /\ noCall t.
