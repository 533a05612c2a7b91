(** Specification: the values of decimal numbers and of doubles, independent of the
    code. *)
From Verif Require Import Base MTokenizer SJson SUnicode MFastVal.
From Coq Require Import List NArith ZArith QArith Qabs Qpower Bool.
From Coq Require Import Floats.SpecFloat.
Import ListNotations.
Open Scope Q_scope.

(** ** Decimal numbers, as JSON writes them *)
Inductive fracIs : bytes -> bytes -> Prop :=
| fr_none : fracIs [] []
| fr_some : forall d ds, digit d -> Forall digit ds -> fracIs (46%N :: d :: ds) (d :: ds).
Inductive expIs : bytes -> Z -> Prop :=
| ex_none : expIs [] 0
| ex_plain : forall e d ds, In e [101; 69]%N -> digit d -> Forall digit ds -> expIs (e :: d :: ds) (dec_val 0 (d :: ds))
| ex_plus : forall e d ds, In e [101; 69]%N -> digit d -> Forall digit ds -> expIs (e :: 43%N :: d :: ds) (dec_val 0 (d :: ds))
| ex_minus : forall e d ds, In e [101; 69]%N -> digit d -> Forall digit ds -> expIs (e :: 45%N :: d :: ds) (- dec_val 0 (d :: ds)).
(** Digits [n.ds] with exponent [k]. *)
Definition decimal (n ds : bytes) (k : Z) : Q := inject_Z (dec_val 0 (n ++ ds)) * (10 # 1) ^ (k - Z.of_nat (length ds)).
Inductive numberIs : bytes -> Q -> Prop :=
| num_pos : forall n f ds e k, nat_part n -> fracIs f ds -> expIs e k -> numberIs (n ++ f ++ e) (decimal n ds k)
| num_neg : forall n f ds e k, nat_part n -> fracIs f ds -> expIs e k -> numberIs (45%N :: n ++ f ++ e) (- decimal n ds k).

(** ** Doubles *)
Definition finite (f : float) : Prop :=
  valid_binary 53 1024 f = true /\ match f with S754_zero _ | S754_finite _ _ _ => True | _ => False end.
Definition valQ (f : float) : Q :=
  match f with
  | S754_finite s m e => inject_Z (if s then Zneg m else Zpos m) * (2 # 1) ^ e
  | _ => 0
  end.
Definition nearest (f : float) (v : Q) : Prop :=
  finite f /\ forall g, finite g -> Qabs (valQ f - v) <= Qabs (valQ g - v).

(** ** What is assumed of [strconv.ParseFloat]: it gives a double nearest to the number,
    and of two, the same for all texts of that number. *)
Definition huge : Q := inject_Z (10 ^ 300).
Definition parsesDecimals (o : oracles) : Prop :=
  (forall x v, numberIs x v -> Qabs v <= huge -> exists f, o_parseFloat o x = (f, true) /\ nearest f v)
  /\ (forall x y v w f g, numberIs x v -> numberIs y w -> v == w -> Qabs v <= huge ->
      o_parseFloat o x = (f, true) -> o_parseFloat o y = (g, true) -> valQ f == valQ g).
