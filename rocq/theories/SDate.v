(** Specification: calendar dates and times of day, and how they are written
    (ISO 8601, RFC 3339), independent of the code. *)
From Verif Require Import Base MFastVal.
From Coq Require Import List NArith ZArith Arith Lia Bool.
Import ListNotations.
Open Scope nat_scope.

(** ** The calendar (Gregorian, as ISO 8601 uses it for all years) *)
Record stamp := Stamp { st_y : nat; st_mo : nat; st_d : nat; st_h : nat; st_mi : nat; st_s : nat }.

Definition leap (y : nat) : bool := (Nat.eqb (y mod 4) 0 && negb (Nat.eqb (y mod 100) 0)) || Nat.eqb (y mod 400) 0.
(** The days of a month, January first. *)
Definition monthDays (y : nat) : list nat := [31; if leap y then 29 else 28; 31; 30; 31; 30; 31; 31; 30; 31; 30; 31].
Definition daysIn (y mo : nat) : nat := nth (mo - 1) (monthDays y) 0.
Definition total (l : list nat) : nat := fold_right Nat.add 0 l.

Definition validDay (y mo d : nat) : Prop := (Z.of_nat y <= 9999)%Z /\ 1 <= mo <= 12 /\ 1 <= d <= daysIn y mo.
Definition validStamp (t : stamp) : Prop :=
  validDay (st_y t) (st_mo t) (st_d t) /\ st_h t < 24 /\ st_mi t < 60 /\ st_s t < 60.

(** Earlier: at the first difference of year, month, day, hour, minute, second. *)
Definition fieldsOf (t : stamp) : list nat := [st_y t; st_mo t; st_d t; st_h t; st_mi t; st_s t].
Inductive lexLt : list nat -> list nat -> Prop :=
| lex_here : forall x y l m, x < y -> lexLt (x :: l) (y :: m)
| lex_next : forall x l m, lexLt l m -> lexLt (x :: l) (x :: m).
Definition earlier (a b : stamp) : Prop := lexLt (fieldsOf a) (fieldsOf b).

(** ** Instants: seconds from the beginning of the year 0 *)
Fixpoint daysBefore (y : nat) : Z := match y with 0 => 0%Z | S x => (daysBefore x + Z.of_nat (total (monthDays x)))%Z end.
Definition dayNumber (y mo d : nat) : Z := (daysBefore y + Z.of_nat (total (firstn (mo - 1) (monthDays y))) + Z.of_nat (d - 1))%Z.
Definition clockSeconds (h mi s : nat) : Z := (Z.of_nat h * 3600 + Z.of_nat mi * 60 + Z.of_nat s)%Z.
(** East of Greenwich clocks are ahead: minutes to take off. *)
Inductive zone := Zulu | East (h m : nat) | West (h m : nat).
Definition validZone (z : zone) : Prop := match z with Zulu => True | East h m | West h m => h < 24 /\ m < 60 end.
Definition offset (z : zone) : Z :=
  match z with Zulu => 0%Z | East h m => (Z.of_nat h * 3600 + Z.of_nat m * 60)%Z | West h m => (- (Z.of_nat h * 3600 + Z.of_nat m * 60))%Z end.
Definition seconds (t : stamp) (z : zone) : Z :=
  (dayNumber (st_y t) (st_mo t) (st_d t) * 86400 + clockSeconds (st_h t) (st_mi t) (st_s t) - offset z)%Z.
(** Nanoseconds since 1970. *)
Definition instant (t : stamp) (z : zone) : Z := ((seconds t z - 62167219200) * 1000000000)%Z.

(** ** Writing *)
Definition dd (n : nat) : bytes := [N.of_nat (48 + n / 10); N.of_nat (48 + n mod 10)].
Definition yyyy (y : nat) : bytes := dd (y / 100) ++ dd (y mod 100).
(** [sep]: what stands between year, month and day. *)
Definition dateText (c1 c2 : N) (y mo d : nat) : bytes := yyyy y ++ [c1] ++ dd mo ++ [c2] ++ dd d.
Definition clockText (h mi s : nat) : bytes := dd h ++ [58%N] ++ dd mi ++ [58%N] ++ dd s.
Definition zoneText (z : zone) : bytes :=
  match z with Zulu => [90%N] | East h m => 43%N :: dd h ++ 58%N :: dd m | West h m => 45%N :: dd h ++ 58%N :: dd m end.
(** RFC 3339, without fractions of seconds. *)
Definition rfc3339 (t : stamp) (z : zone) : bytes :=
  dateText 45 45 (st_y t) (st_mo t) (st_d t) ++ [84%N] ++ clockText (st_h t) (st_mi t) (st_s t) ++ zoneText z.

(** A century the short layouts are for. *)
Definition recent (y : nat) : Prop := y / 100 = 19 \/ y / 100 = 20.

(** The layouts of a constant: a year, a month, a day, or a full RFC 3339 time. *)
Inductive isoText : bytes -> stamp -> zone -> Prop :=
| iso_year : forall y, recent y -> isoText (yyyy y) (Stamp y 1 1 0 0 0) Zulu
| iso_month : forall y mo, recent y -> 1 <= mo <= 12 -> isoText (yyyy y ++ [45%N] ++ dd mo) (Stamp y mo 1 0 0 0) Zulu
| iso_day : forall y mo d, recent y -> validDay y mo d -> isoText (dateText 45 45 y mo d) (Stamp y mo d 0 0 0) Zulu
| iso_full : forall t z, validStamp t -> validZone z -> isoText (rfc3339 t z) t z.
(** The layouts of DATE: also a day and a time of day, with spaces between. *)
Inductive dateLayout : bytes -> stamp -> zone -> Prop :=
| dl_iso : forall b t z, isoText b t z -> dateLayout b t z
| dl_clock : forall t n, recent (st_y t) -> validStamp t ->
    dateLayout (dateText 45 45 (st_y t) (st_mo t) (st_d t) ++ repeat 32%N (S n) ++ clockText (st_h t) (st_mi t) (st_s t)) t Zulu.

(** ** What is assumed of Go's libraries: [time.Parse] with the layout RFC 3339 reads
    what RFC 3339 says and nothing that has no dashes in the date; [strconv.IsPrint]
    holds on printable ASCII. *)
Definition libraries (o : oracles) : Prop :=
  (forall t z, validStamp t -> validZone z -> o_parseRFC3339 o (rfc3339 t z) = Some (instant t z))
  /\ (forall b r, o_parseRFC3339 o b = Some r -> nth_error b 4 = Some 45%N /\ nth_error b 7 = Some 45%N)
  /\ (forall c, (32 <= c < 127)%N -> o_isPrint o c = true).
