(** Dates are compared as dates (C69). *)
From Coq Require Import String.
From Verif Require Import Base MTokenizer SJson SUnicode SNames MLit MFastVal MExpr MTransform SFilter MMatcher MTree SDoc SSat SSem SDate
  PWf PCheck PDate SExamples TMatch TNames TText.
From Coq Require Import List NArith ZArith Arith Lia Bool.
Import ListNotations.
Open Scope nat_scope.

(** ** The order of instants is that of the calendar *)
Theorem C69_calendar : forall a b, validStamp a -> validStamp b ->
  (instant a Zulu < instant b Zulu <-> earlier a b)%Z /\ (instant a Zulu = instant b Zulu <-> a = b).
Proof. intros a b Ha Hb. split; symmetry; [now apply earlier_instant|now apply same_instant]. Qed.

(** ** What a filter says about dates *)
Definition ordered (k : cmpk) (x y : Z) : Prop :=
  match k with
  | CEq => x = y | CNe => x <> y | CLt => (x < y)%Z | CLe => (x <= y)%Z | CGt => (x > y)%Z | CGe => (x >= y)%Z
  | CLike => False
  end.
(** DATE of a field, DATE of a constant string, a time constant. *)
Definition dateFn (e : expr) : expr := XFunc (s2b "date"%string) [e].
Inductive dateOf (doc : cst) : expr -> stamp -> zone -> Prop :=
| do_field : forall p t x b st z, valueAt p doc (CLit t x) -> nameIs t x b -> dateLayout b st z -> dateOf doc (dateFn (XField 0 p)) st z
| do_text : forall s st z, dateLayout s st z -> dateOf doc (dateFn (XValue (GString s))) st z
| do_time : forall s st z, isoText s st z -> dateOf doc (XTime s) st z.

Lemma date_fun : funLookup (s2b "date"%string) funTable = Some (Fn1 (fun o v => Ok (plain (dateFunc o (fv v))))).
Proof. reflexivity. Qed.
Lemma field_val : forall o p doc t x b, wf_cst doc -> named doc -> valueAt p doc (CLit t x) -> nameIs t x b ->
  at_ p doc = Some (CLit t x) /\ oval o doc doc (XField 0 p) = Ok (plain (VBinString b)).
Proof.
  intros o p doc t x b WD HN HV HX. apply C19_paths in HV; auto. split; auto. cbn [oval]. unfold fieldAt. cbn [Nat.eqb]. rewrite HV. now apply lit_name.
Qed.
Lemma date_val : forall o doc e st z, libraries o -> wf_cst doc -> named doc -> dateOf doc e st z ->
  allPresent doc doc e = true /\ exists u, oval o doc doc e = Ok (FV (VTime (instant st z)) u).
Proof.
  intros o doc e st z HL WD HN H. destruct H as [p t x b st z HV HX HD|s st z HD|s st z HI].
  - destruct (field_val o p doc t x b WD HN HV HX) as [EA EV]. split.
    + unfold allPresent, dateFn. cbn [frefs flat_map app forallb]. unfold present, fieldAt. cbn [fst snd Nat.eqb]. now rewrite EA.
    + exists false. change (oval o doc doc (dateFn (XField 0 p))) with (do v <- oval o doc doc (XField 0 p); Ok (plain (dateFunc o (fv v)))).
      rewrite EV. cbn [obind]. unfold plain at 2. cbn [fv]. rewrite (layout_parsed o b st z); auto.
  - split; [reflexivity|]. exists false.
    change (oval o doc doc (dateFn (XValue (GString s)))) with (Ok (plain (dateFunc o (VJsonString (quote o s))))).
    rewrite quote_print; [|auto|eapply print_layout; eauto]. rewrite (layout_parsed o s st z); auto.
  - split; [reflexivity|]. exists true. cbn [oval constRef]. now rewrite (iso_parsed o s st z).
Qed.

Lemma time_compare : forall o x y u v, compare o (FV (VTime x) u) (FV (VTime y) v) = (cmpZ x y, true).
Proof.
  assert (forall x y, (- cmpZ y x = cmpZ x y)%Z) as R.
  { intros x y. unfold cmpZ. destruct (Z.ltb_spec x y), (Z.ltb_spec y x); try lia; reflexivity. }
  intros o x y [|] [|]; unfold compare, compareUserDefined, reverseCompare, compareInternal, compareTime; cbn; now rewrite ?R.
Qed.
Lemma time_holds : forall o k x y u v, k <> CLike -> (cmpHolds o k (FV (VTime x) u) (FV (VTime y) v) = true <-> ordered k x y).
Proof.
  intros o k x y u v Hk. destruct k; try contradiction; unfold cmpHolds, equals; rewrite ?time_compare; cbn [fst andb ordered];
    unfold cmpZ; destruct (Z.ltb_spec x y), (Z.ltb_spec y x); try lia; cbn; split; intro X; try lia; try discriminate; try reflexivity.
Qed.

Lemma one_answer : forall o e txt b f, answers o [e] txt b f -> f e = b -> answers o [e] txt b (fun _ => b).
Proof.
  intros o e txt b f (D & ED & X) E. exists D. split; auto. intros st Hst. destruct (X st Hst) as (f0 & Y). exists f0. intros fuel Hf.
  destruct (Y fuel Hf) as (s' & E' & Z). exists s'. split; auto. intros i e' He Hn. rewrite (Z i e' He Hn).
  destruct i as [|i]; [injection He as <-; now rewrite E|destruct i; discriminate He].
Qed.
Lemma cmp_answer : forall o k l r x y w1 doc w2 (P : Prop), k <> CLike -> supported o [XCmp k l r] -> ws w1 -> wf_cst doc -> ws w2 -> benign [XCmp k l r] doc ->
  allPresent doc doc l = true -> allPresent doc doc r = true -> oval o doc doc l = Ok x -> oval o doc doc r = Ok y -> (cmpHolds o k x y = true <-> P) ->
  exists res, answers o [XCmp k l r] (doc_text w1 doc w2) res (fun _ => res) /\ (res = true <-> P).
Proof.
  intros o k l r x y w1 doc w2 P Hk HS W1 WD W2 HB P1 P2 E1 E2 HP. exists (truth o doc doc (XCmp k l r)). split.
  - pose proof (match_truth o _ w1 doc w2 HS W1 WD W2 HB) as X. cbn [existsb] in X. rewrite orb_false_r in X. eapply one_answer; eauto.
  - rewrite <- HP. destruct k; try contradiction; cbn [truth]; unfold cmpTruth; rewrite P1, P2, E1, E2; cbn [andb]; reflexivity.
Qed.

(** ** Dates in documents and filters compare chronologically *)
Theorem C69_order : forall o k l r a za b zb w1 doc w2, libraries o -> k <> CLike ->
  supported o [XCmp k l r] -> ws w1 -> wf_cst doc -> ws w2 -> named doc -> benign [XCmp k l r] doc ->
  dateOf doc l a za -> dateOf doc r b zb ->
  exists res, answers o [XCmp k l r] (doc_text w1 doc w2) res (fun _ => res) /\ (res = true <-> ordered k (instant a za) (instant b zb)).
Proof.
  intros o k l r a za b zb w1 doc w2 HL Hk HS W1 WD W2 HN HB Ha Hb.
  destruct (date_val o doc l a za HL WD HN Ha) as (P1 & u & E1). destruct (date_val o doc r b zb HL WD HN Hb) as (P2 & v & E2).
  eapply cmp_answer; eauto. now apply time_holds.
Qed.
(** In Greenwich time: by the calendar. *)
Theorem C69_before : forall o l r a b w1 doc w2, libraries o ->
  supported o [XCmp CLt l r] -> ws w1 -> wf_cst doc -> ws w2 -> named doc -> benign [XCmp CLt l r] doc ->
  dateOf doc l a Zulu -> dateOf doc r b Zulu ->
  exists res, answers o [XCmp CLt l r] (doc_text w1 doc w2) res (fun _ => res) /\ (res = true <-> earlier a b).
Proof.
  intros o l r a b w1 doc w2 HL HS W1 WD W2 HN HB Ha Hb. destruct (C69_order o CLt l r a Zulu b Zulu w1 doc w2) as (res & X & Y); auto; [discriminate|].
  exists res. split; auto. rewrite Y. cbn [ordered].
  assert (forall e t, dateOf doc e t Zulu -> validStamp t) as V by (intros e t H; inversion H; subst; [eapply layout_valid|eapply layout_valid|eapply iso_valid]; eauto).
  apply C69_calendar; eauto.
Qed.
(** A string that is a date compares as a date with a time constant, on either side. *)
Theorem C69_string : forall swap o k p t x b st z s st' z' w1 doc w2, let l := if swap : bool then XTime s else XField 0 p in let r := if swap then XField 0 p else XTime s in
  libraries o -> k <> CLike ->
  supported o [XCmp k l r] -> ws w1 -> wf_cst doc -> ws w2 -> named doc -> benign [XCmp k l r] doc ->
  valueAt p doc (CLit t x) -> nameIs t x b -> isoText b st z -> isoText s st' z' ->
  exists res, answers o [XCmp k l r] (doc_text w1 doc w2) res (fun _ => res)
    /\ (res = true <-> if swap then ordered k (instant st' z') (instant st z) else ordered k (instant st z) (instant st' z')).
Proof.
  intros swap o k p t x b st z s st' z' w1 doc w2 l r HL Hk HS W1 WD W2 HN HB HV HX HI HI'.
  destruct (field_val o p doc t x b WD HN HV HX) as [EA EV].
  assert (allPresent doc doc (XField 0 p) = true) as P1.
  { unfold allPresent. cbn [frefs forallb]. unfold present, fieldAt. cbn [fst snd Nat.eqb]. now rewrite EA. }
  assert (oval o doc doc (XTime s) = Ok (FV (VTime (instant st' z')) true)) as ET by (cbn [oval constRef]; now rewrite (iso_parsed o s st' z')).
  assert (asTime o (VBinString b) = Some (instant st z)) as EB by exact (iso_parsed o b st z HL HI).
  assert (checkCompatibility o (VTime (instant st' z')) (VBinString b) = true) as EC.
  { unfold checkCompatibility. cbn [isSameDataTypeAs vtype_eqb dataType isString orb andb isNull implicitConv]. now rewrite EB. }
  assert (compare o (FV (VTime (instant st' z')) true) (plain (VBinString b)) = compare o (FV (VTime (instant st' z')) true) (FV (VTime (instant st z)) false)) as C1.
  { unfold compare, compareUserDefined, plain. cbn [userDefined orb fv isNumeric andb]. rewrite EC. unfold compareInternal, compareTime. cbn [fv]. rewrite EB. reflexivity. }
  assert (compare o (plain (VBinString b)) (FV (VTime (instant st' z')) true) = compare o (FV (VTime (instant st z)) false) (FV (VTime (instant st' z')) true)) as C2.
  { unfold compare, compareUserDefined, plain. cbn [userDefined orb fv isNumeric andb]. rewrite EC. unfold reverseCompare, compareInternal, compareTime. cbn [fv]. rewrite EB. reflexivity. }
  destruct swap; subst l r; eapply cmp_answer; eauto.
  - rewrite <- (time_holds o k _ _ true false Hk). unfold cmpHolds, equals. rewrite C1. destruct k; reflexivity || contradiction.
  - rewrite <- (time_holds o k _ _ false true Hk). unfold cmpHolds, equals. rewrite C2. destruct k; reflexivity || contradiction.
Qed.

(** ** Where it is not so: dates written with spaces, slashes or dots between year,
    month and day.  The code recognises them as dates, but then cannot read them, and
    takes them for earlier than every date. *)
Theorem C69_separators : forall o p q t x c1 c2 y mo d b zb w1 doc w2, libraries o ->
  isSep c1 -> isSep c2 -> (c1 <> 45 \/ c2 <> 45)%N -> recent y -> validDay y mo d ->
  let e := XCmp CLt (dateFn (XField 0 p)) q in
  supported o [e] -> ws w1 -> wf_cst doc -> ws w2 -> named doc -> benign [e] doc ->
  valueAt p doc (CLit t x) -> nameIs t x (dateText c1 c2 y mo d) -> dateOf doc q b zb ->
  answers o [e] (doc_text w1 doc w2) true (fun _ => true).
Proof.
  intros o p q t x c1 c2 y mo d b zb w1 doc w2 HL C1 C2 HC R V e HS W1 WD W2 HN HB HV HX Hq.
  destruct (field_val o p doc t x _ WD HN HV HX) as [EA EV]. destruct (date_val o doc q b zb HL WD HN Hq) as (P2 & u & E2).
  destruct (cmp_answer o CLt (dateFn (XField 0 p)) q (plain VInvalid) (FV (VTime (instant b zb)) u) w1 doc w2 True) as (res & X & Y); auto; try discriminate.
  - unfold allPresent, dateFn. cbn [frefs flat_map app forallb]. unfold present, fieldAt. cbn [fst snd Nat.eqb]. now rewrite EA.
  - change (oval o doc doc (dateFn (XField 0 p))) with (do v <- oval o doc doc (XField 0 p); Ok (plain (dateFunc o (fv v)))).
    rewrite EV. cbn [obind]. unfold plain at 2. cbn [fv]. destruct (other_separator o c1 c2 y mo d HL C1 C2 R V HC (VBinString (dateText c1 c2 y mo d))) as [_ ->]; auto.
  - split; auto. intros _. destruct u; reflexivity.
  - destruct Y as [_ Y]. now rewrite (Y I) in X.
Qed.

(** ** Cases *)
(** A reader of RFC 3339 as [libraries] wants it. *)
Definition num2 (a b : N) : nat := (N.to_nat a - 48) * 10 + (N.to_nat b - 48).
Definition readRfc (b : bytes) : option Z :=
  match b with
  | y1 :: y2 :: y3 :: y4 :: c1 :: m1 :: m2 :: c2 :: d1 :: d2 :: _ :: h1 :: h2 :: _ :: i1 :: i2 :: _ :: n1 :: n2 :: zt =>
      if ((c1 =? 45) && (c2 =? 45))%N then
        let t := Stamp (num2 y1 y2 * 100 + num2 y3 y4) (num2 m1 m2) (num2 d1 d2) (num2 h1 h2) (num2 i1 i2) (num2 n1 n2) in
        match zt with
        | [z] => Some (instant t Zulu)
        | [g; a; b; _; c; d] => Some (instant t (if (g =? 43)%N then East (num2 a b) (num2 c d) else West (num2 a b) (num2 c d)))
        | _ => None
        end
      else None
  | _ => None
  end.
Definition dateOracle : oracles :=
  {| o_parseFloat := o_parseFloat noOracle; o_fmtE := o_fmtE noOracle; o_isPrint := fun c => (32 <=? c)%N; o_delX := true; o_parseRFC3339 := readRfc;
     o_f2i := o_f2i noOracle; o_f2u := o_f2u noOracle; o_fun1 := o_fun1 noOracle; o_fun2 := o_fun2 noOracle; o_regex := o_regex noOracle; o_pcre := o_pcre noOracle;
     o_regexCompiles := o_regexCompiles noOracle; o_pcreCompiles := o_pcreCompiles noOracle |}.
Lemma num2_ok : forall n, n < 100 -> num2 (N.of_nat (48 + n / 10)) (N.of_nat (48 + n mod 10)) = n.
Proof. intros n H. unfold num2. rewrite !Nat2N.id. pose proof (Nat.div_mod n 10 ltac:(discriminate)). lia. Qed.
Lemma year_num : forall y, (Z.of_nat y <= 9999)%Z -> y / 100 < 100.
Proof. intros y H. apply Nat.div_lt_upper_bound; [discriminate|]. lia. Qed.
Theorem C69_libraries : libraries dateOracle.
Proof.
  split; [|split].
  - intros [y mo d h mi s] z ((V1 & V2 & V3) & V4 & V5 & V6) VZ. cbn [st_y st_mo st_d st_h st_mi st_s] in *.
    assert (d <= 31) as Hd by (pose proof (days_31 y mo); lia).
    cbn [dateOracle o_parseRFC3339]. unfold rfc3339, dateText, clockText, yyyy, dd. cbn [app st_y st_mo st_d st_h st_mi st_s].
    unfold readRfc. cbn [N.eqb Pos.eqb andb]. rewrite !num2_ok by (try apply year_num; try (pose proof (mod100 y)); auto; lia).
    rewrite (Nat.mul_comm (y / 100) 100), <- (Nat.div_mod y 100) by discriminate.
    destruct z as [|zh zm|zh zm]; unfold zoneText, dd; cbn [app]; cbn [N.eqb Pos.eqb]; rewrite ?num2_ok by (destruct VZ; lia); reflexivity.
  - intros b r H. cbn [dateOracle o_parseRFC3339] in H. unfold readRfc in H.
    do 19 (destruct b as [|? b]; [discriminate H|]).
    destruct ((n3 =? 45) && (n6 =? 45))%N eqn:E; [|discriminate]. apply andb_prop in E. destruct E as [E1 E2]. apply N.eqb_eq in E1, E2. subst. now split.
  - intros c Hc. apply N.leb_le. lia.
Qed.

(** The epoch, and a day not far from a leap day. *)
Example C69_epoch : instant (Stamp 1970 1 1 0 0 0) Zulu = 0%Z /\ instant (Stamp 2000 3 1 0 0 0) Zulu = 951868800000000000%Z.
Proof. split; vm_compute; reflexivity. Qed.
Example C69_leap : earlier (Stamp 2000 2 29 23 59 59) (Stamp 2000 3 1 0 0 0) /\ validDay 2000 2 29 /\ ~ validDay 1900 2 29.
Proof.
  split; [apply lex_next, lex_here; cbn; lia|]. split; [split; [lia|split; [lia|change (daysIn 2000 2) with 29; lia]]|].
  intros (_ & _ & _ & H). change (daysIn 1900 2) with 28 in H. lia.
Qed.

(** [DATE(a) < DATE("2020-02")] and [a >= "2020-02-29"] with a time constant, on a field
    that is a day and a time of day, and on one that is a full time east of Greenwich. *)
Definition aF : expr := XField 0 [s2b "a"%string].
Definition day (s : string) : expr := dateFn (XValue (GString (s2b s))).
Definition exLt (s : string) : expr := XCmp CLt (dateFn aF) (day s).
Definition exGe : expr := XCmp CGe aF (XTime (s2b "2020-02-29"%string)).
Definition docA (s : string) : cst := obj [("a"%string, str s)].
Lemma docA_ok : forall s x, str s = CLit TString (34 :: x ++ [34])%N -> wfb (docA s) = true ->
  wf_cst (docA s) /\ named (docA s) /\ valueAt [s2b "a"%string] (docA s) (CLit TString (34 :: x ++ [34])%N).
Proof.
  intros s x E W. split; [now apply wfb_ok|]. unfold docA, obj. cbn [map]. rewrite E. split.
  - constructor.
    + intros m [<-|[]]. exists (s2b "a"%string). exact (ni_plain (s2b "a"%string)).
    + intros [|i] [|j] m m' k Hi Hj A B; auto; try (destruct i; discriminate Hi); destruct j; discriminate Hj.
    + intros m [<-|[]]. constructor.
  - econstructor; [|constructor]. apply (ch_mem _ _ (mb "a"%string (CLit TString (34 :: x ++ [34])%N))); [now left|exact (ni_plain (s2b "a"%string))].
Qed.
Definition tA : stamp := Stamp 2020 1 31 10 20 30.
Example C69_order_case : let doc := docA "2020-01-31 10:20:30" in forall o, libraries o ->
  supported o [exLt "2020-02"] /\ benign [exLt "2020-02"] doc /\ wf_cst doc /\ named doc
  /\ dateOf doc (dateFn aF) tA Zulu /\ dateOf doc (day "2020-02") (Stamp 2020 2 1 0 0 0) Zulu
  /\ earlier tA (Stamp 2020 2 1 0 0 0).
Proof.
  intros doc o HL. destruct (docA_ok "2020-01-31 10:20:30" (s2b "2020-01-31 10:20:30"%string)) as (W & N & V); [reflexivity|vm_compute; reflexivity|].
  split; [apply supportedb_ok; vm_compute; reflexivity|]. split; [apply benignb_ok; vm_compute; reflexivity|]. split; [exact W|]. split; [exact N|].
  split; [|split; [|apply lex_next, lex_here; cbn; lia]].
  - econstructor; [exact V|apply ni_plain|]. apply (dl_clock tA 0); [now right|].
    repeat split; cbn; lia.
  - constructor. apply dl_iso. apply (iso_month 2020 2); [now right|lia].
Qed.
Example C69_string_case : let doc := docA "2020-02-29T01:30:00+02:00" in let o := dateOracle in libraries o /\
  supported o [exGe] /\ benign [exGe] doc /\ wf_cst doc /\ named doc
  /\ isoText (s2b "2020-02-29T01:30:00+02:00"%string) (Stamp 2020 2 29 1 30 0) (East 2 0)
  /\ isoText (s2b "2020-02-29"%string) (Stamp 2020 2 29 0 0 0) Zulu
  /\ ~ ordered CGe (instant (Stamp 2020 2 29 1 30 0) (East 2 0)) (instant (Stamp 2020 2 29 0 0 0) Zulu).
Proof.
  intros doc o. split; [exact C69_libraries|]. destruct (docA_ok "2020-02-29T01:30:00+02:00" (s2b "2020-02-29T01:30:00+02:00"%string)) as (W & N & V); [reflexivity|vm_compute; reflexivity|].
  split; [apply supportedb_ok; vm_compute; reflexivity|]. split; [apply benignb_ok; vm_compute; reflexivity|]. split; [exact W|]. split; [exact N|].
  split; [|split].
  - apply (iso_full (Stamp 2020 2 29 1 30 0) (East 2 0)); repeat split; cbn; lia.
  - apply (iso_day 2020 2 29); [now right|]. repeat split; cbn; lia.
  - vm_compute. intro H. now apply H.
Qed.
(** In the model, with the reader above. *)
Example C69_runs : run dateOracle [exLt "2020-02"] "{""a"":""2020-01-31 10:20:30""}" = Ok (Some true)
  /\ run dateOracle [exLt "2020-01"] "{""a"":""2020-01-31 10:20:30""}" = Ok (Some false)
  /\ run dateOracle [exGe] "{""a"":""2020-02-29T01:30:00+02:00""}" = Ok (Some false)
  /\ run dateOracle [exGe] "{""a"":""2020-02-29T01:30:00-02:00""}" = Ok (Some true).
Proof. repeat split; vm_compute; reflexivity. Qed.

(** 2020/05/06 passes for earlier than 1999-01-01. *)
Theorem C69_separators_refuted :
  let doc := docA "2020/05/06" in let e := exLt "1999-01-01" in
  exists o, libraries o /\ supported o [e] /\ wf_cst doc /\ named doc /\ benign [e] doc
  /\ valueAt [s2b "a"%string] doc (CLit TString (34 :: dateText 47 47 2020 5 6 ++ [34])%N) /\ validDay 2020 5 6
  /\ dateOf doc (day "1999-01-01") (Stamp 1999 1 1 0 0 0) Zulu /\ ~ earlier (Stamp 2020 5 6 0 0 0) (Stamp 1999 1 1 0 0 0)
  /\ answers o [e] (doc_text [] doc []) true (fun _ => true).
Proof.
  intros doc e. exists dateOracle. destruct (docA_ok "2020/05/06" (dateText 47 47 2020 5 6)) as (W & N & V); [vm_compute; reflexivity|vm_compute; reflexivity|].
  assert (supported dateOracle [e]) as S by (apply supportedb_ok; vm_compute; reflexivity).
  assert (benign [e] doc) as B by (apply benignb_ok; vm_compute; reflexivity).
  assert (validDay 2020 5 6) as VD by (repeat split; cbn; lia).
  assert (dateOf doc (day "1999-01-01") (Stamp 1999 1 1 0 0 0) Zulu) as Q.
  { constructor. apply dl_iso. apply (iso_day 1999 1 1); [now left|]. repeat split; cbn; lia. }
  repeat (match goal with |- _ /\ _ => split end); auto; try exact C69_libraries.
  - unfold earlier, fieldsOf. cbn [st_y]. intro H. inversion H; subst; lia.
  - eapply (C69_separators dateOracle _ _ _ _ 47%N 47%N 2020 5 6); try exact V; try exact Q; auto using C69_libraries; try (apply wsb_ok; reflexivity); try (now left); try now right; try apply ni_plain; try (unfold isSep; cbn; tauto); left; discriminate.
Qed.

Print Assumptions C69_calendar.
Print Assumptions C69_order.
Print Assumptions C69_before.
Print Assumptions C69_string.
Print Assumptions C69_separators.
Print Assumptions C69_separators_refuted.
Print Assumptions C69_libraries.
