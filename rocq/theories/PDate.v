(** Proofs about dates: the calendar order, and the layouts the code recognises. *)
From Coq Require Import String.
From Verif Require Import Base MTokenizer MLit MFastVal SDate.
From Coq Require Import List NArith ZArith Arith Lia Bool.
Import ListNotations.
Open Scope nat_scope.

(** ** The order of instants is the order of the calendar *)
Lemma total_firstn : forall l i, i < length l -> total (firstn (S i) l) = total (firstn i l) + nth i l 0.
Proof.
  induction l as [|x l IH]; intros i Hi; cbn [length] in Hi; [lia|]. destruct i as [|i]; [cbn; lia|].
  change (x + total (firstn (S i) l) = x + total (firstn i l) + nth i l 0). rewrite IH; lia.
Qed.
Lemma total_mono : forall l i j, i <= j -> total (firstn i l) <= total (firstn j l).
Proof.
  induction l as [|x l IH]; intros i j Hij; [destruct i, j; cbn; lia|]. destruct i as [|i]; [cbn; lia|]. destruct j as [|j]; [lia|].
  cbn [firstn total fold_right]. specialize (IH i j ltac:(lia)). unfold total in IH. lia.
Qed.
Lemma month_before : forall y mo mo' d, 1 <= mo <= 12 -> mo < mo' -> 1 <= d <= daysIn y mo ->
  total (firstn (mo - 1) (monthDays y)) + (d - 1) < total (firstn (mo' - 1) (monthDays y)).
Proof.
  intros y mo mo' d Hm Hlt Hd. pose proof (total_firstn (monthDays y) (mo - 1)) as X. unfold daysIn in Hd.
  pose proof (total_mono (monthDays y) (S (mo - 1)) (mo' - 1) ltac:(lia)) as Y. rewrite X in Y; [lia|]. change (length (monthDays y)) with 12. lia.
Qed.
Lemma year_day : forall y mo d, 1 <= mo <= 12 -> 1 <= d <= daysIn y mo -> total (firstn (mo - 1) (monthDays y)) + (d - 1) < total (monthDays y).
Proof. intros y mo d Hm Hd. change (total (monthDays y)) with (total (firstn (13 - 1) (monthDays y))). apply month_before; lia. Qed.
Lemma years_before : forall y y', y < y' -> (daysBefore y + Z.of_nat (total (monthDays y)) <= daysBefore y')%Z.
Proof.
  intros y y' H. induction H as [|y' H IH]; [cbn [daysBefore]; lia|]. cbn [daysBefore]. lia.
Qed.
Lemma clock_bound : forall h mi s, h < 24 -> mi < 60 -> s < 60 -> (0 <= clockSeconds h mi s < 86400)%Z.
Proof. intros. unfold clockSeconds. lia. Qed.
Lemma lex_seconds : forall a b, validStamp a -> validStamp b -> earlier a b -> (seconds a Zulu < seconds b Zulu)%Z.
Proof.
  intros [y mo d h mi s] [y' mo' d' h' mi' s'] ((V1 & V2 & V3) & V4 & V5 & V6) ((V1' & V2' & V3') & V4' & V5' & V6') E.
  unfold seconds, earlier, fieldsOf, offset, dayNumber in *. cbn [st_y st_mo st_d st_h st_mi st_s] in *.
  pose proof (clock_bound h mi s V4 V5 V6) as B. pose proof (clock_bound h' mi' s' V4' V5' V6') as B'.
  pose proof (year_day y mo d V2 V3) as D.
  inversion E as [x x' l m HX|x l m HX]; subst; clear E.
  { pose proof (years_before y y' HX). lia. }
  inversion HX as [x x' l m HY|x l m HY]; subst; clear HX.
  { pose proof (month_before y' mo mo' d V2 HY V3). lia. }
  inversion HY as [x x' l m HX|x l m HX]; subst; clear HY; [lia|].
  unfold clockSeconds in *.
  inversion HX as [x x' l m HY|x l m HY]; subst; clear HX; [lia|].
  inversion HY as [x x' l m HX|x l m HX]; subst; clear HY; [lia|].
  inversion HX as [x x' l m HY|x l m HY]; subst; clear HX; [lia|]. inversion HY.
Qed.
Lemma lex_total : forall l m, length l = length m -> lexLt l m \/ l = m \/ lexLt m l.
Proof.
  induction l as [|x l IH]; intros [|y m] E; try discriminate; auto. injection E as E.
  destruct (Nat.lt_trichotomy x y) as [H|[-> |H]]; [left; now constructor| |right; right; now constructor].
  destruct (IH m E) as [H|[-> |H]]; auto; [left|right; right]; now constructor.
Qed.
Theorem earlier_seconds : forall a b, validStamp a -> validStamp b -> (earlier a b <-> (seconds a Zulu < seconds b Zulu)%Z).
Proof.
  intros a b Ha Hb. split; [now apply lex_seconds|]. intro H. destruct (lex_total (fieldsOf a) (fieldsOf b) eq_refl) as [E|[E|E]]; auto; exfalso.
  - destruct a as [y mo d h mi s], b as [y' mo' d' h' mi' s']. unfold fieldsOf in E. cbn [st_y st_mo st_d st_h st_mi st_s] in E. injection E as -> -> -> -> -> ->. lia.
  - pose proof (lex_seconds b a Hb Ha E). lia.
Qed.
Theorem earlier_instant : forall a b, validStamp a -> validStamp b -> (earlier a b <-> (instant a Zulu < instant b Zulu)%Z).
Proof. intros a b Ha Hb. rewrite earlier_seconds by auto. unfold instant. lia. Qed.
Theorem same_instant : forall a b, validStamp a -> validStamp b -> (a = b <-> instant a Zulu = instant b Zulu).
Proof.
  intros a b Ha Hb. split; [congruence|]. intro E. destruct (lex_total (fieldsOf a) (fieldsOf b) eq_refl) as [H|[H|H]].
  - apply (earlier_instant a b Ha Hb) in H. lia.
  - destruct a as [y mo d h mi s], b as [y' mo' d' h' mi' s']. unfold fieldsOf in H. cbn [st_y st_mo st_d st_h st_mi st_s] in H. now injection H as -> -> -> -> -> ->.
  - apply (earlier_instant b a Hb Ha) in H. lia.
Qed.

(** ** Digits *)
Lemma dig_ok : forall n, n < 10 -> dig (N.of_nat (48 + n)) = true.
Proof. intros n H. do 10 (destruct n as [|n]; [reflexivity|]). lia. Qed.
Lemma div10 : forall n, n < 100 -> n / 10 < 10.
Proof. intros n H. apply Nat.div_lt_upper_bound; lia. Qed.
Lemma mod10 : forall n, n mod 10 < 10.
Proof. intro n. apply Nat.mod_upper_bound. lia. Qed.
Lemma mod100 : forall n, n mod 100 < 100.
Proof. intro n. apply Nat.mod_upper_bound. lia. Qed.
Lemma year_ok : forall y, recent y -> exists a b c d, yyyy y = [a; b; c; d] /\ isYear a b c d = true.
Proof.
  intros y H. do 4 eexists. split; [reflexivity|]. unfold isYear. rewrite dig_ok by (apply div10, mod100). rewrite dig_ok by apply mod10.
  destruct H as [-> | ->]; reflexivity.
Qed.
Lemma month_ok : forall mo, 1 <= mo <= 12 -> exists a b, dd mo = [a; b] /\ isMonth a b = true.
Proof. intros mo H. do 2 eexists. split; [reflexivity|]. do 13 (destruct mo as [|mo]; [reflexivity||lia|]). lia. Qed.
Lemma day_ok : forall d, 1 <= d <= 31 -> exists a b, dd d = [a; b] /\ isDay a b = true.
Proof. intros d H. do 2 eexists. split; [reflexivity|]. do 32 (destruct d as [|d]; [reflexivity||lia|]). lia. Qed.
Lemma days_31 : forall y mo, daysIn y mo <= 31.
Proof.
  intros y mo. unfold daysIn, monthDays. destruct (mo - 1) as [|n]; [cbn; lia|]. do 11 (destruct n as [|n]; [cbn; destruct (leap y); lia|]).
  cbn. destruct n; lia.
Qed.
Lemma clock_ok : forall h mi s, h < 24 -> mi < 60 -> s < 60 -> isClock (clockText h mi s) = true.
Proof.
  intros h mi s Hh Hm Hs. unfold clockText, dd. cbn [app isClock].
  assert (forall n, n < 60 -> (48 <=? N.of_nat (48 + n / 10))%N = true /\ (N.of_nat (48 + n / 10) <=? 53)%N = true) as T.
  { intros n Hn. assert (n / 10 < 6) by (apply Nat.div_lt_upper_bound; lia). split; apply N.leb_le; lia. }
  destruct (T mi Hm) as [-> ->]. destruct (T s Hs) as [-> ->]. rewrite !dig_ok by apply mod10. cbn [N.eqb Pos.eqb]. rewrite !andb_true_r.
  do 24 (destruct h as [|h]; [reflexivity|]). lia.
Qed.

(** ** The layouts *)
Lemma iso_year_is : forall y, recent y -> iso8601Year (yyyy y) = true.
Proof. intros y H. destruct (year_ok y H) as (a & b & c & d & -> & E). exact E. Qed.
Lemma iso_month_is : forall y mo, recent y -> 1 <= mo <= 12 -> iso8601YearAndMonth (yyyy y ++ [45%N] ++ dd mo) = true.
Proof.
  intros y mo H Hm. destruct (year_ok y H) as (a & b & c & d & -> & E). destruct (month_ok mo Hm) as (e & f & -> & F).
  cbn [app iso8601YearAndMonth]. now rewrite E, F.
Qed.
Definition isSep (c : N) : Prop := In c [45; 32; 47; 46]%N.
Lemma sep_ok : forall c, isSep c -> sep c = true.
Proof. intros c [<-|[<-|[<-|[<-|[]]]]]; reflexivity. Qed.
Lemma iso_date_is : forall c1 c2 y mo d, isSep c1 -> isSep c2 -> recent y -> 1 <= mo <= 12 -> 1 <= d <= 31 -> iso8601CompleteDate (dateText c1 c2 y mo d) = true.
Proof.
  intros c1 c2 y mo d C1 C2 H Hm Hd. unfold dateText. destruct (year_ok y H) as (a & b & c & e & -> & E). destruct (month_ok mo Hm) as (f & g & -> & F).
  destruct (day_ok d Hd) as (i & j & -> & G). cbn [app iso8601CompleteDate]. rewrite E, F, G, !sep_ok by auto. reflexivity.
Qed.
Lemma drop_spaces : forall n h mi s, dropSpaces (repeat 32%N n ++ clockText h mi s) = clockText h mi s.
Proof.
  induction n as [|n IH]; intros; [|cbn; apply IH]. unfold clockText, dd. cbn [repeat app dropSpaces].
  destruct (N.of_nat (48 + h / 10)) as [|p] eqn:E; auto.
  assert (48 <= N.pos p)%N by lia. do 6 (destruct p as [p|p|]; auto). all: exfalso; lia.
Qed.
Lemma cb_is : forall c1 c2 y mo d n h mi s, isSep c1 -> isSep c2 -> recent y -> 1 <= mo <= 12 -> 1 <= d <= 31 -> h < 24 -> mi < 60 -> s < 60 ->
  cbSampleDate (dateText c1 c2 y mo d ++ repeat 32%N (S n) ++ clockText h mi s) = Some (dateText c1 c2 y mo d, clockText h mi s).
Proof.
  intros c1 c2 y mo d n h mi s C1 C2 H Hm Hd Hh Hi Hs. unfold cbSampleDate. change (dateText c1 c2 y mo d) with (dateText c1 c2 y mo d).
  assert (forall r, firstn 10 (dateText c1 c2 y mo d ++ r) = dateText c1 c2 y mo d /\ skipn 10 (dateText c1 c2 y mo d ++ r) = r) as X by (intro r; split; reflexivity).
  destruct (X (repeat 32%N (S n) ++ clockText h mi s)) as [-> ->]. cbn [repeat app]. rewrite iso_date_is by auto. rewrite drop_spaces, clock_ok by auto. reflexivity.
Qed.

(** A full time has none of the short layouts. *)
Lemma full_not : forall t z, let b := rfc3339 t z in iso8601Year b = false /\ iso8601YearAndMonth b = false /\ iso8601CompleteDate b = false /\ cbSampleDate b = None.
Proof. intros t z b. repeat split. Qed.
Lemma valid_day31 : forall y mo d, validDay y mo d -> 1 <= d <= 31.
Proof. intros y mo d (_ & _ & H). pose proof (days_31 y mo). lia. Qed.
Lemma recent_small : forall y, recent y -> (Z.of_nat y <= 9999)%Z.
Proof. intros y H. pose proof (Nat.div_mod y 100 ltac:(lia)) as E. pose proof (mod100 y). destruct H as [H|H]; rewrite H in E; lia. Qed.
Lemma first_valid : forall y mo, recent y -> 1 <= mo <= 12 -> validStamp (Stamp y mo 1 0 0 0).
Proof.
  intros y mo H Hm. repeat split; cbn; try lia; [now apply recent_small|]. unfold daysIn, monthDays.
  do 13 (destruct mo as [|mo]; [lia || (cbn; destruct (leap y); lia)|]). lia.
Qed.
Lemma iso_valid : forall b t z, isoText b t z -> validStamp t /\ validZone z.
Proof.
  intros b t z H. destruct H as [y R|y mo R M|y mo d R V|t z V Z].
  - split; [apply first_valid; auto; lia|exact I].
  - split; [now apply first_valid|exact I].
  - split; [|exact I]. repeat split; cbn; try lia; apply V.
  - auto.
Qed.
Lemma layout_valid : forall b t z, dateLayout b t z -> validStamp t /\ validZone z.
Proof. intros b t z [b' t' z' H|t' n R V]; [eapply iso_valid; eauto|split; [auto|exact I]]. Qed.

Lemma iso_rfc : forall b t z, isoText b t z -> isoToRfc b = rfc3339 t z.
Proof.
  intros b t z H. unfold isoToRfc. destruct H as [y R|y mo R M|y mo d R V|t z V Z].
  - now rewrite iso_year_is.
  - rewrite iso_month_is by auto. change (iso8601Year (yyyy y ++ [45%N] ++ dd mo)) with false. reflexivity.
  - pose proof (valid_day31 y mo d V). destruct V as (V1 & V2 & V3).
    rewrite iso_date_is by (assumption || now left). reflexivity.
  - destruct (full_not t z) as (-> & -> & -> & _). reflexivity.
Qed.
Lemma iso_parsed : forall o b t z, libraries o -> isoText b t z -> getNewTime o b = Some (instant t z).
Proof. intros o b t z (HP & _ & _) H. unfold getNewTime. rewrite (iso_rfc b t z H). destruct (iso_valid _ _ _ H). now apply HP. Qed.
Lemma layout_parsed : forall o b t z v, libraries o -> dateLayout b t z -> (v = VBinString b \/ v = VJsonString b) -> dateFunc o v = VTime (instant t z).
Proof.
  intros o b t z v HL H Hv.
  assert (dateFunc o v = match o_parseRFC3339 o (
        if iso8601Year b then b ++ s2b "-01-01T00:00:00Z"%string
        else if iso8601YearAndMonth b then b ++ s2b "-01T00:00:00Z"%string
        else if iso8601CompleteDate b then b ++ s2b "T00:00:00Z"%string
        else match cbSampleDate b with
             | Some (d, t) => d ++ s2b "T"%string ++ t ++ s2b "Z"%string
             | None => b
             end) with Some t => VTime t | None => VInvalid end) as -> by (destruct Hv as [-> | ->]; reflexivity).
  destruct (layout_valid _ _ _ H) as [V1 V2]. destruct HL as (HP & _ & _).
  destruct H as [b t z H|t n R V].
  - replace (if iso8601Year b then _ else _) with (rfc3339 t z); [now rewrite HP|]. rewrite <- (iso_rfc b t z H). unfold isoToRfc.
    destruct (iso8601Year b) eqn:E1, (iso8601YearAndMonth b) eqn:E2, (iso8601CompleteDate b) eqn:E3; auto. destruct H as [y R|y mo R M|y mo d R V|t z V Z].
    + rewrite iso_year_is in E1; [discriminate|auto].
    + rewrite iso_month_is in E2; [discriminate|auto|auto].
    + rewrite iso_date_is in E3; [discriminate|now left|now left|auto|apply V|eapply valid_day31; eauto].
    + now destruct (full_not t z) as (_ & _ & _ & ->).
  - destruct V as (VD & V6 & V7 & V8). pose proof (valid_day31 _ _ _ VD). destruct VD as (V3 & V4 & V5). rewrite cb_is by (assumption || now left).
    assert (iso8601CompleteDate (dateText 45 45 (st_y t) (st_mo t) (st_d t) ++ repeat 32%N (S n) ++ clockText (st_h t) (st_mi t) (st_s t)) = false) as E by reflexivity.
    rewrite E. change (iso8601Year (dateText 45 45 (st_y t) (st_mo t) (st_d t) ++ repeat 32%N (S n) ++ clockText (st_h t) (st_mi t) (st_s t))) with false.
    change (iso8601YearAndMonth (dateText 45 45 (st_y t) (st_mo t) (st_d t) ++ repeat 32%N (S n) ++ clockText (st_h t) (st_mi t) (st_s t))) with false.
    change (dateText 45 45 (st_y t) (st_mo t) (st_d t) ++ s2b "T"%string ++ clockText (st_h t) (st_mi t) (st_s t) ++ s2b "Z"%string) with (rfc3339 t Zulu).
    cbn iota. now rewrite HP.
Qed.

(** Other separators are recognised and then refused. *)
Lemma other_separator : forall o c1 c2 y mo d, libraries o -> isSep c1 -> isSep c2 -> recent y -> validDay y mo d -> (c1 <> 45%N \/ c2 <> 45%N) ->
  forall v, v = VBinString (dateText c1 c2 y mo d) \/ v = VJsonString (dateText c1 c2 y mo d) ->
  iso8601CompleteDate (dateText c1 c2 y mo d) = true /\ dateFunc o v = VInvalid.
Proof.
  intros o c1 c2 y mo d (_ & HN & _) C1 C2 R V HC v Hv. pose proof (valid_day31 _ _ _ V) as D. destruct V as (V1 & V2 & V3).
  assert (iso8601CompleteDate (dateText c1 c2 y mo d) = true) as E by now apply iso_date_is. split; auto.
  assert (dateFunc o v = match o_parseRFC3339 o (if iso8601CompleteDate (dateText c1 c2 y mo d) then dateText c1 c2 y mo d ++ s2b "T00:00:00Z"%string else dateText c1 c2 y mo d) with Some t => VTime t | None => VInvalid end) as ->.
  { rewrite E. unfold dateFunc. destruct Hv as [-> | ->]; cbv beta iota zeta; rewrite E; reflexivity. }
  rewrite E. destruct (o_parseRFC3339 o _) as [r|] eqn:P; auto. exfalso. apply HN in P as [P1 P2].
  unfold dateText, yyyy, dd in P1, P2. cbn [app nth_error] in P1, P2. injection P1 as ->. injection P2 as ->. destruct HC; contradiction.
Qed.

(** ** Texts of dates survive being quoted *)
Definition printable (b : bytes) : Prop := Forall (fun c => (32 <= c < 127)%N /\ c <> 34%N /\ c <> 92%N) b.
Lemma quote_print : forall o b, libraries o -> printable b -> quote o b = b.
Proof.
  intros o b (_ & _ & HP) H. unfold quote. induction H as [|c b (Hc & H1 & H2) H IH]; [reflexivity|]. cbn [length quoteBody].
  assert (decodeRune (c :: b) = (c, 1)) as ->.
  { unfold decodeRune. replace (c <? 128)%N with true by (symmetry; apply N.ltb_lt; lia). reflexivity. }
  replace (128 <=? c)%N with false by (symmetry; apply N.leb_gt; lia). cbn [andb skipn]. rewrite IH. unfold escapedRune.
  apply N.eqb_neq in H1, H2. rewrite H1, H2, HP by lia. cbn [orb]. unfold encodeRune.
  replace (c <=? 127)%N with true by (symmetry; apply N.leb_le; lia). reflexivity.
Qed.
Lemma print_app : forall a b, printable a -> printable b -> printable (a ++ b).
Proof. intros. now apply Forall_app. Qed.
Lemma print_char : forall n, n < 10 -> (32 <= N.of_nat (48 + n) < 127)%N /\ N.of_nat (48 + n) <> 34%N /\ N.of_nat (48 + n) <> 92%N.
Proof. intros n H. lia. Qed.
Lemma print_dd : forall n, n < 100 -> printable (dd n).
Proof. intros n H. apply Forall_cons; [apply print_char, div10; auto|]. apply Forall_cons; [apply print_char, mod10|constructor]. Qed.
Lemma print_one : forall c, (32 <= c < 127)%N -> c <> 34%N -> c <> 92%N -> printable [c].
Proof. intros. apply Forall_cons; auto. Qed.
Lemma print_year : forall y, (Z.of_nat y <= 9999)%Z -> printable (yyyy y).
Proof. intros y H. apply print_app; apply print_dd; [|apply mod100]. apply Nat.div_lt_upper_bound; lia. Qed.
Lemma print_date : forall y mo d, validDay y mo d -> printable (dateText 45 45 y mo d).
Proof.
  intros y mo d V. pose proof (valid_day31 _ _ _ V). destruct V as (V1 & V2 & V3). unfold dateText.
  apply print_app; [now apply print_year|]. apply print_app; [apply print_one; lia|]. apply print_app; [apply print_dd; lia|].
  apply print_app; [apply print_one; lia|apply print_dd; lia].
Qed.
Lemma print_clock : forall h mi s, h < 24 -> mi < 60 -> s < 60 -> printable (clockText h mi s).
Proof. intros. unfold clockText. repeat (apply print_app); try (apply print_dd; lia); apply print_one; lia. Qed.
Lemma print_layout : forall b t z, dateLayout b t z -> printable b.
Proof.
  assert (forall z, validZone z -> printable (zoneText z)) as PZ.
  { intros [|h m|h m] V; cbn [zoneText].
    - apply print_one; lia.
    - destruct V. change (printable ([43%N] ++ dd h ++ [58%N] ++ dd m)). repeat (apply print_app); try (apply print_one; lia); apply print_dd; lia.
    - destruct V. change (printable ([45%N] ++ dd h ++ [58%N] ++ dd m)). repeat (apply print_app); try (apply print_one; lia); apply print_dd; lia. }
  intros b t z [b' t' z' H|t' n R (V1 & V2 & V3 & V4)].
  - destruct H as [y R|y mo R M|y mo d R V|t2 z2 (V1 & V2 & V3 & V4) Z].
    + now apply print_year, recent_small.
    + apply print_app; [now apply print_year, recent_small|]. apply print_app; [apply print_one; lia|apply print_dd; lia].
    + now apply print_date.
    + unfold rfc3339. apply print_app; [now apply print_date|]. apply print_app; [apply print_one; lia|]. apply print_app; [now apply print_clock|auto].
  - apply print_app; [now apply print_date|]. apply print_app; [|now apply print_clock].
    apply Forall_forall. intros c Hc. apply repeat_spec in Hc. subst c. lia.
Qed.
