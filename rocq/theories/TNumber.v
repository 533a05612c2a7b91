(** Numbers are compared by value (C70). *)
From Coq Require Import String.
From Verif Require Import Base MTokenizer SJson SUnicode SNames MLit PLit MFastVal MExpr MTransform SFilter MMatcher MTree SDoc SSat SSem SNumber
  PWf PCheck PNumber SExamples TFastVal TMatch TNames TText TDate.
From Coq Require Import List NArith ZArith QArith Qabs Qpower Lia Lqa Bool.
From Coq Require Import Floats.SpecFloat.
Import ListNotations.
Open Scope Q_scope.

(** ** What a filter says about numbers *)
Definition orderedQ (k : cmpk) (v w : Q) : Prop :=
  match k with
  | CEq => v == w | CNe => ~ v == w | CLt => v < w | CLe => v <= w | CGt => w < v | CGe => w <= v
  | CLike => False
  end.
(** Numbers of the document, and constants. *)
Definition exactInt (z : Z) : Prop := (- 2 ^ 53 < z < 2 ^ 53)%Z.
Inductive numberOf (doc : cst) : expr -> Q -> Prop :=
| no_integer : forall p x, valueAt p doc (CLit TInteger x) -> int_part x -> exactInt (int_val x) -> numberOf doc (XField 0 p) (inject_Z (int_val x))
| no_decimal : forall p x v, valueAt p doc (CLit TNumber x) -> numberIs x v -> Qabs v <= huge -> numberOf doc (XField 0 p) v
| no_int : forall z, exactInt z -> numberOf doc (XValue (GInt z)) (inject_Z z)
| no_float : forall f, finite f -> numberOf doc (XValue (GFloat f)) (valQ f).

(** What the code takes for a number: an integer, or a double near it. *)
Inductive held (o : oracles) : fval -> Q -> Prop :=
| h_int : forall z, exactInt z -> held o (VInt z) (inject_Z z)
| h_const : forall f, finite f -> held o (VFloat f) (valQ f)
| h_read : forall x v f, numberIs x v -> Qabs v <= huge -> o_parseFloat o x = (f, true) -> nearest f v -> held o (VFloat f) v.
Lemma lit_field : forall p doc t x o r, wf_cst doc -> named doc -> valueAt p doc (CLit t x) -> valOf o (CLit t x) = Ok r ->
  allPresent doc doc (XField 0 p) = true /\ oval o doc doc (XField 0 p) = Ok r.
Proof.
  intros p doc t x o r WD HN HV HX. apply C19_paths in HV; auto. unfold allPresent. cbn [frefs forallb oval]. unfold present, fieldAt. cbn [fst snd Nat.eqb]. now rewrite HV.
Qed.
Lemma number_val : forall o doc e v, parsesDecimals o -> wf_cst doc -> named doc -> numberOf doc e v ->
  allPresent doc doc e = true /\ exists x u, oval o doc doc e = Ok (FV x u) /\ held o x v.
Proof.
  intros o doc e v [HP _] WD HN H. destruct H as [p x HV HI HE|p x v HV HX HS|z HE|f HF].
  - assert (parseInt x = int_val x) as E by (apply parseInt_exact; auto; unfold in_int64, exactInt in *; lia).
    destruct (lit_field p doc TInteger x o (plain (VInt (int_val x))) WD HN HV) as [P V]; [cbn [valOf parseLit]; now rewrite E|].
    split; auto. exists (VInt (int_val x)), false. split; auto. now constructor.
  - destruct (HP x v HX HS) as (f & E & N).
    destruct (lit_field p doc TNumber x o (plain (VFloat f)) WD HN HV) as [P V]; [cbn [valOf parseLit]; now rewrite E|].
    split; auto. exists (VFloat f), false. split; auto. econstructor; eauto.
  - split; [reflexivity|]. exists (VInt z), true. split; [reflexivity|now constructor].
  - split; [reflexivity|]. exists (VFloat f), true. split; [reflexivity|now constructor].
Qed.
Lemma held_float : forall o x v, held o x v -> exists f, asFloat o x = (f, true) /\ finite f /\ nearest f v.
Proof.
  intros o x v [z Hz|f F|t w f HX HS E N].
  - exists (Z2f z). destruct (Z2f_exact z Hz) as [F V]. split; [reflexivity|]. split; auto. eapply nearest_eqv; [exact V|]. now apply nearest_self.
  - exists f. split; [reflexivity|]. split; auto. now apply nearest_self.
  - exists f. split; [reflexivity|]. split; auto. apply N.
Qed.
Lemma held_same : forall o x y v w f g, parsesDecimals o -> held o x v -> held o y w -> v == w -> asFloat o x = (f, true) -> asFloat o y = (g, true) -> valQ f == valQ g.
Proof.
  intros o x y v w f g [_ HP] Hx Hy E Ef Eg.
  assert (forall x v f, held o x v -> asFloat o x = (f, true) -> finite f /\ nearest f v /\
    (valQ f == v \/ exists t, numberIs t v /\ Qabs v <= huge /\ o_parseFloat o t = (f, true))) as K.
  { clear. intros x v f [z Hz|f' F|t w f' HX HS E N] X; injection X as <-.
    - destruct (Z2f_exact z Hz) as [F V]. split; auto. split; auto. eapply nearest_eqv; [exact V|]. now apply nearest_self.
    - split; auto. split; [now apply nearest_self|]. left. reflexivity.
    - split; [apply N|]. split; auto. right. exists t. auto. }
  destruct (K x v f Hx Ef) as (F & N & [A|(t & HX & HS & HE)]), (K y w g Hy Eg) as (G & M & [B|(t' & HX' & HS' & HE')]).
  - lra.
  - pose proof (nearest_exact g w f M F ltac:(lra)). lra.
  - pose proof (nearest_exact f v g N G ltac:(lra)). lra.
  - eauto.
Qed.

Lemma sgnQ_lt : forall v w, v < w -> sgnQ v w = (-1)%Z /\ sgnQ w v = 1%Z.
Proof. intros v w H. unfold sgnQ. assert (v ?= w = Lt) as E by now apply Qlt_alt. rewrite E. rewrite <- Qcompare_antisym, E. split; reflexivity. Qed.
Lemma sgnQ_eq : forall v w, v == w -> sgnQ v w = 0%Z.
Proof. intros v w H. unfold sgnQ. apply Qeq_alt in H. now rewrite H. Qed.
Lemma sgnQ_swap : forall v w, sgnQ v w = (- sgnQ w v)%Z.
Proof. intros v w. unfold sgnQ. rewrite <- (Qcompare_antisym v w). destruct (v ?= w); reflexivity. Qed.
Lemma sgnQ_cases : forall v w, (v < w /\ sgnQ v w = (-1)%Z) \/ (v == w /\ sgnQ v w = 0%Z) \/ (w < v /\ sgnQ v w = 1%Z).
Proof.
  intros v w. destruct (Q_dec v w) as [[H|H]|H].
  - left. split; auto. now apply sgnQ_lt.
  - right. right. split; auto. now apply (sgnQ_lt w v).
  - right. left. split; auto. now apply sgnQ_eq.
Qed.

(** Compared by doubles unless both are integers. *)
Lemma mixed_compare : forall o x y v w u u', held o x v -> held o y w ->
  (exists a b, x = VInt a /\ y = VInt b) \/ compare o (FV x u) (FV y u') = compareFloat o x y
  \/ compare o (FV x u) (FV y u') = (let '(r, ok) := compareFloat o y x in (- r, ok)%Z).
Proof.
  intros o x y v w u u' Hx Hy.
  destruct Hx, Hy; try (left; eexists; eexists; split; reflexivity); right; destruct u, u'; (left; reflexivity) || (right; reflexivity).
Qed.
Lemma number_compare : forall o x y v w u u', parsesDecimals o -> held o x v -> held o y w ->
  exists r, compare o (FV x u) (FV y u') = (r, true) /\ (r = sgnQ v w \/ r = 0%Z)
    /\ (Qabs v <= billion -> Qabs w <= billion -> 3 # 10000000 <= Qabs (v - w) -> r = sgnQ v w).
Proof.
  intros o x y v w u u' HP Hx Hy. destruct (mixed_compare o x y v w u u' Hx Hy) as [(a & b & -> & ->)|HC].
  - rewrite C33_signed. exists (sgn a b). split; auto. inversion Hx; subst. inversion Hy; subst.
    assert (sgn a b = sgnQ (inject_Z a) (inject_Z b)) as ->; [|split; auto].
    unfold sgn, sgnQ, Qcompare. cbn [Qnum Qden inject_Z]. now rewrite !Z.mul_1_r.
  - destruct (held_float o x v Hx) as (f & Ef & F & N). destruct (held_float o y w Hy) as (g & Eg & G & M).
    assert (exists r, compare o (FV x u) (FV y u') = (r, true) /\ (r = sgnQ (valQ f) (valQ g) \/ r = 0%Z)
      /\ (epsQ <= Qabs (valQ f - valQ g) -> r = sgnQ (valQ f) (valQ g))) as (r & E & A & B).
    { destruct HC as [-> | ->]; [now apply floats_sign|].
      destruct (floats_sign o y x g f Eg Ef G F) as (r & E & A & B). rewrite E. exists (- r)%Z. split; auto. rewrite (sgnQ_swap (valQ f)).
      split; [destruct A as [-> | ->]; auto|]. intro H. rewrite B; auto. now rewrite Qabs_Qminus. }
    exists r. split; auto.
    assert (sgnQ (valQ f) (valQ g) = sgnQ v w \/ sgnQ (valQ f) (valQ g) = 0%Z) as C.
    { destruct (sgnQ_cases v w) as [[H ->]|[[H ->]|[H ->]]].
      - pose proof (nearest_mono f g v w N M H). destruct (sgnQ_cases (valQ f) (valQ g)) as [[? ->]|[[? ->]|[? ?]]]; auto; lra.
      - left. apply sgnQ_eq. exact (held_same o x y v w f g HP Hx Hy H Ef Eg).
      - pose proof (nearest_mono g f w v M N H). destruct (sgnQ_cases (valQ f) (valQ g)) as [[? ?]|[[? ->]|[? ->]]]; auto; lra. }
    split; [destruct A as [-> | ->]; auto|].
    intros Hv Hw HD. pose proof (nearest_error f v N Hv) as E1. pose proof (nearest_error g w M Hw) as E2.
    apply Qabs_Qle_condition in E1, E2. pose proof epsQ_val as EE.
    assert (epsQ <= Qabs (valQ f - valQ g) /\ sgnQ (valQ f) (valQ g) = sgnQ v w) as [X <-]; [|auto].
    rewrite EE. revert HD. apply (Qabs_case (v - w)); intros H1 H2.
    + assert (w < v) as L by lra. assert (valQ g < valQ f) as L' by lra. destruct (sgnQ_lt w v L) as [_ ->], (sgnQ_lt _ _ L') as [_ ->].
      split; auto. rewrite Qabs_pos; lra.
    + assert (v < w) as L by lra. assert (valQ f < valQ g) as L' by lra. destruct (sgnQ_lt v w L) as [-> _], (sgnQ_lt _ _ L') as [-> _].
      split; auto. rewrite Qabs_neg; lra.
Qed.
(** From the sign to the six comparisons. *)
Lemma sign_holds : forall o k x y v w, k <> CLike -> compare o x y = (sgnQ v w, true) -> (cmpHolds o k x y = true <-> orderedQ k v w).
Proof.
  intros o k x y v w Hk E. destruct (sgnQ_cases v w) as [[H S]|[[H S]|[H S]]];
    destruct k; try contradiction; unfold cmpHolds, equals; rewrite E, S; cbn; split; intro X; try discriminate X; try reflexivity; try lra; try (intro Y; lra); exfalso; apply X; lra.
Qed.
Lemma zero_holds : forall o k x y, compare o x y = (0%Z, true) -> k <> CLike ->
  cmpHolds o k x y = match k with CEq | CLe | CGe => true | _ => false end.
Proof. intros o k x y E Hk. destruct k; unfold cmpHolds, equals; rewrite ?E; try reflexivity. contradiction. Qed.

(** ** A comparison never claims a difference that is not there *)
Definition soft (k : cmpk) (v w : Q) (res : bool) : Prop :=
  match k with
  | CLt | CGt | CNe => res = true -> orderedQ k v w
  | _ => orderedQ k v w -> res = true
  end.
Section C70.
Variables (o : oracles) (k : cmpk) (l r : expr) (v w : Q) (w1 : bytes) (doc : cst) (w2 : bytes).
Hypothesis HP : parsesDecimals o.
Hypothesis Hk : k <> CLike.
Hypothesis HS : supported o [XCmp k l r].
Hypothesis W1 : ws w1.
Hypothesis WD : wf_cst doc.
Hypothesis W2 : ws w2.
Hypothesis HN : named doc.
Hypothesis HB : benign [XCmp k l r] doc.
Hypothesis Hl : numberOf doc l v.
Hypothesis Hr : numberOf doc r w.
Lemma number_answer : exists res, answers o [XCmp k l r] (doc_text w1 doc w2) res (fun _ => res) /\ soft k v w res
  /\ (v == w \/ Qabs v <= billion /\ Qabs w <= billion /\ 3 # 10000000 <= Qabs (v - w) -> (res = true <-> orderedQ k v w)).
Proof using All.
  destruct (number_val o doc l v HP WD HN Hl) as (P1 & x & u & E1 & H1). destruct (number_val o doc r w HP WD HN Hr) as (P2 & y & u' & E2 & H2).
  destruct (cmp_answer o k l r (FV x u) (FV y u') w1 doc w2 (cmpHolds o k (FV x u) (FV y u') = true)) as (res & A & B); auto; [reflexivity|].
  exists res. split; auto. destruct (number_compare o x y v w u u' HP H1 H2) as (s & EC & ES & EA).
  assert (res = cmpHolds o k (FV x u) (FV y u')) as -> by (destruct B as [B1 B2]; destruct res, (cmpHolds o k (FV x u) (FV y u')); first [reflexivity | symmetry; now apply B1 | now apply B2]).
  split.
  - destruct ES as [-> | ->].
    + pose proof (sign_holds o k _ _ v w Hk EC) as X. destruct k; unfold soft; apply X || (intro Y; now destruct (Hk eq_refl)).
    + rewrite (zero_holds o k _ _ EC Hk). destruct k; cbn; auto; discriminate.
  - intro H. assert (s = sgnQ v w) as ->; [|now apply sign_holds].
    destruct H as [H|(X & Y & Z)]; [|now apply EA]. rewrite (sgnQ_eq v w H) in ES. rewrite (sgnQ_eq v w H). destruct ES; auto.
Qed.
Theorem C70_no_false_difference : exists res, answers o [XCmp k l r] (doc_text w1 doc w2) res (fun _ => res) /\ soft k v w res.
Proof using All. destruct number_answer as (res & A & B & _). exists res. auto. Qed.
(** ** Numbers below a billion that are not too close compare by value *)
Theorem C70_by_value : v == w \/ Qabs v <= billion /\ Qabs w <= billion /\ 3 # 10000000 <= Qabs (v - w) ->
  exists res, answers o [XCmp k l r] (doc_text w1 doc w2) res (fun _ => res) /\ (res = true <-> orderedQ k v w).
Proof using All. intro H. destruct number_answer as (res & A & _ & B). exists res. auto. Qed.
(** In particular those with at most six digits behind the point. *)
Definition sixPlaces (q : Q) : Prop := exists z, q == z # 1000000.
Theorem C70_decimals : sixPlaces v -> sixPlaces w -> Qabs v <= billion -> Qabs w <= billion ->
  exists res, answers o [XCmp k l r] (doc_text w1 doc w2) res (fun _ => res) /\ (res = true <-> orderedQ k v w).
Proof using All.
  intros [a Ha] [b Hb] Hv Hw. apply C70_by_value. destruct (Z.eq_dec a b) as [->|N]; [left; lra|right]. split; auto. split; auto.
  rewrite Ha, Hb. setoid_replace ((a # 1000000) - (b # 1000000)) with ((a - b) # 1000000).
  - change (Qabs ((a - b) # 1000000)) with (Z.abs (a - b) # 1000000). unfold Qle. cbn [Qnum Qden]. lia.
  - unfold Qeq, Qminus, Qplus, Qopp. cbn [Qnum Qden]. rewrite Pos2Z.inj_mul. ring.
Qed.
End C70.

(** ** The hypothesis on [strconv.ParseFloat] can be met *)
Lemma z_range : forall a b, {l : list Z | forall z, In z l <-> (a <= z < b)%Z}.
Proof.
  intros a b. exists (map (fun i => (a + Z.of_nat i)%Z) (seq 0 (Z.to_nat (b - a)))). intro z. rewrite in_map_iff. split.
  - intros (i & <- & H). apply in_seq in H. lia.
  - intro H. exists (Z.to_nat (z - a)). split; [lia|]. apply in_seq. lia.
Qed.
Lemma all_doubles : forall M a b, (forall m e, bounded 53 1024 m e = true -> (0 < Zpos m < M)%Z /\ (a <= e < b)%Z) -> {l : list float | forall f, In f l <-> finite f}.
Proof.
  intros M a b HB. destruct (z_range 1 M) as [ms Hm]. destruct (z_range a b) as [es He].
  exists (S754_zero false :: S754_zero true :: List.filter (valid_binary 53 1024) (flat_map (fun m => flat_map (fun e => [S754_finite false (Z.to_pos m) e; S754_finite true (Z.to_pos m) e]) es) ms)).
  intro f. split.
  - intros [<-|[<-|H]]; [split; auto|split; auto|]. apply filter_In in H. destruct H as [H V]. split; auto.
    apply in_flat_map in H. destruct H as (m & _ & H). apply in_flat_map in H. destruct H as (e & _ & [<-|[<-|[]]]); exact I.
  - intros [V F]. destruct f as [[|]|s| |s m e]; try destruct F; [right; now left|now left|]. right. right. apply filter_In. split; auto.
    destruct (HB m e V) as [B1 B2]. apply in_flat_map. exists (Zpos m). split; [apply Hm; lia|]. apply in_flat_map. exists e. split; [now apply He|].
    cbn [Z.to_pos]. destruct s; [right; now left|now left].
Qed.
Lemma doubles : {l : list float | forall f, In f l <-> finite f}.
Proof. apply (all_doubles (2 ^ 53) (-1074) 972). intros m e H. apply bounded_spec in H. lia. Qed.
Fixpoint best (v : Q) (f : float) (l : list float) : float :=
  match l with [] => f | g :: r => best v (if Qle_bool (Qabs (valQ f - v)) (Qabs (valQ g - v)) then f else g) r end.
Lemma best_ok : forall v l f, In (best v f l) (f :: l) /\ forall g, In g (f :: l) -> Qabs (valQ (best v f l) - v) <= Qabs (valQ g - v).
Proof.
  intros v. induction l as [|h r IH]; intro f; cbn [best].
  - split; [now left|]. intros g [<-|[]]. apply Qle_refl.
  - destruct (Qle_bool (Qabs (valQ f - v)) (Qabs (valQ h - v))) eqn:E.
    + apply Qle_bool_iff in E. destruct (IH f) as [A B]. split; [destruct A as [<-|A]; [now left|right; now right]|].
      intros g [<-|[<-|H]]; [apply B; now left| |apply B; now right]. apply (Qle_trans _ (Qabs (valQ f - v))); auto. apply B. now left.
    + assert (Qabs (valQ h - v) <= Qabs (valQ f - v)) as L.
      { apply Qlt_le_weak, Qnot_le_lt. intro X. apply Qle_bool_iff in X. congruence. }
      destruct (IH h) as [A B]. split; [now right|]. intros g [<-|H]; [|now apply B]. apply (Qle_trans _ (Qabs (valQ h - v))); auto. apply B. now left.
Qed.
Lemma best_eqv : forall v w, v == w -> forall l f, best v f l = best w f l.
Proof. intros v w E. induction l as [|h r IH]; intro f; cbn [best]; auto. rewrite IH. do 2 f_equal. now rewrite E. Qed.
Definition rnd (v : Q) : float := best v (S754_zero false) (proj1_sig doubles).
Lemma rnd_nearest : forall v, nearest (rnd v) v.
Proof.
  intro v. unfold rnd. destruct doubles as [l Hl]. cbn [proj1_sig]. destruct (best_ok v l (S754_zero false)) as [A B]. split.
  - destruct A as [<-|A]; [split; auto|now apply Hl].
  - intros g G. apply B. right. now apply Hl.
Qed.
(** A reader of decimals. *)
Fixpoint spanDigits (l : bytes) : bytes * bytes :=
  match l with [] => ([], []) | c :: r => if dig c then let '(a, b) := spanDigits r in (c :: a, b) else ([], l) end.
Definition readNum (l : bytes) : Q :=
  let neg := match l with c :: _ => (c =? 45)%N | [] => false end in
  let '(n, l2) := spanDigits (if neg then tl l else l) in
  let '(ds, l3) := match l2 with c :: r => if (c =? 46)%N then spanDigits r else ([], l2) | [] => ([], l2) end in
  let k := match l3 with
           | _ :: s :: r => if (s =? 43)%N then dec_val 0 r else if (s =? 45)%N then (- dec_val 0 r)%Z else dec_val 0 (s :: r)
           | _ => 0%Z
           end in
  if neg then - decimal n ds k else decimal n ds k.
Lemma span_ok : forall a b, Forall digit a -> match b with c :: _ => dig c = false | [] => True end -> spanDigits (a ++ b) = (a, b).
Proof.
  intros a b HA HB. induction HA as [|c a Hc _ IH]; cbn [app spanDigits].
  - destruct b as [|c b]; auto. cbn [spanDigits]. now rewrite HB.
  - rewrite IH. unfold dig, isDigit, digit in *. destruct (N.leb_spec 48 c), (N.leb_spec c 57); try lia; reflexivity.
Qed.
Lemma nat_digits : forall n, nat_part n -> Forall digit n /\ n <> [].
Proof.
  intros n [|d ds Hd HD]; split; try discriminate; constructor; auto; unfold digit, digit19 in *; lia.
Qed.
Lemma digit_eqb : forall c k, digit c -> (k < 48)%N -> (c =? k)%N = false.
Proof. intros c k H K. unfold digit in H. apply N.eqb_neq. lia. Qed.
Lemma read_exp : forall e k, expIs e k -> match e with c :: _ => dig c = false /\ (c =? 46)%N = false | [] => True end /\
  match e with
  | _ :: s :: r => if (s =? 43)%N then dec_val 0 r else if (s =? 45)%N then (- dec_val 0 r)%Z else dec_val 0 (s :: r)
  | _ => 0%Z
  end = k.
Proof.
  intros e k [|e' d ds He Hd HD|e' d ds He Hd HD|e' d ds He Hd HD]; (split; [auto; destruct He as [<-|[<-|[]]]; split; reflexivity|]); auto.
  rewrite !digit_eqb by (auto; lia). reflexivity.
Qed.
Lemma read_body : forall n f ds e k (X : Type) (F : bytes -> bytes -> Z -> X), nat_part n -> fracIs f ds -> expIs e k ->
  (let '(n', l2) := spanDigits (n ++ f ++ e) in
   let '(ds', l3) := match l2 with c :: r => if (c =? 46)%N then spanDigits r else ([], l2) | [] => ([], l2) end in
   F n' ds' match l3 with
           | _ :: s :: r => if (s =? 43)%N then dec_val 0 r else if (s =? 45)%N then (- dec_val 0 r)%Z else dec_val 0 (s :: r)
           | _ => 0%Z
           end) = F n ds k.
Proof.
  intros n f ds e k X F Hn Hf He. destruct (nat_digits n Hn) as [HD _]. destruct (read_exp e k He) as [HE EK].
  destruct Hf as [|d ds Hd HF]; cbn [app].
  - rewrite span_ok; auto; [|destruct e; auto; apply HE]. destruct e as [|c e]; [now rewrite <- EK|]. destruct HE as [_ ->]. now rewrite EK.
  - rewrite span_ok; auto. cbn [N.eqb Pos.eqb]. change (d :: ds ++ e) with ((d :: ds) ++ e). rewrite (span_ok (d :: ds) e); [now rewrite EK|now constructor|destruct e; auto; apply HE].
Qed.
Lemma read_num_ok : forall x v, numberIs x v -> readNum x = v.
Proof.
  intros x v [n f ds e k Hn Hf He|n f ds e k Hn Hf He]; unfold readNum.
  - assert (match n ++ f ++ e with c :: _ => (c =? 45)%N | [] => false end = false) as E.
    { destruct (nat_digits n Hn) as [HD HN]. destruct n as [|c n]; [contradiction|]. inversion HD; subst. cbn [app]. apply digit_eqb; auto. lia. }
    rewrite E. exact (read_body n f ds e k Q decimal Hn Hf He).
  - cbn [N.eqb Pos.eqb tl]. exact (read_body n f ds e k Q (fun a b c => - decimal a b c) Hn Hf He).
Qed.
Definition numOracle : oracles :=
  {| o_parseFloat := fun x => (rnd (readNum x), true); o_fmtE := o_fmtE noOracle; o_isPrint := o_isPrint noOracle; o_delX := true; o_parseRFC3339 := o_parseRFC3339 noOracle;
     o_f2i := o_f2i noOracle; o_f2u := o_f2u noOracle; o_fun1 := o_fun1 noOracle; o_fun2 := o_fun2 noOracle; o_regex := o_regex noOracle; o_pcre := o_pcre noOracle;
     o_regexCompiles := o_regexCompiles noOracle; o_pcreCompiles := o_pcreCompiles noOracle |}.
Theorem C70_libraries : parsesDecimals numOracle.
Proof.
  split.
  - intros x v H _. exists (rnd v). cbn [numOracle o_parseFloat]. rewrite (read_num_ok x v H). split; auto. apply rnd_nearest.
  - intros x y v w f g Hx Hy E _ Ef Eg. cbn [numOracle o_parseFloat] in *. rewrite (read_num_ok x v Hx) in Ef. rewrite (read_num_ok y w Hy) in Eg.
    injection Ef as <-. injection Eg as <-. unfold rnd. rewrite (best_eqv v w E). reflexivity.
Qed.

(** ** Where it is not so: [a] equals 1.00000000000023 on [{"a":1}]. *)
Definition nearOne : float := S754_finite false 4503599627371520 (-52).
Definition doc1 : cst := obj [("a"%string, lit "1")].
Lemma doc1_ok : wf_cst doc1 /\ named doc1 /\ valueAt [s2b "a"%string] doc1 (CLit TInteger [49%N]).
Proof.
  split; [apply wfb_ok; vm_compute; reflexivity|]. split.
  - constructor.
    + intros m [<-|[]]. exists (s2b "a"%string). exact (ni_plain (s2b "a"%string)).
    + intros [|i] [|j] m m' k Hi Hj A B; auto; try (destruct i; discriminate Hi); destruct j; discriminate Hj.
    + intros m [<-|[]]. constructor.
  - econstructor; [|constructor]. apply (ch_mem _ _ (mb "a"%string (CLit TInteger [49%N]))); [now left|exact (ni_plain (s2b "a"%string))].
Qed.
Definition eqC (f : float) : expr := XCmp CEq aF (XValue (GFloat f)).
Theorem C70_exact_refuted : forall o, let e := eqC nearOne in
  supported o [e] /\ wf_cst doc1 /\ named doc1 /\ benign [e] doc1 /\ numberOf doc1 aF 1 /\ numberOf doc1 (XValue (GFloat nearOne)) (valQ nearOne)
  /\ ~ 1 == valQ nearOne /\ answers o [e] (doc_text [] doc1 []) true (fun _ => true).
Proof.
  intros o e. destruct doc1_ok as (W & N & V).
  assert (supported o [e]) as S by (apply supportedb_ok; vm_compute; reflexivity).
  assert (benign [e] doc1) as B by (apply benignb_ok; vm_compute; reflexivity).
  assert (finite nearOne) as F by (split; reflexivity).
  repeat (match goal with |- _ /\ _ => split end); auto.
  - apply (no_integer doc1 [s2b "a"%string] [49%N]); auto; [apply ip_pos, np_pos; [unfold digit19; lia|constructor]|]. unfold exactInt. cbn. lia.
  - now constructor.
  - intro X. vm_compute in X. discriminate X.
  - destruct (lit_field [s2b "a"%string] doc1 TInteger [49%N] o (plain (VInt 1)) W N V eq_refl) as [P1 E1].
    destruct (cmp_answer o CEq aF (XValue (GFloat nearOne)) (plain (VInt 1)) (FV (VFloat nearOne) true) [] doc1 [] True) as (res & X & Y); auto; try discriminate; try (apply wsb_ok; reflexivity).
    + split; auto.
    + destruct Y as [_ Y]. now rewrite (Y I) in X.
Qed.
(** A case meeting the hypotheses: [a < 2.5] on [{"a":-1.50e1}]. *)
Definition exFl : expr := XCmp CLt aF (XValue (GFloat (S754_finite false 5629499534213120 (-51)))).
Definition doc2 : cst := obj [("a"%string, lit "-1.50e1")].
Example C70_case : forall o, supported o [exFl] /\ benign [exFl] doc2 /\ wf_cst doc2 /\ named doc2 /\ numberOf doc2 aF (- decimal [49%N] [53; 48]%N 1)
  /\ - decimal [49%N] [53; 48]%N 1 == - 15 # 1 /\ numberOf doc2 (XValue (GFloat (S754_finite false 5629499534213120 (-51)))) (valQ (S754_finite false 5629499534213120 (-51)))
  /\ valQ (S754_finite false 5629499534213120 (-51)) == 5 # 2 /\ sixPlaces (-15 # 1) /\ sixPlaces (5 # 2).
Proof.
  intro o. split; [apply supportedb_ok; vm_compute; reflexivity|]. split; [apply benignb_ok; vm_compute; reflexivity|].
  split; [apply wfb_ok; vm_compute; reflexivity|]. split.
  - constructor.
    + intros m [<-|[]]. exists (s2b "a"%string). exact (ni_plain (s2b "a"%string)).
    + intros [|i] [|j] m m' k Hi Hj A B; auto; try (destruct i; discriminate Hi); destruct j; discriminate Hj.
    + intros m [<-|[]]. constructor.
  - split.
    + apply (no_decimal doc2 [s2b "a"%string] (s2b "-1.50e1"%string)).
      * econstructor; [|constructor]. apply (ch_mem _ _ (mb "a"%string (lit "-1.50e1"))); [now left|exact (ni_plain (s2b "a"%string))].
      * assert (forall c, (48 <= c <= 57)%N -> digit c) as D by auto.
        apply (num_neg [49%N] [46; 53; 48]%N [53; 48]%N [101; 49]%N 1).
        -- apply np_pos; [unfold digit19; lia|constructor].
        -- constructor; [apply D; lia|constructor; [apply D; lia|constructor]].
        -- apply (ex_plain 101%N 49%N []); [now left|apply D; lia|constructor].
      * vm_compute. discriminate.
    + split; [reflexivity|]. split; [constructor; split; reflexivity|]. split; [reflexivity|]. split; [exists (-15000000)%Z; reflexivity|exists 2500000%Z; reflexivity].
Qed.

Print Assumptions C70_no_false_difference.
Print Assumptions C70_by_value.
Print Assumptions C70_decimals.
Print Assumptions C70_exact_refuted.
Print Assumptions C70_libraries.
