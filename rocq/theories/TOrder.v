(** C50: texts of printable characters are ordered by their characters. *)
From Coq Require Import String.
From Verif Require Import Base MTokenizer SJson SUnicode SNames MLit PLit MFastVal PFastVal MExpr MTransform SFilter MMatcher MTree SDoc SSat SSem
  PWf PCheck PSlow SExamples TFastVal TMatch TNames TText TDate SOrder.
From Coq Require Import List NArith ZArith Lia Bool.
From Coq Require Import ZifyBool ZifyN ZifyNat.
Import ListNotations.
Open Scope Z_scope.

(** ** UTF-8 keeps the order *)
Lemma cmp_head : forall a b s t, (a < b)%N -> cmpBytes (a :: s) (b :: t) = -1.
Proof. intros a b s t H. cbn [cmpBytes]. now replace (a <? b)%N with true by lia. Qed.
Lemma cmp_tail : forall a b s t, a = b -> cmpBytes (a :: s) (b :: t) = cmpBytes s t.
Proof. intros a b s t ->. cbn [cmpBytes]. now rewrite N.ltb_irrefl. Qed.
Lemma cmp_common : forall a s t, cmpBytes (a ++ s) (a ++ t) = cmpBytes s t.
Proof. induction a as [|c a IH]; intros s t; [reflexivity|]. cbn [app]. rewrite cmp_tail; auto. Qed.
Ltac digits u :=
  pose proof (N.div_mod u 64 ltac:(lia)); pose proof (N.mod_lt u 64 ltac:(lia));
  pose proof (N.div_mod (u / 64) 64 ltac:(lia)); pose proof (N.mod_lt (u / 64) 64 ltac:(lia));
  let Q := fresh in assert (u / 64 / 64 = u / 4096)%N as Q by (rewrite N.div_div by lia; reflexivity); rewrite Q in *; clear Q;
  pose proof (N.div_mod (u / 4096) 64 ltac:(lia)); pose proof (N.mod_lt (u / 4096) 64 ltac:(lia));
  let Q := fresh in assert (u / 4096 / 64 = u / 262144)%N as Q by (rewrite N.div_div by lia; reflexivity); rewrite Q in *; clear Q.
Lemma utf8_lt : forall u v s t, SUnicode.scalar u -> SUnicode.scalar v -> (u < v)%N -> cmpBytes (utf8 u ++ s) (utf8 v ++ t) = -1.
Proof.
  intros u v s t Hu Hv H. unfold SUnicode.scalar in *. unfold utf8. digits u. digits v.
  set (u1 := (u / 64)%N) in *. set (u2 := (u mod 64)%N) in *. set (u3 := (u / 4096)%N) in *. set (u4 := (u1 mod 64)%N) in *. set (u5 := (u / 262144)%N) in *. set (u6 := (u3 mod 64)%N) in *.
  set (v1 := (v / 64)%N) in *. set (v2 := (v mod 64)%N) in *. set (v3 := (v / 4096)%N) in *. set (v4 := (v1 mod 64)%N) in *. set (v5 := (v / 262144)%N) in *. set (v6 := (v3 mod 64)%N) in *.
  clearbody u1 u2 u3 u4 u5 u6 v1 v2 v3 v4 v5 v6.
  destruct (N.ltb_spec u 128), (N.ltb_spec v 128); try lia; cbn [app]; [apply cmp_head; lia| |].
  { destruct (v <? 2048)%N, (v <? 65536)%N; cbn [app]; apply cmp_head; lia. }
  destruct (N.ltb_spec u 2048), (N.ltb_spec v 2048); try lia; cbn [app].
  { destruct (N.lt_ge_cases u1 v1); [apply cmp_head; lia|]. rewrite cmp_tail by lia. apply cmp_head. lia. }
  { destruct (N.ltb_spec v 65536); cbn [app]; apply cmp_head; lia. }
  destruct (N.ltb_spec u 65536), (N.ltb_spec v 65536); try lia; cbn [app].
  { destruct (N.lt_ge_cases u3 v3); [apply cmp_head; lia|]. rewrite cmp_tail by lia. destruct (N.lt_ge_cases u4 v4); [apply cmp_head; lia|]. rewrite cmp_tail by lia. apply cmp_head. lia. }
  { apply cmp_head. lia. }
  destruct (N.lt_ge_cases u5 v5); [apply cmp_head; lia|]. rewrite cmp_tail by lia. destruct (N.lt_ge_cases u6 v6); [apply cmp_head; lia|]. rewrite cmp_tail by lia.
  destruct (N.lt_ge_cases u4 v4); [apply cmp_head; lia|]. rewrite cmp_tail by lia. apply cmp_head. lia.
Qed.
Lemma text_lt : forall us vs, Forall SUnicode.scalar us -> Forall SUnicode.scalar vs -> earlierText us vs -> cmpBytes (utf8s us) (utf8s vs) = -1.
Proof.
  intros us vs Hu Hv H. revert Hu Hv. induction H as [v vs|u v us vs H|u us vs H IH]; intros Hu Hv; cbn [utf8s flat_map].
  - destruct (utf8_nonempty v) as (a & r & ->). reflexivity.
  - inversion Hu; inversion Hv; subst. now apply utf8_lt.
  - inversion Hu; inversion Hv; subst. rewrite cmp_common. now apply IH.
Qed.
Lemma text_cases : forall us vs, earlierText us vs \/ us = vs \/ earlierText vs us.
Proof.
  induction us as [|u us IH]; intros [|v vs]; [auto|left; constructor|right; right; constructor|].
  destruct (N.lt_trichotomy u v) as [H|[->|H]]; [left; now constructor| |right; right; now constructor].
  destruct (IH vs) as [H|[->|H]]; [left; now constructor|auto|right; right; now constructor].
Qed.
Lemma text_irrefl : forall us, ~ earlierText us us.
Proof. induction us as [|u us IH]; intro H; inversion H; subst; [lia|auto]. Qed.
Lemma text_asym : forall us vs, earlierText us vs -> ~ earlierText vs us.
Proof. induction 1 as [v vs|u v us vs H|u us vs H IH]; intro K; inversion K; subst; try lia. now apply IH. Qed.
Lemma sign_text : forall o k x y us vs, k <> CLike -> compare o x y = (cmpBytes (utf8s us) (utf8s vs), true) -> Forall SUnicode.scalar us -> Forall SUnicode.scalar vs ->
  (cmpHolds o k x y = true <-> orderedText k us vs).
Proof.
  intros o k x y us vs Hk E Hu Hv. destruct (text_cases us vs) as [H|[->|H]].
  - rewrite (text_lt us vs Hu Hv H) in E. pose proof (text_asym _ _ H) as K. assert (us <> vs) as NE by (intros ->; now apply (text_irrefl vs)).
    destruct k; try contradiction; unfold cmpHolds, equals; rewrite E; cbn; split; intro; try tauto; try discriminate; contradiction.
  - assert (cmpBytes (utf8s vs) (utf8s vs) = 0) as Z by now apply cmpBytes_eq. rewrite Z in E. pose proof (text_irrefl vs) as K.
    destruct k; try contradiction; unfold cmpHolds, equals; rewrite E; cbn; split; intro; try tauto; try discriminate; try contradiction.
  - rewrite cmpBytes_swap, (text_lt vs us Hv Hu H) in E. pose proof (text_asym _ _ H) as K. assert (us <> vs) as NE by (intros ->; now apply (text_irrefl vs)).
    destruct k; try contradiction; unfold cmpHolds, equals; rewrite E; cbn; split; intro; try tauto; try discriminate; contradiction.
Qed.

(** ** Filters *)

(** A string of the document, however it is written, or a string constant. *)
Inductive textOf (doc : cst) : expr -> bytes -> Prop :=
| to_field : forall p t x b, valueAt p doc (CLit t x) -> nameIs t x b -> textOf doc (XField 0 p) b
| to_const : forall s, textOf doc (XValue (GString s)) s.
Inductive heldText (o : oracles) (b : bytes) : fastval -> Prop :=
| ht_doc : heldText o b (plain (VBinString b))
| ht_const : heldText o b (FV (VJsonString (quote o b)) true).
Lemma text_val : forall o doc e b, wf_cst doc -> named doc -> textOf doc e b -> allPresent doc doc e = true /\ exists x, oval o doc doc e = Ok x /\ heldText o b x.
Proof.
  intros o doc e b WD HN [p t x b' HV HX|s].
  - destruct (field_val o p doc t x b' WD HN HV HX) as [EA EV]. split; [|eexists; split; [exact EV|constructor]].
    unfold allPresent. cbn [frefs forallb]. unfold present, fieldAt. cbn [fst snd Nat.eqb]. now rewrite EA.
  - split; [reflexivity|]. eexists. split; [reflexivity|]. cbn [newFastVal isString toJsonString fst]. constructor.
Qed.
Lemma held_compare : forall o a b x y, heldText o a x -> heldText o b y -> compare o x y = (cmpBytes (quote o a) (quote o b), true).
Proof. intros o a b x y [] []; try reflexivity. rewrite cmpBytes_swap. reflexivity. Qed.
(** Comparing strings in a filter is comparing their texts. *)
Theorem C50_characters : forall o k l r us vs w1 doc w2, k <> CLike -> supported o [XCmp k l r] ->
  ws w1 -> wf_cst doc -> ws w2 -> named doc -> benign [XCmp k l r] doc ->
  textOf doc l (utf8s us) -> textOf doc r (utf8s vs) -> plainChars (o_isPrint o) us -> plainChars (o_isPrint o) vs ->
  exists res, answers o [XCmp k l r] (doc_text w1 doc w2) res (fun _ => res) /\ (res = true <-> orderedText k us vs).
Proof.
  intros o k l r us vs w1 doc w2 Hk HS W1 WD W2 HN HB Hl Hr Hu Hv.
  destruct (text_val o doc l _ WD HN Hl) as (P1 & x & E1 & H1). destruct (text_val o doc r _ WD HN Hr) as (P2 & y & E2 & H2).
  assert (forall us, plainChars (o_isPrint o) us -> quote o (utf8s us) = utf8s us /\ Forall SUnicode.scalar us) as Q.
  { intros ws H. split; [apply PSlow.quote_print; exists ws; auto|]. eapply Forall_impl; [|exact H]. now intros u (A & _). }
  destruct (Q us Hu) as [Qu Su], (Q vs Hv) as [Qv Sv]. apply (cmp_answer o k l r x y); auto. apply sign_text; auto. rewrite (held_compare o _ _ x y H1 H2). now rewrite Qu, Qv.
Qed.
Lemma ascii_own : forall b, asciiText b -> utf8s b = b.
Proof. induction 1 as [|c b (H & _) _ IH]; auto. cbn [utf8s flat_map]. fold (utf8s b). rewrite IH. unfold utf8. now replace (c <? 128)%N with true by lia. Qed.
Lemma ascii_plain : forall f b, printsAscii f -> asciiText b -> plainChars f b.
Proof. intros f b HF H. eapply Forall_impl; [|exact H]. intros c (A & B & C). split; [left; lia|]. split; auto. Qed.
Lemma ascii_holds : forall o k x y a b, printsAscii (o_isPrint o) -> k <> CLike -> heldText o a x -> heldText o b y -> asciiText a -> asciiText b ->
  (cmpHolds o k x y = true <-> orderedText k a b).
Proof.
  intros o k x y a b HP Hk Hx Hy Ha Hb. pose proof (ascii_plain _ a HP Ha) as Pa. pose proof (ascii_plain _ b HP Hb) as Pb.
  assert (forall b, plainChars (o_isPrint o) b -> asciiText b -> quote o b = b /\ Forall SUnicode.scalar b) as Q.
  { intros c H A. split; [apply PSlow.quote_print; exists c; split; [now rewrite ascii_own|auto]|]. eapply Forall_impl; [|exact H]. now intros u (X & _). }
  destruct (Q a Pa Ha) as [Qa Sa], (Q b Pb Hb) as [Qb Sb]. apply sign_text; auto. rewrite (held_compare o _ _ x y Hx Hy). now rewrite Qa, Qb, !ascii_own.
Qed.
(** That is the order of their bytes. *)
Lemma bytes_earlier : forall a b, cmpBytes a b = -1 <-> earlierText a b.
Proof.
  induction a as [|x a IH]; intros [|y b]; cbn [cmpBytes]; try (split; intro H; [discriminate H|inversion H]); [split; auto; constructor|].
  destruct (N.ltb_spec x y) as [L|L]; [split; auto; now constructor|]. destruct (N.ltb_spec y x) as [L'|L'].
  - split; [discriminate|]. intro H. inversion H; subst; lia.
  - assert (x = y) as -> by lia. rewrite IH. split; [now constructor|]. intro H. inversion H; subst; [lia|auto].
Qed.
Theorem C50_bytes : forall us vs, Forall SUnicode.scalar us -> Forall SUnicode.scalar vs -> (earlierText (utf8s us) (utf8s vs) <-> earlierText us vs).
Proof.
  intros us vs Hu Hv. rewrite <- bytes_earlier. split; [|now apply text_lt]. intro H. destruct (text_cases us vs) as [K|[->|K]]; auto.
  - apply bytes_earlier in H. destruct (text_irrefl _ H).
  - pose proof (text_lt vs us Hv Hu K) as K'. rewrite cmpBytes_swap, H in K'. discriminate.
Qed.

(** The document [{"a":"x\u00e9"}] and the constant ["xz"]: the accented letter comes after the z. *)
Definition docE : cst := CObj [mb "a"%string (CLit TEscString [34; 120; 92; 117; 48; 48; 101; 57; 34]%N)] [].
Definition exE : expr := XCmp CGt (XField 0 [s2b "a"%string]) (XValue (GString (s2b "xz"%string))).
Example C50_characters_case : let o := noOracle in
  supported o [exE] /\ wf_cst docE /\ named docE /\ benign [exE] docE
  /\ textOf docE (XField 0 [s2b "a"%string]) (utf8s [120; 233]%N) /\ textOf docE (XValue (GString (s2b "xz"%string))) (utf8s [120; 122]%N)
  /\ plainChars (o_isPrint o) [120; 233]%N /\ plainChars (o_isPrint o) [120; 122]%N /\ orderedText CGt [120; 233]%N [120; 122]%N.
Proof.
  split; [apply supportedb_ok; vm_compute; reflexivity|]. split; [apply wfb_ok; vm_compute; reflexivity|]. split; [|split; [apply benignb_ok; vm_compute; reflexivity|]].
  - constructor.
    + intros m [<-|[]]. exists (s2b "a"%string). exact (ni_plain (s2b "a"%string)).
    + intros [|i] [|j] m m' k Hi Hj A B; auto; try (destruct i; discriminate Hi); destruct j; discriminate Hj.
    + intros m [<-|[]]. constructor.
  - assert (forall u, In u [120; 233; 122]%N -> SUnicode.scalar u /\ o_isPrint noOracle u = true /\ u <> 34%N /\ u <> 92%N) as P.
    { intros u [<-|[<-|[<-|[]]]]; (split; [left; lia|split; [reflexivity|split; discriminate]]). }
    split; [|split; [exact (to_const docE (s2b "xz"%string))|]].
    + econstructor; [econstructor; [apply (ch_mem _ _ (mb "a"%string (CLit TEscString [34; 120; 92; 117; 48; 48; 101; 57; 34]%N))); [now left|exact (ni_plain (s2b "a"%string))]|constructor]|].
      apply (ni_esc [120; 92; 117; 48; 48; 101; 57]%N [120; 233]%N). apply (sps_cons [120]%N 120%N [92; 117; 48; 48; 101; 57]%N [233]%N).
      * apply (sp_literal 120%N); try lia. left. lia.
      * apply (sps_cons [92; 117; 48; 48; 101; 57]%N 233%N [] []); [|constructor]. apply sp_ucode; [|left; lia].
        apply (uc_intro 48 48 101 57 0 0 14 9)%N; [apply (hv_digit 0)|apply (hv_digit 0)|apply (hv_lower 14)|apply (hv_digit 9)]; lia.
    + split; [repeat constructor; apply P; cbn; auto|]. split; [repeat constructor; apply P; cbn; auto|]. apply et_next, et_here. lia.
Qed.
Print Assumptions C50_characters.
Print Assumptions C50_bytes.
