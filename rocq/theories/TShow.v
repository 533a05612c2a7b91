(** C74: the text an expression shows of itself says what it tests. *)
From Coq Require Import String.
From Verif Require Import Base MTokenizer MLit MFastVal SJson SFormula SEvents MExpr MTransform MMatcher MTree SFilter SDoc SSat SSem MShow SShow PMatch PWf PShow TText.
From Coq Require Import List NArith ZArith Arith Lia Bool DecimalN.
Import ListNotations.
Open Scope nat_scope.

(** C74.  Two expressions with names without white space and other signs, whose constants
    can be told apart by their text, show the same text only if they are the same but for
    groups of one member. *)
Theorem C74_text : forall x K e e', legible (showE x) K -> sentence K e -> sentence K e' -> showE x e = showE x e' -> ungroup e = ungroup e'.
Proof. intros x K e e' HK H H' HE. eapply show_inj; eauto. Qed.

(** C74.  They hold of the same documents. *)
Theorem C74_meaning : forall x K e e', legible (showE x) K -> sentence K e -> sentence K e' -> showE x e = showE x e' ->
  forall o doc cur, truth o doc cur e = truth o doc cur e'.
Proof. intros x K e e' HK H H' HE o doc cur. rewrite <- (ungroup_truth o doc e), <- (ungroup_truth o doc e'). f_equal. eapply C74_text; eauto. Qed.

(** ** Constants that can be told apart *)
Definition letters (s : list N) : Prop := s <> [] /\ Forall (fun c => 65 <= c <= 90 \/ 97 <= c <= 122)%N s.
(** Integers, words of letters, and regular expressions that are words of letters. *)
Definition usual (e : expr) : Prop := (exists z, e = XValue (GInt z)) \/ (exists s, e = XValue (GString s) /\ letters s) \/ (exists s, e = XRegex s /\ letters s).
Definition plainC (c : N) : bool := negb (existsb (N.eqb c) [10; 32; 33; 36; 40; 41; 44; 60; 61; 62]%N).
Lemma plainC_ok : forall w, w <> [] -> forallb plainC w = true -> plainWord w.
Proof.
  intros w H F. split; [exact H|]. rewrite forallb_forall in F. rewrite Forall_forall. intros c HI HC. specialize (F c HI). apply negb_true_iff in F.
  assert (existsb (N.eqb c) [10; 32; 33; 36; 40; 41; 44; 60; 61; 62]%N = true) by (apply existsb_exists; exists c; split; [exact HC|apply N.eqb_refl]). congruence.
Qed.
Lemma range_plain : forall w, Forall (fun c => 45 <= c <= 57 \/ 65 <= c <= 122)%N w -> forallb plainC w = true.
Proof.
  intros w H. apply forallb_forall. rewrite Forall_forall in H. intros c HI. specialize (H c HI). unfold plainC. apply negb_true_iff. cbn [existsb].
  repeat match goal with |- context [N.eqb c ?n] => destruct (N.eqb_spec c n) as [->|]; [lia|] end. reflexivity.
Qed.
Lemma letters_plain : forall s, letters s -> Forall (fun c => 45 <= c <= 57 \/ 65 <= c <= 122)%N s.
Proof. intros s [_ H]. eapply Forall_impl; [|exact H]. cbv beta; intros; lia. Qed.
Lemma digits_some : forall n, appendUint n <> [].
Proof.
  intros n K. unfold appendUint in K. pose proof (uint_bytes_inj (N.to_uint (Z.to_N n)) Decimal.Nil K) as E. destruct (Z.to_N n) as [|p]; [discriminate|]. cbn in E. exact (DecimalPos.Unsigned.to_uint_nonnil p E).
Qed.
Lemma appendInt_range : forall z, Forall (fun c => c = 45 \/ 48 <= c <= 57)%N (appendInt z).
Proof.
  intro z. unfold appendInt. assert (forall n, Forall (fun c => c = 45 \/ 48 <= c <= 57)%N (appendUint n)) as H by (intro n; eapply Forall_impl; [|apply num_digits]; cbv beta; intros; lia).
  destruct (z <? 0)%Z; [constructor; [lia|apply H]|apply H].
Qed.
Lemma appendInt_some : forall z, appendInt z <> [].
Proof. intro z. unfold appendInt. destruct (z <? 0)%Z; [discriminate|apply digits_some]. Qed.
Lemma appendInt_inj : forall a b, appendInt a = appendInt b -> a = b.
Proof.
  assert (forall n m, appendUint n <> 45%N :: m) as HM. { intros n m K. pose proof (num_digits n) as H. rewrite K in H. inversion H; subst. lia. }
  assert (forall a b, (0 <= a)%Z -> (0 <= b)%Z -> appendUint a = appendUint b -> a = b) as HU.
  { intros a b A B H. apply appendUint_inj with (a := Z.to_nat a) (b := Z.to_nat b) in H || (rewrite <- (Z2Nat.id a), <- (Z2Nat.id b) in H by assumption; apply appendUint_inj in H; lia). }
  intros a b H. unfold appendInt in H. destruct (Z.ltb_spec a 0), (Z.ltb_spec b 0).
  - injection H as H. apply HU in H; lia.
  - symmetry in H. exfalso. eapply HM; exact H.
  - exfalso. eapply HM; exact H.
  - apply HU in H; lia.
Qed.

(** C74.  Whatever package fmt writes for other values: integers, words and regular
    expressions of letters can be told apart. *)
Theorem C74_constants : forall x, legible (showE x) usual.
Proof.
  intros x. split.
  - intros e [[z ->]|[[s [-> H]]|[s [-> H]]]]; split; try exact I; cbn [showE showValue]; apply plainC_ok.
    + apply appendInt_some.
    + apply range_plain. eapply Forall_impl; [|apply appendInt_range]. cbv beta; intros; lia.
    + apply H.
    + apply range_plain, letters_plain, H.
    + discriminate.
    + change (s2b "/") with [47%N]. cbn [app]. apply range_plain. constructor; [lia|]. apply Forall_app. split; [apply letters_plain, H|repeat constructor; lia].
  - assert (forall z s r, letters s -> appendInt z = s ++ r -> False) as H1.
    { intros z s r [N HL] E. pose proof (appendInt_range z) as HR. rewrite E in HR. destruct s as [|c s]; [contradiction|]. inversion HL; inversion HR; subst. lia. }
    assert (forall z r, appendInt z = 47%N :: r -> False) as H2. { intros z r E. pose proof (appendInt_range z) as HR. rewrite E in HR. inversion HR; subst. lia. }
    assert (forall s r, letters s -> s = 47%N :: r -> False) as H3. { intros s r [_ HL] ->. inversion HL; subst. lia. }
    intros e e' [[z ->]|[[s [-> H]]|[s [-> H]]]] [[z' ->]|[[s' [-> H']]|[s' [-> H']]]] HE; cbn [showE showValue] in HE.
    + f_equal. f_equal. now apply appendInt_inj.
    + exfalso. eapply (H1 z s' []); [exact H'|]. now rewrite app_nil_r.
    + exfalso. eapply H2; exact HE.
    + exfalso. eapply (H1 z' s []); [exact H|]. now rewrite app_nil_r.
    + now subst.
    + exfalso. eapply H3; [exact H|exact HE].
    + exfalso. symmetry in HE. eapply H2; exact HE.
    + exfalso. symmetry in HE. eapply H3; [exact H'|exact HE].
    + apply app_inv_head in HE. apply app_inv_tail in HE. now subst.
Qed.

(** ** Not in general *)
(** C74.  No condition at all is shown alike, whether all or one of them has to hold. *)
Theorem C74_empty_refuted : exists e e', (forall x, showE x e = showE x e') /\ forall o doc cur, truth o doc cur e <> truth o doc cur e'.
Proof. exists (XAnd []), (XOr []). split; [reflexivity|]. intros. discriminate. Qed.
(** C74.  A constant that is spelt like a field is shown like the field. *)
Theorem C74_constants_refuted : exists e e' doc, (forall x, showE x e = showE x e') /\ forall o, truth o doc doc e <> truth o doc doc e'.
Proof.
  exists (XCmp CEq (XField 0 [s2b "a"]) (XField 0 [s2b "b"])), (XCmp CEq (XField 0 [s2b "a"]) (XValue (GString (s2b "$doc.b")))), (obj [("a", lit "true"); ("b", lit "true")]).
  split; [reflexivity|]. intros o. vm_compute. discriminate.
Qed.
(** C74.  A name with a dot is shown like two names. *)
Theorem C74_names_refuted : exists e e' doc, (forall x, showE x e = showE x e') /\ forall o, truth o doc doc e <> truth o doc doc e'.
Proof.
  exists (XExists (XField 0 [s2b "a.b"])), (XExists (XField 0 [s2b "a"; s2b "b"])), (obj [("a", obj [("b", lit "1")])]).
  split; [reflexivity|]. intros o. vm_compute. discriminate.
Qed.

(** ** A concrete case *)
Definition exShow : expr :=
  XAnd [XNot (XOr [XCmp CEq (XField 0 [s2b "a"; s2b "b"]) (XValue (GInt (-12))); XCmp CLike (XFunc (s2b "mathAdd") [XField 0 [s2b "c"]; XValue (GInt 1)]) (XRegex (s2b "abc"))]);
        XLoop LAnyEvery 1 (XField 0 [s2b "l"]) (XAnd [XExists (XField 1 [s2b "n"]); XCmp CLe (XField 1 []) (XValue (GString (s2b "any")))])].
Example C74_example : (forall x, showE x exShow = s2b "  NOT   $doc.a.b = -12
  OR
    func:mathAdd($doc.c,1) =~ /abc/
AND
  any and every $1 in $doc.l
      $1.n EXISTS
    AND
      $1 <= any
  end") /\ sentence usual exShow.
Proof.
  split; [reflexivity|].
  assert (forall w, forallb plainC w = true -> w <> [] -> existsb (N.eqb 46) w = false -> plainName w) as HN.
  { intros w A B C. split; [now apply plainC_ok|]. intro HI. assert (existsb (N.eqb 46) w = true) by (apply existsb_exists; exists 46%N; auto). congruence. }
  assert (forall z, usual (XValue (GInt z))) as HZ by (intro z; left; eauto).
  assert (usual (XRegex (s2b "abc"))) as HR by (right; right; eexists; split; [reflexivity|]; split; [discriminate|]; match goal with |- Forall _ ?l => let v := eval vm_compute in l in change l with v end; repeat (apply Forall_cons; [lia|]); apply Forall_nil).
  assert (usual (XValue (GString (s2b "any")))) as HS by (right; left; eexists; split; [reflexivity|]; split; [discriminate|]; match goal with |- Forall _ ?l => let v := eval vm_compute in l in change l with v end; repeat (apply Forall_cons; [lia|]); apply Forall_nil).
  assert (plainName (s2b "a") /\ plainName (s2b "b") /\ plainName (s2b "c") /\ plainName (s2b "l") /\ plainName (s2b "n")) as [Ha [Hb [Hc [Hl Hn]]]] by (split; [|split; [|split; [|split]]]; apply HN; try reflexivity; discriminate).
  assert (plainWord (s2b "mathAdd")) as HW by (apply plainC_ok; [discriminate|reflexivity]).
  cbn [exShow sentence phrase constant]. split; [discriminate|]. split; [|split; [|exact I]].
  - split; [discriminate|]. split; [split; [auto|apply HZ]|]. split; [|exact I]. split; [split; [exact HW|]|exact HR]. auto.
  - split; [eexists _, _; split; [reflexivity|auto]|]. split; [discriminate|]. split; [split; [auto|intros []]|]. split; [|exact I]. split; [constructor|exact HS].
Qed.
(** Groups of one do not show. *)
Example C74_group_example : forall x, showE x (XOr [exShow]) = showE x exShow /\ ungroup (XOr [exShow]) = exShow.
Proof. split; reflexivity. Qed.
Print Assumptions C74_text.
Print Assumptions C74_meaning.
Print Assumptions C74_constants.
Print Assumptions C74_empty_refuted.
Print Assumptions C74_constants_refuted.
Print Assumptions C74_names_refuted.
