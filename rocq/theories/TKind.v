(** Documents that are not objects (C68). *)
From Coq Require Import String.
From Verif Require Import Base MTokenizer SJson MLit MFastVal MMath SFormula SEvents SMerge MBinTree MSession MExpr SCompile MTransform SFilter
  MMatcher MTree SDoc SSat SSem SNames PTree PWf PMatch PSem PCheck SExamples TMatch TNames.
From Coq Require Import List NArith ZArith Arith Lia Bool.
Import ListNotations.
Open Scope nat_scope.

(** ** Documents of every kind are answered correctly ...

    On an object nothing else is asked.  On an array, a loop whose body mentions other
    fields of the document must find the field it runs over.  On a string, a number,
    a boolean or null, no test may name two paths. *)
Theorem C68_any_kind : forall o es w1 doc w2, supported o es -> ws w1 -> wf_cst doc -> ws w2 ->
  distinct doc -> Forall (tame doc 0 doc) es -> Forall (looped doc) es -> Forall (fairTop doc) es ->
  match doc with
  | CObj _ _ => True
  | CArr _ _ => Forall (loopsFound doc) es
  | CLit _ _ => Forall (lone 0) es
  end ->
  answers o es (doc_text w1 doc w2) (existsb (truth o doc doc) es) (truth o doc doc).
Proof. intros o es w1 doc w2 HS W1 WD W2 H1 H2 H3 H4 H5. apply match_truth; auto. split; [exact H5|auto]. Qed.

(** *** Strings, numbers, booleans and null: of the conditions on the document only
    that on loops over what is not an array is left. *)
Lemma lit_at : forall q t x w, at_ q (CLit t x) = Some w -> q = [] /\ w = CLit t x.
Proof. intros [|k q] t x w E; cbn in E; [injection E as <-; auto|discriminate]. Qed.
Lemma lone_and : forall cv l, lone cv (XAnd l) <-> Forall (lone cv) l.
Proof. intros. cbn [lone]. induction l as [|x l IH]; split; intro X; auto; [constructor; tauto|inversion X; subst; tauto]. Qed.
Lemma lone_or : forall cv l, lone cv (XOr l) <-> Forall (lone cv) l.
Proof. intros. cbn [lone]. induction l as [|x l IH]; split; intro X; auto; [constructor; tauto|inversion X; subst; tauto]. Qed.
Lemma lit_tame : forall t x e, lone 0 e -> tame (CLit t x) 0 (CLit t x) e /\ fairTop (CLit t x) e.
Proof.
  intros t x.
  assert (forall q, filled (CLit t x) q) as F by (intros q w E; apply lit_at in E as [_ ->]; reflexivity).
  assert (forall e, ~ two (pathsOf 0 e) -> atomTame 0 (CLit t x) e) as A.
  { intros e H2. split; [auto|]. split; [reflexivity|]. intro X. contradiction. }
  induction e as [| |g|sa|sa|sa|a IH|l IH|l IH|r p|n l IH|m v i s IHi IHs|a IH|a IH|k l r IHl IHr] using expr_ind'; intro X; try (split; exact I).
  - cbn [tame fairTop lone] in *. auto.
  - apply lone_and in X. rewrite tame_and, fairTop_and, !Forall_forall in *. split; intros y Hy; now apply IH, X.
  - apply lone_or in X. rewrite tame_or, fairTop_or, !Forall_forall in *. split; intros y Hy; now apply IH, X.
  - destruct i; try (split; exact I). split.
    + split; [intros _; split; auto|]. intros es w e E. apply lit_at in E as [_ E]. discriminate.
    + cbn [fairTop]. intros es w e E. apply lit_at in E as [_ E]. discriminate.
  - split; [|exact I]. apply A. apply X.
  - split; [|exact I]. cbn [tame]. apply A. apply X.
  - split; [|exact I]. apply A. apply X.
Qed.
Theorem C68_scalar : forall o es w1 t x w2, let doc := CLit t x in
  supported o es -> ws w1 -> wf_cst doc -> ws w2 -> Forall (lone 0) es -> Forall (looped doc) es ->
  answers o es (doc_text w1 doc w2) (existsb (truth o doc doc) es) (truth o doc doc).
Proof.
  intros o es w1 t x w2 doc HS W1 WD W2 HL HP. apply C68_any_kind; auto; try exact I.
  - eapply Forall_impl; [|exact HL]. intros e He. now apply lit_tame.
  - eapply Forall_impl; [|exact HL]. intros e He. now apply lit_tame.
Qed.

(** *** Arrays: filters without loops.  Position [i] of the document is the field
    ["[i]"]. *)
Theorem C68_array : forall o e w1 es w w2, let doc := CArr es w in
  supported o [e] -> loopFree e -> ws w1 -> wf_cst doc -> ws w2 -> distinct doc -> tame doc 0 doc e ->
  answers o [e] (doc_text w1 doc w2) (truth o doc doc e) (truth o doc doc).
Proof.
  intros o e w1 es w w2 doc HS HF W1 WD W2 HD HT. apply C19_loop_free; auto. now apply loopFree_readable.
Qed.
Lemma arr_find : forall es n i, findItem (indexKey i) (arrItems n es) = if i <? n then None else option_map (@e_v cst) (nth_error es (i - n)).
Proof.
  induction es as [|e es IH]; intros n i; cbn [arrItems findItem].
  - destruct (i <? n); [reflexivity|]. destruct (i - n); reflexivity.
  - destruct (bytes_eqb (indexKey i) (indexKey n)) eqn:E.
    + apply bytes_eqb_eq in E. apply indexKey_inj in E. subst i. rewrite Nat.ltb_irrefl, Nat.sub_diag. reflexivity.
    + assert (i <> n) as Hn. { intros ->. rewrite (proj2 (bytes_eqb_eq _ _) eq_refl) in E. discriminate. }
      rewrite IH. destruct (i <? n) eqn:L.
      * apply Nat.ltb_lt in L. replace (i <? S n) with true by (symmetry; apply Nat.ltb_lt; lia). reflexivity.
      * apply Nat.ltb_ge in L. replace (i <? S n) with false by (symmetry; apply Nat.ltb_ge; lia).
        replace (i - n) with (S (i - S n)) by lia. reflexivity.
Qed.
Theorem C68_position : forall o i w1 es w w2, let doc := CArr es w in
  ws w1 -> wf_cst doc -> ws w2 -> distinct doc -> (forall e, nth_error es i = Some e -> emptyC (e_v e) = false) ->
  answers o [XExists (XField 0 [indexKey i])] (doc_text w1 doc w2) (i <? length es) (fun _ => i <? length es).
Proof.
  intros o i w1 es w w2 doc W1 WD W2 HD HE. set (e := XExists (XField 0 [indexKey i])).
  assert (at_ [indexKey i] doc = option_map (@e_v cst) (nth_error es i)) as EA.
  { cbn [at_ items doc]. rewrite arr_find. cbn [Nat.ltb Nat.leb]. rewrite Nat.sub_0_r. destruct (nth_error es i); reflexivity. }
  assert (truth o doc doc e = (i <? length es)) as ET.
  { unfold e. cbn [truth]. unfold allPresent. cbn [frefs forallb]. unfold present, fieldAt. cbn [fst snd Nat.eqb]. rewrite EA, andb_true_r.
    destruct (nth_error es i) eqn:E; cbn [option_map]; symmetry; [apply Nat.ltb_lt; apply nth_error_Some; congruence|apply Nat.ltb_ge; now apply nth_error_None]. }
  assert (answers o [e] (doc_text w1 doc w2) (truth o doc doc e) (truth o doc doc)) as (D & ED & X).
  { apply C68_array; auto; try exact I.
    - split; [exists e; split; [now left|discriminate]|]. split; (apply Forall_cons; [|apply Forall_nil]); [|exact I].
      split; [now left|]. intros p k r [<-|[]] [E|[]]. discriminate E.
    - split; [|split].
      + intros q [<-|[]] v Ev. change (at_ [indexKey i] doc = Some v) in Ev. rewrite EA in Ev. destruct (nth_error es i) eqn:E; [|discriminate]. injection Ev as <-. auto.
      + discriminate.
      + intros (q1 & q2 & [<-|[]] & [<-|[]] & Hn). contradiction. }
  exists D. split; auto. intros s0 Hs0. destruct (X s0 Hs0) as (f0 & Y). exists f0. intros fuel Hf. destruct (Y fuel Hf) as (sf & E1 & E2).
  exists sf. rewrite <- ET. split; auto. intros j y Hj Hy. rewrite (E2 j y Hj Hy). destruct j as [|[|j]]; cbn in Hj; try discriminate. now injection Hj as <-.
Qed.

(** ** ... but without those conditions not: a field that is not there is read as the
    beginning of the document.  On the document [5] the filter [a = b] holds; on the
    document [[5]] the filter [any x in a satisfies (x = 5 or x = b)] holds, as if the
    document were the array [a]. *)
Definition kindEq : expr := XCmp CEq (fld 0 ["a"]%string) (fld 0 ["b"]%string).
Definition kindAny : expr :=
  XLoop LAny 1 (fld 0 ["a"]%string) (XOr [XCmp CEq (fld 1 []) (ci 5); XCmp CEq (fld 1 []) (fld 0 ["b"]%string)]).
Definition kindDoc : cst := arr [lit "5"]%string.
Theorem C68_every_kind_refuted : forall o,
  (supported o [kindEq] /\ wf_cst (lit "5") /\ distinct (lit "5") /\ tame (lit "5") 0 (lit "5") kindEq /\ looped (lit "5") kindEq /\ fairTop (lit "5") kindEq
   /\ truth o (lit "5") (lit "5") kindEq = false /\ run o [kindEq] "5" = Ok (Some true))
  /\
  (supported o [kindAny] /\ wf_cst kindDoc /\ distinct kindDoc /\ tame kindDoc 0 kindDoc kindAny /\ looped kindDoc kindAny /\ fairTop kindDoc kindAny
   /\ truth o kindDoc kindDoc kindAny = false /\ run o [kindAny] "[5]" = Ok (Some true)).
Proof.
  intro o. split; (split; [apply supportedb_ok; vm_compute; reflexivity|]; split; [apply wfb_ok; vm_compute; reflexivity|];
    split; [apply distinctb_ok; vm_compute; reflexivity|]; split; [apply tameb_ok; vm_compute; reflexivity|];
    split; [apply loopedb_ok; vm_compute; reflexivity|]; split; [apply fairTopb_ok; vm_compute; reflexivity|split; vm_compute; reflexivity]).
Qed.
(** Nor can a test of a position of the document be told from one of a member with
    that name. *)
Theorem C68_position_is_a_name : forall o, let e := XCmp CEq (fld 0 ["[1]"]%string) (ci 7) in
  run o [e] "[6,7]" = Ok (Some true) /\ run o [e] "{""[1]"":7}" = Ok (Some true).
Proof. intro o. split; vm_compute; reflexivity. Qed.

(** ** Cases meeting the hypotheses *)
(** [$doc = 5 or exists $doc.a or any x in $doc satisfies x = 5], on numbers and on
    arrays. *)
Definition kindF : list expr :=
  [XOr [XCmp CEq (fld 0 []) (ci 5); XExists (fld 0 ["a"]%string)];
   XLoop LAny 1 (fld 0 []) (XCmp CEq (fld 1 []) (ci 5))].
Example C68_scalar_case : forall o, supported o kindF /\ wf_cst (lit "5") /\ Forall (lone 0) kindF /\ Forall (looped (lit "5")) kindF
  /\ map (truth o (lit "5") (lit "5")) kindF = [true; false].
Proof.
  intro o. split; [apply supportedb_ok; vm_compute; reflexivity|]. split; [apply wfb_ok; vm_compute; reflexivity|].
  split; [apply Forall_forall; intros e He; apply loneb_ok; destruct He as [<-|[<-|[]]]; reflexivity|].
  split; [apply Forall_forall; intros e He; apply loopedb_ok; destruct He as [<-|[<-|[]]]; vm_compute; reflexivity|vm_compute; reflexivity].
Qed.
Example C68_array_case : forall o, supported o kindF /\ benign kindF kindDoc /\ map (truth o kindDoc kindDoc) kindF = [false; true].
Proof.
  intro o. split; [apply supportedb_ok; vm_compute; reflexivity|]. split; [apply benignb_ok; vm_compute; reflexivity|vm_compute; reflexivity].
Qed.
Example C68_mixed_case : forall o,
  let e := XAnd [XNot (XCmp CLt (fld 0 ["[0]"; "a"]%string) (fld 0 ["[1]"]%string)); XExists (fld 0 ["[2]"]%string)] in
  let d := arr [obj [("a", lit "7")]; lit "3"; str "x"]%string in
  supported o [e] /\ loopFree e /\ wf_cst d /\ benign [e] d /\ truth o d d e = true.
Proof.
  intros o e d. split; [apply supportedb_ok; vm_compute; reflexivity|]. split; [repeat split|]. split; [apply wfb_ok; vm_compute; reflexivity|].
  split; [apply benignb_ok; vm_compute; reflexivity|vm_compute; reflexivity].
Qed.

Print Assumptions C68_any_kind.
Print Assumptions C68_scalar.
Print Assumptions C68_array.
Print Assumptions C68_position.
Print Assumptions C68_every_kind_refuted.
