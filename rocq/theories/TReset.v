(** Reusing a matcher: final statements (C22). *)
From Coq Require Import String.
From Verif Require Import Base MTokenizer MLit MFastVal MMath SEvents MBinTree MSession MExpr MTransform MMatcher PReset SExamples.
From Coq Require Import List NArith ZArith Arith Lia Bool.
Import ListNotations.
Open Scope nat_scope.

(** ** C22 *)

(** Everything a matcher can have been through: matches of arbitrary bytes, with
    or without an error, and resets, in any order. *)
Inductive history (o : oracles) (D : matchdef) : mst -> Prop :=
| h_new : history o D (newMatcher D)
| h_reset : forall s, history o D s -> history o D (resetMatcher s)
| h_match : forall s fuel doc s' r, history o D s -> match_ fuel o D doc s = Ok (s', r) -> history o D s'.

Lemma history_sizes : forall o D s, history o D s ->
  length (ms_slots s) = d_slots D /\ length (ms_data s) = length (d_tree D).
Proof.
  intros o D s H. induction H as [|s H [I1 I2]|s fuel doc s' r H [I1 I2] E].
  - cbn. unfold newState. now rewrite !repeat_length.
  - unfold resetMatcher, resetState. cbn. now rewrite !map_length.
  - pose proof (match_lift false _ _ fuel o D doc s I1 I2) as X. rewrite E in X.
    destruct (match_ fuel o D doc (lift false s)) as [[sf r2]| | |]; cbn in X; try contradiction. apply X.
Qed.

Lemma map_repeat : forall (A B : Type) (l : list A) (b : B), map (fun _ => b) l = repeat b (length l).
Proof. induction l; intros; cbn; auto. now rewrite IHl. Qed.

Lemma reset_is_new : forall o D s, history o D s ->
  setPos (resetMatcher s) 0 = setPos (lift (ms_coll s) (newMatcher D)) 0.
Proof.
  intros o D s H. apply history_sizes in H as [H1 H2]. unfold resetMatcher, resetState, newMatcher, lift, newState, setPos. cbn.
  rewrite !map_repeat, H1, H2, orb_false_r. reflexivity.
Qed.

Lemma match_pos : forall fuel o D doc s p, match_ fuel o D doc (setPos s p) = match_ fuel o D doc s.
Proof. reflexivity. Qed.

(** After any history, Reset then Match gives on every document exactly the result
    (or error, or crash) of a fresh matcher, and leaves the same slots, tree state
    and position, hence the same answers per expression; only the status flag
    additionally remembers what it was. *)
Theorem C22_reset_is_fresh : forall o D s fuel doc, history o D s ->
  match match_ fuel o D doc (resetMatcher s), match_ fuel o D doc (newMatcher D) with
  | Ok (sr, r1), Ok (sf, r2) =>
      r1 = r2
      /\ ms_slots sr = ms_slots sf /\ ms_data sr = ms_data sf /\ ms_stall sr = ms_stall sf /\ ms_pos sr = ms_pos sf
      /\ (forall i, expressionMatched D sr i = expressionMatched D sf i)
      /\ ms_coll sr = ms_coll s || ms_coll sf
  | Err, Err | Panic, Panic | OutOfFuel, OutOfFuel => True
  | _, _ => False
  end.
Proof.
  intros o D s fuel doc H. rewrite <- (match_pos fuel o D doc (resetMatcher s) 0), (reset_is_new o D s H), match_pos.
  pose proof (history_sizes o D _ (h_new o D)) as [I1 I2].
  pose proof (match_lift (ms_coll s) _ _ fuel o D doc (newMatcher D) I1 I2) as X.
  destruct (match_ fuel o D doc (newMatcher D)) as [[sf r2]| | |];
  destruct (match_ fuel o D doc (lift (ms_coll s) (newMatcher D))) as [[s3 r3]| | |]; cbn in X; try contradiction; auto.
  destruct X as [X _]. inversion X; subst. cbn. repeat split; auto.
Qed.

(** As long as no match raised the flag, the status is the fresh one too. *)
Corollary C22_status_fresh_unless_raised : forall o D s fuel doc, history o D s -> ms_coll s = false ->
  match matchWithStatus fuel o D doc (resetMatcher s), matchWithStatus fuel o D doc (newMatcher D) with
  | Ok (_, r1, c1), Ok (_, r2, c2) => r1 = r2 /\ c1 = c2
  | Err, Err | Panic, Panic | OutOfFuel, OutOfFuel => True
  | _, _ => False
  end.
Proof.
  intros o D s fuel doc H Hc. pose proof (C22_reset_is_fresh o D s fuel doc H) as X. unfold matchWithStatus.
  destruct (match_ fuel o D doc (resetMatcher s)) as [[sr r1]| | |], (match_ fuel o D doc (newMatcher D)) as [[sf r2]| | |];
    cbn; auto. destruct X as (-> & _ & _ & _ & _ & _ & ->). now rewrite Hc.
Qed.

(** The filter [a = true], compiled; documents. *)
Definition ex22 (o : oracles) := transform o [XCmp CEq (fld 0 ["a"]%string) (cb true)].

(** The flag is sticky: the second document alone would not raise it. *)
Theorem C22_status_sticky_refuted : forall o, exists D s r1 s' s'' r,
  ex22 o = Ok D /\
  match_ 20 o D (s2b "{""a"":null}") (newMatcher D) = Ok (s, r1) /\
  matchWithStatus 20 o D (s2b "{""b"":1}") (resetMatcher s) = Ok (s', r, true) /\
  matchWithStatus 20 o D (s2b "{""b"":1}") (newMatcher D) = Ok (s'', r, false).
Proof.
  intro o. let x := eval vm_compute in (ex22 o) in match x with Ok ?D => exists D end.
  do 5 eexists. split; [vm_compute; reflexivity|]. split; [vm_compute; reflexivity|]. split; vm_compute; reflexivity.
Qed.

(** Without Reset the previous document shows through: [a = true] on [{"b":1}]. *)
Theorem C22_without_reset_refuted : forall o, exists D s r1 s' s'',
  ex22 o = Ok D /\
  match_ 20 o D (s2b "{""a"":true}") (newMatcher D) = Ok (s, r1) /\
  match_ 20 o D (s2b "{""b"":1}") s = Ok (s', Some true) /\
  match_ 20 o D (s2b "{""b"":1}") (newMatcher D) = Ok (s'', Some false).
Proof.
  intro o. let x := eval vm_compute in (ex22 o) in match x with Ok ?D => exists D end.
  do 4 eexists. split; [vm_compute; reflexivity|]. split; [vm_compute; reflexivity|]. split; vm_compute; reflexivity.
Qed.

(** A history with an error in it: the flag is up, the tree half filled. *)
Example C22_history_example : forall o, exists D s, ex22 o = Ok D /\ history o D s /\ ms_coll s = true /\ ms_pos s = 9.
Proof.
  intro o. let x := eval vm_compute in (ex22 o) in match x with Ok ?D => exists D end.
  match goal with |- exists s, _ /\ history o ?D s /\ _ =>
    let x := eval vm_compute in (match_ 20 o D (s2b "{""a"":null") (newMatcher D)) in
    match x with Ok (?s, _) => exists s end end.
  split; [vm_compute; reflexivity|]. split.
  - eapply (h_match o _ _ 20 (s2b "{""a"":null")); [apply h_new|vm_compute; reflexivity].
  - split; reflexivity.
Qed.

Print Assumptions C22_reset_is_fresh.
Print Assumptions C22_status_fresh_unless_raised.
