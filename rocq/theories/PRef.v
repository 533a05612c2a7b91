(** The reference matcher, used repeatedly, and what it answers. *)
From Verif Require Import Base MTokenizer MLit MFastVal SEvents MExpr MExprJson MSlow SSlow PFastVal PSlow SRef.
From Coq Require Import List NArith ZArith Arith Lia Bool.
From Coq Require Import Floats.SpecFloat.
Import ListNotations.
Open Scope nat_scope.

(** ** Variables *)
Definition same (vs ws : svars) : Prop := forall r, vget r vs = vget r ws.
Lemma vget_gone : forall r vs, vget r (vdel r vs) = JNull.
Proof.
  intros r vs. induction vs as [|[k v] t IH]; [reflexivity|]. unfold vdel in *. cbn [filter fst]. destruct (Nat.eqb_spec k r) as [->|N]; cbn [negb]; [exact IH|].
  cbn [vget]. destruct (Nat.eqb_spec r k); [congruence|exact IH].
Qed.
Lemma same_set : forall r v vs ws, same vs ws -> same (vset r v vs) (vset r v ws).
Proof. intros r v vs ws H k. destruct (Nat.eq_dec k r) as [->|N]; [now rewrite !vget_set|]. rewrite !vget_other by exact N. apply H. Qed.
Lemma same_del : forall r vs ws, same vs ws -> same (vdel r vs) (vdel r ws).
Proof. intros r vs ws H k. destruct (Nat.eq_dec k r) as [->|N]; [now rewrite !vget_gone|]. rewrite !vget_del by exact N. apply H. Qed.
Lemma resolve_same : forall vs ws e, same vs ws -> resolveParam vs e = resolveParam ws e.
Proof. intros vs ws e H. destruct e; try reflexivity. cbn [resolveParam]. now rewrite H. Qed.
Lemma cmp_same : forall vs ws k l r, same vs ws -> slowCmp vs k l r = slowCmp ws k l r.
Proof. intros vs ws k l r H. unfold slowCmp, compareExprs. now rewrite (resolve_same vs ws l), (resolve_same vs ws r). Qed.

(** Only the values of variables count. *)
Definition alike (a b : sres) : Prop := same (fst a) (fst b) /\ snd a = snd b.
Lemma anyLoop_same : forall body v l vs ws, (forall vs ws, same vs ws -> alike (body vs) (body ws)) -> same vs ws -> alike (anyLoop body vs v l) (anyLoop body ws v l).
Proof.
  intros body v l. induction l as [|x r IH]; intros vs ws HB H; cbn [anyLoop]; [split; [exact H|reflexivity]|].
  destruct (HB (vset v x vs) (vset v x ws) (same_set v x vs ws H)) as [A B]. destruct (body (vset v x vs)) as [vs' res], (body (vset v x ws)) as [ws' res']. cbn [fst snd] in A, B. subst res'.
  pose proof (same_del v vs' ws' A) as D. destruct res as [[|]| | |]; try (split; [exact D|reflexivity]). apply IH; auto.
Qed.
Lemma matchOne_same : forall e vs ws, same vs ws -> alike (matchOne vs e) (matchOne ws e).
Proof.
  intros e. induction e using expr_ind'; intros vs ws HS; try (split; [exact HS|reflexivity]).
  - destruct l as [|x l]; [split; [exact HS|reflexivity]|]. rewrite !one_and by discriminate. revert vs ws HS. induction (x :: l) as [|a r IH]; intros vs ws HS; cbn [slowAnd]; [split; [exact HS|reflexivity]|].
    inversion H as [|? ? H1 H2]; subst. destruct (H1 vs ws HS) as [A B]. destruct (matchOne vs a) as [vs' res], (matchOne ws a) as [ws' res']. cbn [fst snd] in A, B. subst res'.
    destruct res as [[|]| | |]; try (split; [exact A|reflexivity]). apply IH; auto.
  - rewrite !one_or. revert vs ws HS. induction l as [|a r IH]; intros vs ws HS; cbn [slowOr]; [split; [exact HS|reflexivity]|].
    inversion H as [|? ? H1 H2]; subst. destruct (H1 vs ws HS) as [A B]. destruct (matchOne vs a) as [vs' res], (matchOne ws a) as [ws' res']. cbn [fst snd] in A, B. subst res'.
    destruct res as [[|]| | |]; try (split; [exact A|reflexivity]). apply IH; auto.
  - cbn [matchOne]. destruct m; try (split; [exact HS|reflexivity]). rewrite (resolve_same vs ws e1 HS). destruct (resolveParam ws e1) as [[[]|]| | |]; try (split; [exact HS|reflexivity]); apply anyLoop_same; auto.
  - cbn [matchOne]. rewrite (cmp_same vs ws k e1 e2 HS). split; [exact HS|reflexivity].
Qed.

(** Variables without a value get none. *)
Definition only0 (vs : svars) : Prop := forall r, r <> 0 -> vget r vs = JNull.
Definition fewer (vs ws : svars) : Prop := forall r, vget r vs = JNull -> vget r ws = JNull.
Lemma fewer_refl : forall vs, fewer vs vs.
Proof. intros vs r H. exact H. Qed.
Lemma anyLoop_fewer : forall body v l vs, (forall vs, fewer vs (fst (body vs))) -> fewer vs (fst (anyLoop body vs v l)).
Proof.
  intros body v l. induction l as [|x r IH]; intros vs HB; cbn [anyLoop]; [apply fewer_refl|].
  pose proof (HB (vset v x vs)) as A. destruct (body (vset v x vs)) as [vs' res]. cbn [fst] in A.
  assert (fewer vs (vdel v vs')) as D.
  { intros k Hk. destruct (Nat.eq_dec k v) as [->|N]; [apply vget_gone|]. rewrite vget_del by exact N. apply A. now rewrite vget_other. }
  destruct res as [[|]| | |]; try exact D. intros k Hk. apply (IH (vdel v vs') HB). now apply D.
Qed.
Lemma matchOne_fewer : forall e vs, fewer vs (fst (matchOne vs e)).
Proof.
  intros e. induction e using expr_ind'; intros vs; try apply fewer_refl.
  - destruct l as [|x l]; [apply fewer_refl|]. rewrite !one_and by discriminate. revert vs. induction (x :: l) as [|a r IH]; intros vs; cbn [slowAnd]; [apply fewer_refl|].
    inversion H as [|? ? H1 H2]; subst. pose proof (H1 vs) as A. destruct (matchOne vs a) as [vs' res]. cbn [fst] in A.
    destruct res as [[|]| | |]; try exact A. intros k Hk. apply (IH H2 vs'). now apply A.
  - rewrite !one_or. revert vs. induction l as [|a r IH]; intros vs; cbn [slowOr]; [apply fewer_refl|].
    inversion H as [|? ? H1 H2]; subst. pose proof (H1 vs) as A. destruct (matchOne vs a) as [vs' res]. cbn [fst] in A.
    destruct res as [[|]| | |]; try exact A. intros k Hk. apply (IH H2 vs'). now apply A.
  - cbn [matchOne]. destruct m; try apply fewer_refl. destruct (resolveParam vs e1) as [[[]|]| | |]; try apply fewer_refl; apply anyLoop_fewer; auto.
Qed.
Lemma root_same : forall e vs ws, same vs ws -> alike (matchOneRoot vs e) (matchOneRoot ws e).
Proof. intros e vs ws H. destruct e; try (split; [exact H|reflexivity]); apply matchOne_same; exact H. Qed.
Lemma root_fewer : forall e vs, fewer vs (fst (matchOneRoot vs e)).
Proof. intros e vs. destruct e; try apply fewer_refl; apply matchOne_fewer. Qed.

(** ** The loop over the expressions *)
Lemma setNth_len : forall l i b, length (setNth i b l) = length l.
Proof. induction l as [|x l IH]; intros [|i] b; cbn [setNth length]; auto. Qed.
Lemma setNth_app : forall p x q b, setNth (length p) b (p ++ x :: q) = p ++ b :: q.
Proof. induction p as [|a p IH]; intros x q b; cbn [length app setNth]; [reflexivity|]. now rewrite IH. Qed.
Lemma rootLoop_same : forall l vs ws matched p ms ns, same vs ws -> length ms = length l -> length ns = length l ->
  let '(vs', ms', r) := rootLoop vs (p ++ ms) matched (length p) l in
  let '(ws', ns', r') := rootLoop ws (p ++ ns) matched (length p) l in
  r = r' /\ ((exists b, r = Ok b) -> ms' = ns').
Proof.
  induction l as [|e l IH]; intros vs ws matched p ms ns HS L1 L2; cbn [rootLoop].
  - destruct ms, ns; try discriminate. split; auto.
  - destruct ms as [|x ms], ns as [|y ns]; try discriminate. injection L1 as L1. injection L2 as L2. destruct (root_same e vs ws HS) as [A B].
    destruct (matchOneRoot vs e) as [vs' res], (matchOneRoot ws e) as [ws' res']. cbn [fst snd] in A, B. subst res'.
    destruct res as [b| | |]; try (split; [reflexivity|intros [c E]; discriminate]). rewrite !setNth_app.
    pose proof (IH vs' ws' (if Nat.eqb (length p) 0 && b then true else if negb b then false else matched) (p ++ [b]) ms ns A L1 L2) as H.
    rewrite <- !app_assoc in H. cbn [app] in H. rewrite app_length in H. cbn [length] in H. rewrite Nat.add_1_r in H. exact H.
Qed.
Lemma rootLoop_fewer : forall l vs ms matched i, fewer vs (fst (fst (rootLoop vs ms matched i l))) /\ length (snd (fst (rootLoop vs ms matched i l))) = length ms.
Proof.
  induction l as [|e l IH]; intros vs ms matched i; cbn [rootLoop]; [split; [apply fewer_refl|reflexivity]|].
  pose proof (root_fewer e vs) as A. destruct (matchOneRoot vs e) as [vs' res]. cbn [fst] in A. destruct res as [b| | |]; try (split; [exact A|reflexivity]).
  destruct (IH vs' (setNth i b ms) (if Nat.eqb i 0 && b then true else if negb b then false else matched) (S i)) as [B C]. split; [|now rewrite C, setNth_len].
  intros k Hk. apply B. now apply A.
Qed.

Lemma used_ok : forall unmarshal es m, used unmarshal es m -> sl_exprs m = es /\ length (sl_matches m) = length es /\ only0 (sl_vars m).
Proof.
  intros unmarshal es m H. induction H as [|m data m' r _ [A [B C]] HM _|m _ [A [B C]]].
  - cbn. split; [reflexivity|]. split; [apply repeat_length|]. intros r _. reflexivity.
  - unfold slowMatch in HM. destruct (unmarshal data) as [d|]; [|injection HM as <- <-; auto].
    pose proof (rootLoop_fewer (sl_exprs m) (vset 0 d (sl_vars m)) (sl_matches m) false 0) as [F L].
    destruct (rootLoop (vset 0 d (sl_vars m)) (sl_matches m) false 0 (sl_exprs m)) as [[vs ms] res]. cbn [fst snd] in F, L. injection HM as <- <-. cbn [sl_exprs sl_matches sl_vars].
    split; [exact A|]. split; [congruence|]. assert (only0 vs) as O by (intros k Hk; apply F; rewrite vget_other by exact Hk; now apply C).
    destruct res; try exact O. intros k Hk. rewrite vget_del by exact Hk. now apply O.
  - unfold resetSlow. cbn. split; [exact A|]. split; [now rewrite map_length|]. intros r _. reflexivity.
Qed.
Lemma start_same : forall d vs, only0 vs -> same (vset 0 d vs) (vset 0 d []).
Proof. intros d vs H k. destruct (Nat.eq_dec k 0) as [->|N]; [now rewrite !vget_set|]. rewrite !vget_other by exact N. now rewrite H. Qed.
Theorem reuse : forall unmarshal es m data m1 r1 m2 r2, used unmarshal es m ->
  slowMatch unmarshal data m = (m1, r1) -> slowMatch unmarshal data (newSlow es) = (m2, r2) -> r1 = r2 /\ ((exists b, r1 = Ok b) -> sl_matches m1 = sl_matches m2).
Proof.
  intros unmarshal es m data m1 r1 m2 r2 HU H1 H2. destruct (used_ok unmarshal es m HU) as [A [B C]]. unfold slowMatch in H1, H2. destruct (unmarshal data) as [d|].
  - cbn [newSlow sl_exprs sl_matches sl_vars] in H2. rewrite A in H1.
    pose proof (rootLoop_same es (vset 0 d (sl_vars m)) (vset 0 d []) false [] (sl_matches m) (repeat false (length es)) (start_same d _ C) B (repeat_length _ _)) as H. cbn [app length] in H.
    destruct (rootLoop (vset 0 d (sl_vars m)) (sl_matches m) false 0 es) as [[vs ms] r], (rootLoop (vset 0 d []) (repeat false (length es)) false 0 es) as [[ws ns] r']. injection H1 as <- <-. injection H2 as <- <-. exact H.
  - injection H1 as <- <-. injection H2 as <- <-. split; [reflexivity|]. intros [b E]. discriminate.
Qed.

(** ** What it answers *)
Lemma mget_member : forall k m, mget k m = member k m.
Proof. intros k m. unfold member. induction m as [|[k' v] t IH]; [reflexivity|]. cbn [mget find fst]. destruct (bytes_eqb k k'); [reflexivity|exact IH]. Qed.
Lemma walk_path : forall q v j, walk v q = Ok j <-> pathTo v q j.
Proof.
  induction q as [|k q IH]; intros v j; cbn [walk].
  - split; [intro H; injection H as ->; constructor|intro H; inversion H; reflexivity].
  - destruct v; try (split; [discriminate|intro H; inversion H]). rewrite mget_member, IH. split; [intro H; now constructor|intro H; inversion H; assumption].
Qed.
Lemma resolve_value : forall vs w e s, (forall r, vget r vs = w r) -> (resolveParam vs e = Ok s <-> value w e s).
Proof.
  intros vs w e s HE. destruct e; try (split; [discriminate|intro H; inversion H]); cbn [resolveParam].
  - split.
    + intro H. injection H as <-. destruct v; cbn [svalue]; constructor; exact I.
    + intro H. inversion H; subst; try reflexivity. destruct v; try contradiction; reflexivity.
  - rewrite HE. split.
    + intro H. destruct (walk (w root) path) as [v| | |] eqn:E; try discriminate. injection H as <-. constructor. now apply walk_path.
    + intro H. inversion H as [r q v HP| | | | |]; subst. apply walk_path in HP. rewrite HP. reflexivity.
Qed.
Lemma cmpBytes_before : forall a b, (cmpBytes a b = -1)%Z <-> before a b.
Proof.
  induction a as [|c a IH]; intros [|d b]; cbn [cmpBytes].
  - split; [discriminate|intro H; inversion H].
  - split; [constructor|reflexivity].
  - split; [discriminate|intro H; inversion H].
  - destruct (N.ltb_spec c d) as [L|L]; [split; [intro; now constructor|reflexivity]|]. destruct (N.ltb_spec d c) as [M|M]; [split; [discriminate|intro H; inversion H; subst; lia]|].
    assert (c = d) as -> by lia. rewrite IH. split; [intro; now constructor|intro H; inversion H; subst; [lia|assumption]].
Qed.
Definition sign (c : comparison) : Z := match c with Lt => -1 | Eq => 0 | Gt => 1 end.
Lemma compare_ordered : forall x y z, compareVals x y = Ok z <-> exists c, ordered x y c /\ z = sign c.
Proof.
  assert (forall f g, (if fltb f g then -1 else if fltb g f then 1 else 0)%Z = sign (match SFcompare f g with Some c => c | None => Eq end)) as HF.
  { intros f g. unfold fltb, SFltb. rewrite (SFcompare_swap f g). destruct (SFcompare f g) as [[]|]; reflexivity. }
  intros x y z. split.
  - intro H. destruct x as [[]|]; cbn [compareVals] in H; try discriminate.
    + destruct y as [[]|]; injection H as <-; try (exists Lt; split; [constructor; discriminate|reflexivity]). exists Eq. split; [constructor|reflexivity].
    + destruct y as [[]|]; try discriminate. injection H as <-. eexists. split; [constructor|]. destruct b, b0; reflexivity.
    + destruct y as [[]|]; try discriminate. injection H as <-. eexists. split; [constructor|]. apply HF.
    + destruct y as [[]|]; try discriminate. injection H as <-. destruct (cmpBytes_range s s0) as [E|[E|E]]; rewrite E.
      * exists Lt. split; [constructor; now apply cmpBytes_before|reflexivity].
      * apply cmpBytes_eq in E as ->. exists Eq. split; [constructor|reflexivity].
      * exists Gt. split; [constructor; apply cmpBytes_before; rewrite cmpBytes_swap, E; reflexivity|reflexivity].
  - intros [c [H ->]]. destruct H; cbn [compareVals].
    + f_equal. now apply cmpBytes_eq.
    + f_equal. now apply cmpBytes_before.
    + f_equal. apply cmpBytes_before in H. rewrite cmpBytes_swap, H. reflexivity.
    + f_equal. apply HF.
    + destruct a, b; reflexivity.
    + reflexivity.
    + destruct y as [[]|]; try reflexivity. contradiction.
Qed.
Lemma cmp_answers : forall vs w k l r b, (forall r, vget r vs = w r) -> (slowCmp vs k l r = Ok b <-> answers w (XCmp k l r) b).
Proof.
  intros vs w k l r b HE. cbn [answers].
  assert (forall z, compareExprs vs l r = Ok z <-> exists x y c, value w l x /\ value w r y /\ ordered x y c /\ z = sign c) as HC.
  { intro z. unfold compareExprs. split.
    - intro H. destruct (resolveParam vs l) as [x| | |] eqn:E1; try discriminate. cbn [obind] in H. destruct (resolveParam vs r) as [y| | |] eqn:E2; try discriminate. cbn [obind] in H.
      apply compare_ordered in H as [c [H1 H2]]. exists x, y, c. rewrite (resolve_value vs w l x HE) in E1. rewrite (resolve_value vs w r y HE) in E2. auto.
    - intros [x [y [c [A [B [C D]]]]]]. apply (resolve_value vs w l x HE) in A. apply (resolve_value vs w r y HE) in B. rewrite A, B. cbn [obind]. apply compare_ordered. eauto. }
  assert (forall k, k <> CLike -> (obind (compareExprs vs l r) (fun c => Ok (match k with CEq => (c =? 0)%Z | CNe => negb (c =? 0)%Z | CLt => (c <? 0)%Z | CLe => (c <=? 0)%Z | CGt => (0 <? c)%Z | _ => (0 <=? c)%Z end)) = Ok b <->
     exists x y c, value w l x /\ value w r y /\ ordered x y c /\ b = holdsOf k c)) as HK.
  { intros k0 NK. split.
    - intro H. destruct (compareExprs vs l r) as [z| | |] eqn:E; try discriminate. cbn [obind] in H. injection H as <-. destruct (proj1 (HC z) eq_refl) as [x [y [c [A [B [C ->]]]]]]. exists x, y, c.
      split; [exact A|]. split; [exact B|]. split; [exact C|]. destruct k0, c; try contradiction; reflexivity.
    - intros [x [y [c [A [B [C ->]]]]]]. rewrite (proj2 (HC (sign c))) by eauto 8. cbn [obind]. f_equal. destruct k0, c; try contradiction; reflexivity. }
  destruct k; try (match goal with |- context [holdsOf ?q _] => pose proof (HK q ltac:(discriminate)) as HKk end; cbn [slowCmp] in *; split; [intro H; split; [discriminate|now apply HKk]|intros [_ H]; now apply HKk]).
  split; [intro H; discriminate H|intros [N _]; contradiction].
Qed.
Lemma anyOf_cons : forall a l b, anyOf (a :: l) b <-> (a true /\ b = true) \/ (a false /\ anyOf l b).
Proof.
  intros a l [|]; cbn [anyOf].
  - split.
    + intros [[|x p] [y [q [E [F T]]]]]; cbn [app] in E; injection E as -> ->; [auto|]. inversion F; subst. right. split; [assumption|]. exists p, y, q. auto.
    + intros [[T _]|[T [p [y [q [-> [F G]]]]]]]; [exists [], a, l; auto|]. exists (a :: p), y, q. auto.
  - split; [intro H; inversion H; auto|]. intros [[_ E]|[T F]]; [discriminate|auto].
Qed.
Lemma allOf_cons : forall a l b, allOf (a :: l) b <-> (a false /\ b = false) \/ (a true /\ allOf l b).
Proof.
  intros a l [|]; cbn [allOf].
  - split; [intro H; inversion H; auto|]. intros [[_ E]|[T F]]; [discriminate|auto].
  - split.
    + intros [[|x p] [y [q [E [F T]]]]]; cbn [app] in E; injection E as -> ->; [auto|]. inversion F; subst. right. split; [assumption|]. exists p, y, q. auto.
    + intros [[T _]|[T [p [y [q [-> [F G]]]]]]]; [exists [], a, l; auto|]. exists (a :: p), y, q. auto.
Qed.
Lemma answers_and : forall w l b, l <> [] -> (answers w (XAnd l) b <-> allOf (map (fun a => answers w a) l) b).
Proof. intros w [|a l] b H; [contradiction|reflexivity]. Qed.
Definition answersAs (e : expr) : Prop := forall vs w us, unshadowed us e -> (forall r, vget r vs = w r) -> (forall v, ~ In v us -> w v = JNull) ->
  (forall r, vget r (fst (matchOne vs e)) = w r) /\ (forall b, snd (matchOne vs e) = Ok b <-> answers w e b).
Lemma loop_answers : forall s v l vs w us, answersAs s -> ~ In v us -> unshadowed (v :: us) s -> (forall r, vget r vs = w r) -> (forall v, ~ In v us -> w v = JNull) ->
  (forall r, vget r (fst (anyLoop (fun vs => matchOne vs s) vs v l)) = w r) /\
  (forall b, snd (anyLoop (fun vs => matchOne vs s) vs v l) = Ok b <-> anyOf (map (fun x => answers (bind w v x) s) l) b).
Proof.
  intros s v l. induction l as [|x l IH]; intros vs w us HA HV HU HE HN; cbn [anyLoop map].
  - split; [exact HE|]. intros [|]; cbn [snd anyOf]; split; intro H; try discriminate; auto. destruct H as [[|] [y [q [E _]]]]; discriminate.
  - assert (forall r, vget r (vset v x vs) = bind w v x r) as HB.
    { intro r. unfold bind. destruct (Nat.eqb_spec r v) as [->|N]; [apply vget_set|]. now rewrite vget_other. }
    destruct (HA (vset v x vs) (bind w v x) (v :: us) HU HB) as [A B].
    { intros u Hu. unfold bind. destruct (Nat.eqb_spec u v) as [->|N]; [exfalso; apply Hu; now left|]. apply HN. intro. apply Hu. now right. }
    destruct (matchOne (vset v x vs) s) as [vs' res]. cbn [fst snd] in A, B.
    assert (forall r, vget r (vdel v vs') = w r) as HD.
    { intro r. destruct (Nat.eq_dec r v) as [->|N]; [rewrite vget_gone; symmetry; now apply HN|]. rewrite vget_del by exact N. rewrite A. unfold bind. destruct (Nat.eqb_spec r v); [contradiction|reflexivity]. }
    destruct (IH (vdel v vs') w us HA HV HU HD HN) as [C D].
    pose proof (B true) as BT. pose proof (B false) as BF. destruct res as [[|]| | |].
    + split; [exact HD|]. intro b. cbn [snd]. rewrite anyOf_cons, <- BT, <- BF. split; [intro H; injection H as <-; auto|]. intros [[_ ->]|[H _]]; [reflexivity|discriminate].
    + split; [exact C|]. intro b. rewrite anyOf_cons, <- BT, <- BF, <- D. split; [intro H; right; auto|]. intros [[H _]|[_ H]]; [discriminate|exact H].
    + split; [exact HD|]. intro b. cbn [snd]. rewrite anyOf_cons, <- BT, <- BF. split; [discriminate|]. intros [[H _]|[H _]]; discriminate.
    + split; [exact HD|]. intro b. cbn [snd]. rewrite anyOf_cons, <- BT, <- BF. split; [discriminate|]. intros [[H _]|[H _]]; discriminate.
    + split; [exact HD|]. intro b. cbn [snd]. rewrite anyOf_cons, <- BT, <- BF. split; [discriminate|]. intros [[H _]|[H _]]; discriminate.
Qed.
Theorem one_answers : forall e, answersAs e.
Proof.
  intros e. induction e using expr_ind'; intros vs w us HU HE HN; try (split; [exact HE|intro b; cbn; split; [discriminate|tauto]]).
  - destruct l as [|x l]; [split; [exact HE|]; intro b; cbn; split; [intro H0; injection H0; auto|intros ->; reflexivity]|].
    apply unshadowed_and in HU. rewrite one_and by discriminate. setoid_rewrite answers_and; [|discriminate].
    revert vs HE. induction (x :: l) as [|a r IH]; intros vs HE; cbn [slowAnd map]; [split; [exact HE|]; intros [|]; cbn [snd allOf]; split; intro Q; try discriminate; auto; destruct Q as [[|] [y [q [E _]]]]; discriminate|].
    inversion H as [|? ? H1 H2]; subst. destruct HU as [U1 U2]. destruct (H1 vs w us U1 HE HN) as [A B]. destruct (matchOne vs a) as [vs' res]. cbn [fst snd] in A, B.
    destruct (IH H2 U2 vs' A) as [C D]. pose proof (B true) as BT. pose proof (B false) as BF. destruct res as [[|]| | |].
    + split; [exact C|]. intro b. rewrite allOf_cons, <- BT, <- BF, <- D. split; [intro Q; right; auto|]. intros [[Q _]|[_ Q]]; [discriminate|exact Q].
    + split; [exact A|]. intro b. cbn [snd]. rewrite allOf_cons, <- BT, <- BF. split; [intro Q; injection Q as <-; auto|]. intros [[_ ->]|[Q _]]; [reflexivity|discriminate].
    + split; [exact A|]. intro b. cbn [snd]. rewrite allOf_cons, <- BT, <- BF. split; [discriminate|]. intros [[Q _]|[Q _]]; discriminate.
    + split; [exact A|]. intro b. cbn [snd]. rewrite allOf_cons, <- BT, <- BF. split; [discriminate|]. intros [[Q _]|[Q _]]; discriminate.
    + split; [exact A|]. intro b. cbn [snd]. rewrite allOf_cons, <- BT, <- BF. split; [discriminate|]. intros [[Q _]|[Q _]]; discriminate.
  - apply unshadowed_or in HU. rewrite one_or. cbn [answers].
    revert vs HE. induction l as [|a r IH]; intros vs HE; cbn [slowOr map]; [split; [exact HE|]; intros [|]; cbn [snd anyOf]; split; intro Q; try discriminate; auto; destruct Q as [[|] [y [q [E _]]]]; discriminate|].
    inversion H as [|? ? H1 H2]; subst. destruct HU as [U1 U2]. destruct (H1 vs w us U1 HE HN) as [A B]. destruct (matchOne vs a) as [vs' res]. cbn [fst snd] in A, B.
    destruct (IH H2 U2 vs' A) as [C D]. pose proof (B true) as BT. pose proof (B false) as BF. destruct res as [[|]| | |].
    + split; [exact A|]. intro b. cbn [snd]. rewrite anyOf_cons, <- BT, <- BF. split; [intro Q; injection Q as <-; auto|]. intros [[_ ->]|[Q _]]; [reflexivity|discriminate].
    + split; [exact C|]. intro b. rewrite anyOf_cons, <- BT, <- BF, <- D. split; [intro Q; right; auto|]. intros [[Q _]|[_ Q]]; [discriminate|exact Q].
    + split; [exact A|]. intro b. cbn [snd]. rewrite anyOf_cons, <- BT, <- BF. split; [discriminate|]. intros [[Q _]|[Q _]]; discriminate.
    + split; [exact A|]. intro b. cbn [snd]. rewrite anyOf_cons, <- BT, <- BF. split; [discriminate|]. intros [[Q _]|[Q _]]; discriminate.
    + split; [exact A|]. intro b. cbn [snd]. rewrite anyOf_cons, <- BT, <- BF. split; [discriminate|]. intros [[Q _]|[Q _]]; discriminate.
  - cbn [matchOne answers]. destruct m; try (split; [exact HE|intro b; cbn; split; [discriminate|tauto]]). destruct HU as [HV HU].
    pose proof (fun s => resolve_value vs w e1 s HE) as HR.
    assert (forall j l, elements j l -> resolveParam vs e1 = Ok (SV j) -> (forall r, vget r (fst (anyLoop (fun vs => matchOne vs e2) vs v l)) = w r) /\
      (forall b, snd (anyLoop (fun vs => matchOne vs e2) vs v l) = Ok b <-> exists j l, value w e1 (SV j) /\ elements j l /\ anyOf (map (fun x => answers (bind w v x) e2) l) b)) as HL.
    { intros j l EL ER. destruct (loop_answers e2 v l vs w us IHe2 HV HU HE HN) as [A B]. split; [exact A|]. intro b. rewrite B. split.
      - intro Q. exists j, l. split; [now apply HR|]. auto.
      - intros [j' [l' [V' [EL' Q]]]]. apply HR in V'. rewrite ER in V'. injection V' as <-. destruct EL; inversion EL'; subst; exact Q. }
    assert (forall res, res = Err \/ res = Panic \/ res = OutOfFuel -> (forall j, resolveParam vs e1 = Ok (SV j) -> forall l, ~ elements j l) -> (forall r, vget r vs = w r) /\
      (forall b, res = Ok b <-> exists j l, value w e1 (SV j) /\ elements j l /\ anyOf (map (fun x => answers (bind w v x) e2) l) b)) as HX.
    { intros res HD HNo. split; [exact HE|]. intro b. split; [intros ->; destruct HD as [D|[D|D]]; discriminate|]. intros [j [l [V' [EL _]]]]. apply HR in V'. exfalso. eapply HNo; eauto. }
    destruct (resolveParam vs e1) as [[[]|]| | |]; try (apply HX; [auto|intros j Q l' EL; try discriminate Q; injection Q as <-; inversion EL]).
    + apply (HL (JArr l)); [constructor|reflexivity].
    + apply (HL (JObj m)); [constructor|reflexivity].
  - split; [exact HE|]. intro b. cbn [matchOne snd]. now apply cmp_answers.
Qed.
Lemma root_answers : forall e vs w us, unshadowed us e -> (forall r, vget r vs = w r) -> (forall v, ~ In v us -> w v = JNull) ->
  (forall r, vget r (fst (matchOneRoot vs e)) = w r) /\ (forall b, snd (matchOneRoot vs e) = Ok b <-> rootAnswers w e b).
Proof.
  intros e vs w us HU HE HN. destruct e; try (apply (one_answers _ vs w us HU HE HN)); split; try exact HE; intro b; cbn; (split; [intro H; injection H as <-; reflexivity|intros ->; reflexivity]).
Qed.
Lemma together_snoc : forall p b, together (p ++ [b]) = if Nat.eqb (length p) 0 && b then true else if negb b then false else together p.
Proof.
  intros [|a p] b; [destruct b; reflexivity|]. cbn [app together length Nat.eqb andb]. change (a :: p ++ [b]) with ((a :: p) ++ [b]). rewrite forallb_app. cbn [forallb]. destruct b; cbn [negb andb]; [now rewrite !andb_true_r|now rewrite !andb_false_r].
Qed.
Lemma rootLoop_prefix : forall l vs p ms matched, length ms = length l -> exists t, snd (fst (rootLoop vs (p ++ ms) matched (length p) l)) = p ++ t.
Proof.
  induction l as [|e l IH]; intros vs p ms matched HL; cbn [rootLoop]; [eexists; reflexivity|]. destruct ms as [|x ms]; [discriminate|]. injection HL as HL.
  destruct (matchOneRoot vs e) as [ws b0]. destruct b0 as [b| | |]; try (eexists; reflexivity). rewrite setNth_app. replace (p ++ b :: ms) with ((p ++ [b]) ++ ms) by (rewrite <- app_assoc; reflexivity).
  replace (S (length p)) with (length (p ++ [b])) by (rewrite app_length; cbn; lia).
  destruct (IH ws (p ++ [b]) ms (if Nat.eqb (length p) 0 && b then true else if negb b then false else matched) HL) as [t E]. rewrite E. exists (b :: t). now rewrite <- app_assoc.
Qed.
Lemma rootLoop_answers : forall l vs w us p ms vs' ms' res, Forall (unshadowed us) l -> (forall r, vget r vs = w r) -> (forall v, ~ In v us -> w v = JNull) -> length ms = length l ->
  rootLoop vs (p ++ ms) (together p) (length p) l = (vs', ms', res) ->
  forall r bs, (res = Ok r /\ ms' = p ++ bs) <-> (Forall2 (rootAnswers w) l bs /\ r = together (p ++ bs)).
Proof.
  induction l as [|e l IH]; intros vs w us p ms vs' ms' res HU HE HN HL H r bs; cbn [rootLoop] in H.
  - destruct ms; [|discriminate]. injection H as <- <- <-. rewrite app_nil_r. split.
    + intros [H1 H2]. injection H1 as <-. assert (bs = []) as -> by (apply (app_inv_head p); rewrite app_nil_r; auto). rewrite app_nil_r. auto.
    + intros [H1 ->]. inversion H1; subst. rewrite app_nil_r. auto.
  - destruct ms as [|x ms]; [discriminate|]. injection HL as HL. inversion HU as [|? ? U1 U2]; subst. destruct (root_answers e vs w us U1 HE HN) as [A B].
    destruct (matchOneRoot vs e) as [ws b0]. cbn [fst snd] in A, B. destruct b0 as [b| | |].
    + rewrite setNth_app, <- together_snoc in H. replace (p ++ b :: ms) with ((p ++ [b]) ++ ms) in H by (rewrite <- app_assoc; reflexivity).
      replace (S (length p)) with (length (p ++ [b])) in H by (rewrite app_length; cbn; lia).
      assert (rootAnswers w e b) as RB by (apply B; reflexivity). pose proof (IH ws w us (p ++ [b]) ms vs' ms' res U2 A HN HL H) as HI. split.
      * intros [-> ->]. destruct bs as [|c bs].
        { exfalso. pose proof (rootLoop_fewer l ws ((p ++ [b]) ++ ms) (together (p ++ [b])) (length (p ++ [b]))) as [_ LL]. rewrite H in LL. cbn [fst snd] in LL. rewrite !app_length in LL. cbn in LL. lia. }
        assert (b = c) as <-.
        { pose proof (rootLoop_prefix l ws (p ++ [b]) ms (together (p ++ [b])) HL) as PX. rewrite H in PX. cbn [fst snd] in PX. destruct PX as [t PX]. rewrite <- app_assoc in PX. apply app_inv_head in PX. cbn [app] in PX. now injection PX. }
        destruct (proj1 (HI r bs)) as [X Y]; [split; [reflexivity|now rewrite <- app_assoc]|]. split; [constructor; auto|]. rewrite Y, <- app_assoc. reflexivity.
      * intros [X ->]. inversion X as [|? c ? bs' X1 X2]; subst. apply B in X1. injection X1 as <-.
        destruct (proj2 (HI (together ((p ++ [b]) ++ bs')) bs')) as [Y Z]; [auto|]. rewrite <- app_assoc in Y, Z. auto.
    + injection H as <- <- <-. split; [intros [X _]; discriminate|]. intros [X _]. inversion X as [|? c ? bs' X1 X2]; subst. apply B in X1. discriminate.
    + injection H as <- <- <-. split; [intros [X _]; discriminate|]. intros [X _]. inversion X as [|? c ? bs' X1 X2]; subst. apply B in X1. discriminate.
    + injection H as <- <- <-. split; [intros [X _]; discriminate|]. intros [X _]. inversion X as [|? c ? bs' X1 X2]; subst. apply B in X1. discriminate.
Qed.

(** ** Crashes *)
Lemma walk_calm : forall q v, walk v q <> Panic /\ walk v q <> OutOfFuel.
Proof. induction q as [|k q IH]; intros v; cbn [walk]; [split; discriminate|]. destruct v; try (split; discriminate). apply IH. Qed.
Lemma resolve_calm : forall vs e, plainOperand e -> resolveParam vs e <> Panic.
Proof. intros vs e H. destruct e; try contradiction; cbn [resolveParam]; [discriminate|]. destruct (walk_calm path (vget root vs)) as [A B]. destruct (walk (vget root vs) path); try discriminate. contradiction. Qed.
Lemma cmp_calm : forall vs k l r, k <> CLike -> plainOperand l -> plainOperand r -> slowCmp vs k l r <> Panic.
Proof.
  intros vs k l r NK HL HR. assert (compareExprs vs l r <> Panic) as HC.
  { unfold compareExprs. pose proof (resolve_calm vs l HL). pose proof (resolve_calm vs r HR). destruct (resolveParam vs l) as [x| | |]; try discriminate; try contradiction. cbn [obind].
    destruct (resolveParam vs r) as [y| | |]; try discriminate; try contradiction. cbn [obind]. destruct x as [[]|], y as [[]|]; discriminate. }
  destruct k; try contradiction; cbn [slowCmp]; destruct (compareExprs vs l r); try discriminate; contradiction.
Qed.
Lemma steady_list : forall w l, (fix go l := match l with [] => True | a :: r => steady w a /\ go r end) l <-> Forall (steady w) l.
Proof. induction l as [|a l IH]; split; intro H; auto; [constructor; tauto|inversion H; tauto]. Qed.
Theorem one_calm : forall e vs w us, unshadowed us e -> (forall r, vget r vs = w r) -> (forall v, ~ In v us -> w v = JNull) -> steady w e -> snd (matchOne vs e) <> Panic.
Proof.
  intros e. induction e using expr_ind'; intros vs w us HU HE HN HS; try contradiction.
  - destruct l as [|x l]; [discriminate|]. apply unshadowed_and in HU. apply (proj1 (steady_list w (x :: l))) in HS. rewrite one_and by discriminate.
    revert vs HE. induction (x :: l) as [|a r IH]; intros vs HE; cbn [slowAnd]; [discriminate|].
    inversion H as [|? ? H1 H2]; inversion HS as [|? ? S1 S2]; subst. destruct HU as [U1 U2]. pose proof (H1 vs w us U1 HE HN S1) as P. destruct (one_answers a vs w us U1 HE HN) as [A _].
    destruct (matchOne vs a) as [vs' res]. cbn [fst snd] in A, P. destruct res as [[|]| | |]; try discriminate; [|contradiction]. apply IH; auto.
  - apply unshadowed_or in HU. apply (proj1 (steady_list w l)) in HS. rewrite one_or.
    revert vs HE. induction l as [|a r IH]; intros vs HE; cbn [slowOr]; [discriminate|].
    inversion H as [|? ? H1 H2]; inversion HS as [|? ? S1 S2]; subst. destruct HU as [U1 U2]. pose proof (H1 vs w us U1 HE HN S1) as P. destruct (one_answers a vs w us U1 HE HN) as [A _].
    destruct (matchOne vs a) as [vs' res]. cbn [fst snd] in A, P. destruct res as [[|]| | |]; try discriminate; [|contradiction]. apply IH; auto.
  - cbn [steady] in HS. destruct m; try contradiction. destruct HS as [[r [q ->]] HS]. destruct HU as [HV HU]. cbn [matchOne].
    assert (forall l vs, (forall r, vget r vs = w r) -> (forall x, In x l -> steady (bind w v x) e2) -> snd (anyLoop (fun vs => matchOne vs e2) vs v l) <> Panic) as HL.
    { clear vs HE. induction l as [|x l IH]; intros vs HE HX; cbn [anyLoop]; [discriminate|].
      assert (forall r, vget r (vset v x vs) = bind w v x r) as HB.
      { intro u. unfold bind. destruct (Nat.eqb_spec u v) as [->|N]; [apply vget_set|]. now rewrite vget_other. }
      assert (forall u, ~ In u (v :: us) -> bind w v x u = JNull) as HB2.
      { intros u Hu. unfold bind. destruct (Nat.eqb_spec u v) as [->|N]; [exfalso; apply Hu; now left|]. apply HN. intro. apply Hu. now right. }
      pose proof (IHe2 (vset v x vs) (bind w v x) (v :: us) HU HB HB2 (HX x (or_introl eq_refl))) as P. destruct (one_answers e2 (vset v x vs) (bind w v x) (v :: us) HU HB HB2) as [A _].
      destruct (matchOne (vset v x vs) e2) as [vs' res]. cbn [fst snd] in A, P. destruct res as [[|]| | |]; try discriminate; [|contradiction]. apply IH; [|intros y Hy; apply HX; now right].
      intro u. destruct (Nat.eq_dec u v) as [->|N]; [rewrite vget_gone; symmetry; now apply HN|]. rewrite vget_del by exact N. rewrite A. unfold bind. destruct (Nat.eqb_spec u v); [contradiction|reflexivity]. }
    pose proof (resolve_calm vs (XField r q) I) as P. destruct (resolveParam vs (XField r q)) as [s| | |] eqn:E; try discriminate; [|contradiction].
    pose proof (proj1 (resolve_value vs w (XField r q) s HE) E) as V. destruct s as [j|]; [|inversion V]. destruct (HS j V) as [l [EL HX]]. destruct EL; apply HL; auto.
  - destruct HS as [NK [P1 P2]]. cbn [matchOne snd]. now apply cmp_calm.
Qed.
Lemma root_calm : forall e vs w us, unshadowed us e -> (forall r, vget r vs = w r) -> (forall v, ~ In v us -> w v = JNull) -> rootSteady w e -> snd (matchOneRoot vs e) <> Panic.
Proof. intros e vs w us HU HE HN HS. destruct e; try discriminate; try contradiction; apply (one_calm _ vs w us HU HE HN HS). Qed.
Lemma rootLoop_calm : forall l vs w us ms matched i, Forall (unshadowed us) l -> (forall r, vget r vs = w r) -> (forall v, ~ In v us -> w v = JNull) -> Forall (rootSteady w) l ->
  snd (rootLoop vs ms matched i l) <> Panic.
Proof.
  induction l as [|e l IH]; intros vs w us ms matched i HU HE HN HS; cbn [rootLoop]; [discriminate|]. inversion HU as [|? ? U1 U2]; inversion HS as [|? ? S1 S2]; subst.
  pose proof (root_calm e vs w us U1 HE HN S1) as P. destruct (root_answers e vs w us U1 HE HN) as [A _]. destruct (matchOneRoot vs e) as [ws res]. cbn [fst snd] in A, P.
  destruct res as [b| | |]; try discriminate; [|contradiction]. eapply IH; eauto.
Qed.
Lemma start_env : forall d vs, only0 vs -> forall r, vget r (vset 0 d vs) = docOnly d r.
Proof. intros d vs H [|r]; [apply vget_set|]. rewrite vget_other by discriminate. now apply H. Qed.
Lemma doc_null : forall d v, ~ In v [0] -> docOnly d v = JNull.
Proof. intros d [|v] H; [exfalso; apply H; now left|reflexivity]. Qed.
