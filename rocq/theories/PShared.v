(** Running alone is [match_]; conversions that do not overlap read back what they wrote. *)
From Coq Require Import String.
From Verif Require Import Base MTokenizer MLit MFastVal MMath SEvents MBinTree MSession MExpr MTransform MMatcher MShared SShared.
From Coq Require Import List NArith ZArith Arith Lia Bool.
Import ListNotations.
Open Scope nat_scope.

Lemma alone_bind : forall (A B : Type) (p : prog A) (k : A -> prog B), alone (bindP p k) = obind (alone p) (fun a => alone (k a)).
Proof. intros A B p k. induction p as [r|t g IH]; cbn [bindP alone]; [destruct r; reflexivity|apply IH]. Qed.

Lemma alone_toJson : forall o v, alone (toJsonStringInternalP o v) = Ok (toJsonStringInternal o v).
Proof. intros o v. unfold toJsonStringInternalP, toJsonStringInternal. destruct (toJsonString o v) as [w []]; [reflexivity|destruct w; reflexivity]. Qed.
Lemma alone_strings : forall o v w, alone (compareStringsP o v w) = Ok (compareStrings o v w).
Proof.
  intros o v w. unfold compareStringsP, compareStrings. destruct (isString (fv w) || isNumeric (fv w)); [|reflexivity].
  rewrite alone_bind, alone_toJson. cbn [obind]. destruct (toJsonStringInternal o v) as [x ok]. rewrite alone_bind, alone_toJson. cbn [obind].
  destruct (toJsonStringInternal o (fv w)) as [y ok2]. reflexivity.
Qed.
Lemma alone_internal : forall o v w, alone (compareInternalP o v w) = Ok (compareInternal o v w).
Proof. intros o v w. unfold compareInternalP, compareInternal. destruct (fv v) eqn:E; try reflexivity; apply alone_strings. Qed.
Lemma alone_reverse : forall o v w, alone (reverseCompareP o v w) = Ok (reverseCompare o v w).
Proof. intros o v w. unfold reverseCompareP, reverseCompare. rewrite alone_bind, alone_internal. cbn [obind]. now destruct (compareInternal o w v). Qed.
Lemma alone_compare : forall o v w, alone (compareP o v w) = Ok (compare o v w).
Proof.
  intros o v w. unfold compareP, compare, compareUserDefinedP, compareUserDefined.
  repeat match goal with |- context [if ?b then _ else _] => destruct b end; cbn [alone]; auto using alone_internal, alone_reverse.
Qed.
Lemma alone_applyOp : forall o op l r, alone (applyOpP o op l r) = Ok (applyOp o op l r).
Proof.
  intros o op l r. destruct op; cbn [applyOpP applyOp]; unfold equals; rewrite ?alone_bind, ?alone_compare; cbn [obind alone]; try destruct (compare o l r); reflexivity.
Qed.
Lemma alone_opResult : forall o sv op lit, alone (opResultP o sv op lit) = opResult o sv op lit.
Proof.
  intros o sv op lit. unfold opResultP, opResult. rewrite alone_bind. cbn [alone]. destruct (operand o sv (op_lhs op) lit) as [[l m1]| | |]; cbn [obind]; auto.
  rewrite alone_bind. cbn [alone]. destruct (operand o sv (op_rhs op) lit) as [[r m2]| | |]; cbn [obind]; auto. destruct (m1 || m2); [reflexivity|].
  rewrite alone_bind, alone_applyOp. cbn [obind]. now destruct (applyOp o (op_op op) l r).
Qed.
Lemma alone_matchOp : forall E op lit s, alone (matchOpP E op lit s) = matchOp E op lit s.
Proof.
  intros E op lit s. unfold matchOpP, matchOp. rewrite alone_bind. cbn [alone]. destruct (isResolved (ms_data s) (op_bucket op)) as [[]| | |]; cbn [obind]; auto.
  rewrite alone_bind, alone_opResult. destruct (opResult _ _ op lit) as [[res c]| | |]; cbn [obind]; auto. rewrite alone_bind. cbn [alone].
  destruct (mark _ _ _ _ _); reflexivity.
Qed.
Lemma alone_runOps : forall E ops lit s, alone (runOpsP E ops lit s) = runOps E ops lit s.
Proof.
  intros E ops lit. induction ops as [|op r IH]; intro s; [reflexivity|]. cbn [runOpsP runOps]. rewrite alone_bind, alone_matchOp.
  destruct (matchOp E op lit s) as [sa| | |]; cbn [obind]; auto. rewrite alone_bind. cbn [alone]. destruct (isResolved (ms_data sa) 0) as [[]| | |]; cbn [obind]; auto.
Qed.
Lemma alone_exec : forall fuel E,
  (forall t a n s, alone (matchExecP fuel E t a n s) = matchExec fuel E t a n s)
  /\ (forall t ls save first s, alone (matchLoopsP fuel E t ls save first s) = matchLoops fuel E t ls save first s)
  /\ (forall t x first i s, alone (matchOAP fuel E t x first i s) = matchOA fuel E t x first i s)
  /\ (forall t l s, alone (matchLoopP fuel E t l s) = matchLoop fuel E t l s)
  /\ (forall l first st s, alone (matchItersP fuel E l first st s) = matchIters fuel E l first st s)
  /\ (forall af s, alone (matchAfterP fuel E af s) = matchAfter fuel E af s)
  /\ (forall ls s, alone (afterLoopsP fuel E ls s) = afterLoops fuel E ls s).
Proof.
  induction fuel as [|f IH]; intro E; [repeat split; reflexivity|]. destruct (IH E) as (H1 & H2 & H3 & H4 & H5 & H6 & H7).
  assert (forall (A B : Type) (x y : outcome A) (k k' : A -> outcome B), x = y -> (forall a, k a = k' a) -> obind x k = obind y k') as OB by (intros A B x y k k' -> HK; destruct y; cbn; auto).
  Ltac same OB H1 H2 H3 H4 H5 H6 H7 :=
    repeat first
      [ reflexivity
      | apply H1 | apply H2 | apply H3 | apply H4 | apply H5 | apply H6 | apply H7 | apply alone_runOps
      | progress cbn [alone]
      | rewrite alone_bind; apply OB
      | match goal with |- forall _, _ => intro end
      | match goal with |- alone (match ?x with _ => _ end) = match ?x with _ => _ end => destruct x end
      | match goal with |- context [match ?x with _ => _ end] => destruct x end ].
  repeat split; intros; cbn [matchExecP matchLoopsP matchOAP matchLoopP matchItersP matchAfterP afterLoopsP matchExec matchLoops matchOA matchLoop matchIters matchAfter afterLoops]; cbv zeta.
  all: try solve [same OB H1 H2 H3 H4 H5 H6 H7].
Qed.

Lemma alone_match : forall fuel o D doc s, alone (matchP fuel o D doc s) = match_ fuel o D doc s.
Proof.
  intros fuel o D doc s. unfold matchP, match_. destruct doc as [|c doc]; [reflexivity|]. cbv zeta.
  destruct (step (c :: doc) 0) as [t a b|]; [|reflexivity]. destruct (d_heap D) as [h|]; [|reflexivity].
  rewrite alone_bind. rewrite (proj1 (alone_exec fuel _)). destruct (matchExec _ _ _ _ _ _) as [[sa []]| | |]; cbn [obind alone]; try reflexivity.
  rewrite alone_bind. cbn [alone]. destruct (resolveAll _ _ _) as [d| | |]; cbn [obind]; try reflexivity. rewrite alone_bind. cbn [alone]. destruct (isTrue d 0); reflexivity.
Qed.

(** ** One conversion *)

(** The buffer's array exists. *)
Definition sound (m : mem) : Prop := fst (m_hdr m) < length (m_arrays m).
Lemma append_view : forall spare m h t m' h', fst h < length (m_arrays m) -> snd h = 0 -> append_ spare m h t = (m', h') ->
  view m' h' = t /\ fst h' < length (m_arrays m') /\ m_hdr m' = m_hdr m /\ length (m_arrays m) <= length (m_arrays m').
Proof.
  intros spare m [i n] t m' h' Hi Hn H. cbn [fst snd] in *. subst n. unfold append_ in H. cbn [fst snd] in H.
  assert (view m (i, 0) = []) as V by reflexivity. rewrite V in H. cbn [app plus] in H. destruct (length t <=? length (arr m i)) eqn:E; injection H as <- <-; cbn [m_hdr m_arrays fst snd].
  - unfold view, arr. cbn [fst snd m_arrays]. rewrite nth_upd_same by auto. rewrite firstn_app, Nat.sub_diag, firstn_O, app_nil_r, firstn_all, upd_length. auto.
  - unfold view, arr. cbn [fst snd m_arrays]. rewrite app_nth2, Nat.sub_diag by lia. cbn [nth]. rewrite firstn_app, Nat.sub_diag, firstn_O, app_nil_r, firstn_all, app_length. cbn [length]. repeat split; lia.
Qed.

(** A thread in the middle of its work, with nobody else touching the buffer: the answer it is
    heading for, and how many turns it still needs. *)
Definition onway {A : Type} (m : mem) (th : thread A) (r : outcome A) (n : nat) : Prop :=
  sound m /\
  match th with
  | Run p => alone p = r /\ n = 5 * convs p
  | Cut t k => snd (m_hdr m) = 0 /\ alone (k t) = r /\ n = 4 + 5 * convs (k t)
  | Put h k => fst h < length (m_arrays m) /\ alone (k (view m h)) = r /\ n = 3 + 5 * convs (k (view m h))
  | Get k => alone (k (view m (m_hdr m))) = r /\ n = 2 + 5 * convs (k (view m (m_hdr m)))
  | Read h k => alone (k (view m h)) = r /\ n = 1 + 5 * convs (k (view m h))
  end.
Lemma onway_tick : forall (A : Type) spare m (th : thread A) r n m' th', onway m th r n -> tick spare m th = (m', th') -> onway m' th' r (pred n).
Proof.
  intros A spare m th r n m' th' [HS HW] H. destruct th as [[r0|t k]|t k|h k|k|h k]; cbn [tick] in H.
  - injection H as <- <-. destruct HW as [H1 ->]. split; auto.
  - injection H as <- <-. destruct HW as [H1 ->]. cbn [alone convs] in *. split; [exact HS|]. cbn [m_hdr snd]. repeat split; auto. lia.
  - destruct HW as (H0 & H1 & ->). destruct (append_ spare m (m_hdr m) t) as [m1 h1] eqn:Ea. injection H as <- <-.
    destruct (append_view _ _ _ _ _ _ HS H0 Ea) as (A1 & A2 & A3 & A4). split; [unfold sound in *; rewrite A3; lia|]. rewrite A1. repeat split; auto.
  - injection H as <- <-. destruct HW as (H0 & H1 & ->). split; [exact H0|]. cbn [m_hdr]. change (view {| m_arrays := m_arrays m; m_hdr := h |} h) with (view m h). auto.
  - injection H as <- <-. destruct HW as (H1 & ->). split; auto.
  - injection H as <- <-. destruct HW as (H1 & ->). split; auto.
Qed.
Lemma onway_done : forall (A : Type) m (th : thread A) r, onway m th r 0 -> th = Run (Done r).
Proof.
  intros A m th r [HS HW]. destruct th as [[r0|t k]|t k|h k|k|h k].
  - destruct HW as [H1 _]. cbn in H1. now subst.
  - destruct HW as [_ H]. cbn [convs] in H. lia.
  - destruct HW as (_ & _ & H). lia.
  - destruct HW as (_ & _ & H). lia.
  - destruct HW as (_ & H). lia.
  - destruct HW as (_ & H). lia.
Qed.
Lemma five : forall (A : Type) spare m t (k : bytes -> prog A) ths i, sound m -> nth_error ths i = Some (Run (Conv t k)) ->
  exists m', schedule spare (repeat i 5) m ths = (m', upd ths i (Run (k t))) /\ sound m'.
Proof.
  intros A spare m t k ths i HS H. assert (i < length ths) as Hi by (apply nth_error_Some; congruence).
  assert (forall (th th' : thread A) l, upd (upd l i th) i th' = upd l i th') as UU.
  { intros th th' l. revert i HS H Hi. clear. intros i _ _ _. revert i. induction l as [|x l IH]; intros [|i]; cbn; try reflexivity. now rewrite IH. }
  cbn [repeat schedule]. rewrite H. cbn [tick]. rewrite nth_error_upd_same by auto. cbn [tick m_hdr m_arrays].
  destruct (append_ spare _ _ t) as [m1 h1] eqn:Ea. apply append_view in Ea as (A1 & A2 & A3 & A4); [|exact HS|reflexivity].
  rewrite !nth_error_upd_same by (now rewrite ?upd_length). cbn [tick]. rewrite !nth_error_upd_same by (now rewrite ?upd_length). cbn [tick].
  rewrite !nth_error_upd_same by (now rewrite ?upd_length). cbn [tick]. rewrite !UU. eexists. split; [f_equal; f_equal|].
  - cbn [m_hdr]. change (view {| m_arrays := m_arrays m1; m_hdr := h1 |} h1) with (view m1 h1). now rewrite A1.
  - exact A2.
Qed.
Lemma schedule_app : forall (A : Type) spare a b m (ths : list (thread A)), schedule spare (a ++ b) m ths = (let '(m', ths') := schedule spare a m ths in schedule spare b m' ths').
Proof.
  intros A spare a b. induction a as [|i a IH]; intros m ths; [reflexivity|]. cbn [app schedule]. destruct (nth_error ths i) as [th|]; [|apply IH].
  destruct (tick spare m th). apply IH.
Qed.
Lemma idle_five : forall (A : Type) spare n i m (ths : list (thread A)), nth_error ths i = None -> schedule spare (repeat i n) m ths = (m, ths).
Proof. intros A spare n i m ths H. induction n as [|n IH]; [reflexivity|]. cbn [repeat schedule]. now rewrite H. Qed.
Lemma upd_id : forall (A : Type) (l : list A) i x, nth_error l i = Some x -> upd l i x = l.
Proof. intros A l. induction l as [|y l IH]; intros [|i] x H; cbn in *; try congruence. f_equal. auto. Qed.
Lemma done_five : forall (A : Type) spare n i m (ths : list (thread A)) r, nth_error ths i = Some (Run (Done r)) -> schedule spare (repeat i n) m ths = (m, ths).
Proof. intros A spare n i m ths r H. induction n as [|n IH]; [reflexivity|]. cbn [repeat schedule]. rewrite H. cbn [tick]. now rewrite upd_id. Qed.
Lemma after_S : forall (A : Type) n t (k : bytes -> prog A), after (S n) (Conv t k) = after n (k t).
Proof. reflexivity. Qed.
Lemma after_done : forall (A : Type) n (r : outcome A), after n (Done r) = Done r.
Proof. intros A [|n] r; reflexivity. Qed.
Lemma exclusive_after : forall (A : Type) spare l m (ps : list (prog A)), sound m ->
  forall i, nth_error (snd (schedule spare (exclusive l) m (map Run ps))) i
            = option_map (fun p => Run (after (count_occ Nat.eq_dec l i) p)) (nth_error ps i).
Proof.
  intros A spare l. induction l as [|j l IH]; intros m ps HS i.
  - cbn. rewrite nth_error_map. destruct (nth_error ps i); reflexivity.
  - unfold exclusive. cbn [flat_map]. rewrite schedule_app.
    destruct (nth_error ps j) as [[r|t k]|] eqn:Ej.
    + rewrite (done_five _ _ _ _ _ _ r) by (rewrite nth_error_map, Ej; reflexivity). rewrite IH by auto. destruct (Nat.eq_dec j i) as [<-|Hne].
      * rewrite Ej. cbn [option_map]. now rewrite !after_done.
      * now rewrite count_occ_cons_neq.
    + destruct (five A spare m t k (map Run ps) j HS) as (m' & E & HS'); [rewrite nth_error_map, Ej; reflexivity|]. rewrite E.
      assert (upd (map Run ps) j (Run (k t)) = map Run (upd ps j (k t))) as -> by (clear; revert j; induction ps as [|p ps IH]; intros [|j]; cbn; try reflexivity; now rewrite IH).
      rewrite IH by auto. destruct (Nat.eq_dec j i) as [<-|Hne].
      * rewrite nth_error_upd_same by (apply nth_error_Some; congruence). rewrite Ej. cbn [option_map]. rewrite count_occ_cons_eq by reflexivity. now rewrite after_S.
      * rewrite nth_error_upd_other by auto. now rewrite count_occ_cons_neq.
    + rewrite idle_five by (rewrite nth_error_map, Ej; reflexivity). rewrite IH by auto. destruct (Nat.eq_dec j i) as [<-|Hne]; [now rewrite Ej|now rewrite count_occ_cons_neq].
Qed.
Lemma after_all : forall (A : Type) (p : prog A) n, convs p <= n -> after n p = Done (alone p).
Proof. intros A p. induction p as [r|t k IH]; intros n H; [apply after_done|]. cbn [convs] in H. destruct n as [|n]; [lia|]. cbn [after alone]. apply IH. lia. Qed.
Lemma after_some : forall (A : Type) (p : prog A) n r, after n p = Done r -> r = alone p.
Proof. intros A p. induction p as [r0|t k IH]; intros n r H; [rewrite after_done in H; now injection H|]. destruct n as [|n]; [discriminate|]. cbn [after alone] in *. eauto. Qed.

(** ** At most one thread converts *)
Lemma one_converts : forall (A : Type) spare turns m (ths : list (thread A)) j th r n, onway m th r n -> nth_error ths j = Some th ->
  (forall i, i <> j -> i < length ths -> exists r, nth_error ths i = Some (Run (Done r))) ->
  exists m' th', fst (schedule spare turns m ths) = m' /\ onway m' th' r (n - count_occ Nat.eq_dec turns j) /\ snd (schedule spare turns m ths) = upd ths j th'.
Proof.
  intros A spare turns. induction turns as [|i turns IH]; intros m ths j th r n HO Hj HD; cbn [schedule].
  - exists m, th. cbn [fst snd count_occ]. rewrite Nat.sub_0_r, upd_id; auto.
  - destruct (Nat.eq_dec i j) as [->|Hne].
    + rewrite Hj, count_occ_cons_eq by reflexivity. destruct (tick spare m th) as [m1 th1] eqn:Et.
      assert (j < length ths) as Hl by (apply nth_error_Some; congruence).
      destruct (IH m1 (upd ths j th1) j th1 r (pred n)) as (m' & th' & A1 & A2 & A3).
      * eapply onway_tick; eauto.
      * now apply nth_error_upd_same.
      * intros i Hi Hl2. rewrite upd_length in Hl2. rewrite nth_error_upd_other by auto. auto.
      * exists m', th'. split; [auto|]. split; [|].
        -- replace (n - S (count_occ Nat.eq_dec turns j)) with (pred n - count_occ Nat.eq_dec turns j) by lia. auto.
        -- rewrite A3. clear. revert j. induction ths as [|x l IHl]; intros [|i]; cbn; try reflexivity. now rewrite IHl.
    + rewrite count_occ_cons_neq by auto. destruct (nth_error ths i) as [thi|] eqn:Ei; [|eauto].
      assert (i < length ths) as Hl by (apply nth_error_Some; congruence). destruct (HD i Hne Hl) as [r1 E1]. rewrite E1 in Ei. injection Ei as <-. cbn [tick].
      rewrite upd_id by auto. eauto.
Qed.
