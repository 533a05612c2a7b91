(** Matchers on different goroutines: final statements (C48). *)
From Coq Require Import String.
From Verif Require Import Base MTokenizer MLit MFastVal SEvents MExpr MTransform MMatcher MShared SShared PShared PCalm SExamples TText.
From Coq Require Import List NArith ZArith Arith Lia Bool.
Import ListNotations.
Open Scope string_scope.
Open Scope nat_scope.

(** A matcher at work: its filters, its definition, the document and its state before. *)
Record job := Job { j_filters : list expr; j_def : matchdef; j_doc : bytes; j_state : mst }.
(** What it gives when it runs alone. *)
Definition answer (fuel : nat) (o : oracles) (b : job) : outcome (mst * option bool) := match_ fuel o (j_def b) (j_doc b) (j_state b).
Definition launch (fuel : nat) (o : oracles) (b : job) : prog (mst * option bool) := matchP fuel o (j_def b) (j_doc b) (j_state b).
Definition together (fuel : nat) (o : oracles) (spare : nat -> nat) (turns : list nat) (jobs : list job) : list (thread (mst * option bool)) :=
  snd (schedule spare turns mem0 (map (fun b => Run (launch fuel o b)) jobs)).

(** Alone, a matcher in this model is the matcher of the other theorems. *)
Theorem C48_alone : forall fuel o b, alone (launch fuel o b) = answer fuel o b.
Proof. intros. apply alone_match. Qed.

(** As long as no conversion of a number to text is interrupted, every matcher stands where it would
    stand alone: finished matchers have their own answer, and enough turns finish a matcher. *)
Theorem C48_exclusive : forall fuel o spare l jobs i b, nth_error jobs i = Some b ->
  (forall r, nth_error (together fuel o spare (exclusive l) jobs) i = Some (Run (Done r)) -> r = answer fuel o b)
  /\ (convs (launch fuel o b) <= count_occ Nat.eq_dec l i -> nth_error (together fuel o spare (exclusive l) jobs) i = Some (Run (Done (answer fuel o b)))).
Proof.
  intros fuel o spare l jobs i b Hb. unfold together.
  assert (map (fun b => Run (launch fuel o b)) jobs = map Run (map (launch fuel o) jobs)) as -> by now rewrite map_map.
  assert (sound mem0) as HS by (unfold sound; cbn; lia). rewrite exclusive_after by exact HS. rewrite nth_error_map, Hb. cbn [option_map]. split.
  - intros r H. injection H as H. rewrite <- C48_alone. eapply after_some. exact H.
  - intro H. rewrite <- C48_alone. now rewrite after_all.
Qed.

(** Whatever the schedule, nothing goes wrong if all matchers but one have filters that never convert a
    number to text: every comparison is with a constant, which is not a text. *)
Theorem C48_calm : forall fuel o spare turns jobs j,
  (forall b, In b jobs -> transform o (j_filters b) = Ok (j_def b)) ->
  (forall i b, i <> j -> nth_error jobs i = Some b -> forallb calm (j_filters b) = true) ->
  forall i b, nth_error jobs i = Some b ->
  (forall r, nth_error (together fuel o spare turns jobs) i = Some (Run (Done r)) -> r = answer fuel o b)
  /\ (5 * convs (launch fuel o b) <= count_occ Nat.eq_dec turns i -> nth_error (together fuel o spare turns jobs) i = Some (Run (Done (answer fuel o b)))).
Proof.
  intros fuel o spare turns jobs j HT HC i b Hb. unfold together. set (ths := map (fun b => Run (launch fuel o b)) jobs).
  assert (exists j' b', nth_error jobs j' = Some b' /\ (forall i b, i <> j' -> nth_error jobs i = Some b -> forallb calm (j_filters b) = true)) as (k & bk & Hk & HCk).
  { destruct (nth_error jobs j) as [bj|] eqn:Ej; [exists j, bj; auto|]. exists i, b. split; [auto|]. intros i' b' Hne Hi'. apply (HC i'); auto. intros ->. congruence. }
  assert (forall n c, nth_error jobs n = Some c -> nth_error ths n = Some (Run (launch fuel o c))) as HN by (intros n c Hn; unfold ths; now rewrite nth_error_map, Hn).
  assert (forall n c, n <> k -> nth_error jobs n = Some c -> launch fuel o c = Done (answer fuel o c)) as HD.
  { intros n c Hne Hn. eapply calm_done; [eapply HCk; eauto|]. apply HT. eapply nth_error_In; eauto. }
  destruct (one_converts _ spare turns mem0 ths k (Run (launch fuel o bk)) (answer fuel o bk) (5 * convs (launch fuel o bk))) as (m' & th' & _ & A2 & A3).
  - split; [unfold sound; cbn; lia|]. split; [apply C48_alone|reflexivity].
  - now apply HN.
  - intros n Hne Hl. unfold ths in Hl. rewrite map_length in Hl. destruct (nth_error jobs n) as [c|] eqn:En; [|apply nth_error_None in En; lia].
    rewrite (HN _ _ En), (HD _ _ Hne En). eauto.
  - rewrite A3. destruct (Nat.eq_dec i k) as [->|Hne].
    + assert (bk = b) by congruence. subst bk. rewrite nth_error_upd_same by (apply nth_error_Some; rewrite (HN _ _ Hk); discriminate). split.
      * intros r H. injection H as ->. destruct A2 as [_ [A2 _]]. exact A2.
      * intro H. f_equal. replace (_ - _) with 0 in A2 by lia. exact (onway_done _ _ _ _ A2).
    + rewrite nth_error_upd_other by auto. rewrite (HN _ _ Hb), (HD _ _ Hne Hb). split; [|reflexivity]. intros r H. now injection H.
Qed.

(** ** Examples *)
Definition fA : expr := XField 0 [s2b "a"].
Definition defOf (o : oracles) (es : list expr) : matchdef := match transform o es with Ok D => D | _ => MatchDef None [] [] 0 end.
Definition jobOf (es : list expr) (doc : string) : job := let D := defOf noOracle es in Job es D (s2b doc) (newMatcher D).
Definition result (t : option (thread (mst * option bool))) : option (option bool) := match t with Some (Run (Done (Ok (_, r)))) => Some r | _ => None end.

(** [a = "5"], and the calm [a > 3 AND ANY x IN b SATISFIES x = TRUE END]. *)
Definition textFilter : list expr := [XCmp CEq fA (XValue (GString (s2b "5")))].
Definition calmFilter : list expr :=
  [XAnd [XCmp CGt fA (XValue (GInt 3)); XLoop LAny 1 (XField 0 [s2b "b"]) (XCmp CEq (XField 1 []) (XValue (GBool true)))]].
Definition mixedJobs : list job :=
  [jobOf calmFilter "{""a"":7,""b"":[0,true]}"; jobOf textFilter "{""a"":5}"; jobOf calmFilter "{""a"":3,""b"":[true]}"].
Example C48_calm_example :
  (forall b, In b mixedJobs -> transform noOracle (j_filters b) = Ok (j_def b))
  /\ (forall i b, i <> 1 -> nth_error mixedJobs i = Some b -> forallb calm (j_filters b) = true)
  /\ map (fun b => convs (launch 100 noOracle b)) mixedJobs = [0; 1; 0]
  /\ map (fun b => result (Some (Run (Done (answer 100 noOracle b))))) mixedJobs = [Some (Some true); Some (Some true); Some (Some false)].
Proof.
  split; [|split; [|split; vm_compute; reflexivity]].
  - intros b H. cbn in H. destruct H as [<- |[<- |[<- |[]]]]; vm_compute; reflexivity.
  - intros [|[|[|i]]] b Hne H; cbn in H; try (injection H as <-; reflexivity); [now elim Hne|destruct i; discriminate].
Qed.

(** Two matchers of [a = "5"]: the conversion of one is read by the other. *)
Definition textJobs : list job := [jobOf textFilter "{""a"":5}"; jobOf textFilter "{""a"":7}"].
Example C48_exclusive_example :
  map (fun b => convs (launch 100 noOracle b)) textJobs = [1; 1]
  /\ map (fun b => result (Some (Run (Done (answer 100 noOracle b))))) textJobs = [Some (Some true); Some (Some false)]
  /\ let ts := together 100 noOracle (fun _ => 7) (exclusive [1; 0]) textJobs in map result [nth_error ts 0; nth_error ts 1] = [Some (Some true); Some (Some false)].
Proof. split; [|split]; vm_compute; reflexivity. Qed.

Definition text {A : Type} (p : prog A) : bytes := match p with Conv t _ => t | Done _ => [] end.
Definition feed {A : Type} (p : prog A) (b : bytes) : prog A := match p with Conv _ k => k b | Done r => Done r end.
Lemma race : forall (A : Type) spare x y (p q : prog A), text p = [x] -> text q = [y] ->
  snd (schedule spare [0; 0; 0; 0; 1; 1; 1; 1; 1; 0] mem0 [Run p; Run q]) = [Run (feed p [y]); Run (feed q [y])]
  /\ snd (schedule spare [1; 1; 1; 1; 0; 0; 0; 0; 0; 1] mem0 [Run p; Run q]) = [Run (feed p [x]); Run (feed q [x])].
Proof. intros A spare x y [r|t k] [r2|t2 k2] H1 H2; try discriminate. cbn in H1, H2. subst t t2. split; reflexivity. Qed.

(** A document with 5 is found not to match, and one with 7 is found to match. *)
Theorem C48_refuted : exists turns1 turns2, forall spare,
  (forall b, In b textJobs -> transform noOracle (j_filters b) = Ok (j_def b))
  /\ map (fun b => result (Some (Run (Done (answer 100 noOracle b))))) textJobs = [Some (Some true); Some (Some false)]
  /\ (let ts := together 100 noOracle spare turns1 textJobs in map result [nth_error ts 0; nth_error ts 1] = [Some (Some false); Some (Some false)])
  /\ (let ts := together 100 noOracle spare turns2 textJobs in map result [nth_error ts 0; nth_error ts 1] = [Some (Some true); Some (Some true)]).
Proof.
  exists [0; 0; 0; 0; 1; 1; 1; 1; 1; 0], [1; 1; 1; 1; 0; 0; 0; 0; 0; 1]. intro spare.
  destruct (race _ spare 53%N 55%N (launch 100 noOracle (jobOf textFilter "{""a"":5}")) (launch 100 noOracle (jobOf textFilter "{""a"":7}"))) as [R1 R2]; [vm_compute; reflexivity|vm_compute; reflexivity|].
  split; [|split; [vm_compute; reflexivity|split]].
  - intros b H. cbn in H. destruct H as [<- |[<- |[]]]; vm_compute; reflexivity.
  - unfold together. cbn [map textJobs]. rewrite R1. vm_compute. reflexivity.
  - unfold together. cbn [map textJobs]. rewrite R2. vm_compute. reflexivity.
Qed.

Print Assumptions C48_alone.
Print Assumptions C48_exclusive.
Print Assumptions C48_calm.
Print Assumptions C48_refuted.
