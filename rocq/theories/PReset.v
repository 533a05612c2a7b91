(** A run of the matcher does not depend on the status flag it starts with, and
    keeps the sizes of the slots and of the tree data. *)
From Verif Require Import Base MTokenizer MLit MFastVal MMath SEvents MBinTree MSession MExpr MTransform MMatcher.
From Coq Require Import List NArith ZArith Arith Lia Bool.
Import ListNotations.
Open Scope nat_scope.

(** ** Sizes of the tree data *)
Lemma resolveRecursive_length : forall fuel T d i d', resolveRecursive fuel T d i = Ok d' -> length d' = length d.
Proof.
  induction fuel as [|f IH]; intros T d i d' H; cbn [resolveRecursive] in H; [discriminate|].
  destruct (idx T i) as [x| | |]; cbn [obind] in H; try discriminate.
  assert (forall d c d', (do s <- idx d c; if isUnknown s then resolveRecursive f T (upd d c SResolved) c else Ok d) = Ok d' ->
    length d' = length d) as X.
  { intros e c e' Y. destruct (idx e c) as [s| | |]; cbn [obind] in Y; try discriminate. destruct (isUnknown s).
    - apply IH in Y. now rewrite upd_length in Y.
    - now inversion Y. }
  destruct (if hasLeft (n_type x) then _ else _) as [d1| | |] eqn:E1; cbn [obind] in H; try discriminate.
  assert (length d1 = length d) by (destruct (hasLeft (n_type x)); [eauto|now inversion E1]).
  destruct (hasRight (n_type x)); [apply X in H|inversion H; subst]; congruence.
Qed.
Lemma markNode_length : forall fuel T st d i b d', markNode fuel T st d i b = Ok d' -> length d' = length d.
Proof.
  induction fuel as [|f IH]; intros T st d i b d' H; cbn [markNode] in H; [discriminate|].
  destruct (idx d i) as [s| | |]; cbn [obind] in H; try discriminate. destruct (negb (isUnknown s)); [discriminate|].
  destruct (resolveRecursive _ _ _ _) as [d1| | |] eqn:E; cbn [obind] in H; try discriminate.
  apply resolveRecursive_length in E. rewrite upd_length in E.
  destruct (Nat.eqb i 0 || Nat.eqb i st); [inversion H; subst; auto|].
  destruct (idx T i) as [n| | |]; cbn [obind] in H; try discriminate.
  destruct (checkNode _ _ _) as [[v|]| | |]; cbn [obind] in H; try discriminate.
  - apply IH in H. congruence.
  - inversion H; subst; auto.
Qed.
Lemma resetNodeRec_length : forall fuel T d i d', resetNodeRec fuel T d i = Ok d' -> length d' = length d.
Proof.
  induction fuel as [|f IH]; intros T d i d' H; cbn [resetNodeRec] in H; [discriminate|].
  destruct (idx d i) as [s| | |]; cbn [obind] in H; try discriminate.
  destruct (idx T i) as [n| | |]; cbn [obind] in H; try discriminate.
  destruct (if hasLeft (n_type n) then _ else _) as [d1| | |] eqn:E1; cbn [obind] in H; try discriminate.
  assert (length d1 = length d).
  { destruct (hasLeft (n_type n)); [apply IH in E1|inversion E1; subst]; rewrite upd_length in *; auto. }
  destruct (hasRight (n_type n)); [apply IH in H|inversion H; subst]; congruence.
Qed.
Lemma resolveLoop_length : forall n T st d d', resolveLoop n T st d = Ok d' -> length d' = length d.
Proof.
  induction n as [|i IH]; intros T st d d' H; cbn [resolveLoop] in H; [now inversion H|].
  destruct (idx d i) as [s| | |]; cbn [obind] in H; try discriminate.
  destruct (if isUnknown s then _ else _) as [d1| | |] eqn:E1; cbn [obind] in H; try discriminate.
  assert (length d1 = length d) by (destruct (isUnknown s); [now apply markNode_length in E1|now inversion E1]).
  destruct (idx d1 0) as [r| | |]; cbn [obind] in H; try discriminate.
  destruct (negb (isUnknown r)); [inversion H; subst; auto|]. apply IH in H. congruence.
Qed.
Lemma resolveAll_length : forall T st d d', resolveAll T st d = Ok d' -> length d' = length d.
Proof.
  intros T st d d' H. unfold resolveAll in H. destruct (isResolved d 0) as [[]| | |]; cbn [obind] in H; try discriminate.
  - now inversion H.
  - now apply resolveLoop_length in H.
Qed.

(** ** The status flag *)
Section Lift.
  Variables (c : bool) (L N : nat) (E : menv).
  Definition lift (s : mst) : mst := MSt (ms_slots s) (ms_data s) (ms_stall s) (ms_pos s) (c || ms_coll s).
  Definition sized (s : mst) : Prop := length (ms_slots s) = L /\ length (ms_data s) = N.
  (** Same result, states related. *)
  Definition olift {A} (st : A -> mst) (put : A -> mst -> A) (x y : outcome A) : Prop :=
    match x, y with
    | Ok a, Ok b => b = put a (lift (st a)) /\ sized (st a)
    | Err, Err | Panic, Panic | OutOfFuel, OutOfFuel => True
    | _, _ => False
    end.
  Definition st1 (a : mst) := a.
  Definition put1 (a b : mst) := b.
  Definition st2 {B} (a : mst * B) := fst a.
  Definition put2 {B} (a : mst * B) (b : mst) := (b, snd a).
  Definition st3 {B C} (a : mst * B * C) := fst (fst a).
  Definition put3 {B C} (a : mst * B * C) (b : mst) := (b, snd (fst a), snd a).
  Notation o1 := (olift st1 put1).
  Notation o2 := (olift (@st2 _) (@put2 _)).
  Notation o3 := (olift (@st3 _ _) (@put3 _ _)).

  Lemma b1 : forall A st put (x y : outcome mst) (f : mst -> outcome A), o1 x y ->
    (forall s, sized s -> olift st put (f s) (f (lift s))) -> olift st put (obind x f) (obind y f).
  Proof. intros A st put [] [] f H K; cbn in *; try contradiction; auto. destruct H as [-> H]. now apply K. Qed.
  Lemma b2 : forall A B st put (x y : outcome (mst * B)) (f : mst * B -> outcome A), o2 x y ->
    (forall s b, sized s -> olift st put (f (s, b)) (f (lift s, b))) -> olift st put (obind x f) (obind y f).
  Proof. intros A B st put [[]| | |] [] f H K; cbn in *; try contradiction; auto. destruct H as [-> H]. now apply K. Qed.
  Lemma b3 : forall A B C st put (x y : outcome (mst * B * C)) (f : mst * B * C -> outcome A), o3 x y ->
    (forall s b d, sized s -> olift st put (f (s, b, d)) (f (lift s, b, d))) -> olift st put (obind x f) (obind y f).
  Proof. intros A B C st put [[[] ]| | |] [] f H K; cbn in *; try contradiction; auto. destruct H as [-> H]. now apply K. Qed.
  Lemma b0 : forall A B st put (x : outcome B) (f g : B -> outcome A),
    (forall b, x = Ok b -> olift st put (f b) (g b)) -> olift st put (obind x f) (obind x g).
  Proof. intros A B st put [] f g K; cbn; auto. Qed.

  Lemma sized_pos : forall s p, sized s -> sized (setPos s p).
  Proof. intros s p H. exact H. Qed.
  Lemma sized_stall : forall s p, sized s -> sized (setStall s p).
  Proof. intros s p H. exact H. Qed.
  Lemma sized_data : forall s d, sized s -> length d = N -> sized (setData s d).
  Proof. intros s d H E1. destruct H. split; auto. Qed.
  Hint Resolve sized_pos sized_stall sized_data : core.

  Lemma mark_len : forall T st s i b d, sized s -> mark T st (ms_data s) i b = Ok d -> length d = N.
  Proof. intros T st s i b d [_ H] X. apply markNode_length in X. congruence. Qed.
  Lemma reset_len : forall T s i d, sized s -> resetNode T (ms_data s) i = Ok d -> length d = N.
  Proof. intros T s i d [_ H] X. apply resetNodeRec_length in X. congruence. Qed.
  Hint Resolve mark_len reset_len : core.

  Lemma lift_matchOp : forall op lit s, sized s -> o1 (matchOp E op lit s) (matchOp E op lit (lift s)).
  Proof.
    intros op lit s Hs. unfold matchOp. apply b0. intros [] _; [cbn; auto|]. apply b0. intros [res coll] _. apply b0. intros d Hd.
    assert (sized (setData s d)) as X by eauto. cbn. destruct coll; cbn; (split; [|exact X]); auto.
    unfold put1, st1, lift, setColl. cbn. now rewrite orb_true_r.
  Qed.
  Lemma lift_runOps : forall ops lit s, sized s -> o2 (runOps E ops lit s) (runOps E ops lit (lift s)).
  Proof.
    induction ops as [|op r IH]; intros lit s Hs; cbn [runOps]; [cbn; auto|].
    eapply b1; [now apply lift_matchOp|]. intros sa Ha. apply b0. intros [] _; [cbn; auto|]. now apply IH.
  Qed.
  Lemma lift_leave : forall s, sized s -> o2 (leave E s) (leave E (lift s)).
  Proof. intros s Hs. unfold leave. apply b0. intros [p e] _. cbn. auto. Qed.
  Lemma lift_skip : forall t s, sized s -> o2 (skipValue E t s) (skipValue E t (lift s)).
  Proof. intros t s Hs. unfold skipValue. destruct (isLiteralToken t); [cbn; auto|]. destruct t; cbn; auto; now apply lift_leave. Qed.
  Lemma lift_store : forall x a s, sized s -> o1 (storeSlot x a s) (storeSlot x a (lift s)).
  Proof.
    intros x a s Hs. unfold storeSlot. destruct (x_store x); [cbn; auto|]. apply b0. intros q _. cbn. split; auto.
    destruct Hs. split; cbn; auto. now rewrite upd_length.
  Qed.

  Definition LExec f := forall t a n s, sized s -> o2 (matchExec f E t a n s) (matchExec f E t a n (lift s)).
  Definition LLoops f := forall t ls p b s, sized s -> o2 (matchLoops f E t ls p b s) (matchLoops f E t ls p b (lift s)).
  Definition LOA f := forall t x b i s, sized s -> o3 (matchOA f E t x b i s) (matchOA f E t x b i (lift s)).
  Definition LLoop f := forall t l s, sized s -> o2 (matchLoop f E t l s) (matchLoop f E t l (lift s)).
  Definition LIters f := forall l b st s, sized s -> o3 (matchIters f E l b st s) (matchIters f E l b st (lift s)).
  Definition LAfter f := forall af s, sized s -> o2 (matchAfter f E af s) (matchAfter f E af (lift s)).
  Definition LALoops f := forall ls s, sized s -> o2 (afterLoops f E ls s) (afterLoops f E ls (lift s)).

  Ltac go :=
    match goal with
    | |- context [ms_data (lift ?s)] => change (ms_data (lift s)) with (ms_data s)
    | |- context [ms_pos (lift ?s)] => change (ms_pos (lift s)) with (ms_pos s)
    | |- olift _ _ (Ok _) (Ok _) => cbn; split; [reflexivity|]; eauto
    | |- olift _ _ Panic Panic => exact I
    | |- olift _ _ OutOfFuel OutOfFuel => exact I
    | |- olift _ _ (obind ?x _) (obind ?x _) => apply b0; intros
    | |- olift _ _ (obind (matchOp _ _ _ _) _) _ => eapply b1; [apply lift_matchOp; eauto|intros]
    | |- olift _ _ (obind (storeSlot _ _ _) _) _ => eapply b1; [apply lift_store; eauto|intros]
    | |- olift _ _ (obind (runOps _ _ _ _) _) _ => eapply b2; [apply lift_runOps; eauto|intros]
    | |- olift _ _ (obind (skipValue _ _ _) _) _ => eapply b2; [apply lift_skip; eauto|intros]
    | |- olift _ _ (obind (leave _ _) _) _ => eapply b2; [apply lift_leave; eauto|intros]
    | H : LExec ?f |- olift _ _ (obind (matchExec ?f _ _ _ _ _) _) _ => eapply b2; [apply H; eauto|intros]
    | H : LLoops ?f |- olift _ _ (obind (matchLoops ?f _ _ _ _ _ _) _) _ => eapply b2; [apply H; eauto|intros]
    | H : LOA ?f |- olift _ _ (obind (matchOA ?f _ _ _ _ _ _) _) _ => eapply b3; [apply H; eauto|intros]
    | H : LLoop ?f |- olift _ _ (obind (matchLoop ?f _ _ _ _) _) _ => eapply b2; [apply H; eauto|intros]
    | H : LIters ?f |- olift _ _ (obind (matchIters ?f _ _ _ _ _) _) _ => eapply b3; [apply H; eauto|intros]
    | H : LAfter ?f |- olift _ _ (obind (matchAfter ?f _ _ _) _) _ => eapply b2; [apply H; eauto|intros]
    | H : LALoops ?f |- olift _ _ (obind (afterLoops ?f _ _ _) _) _ => eapply b2; [apply H; eauto|intros]
    | H : LOA ?f |- olift _ _ (matchOA ?f _ _ _ _ _ _) _ => apply H; eauto
    | H : LIters ?f |- olift _ _ (matchIters ?f _ _ _ _ _) _ => apply H; eauto
    | H : LLoops ?f |- olift _ _ (matchLoops ?f _ _ _ _ _ _) _ => apply H; eauto
    | H : LALoops ?f |- olift _ _ (afterLoops ?f _ _ _) _ => apply H; eauto
    | H : LAfter ?f |- olift _ _ (matchAfter ?f _ _ _) _ => apply H; eauto
    | |- olift _ _ (if ?b then _ else _) (if ?b then _ else _) => destruct b
    | |- olift _ _ (match ?b with _ => _ end) (match ?b with _ => _ end) => destruct b
    end.

  (** The pieces of [matchExec], [matchOA], [matchIters] under names. *)
  Definition mFinish (f : nat) (x : execnode) (a : nat) (s : mst) : outcome (mst * bool) :=
    do (sa, ret) <-
      match x_after x with
      | None => Ok (s, false)
      | Some af =>
          do (sa, _) <- matchAfter f E af s;
          do done <- isResolved (ms_data sa) 0;
          Ok (sa, done)
      end;
    if ret : bool then Ok (sa, false)
    else do s2 <- storeSlot x a sa; Ok (s2, false).
  Definition mOps (f : nat) (x : execnode) (a : nat) (lit : fastval) (s : mst) : outcome (mst * bool) :=
    do (sa, ret) <- runOps E (x_ops x) (Some lit) s;
    if ret : bool then Ok (sa, false) else mFinish f x a sa.
  Lemma matchExec_S : forall f t a n s, matchExec (S f) E t a n s =
      do x <- idx (me_heap E) n;
      if isLiteralToken t then
        do lit <- parseLit (me_o E) t (slice (me_doc E) a (ms_pos s));
        mOps f x a lit s
      else
        match t with
        | TObjectStart =>
            do (sa, early) <-
              match x_elems x with
              | [] => do (sa, _) <- skipValue E t s; Ok (sa, None)
              | _ =>
                  do (sa, err, ret) <- matchOA f E t x true 0 s;
                  do (s2, _) <- (if err : bool then Ok (sa, false)
                                 else match x_after x with
                                      | None => Ok (sa, false)
                                      | Some af => matchAfter f E af sa
                                      end);
                  if ret : bool then Ok (s2, Some err)
                  else do done <- isResolved (ms_data s2) 0;
                       Ok (s2, if done : bool then Some false else None)
              end;
            match early with
            | Some err => Ok (sa, err)
            | None => do b <- goSlice (me_doc E) (ms_pos s - 1) (ms_pos sa); mOps f x a (plain (VObject b)) sa
            end
        | TArrayStart =>
            do (sa, early) <-
              match x_loops x with
              | [] =>
                  do (sa, err, ret) <- matchOA f E t x true 0 s;
                  Ok (sa, if ret : bool then Some err else None)
              | ls => matchLoops f E t ls (ms_pos s) true s
              end;
            match early with
            | Some err => Ok (sa, err)
            | None => do b <- goSlice (me_doc E) (ms_pos s - 1) (ms_pos sa); mOps f x a (plain (VArray b)) sa
            end
        | _ => Panic
        end.
  Proof. reflexivity. Qed.

  Definition kvOf (t : tok) (i : nat) (t1 : tok) (a1 b1 : nat) (s : mst) : outcome (option (bytes * tok * nat * mst)) :=
    if isArr t then Ok (Some (indexKey i, t1, a1, setPos s b1))
    else
      do key <- keyOf t1 (slice (me_doc E) a1 b1);
      match step (me_doc E) (ms_pos (setPos s b1)) with
      | SErr => Ok None
      | SOk t2 _ b2 =>
          if tok_eqb t2 TObjectKeyDelim then
            match step (me_doc E) b2 with
            | SErr => Ok None
            | SOk t3 a3 b3 => Ok (Some (key, t3, a3, setPos (setPos s b1) b3))
            end
          else Panic
      end.
  Definition mBody (f : nat) (t : tok) (x : execnode) (i : nat) (s : mst) : outcome (mst * bool * bool) :=
    match step (me_doc E) (ms_pos s) with
    | SErr => Ok (s, true, true)
    | SOk t1 a1 b1 =>
        if tok_eqb t1 (endTok t) then Ok (setPos s b1, false, true)
        else
          do kv <- kvOf t i t1 a1 b1 s;
          match kv with
          | None =>
              Ok (match step (me_doc E) (ms_pos (setPos s b1)) with
                  | SErr => setPos s b1
                  | SOk _ _ b2 => setPos (setPos s b1) b2
                  end, true, true)
          | Some (key, tv, av, s2) =>
              match lookup key (x_elems x) with
              | Some c =>
                  do (s3, _) <- matchExec f E tv av c s2;
                  do done <- isResolved (ms_data s3) 0;
                  if done : bool then Ok (s3, false, true)
                  else matchOA f E t x false i s3
              | None =>
                  do (s3, _) <- skipValue E tv s2;
                  matchOA f E t x false i s3
              end
          end
    end.
  Lemma matchOA_S : forall f t x (first : bool) i s, matchOA (S f) E t x first i s =
      if first then mBody f t x i s
      else
        match step (me_doc E) (ms_pos s) with
        | SErr => Ok (s, true, true)
        | SOk t1 _ b1 =>
            match t1 with
            | TObjectEnd | TArrayEnd => Ok (setPos s b1, false, false)
            | TEnd => Ok (setPos s b1, false, true)
            | TListDelim => mBody f t x (S i) (setPos s b1)
            | _ => Panic
            end
        end.
  Proof. reflexivity. Qed.
  Definition mIter (f : nat) (l : loopnode) (st : bool) (s : mst) : outcome (mst * bool * bool) :=
    match step (me_doc E) (ms_pos s) with
    | SErr => Ok (s, true, st)
    | SOk t1 a1 b1 =>
        if tok_eqb t1 TArrayEnd then Ok (setPos s b1, false, st)
        else
          do d <- resetNode (me_tree E) (ms_data s) (lp_bucket l);
          do (s2, err) <- matchExec f E t1 a1 (lp_node l) (setData (setPos s b1) d);
          if err : bool then Ok (s2, true, st)
          else
            do matched <- isTrue (ms_data s2) (lp_bucket l);
            let '(st', out) := loopStep (lp_mode l) st matched in
            if out : bool then do (s3, _) <- leave E s2; Ok (s3, false, st')
            else matchIters f E l false st' s2
    end.
  Lemma matchIters_S : forall f l (first : bool) st s, matchIters (S f) E l first st s =
      if first then mIter f l st s
      else
        match step (me_doc E) (ms_pos s) with
        | SErr => Ok (s, true, st)
        | SOk t1 _ b1 =>
            match t1 with
            | TArrayEnd => Ok (setPos s b1, false, st)
            | TListDelim => mIter f l st (setPos s b1)
            | _ => Panic
            end
        end.
  Proof. reflexivity. Qed.

  Lemma lift_finish : forall f x a s, LAfter f -> sized s -> o2 (mFinish f x a s) (mFinish f x a (lift s)).
  Proof.
    intros f x a s HA Hs. unfold mFinish. eapply b2.
    - destruct (x_after x); repeat go.
    - intros sa [] Ha; repeat go.
  Qed.
  Lemma lift_ops : forall f x a lit s, LAfter f -> sized s -> o2 (mOps f x a lit s) (mOps f x a lit (lift s)).
  Proof.
    intros f x a lit s HA Hs. unfold mOps. go. go; [go|]. now apply lift_finish.
  Qed.
  Lemma lift_body : forall f t x i s, LExec f -> LOA f -> sized s -> o3 (mBody f t x i s) (mBody f t x i (lift s)).
  Proof.
    intros f t x i s HE HO Hs. unfold mBody.
    change (ms_pos (lift s)) with (ms_pos s). destruct (step (me_doc E) (ms_pos s)) as [t1 a1 b1|]; [|go].
    destruct (tok_eqb t1 (endTok t)); [go|]. cbn [setPos ms_pos].
    assert (K : forall key tv av p,
      o3 match lookup key (x_elems x) with
         | Some c => do (s3, _) <- matchExec f E tv av c (setPos (setPos s b1) p);
                     do done <- isResolved (ms_data s3) 0; if done : bool then Ok (s3, false, true) else matchOA f E t x false i s3
         | None => do (s3, _) <- skipValue E tv (setPos (setPos s b1) p); matchOA f E t x false i s3 end
         match lookup key (x_elems x) with
         | Some c => do (s3, _) <- matchExec f E tv av c (lift (setPos (setPos s b1) p));
                     do done <- isResolved (ms_data s3) 0; if done : bool then Ok (s3, false, true) else matchOA f E t x false i s3
         | None => do (s3, _) <- skipValue E tv (lift (setPos (setPos s b1) p)); matchOA f E t x false i s3 end).
    { intros. repeat go. }
    unfold kvOf. cbn [setPos ms_pos]. destruct (isArr t).
    - exact (K (indexKey i) t1 a1 b1).
    - destruct (keyOf t1 (slice (me_doc E) a1 b1)) as [key| | |]; cbn [obind]; try exact I.
      destruct (step (me_doc E) b1) as [t2 a2 b2|]; [|cbn [obind]; go].
      destruct (tok_eqb t2 TObjectKeyDelim); [|exact I].
      destruct (step (me_doc E) b2) as [t3 a3 b3|]; cbn [obind]; [|go]. exact (K key t3 a3 b3).
  Qed.
  Lemma lift_iter : forall f l st s, LExec f -> LIters f -> sized s -> o3 (mIter f l st s) (mIter f l st (lift s)).
  Proof.
    intros f l st s HE HI Hs. unfold mIter.
    change (ms_pos (lift s)) with (ms_pos s). destruct (step (me_doc E) (ms_pos s)) as [t1 a1 b1|]; [|go].
    destruct (tok_eqb t1 TArrayEnd); [go|]. apply b0. intros d Hd.
    eapply b2; [apply (HE t1 a1 (lp_node l) (setData (setPos s b1) d)); eauto|]. intros s2 [] H2; [go|].
    apply b0. intros m _. destruct (loopStep (lp_mode l) st m) as [st' []]; repeat go.
  Qed.

  Theorem lift_all : forall f, LExec f /\ LLoops f /\ LOA f /\ LLoop f /\ LIters f /\ LAfter f /\ LALoops f.
  Proof.
    induction f as [|f (HE & HL & HO & HLp & HI & HA & HAL)].
    { repeat split; intro; intros; exact I. }
    split; [|split; [|split; [|split; [|split; [|split]]]]].
    - intros t a n s Hs. rewrite !matchExec_S. apply b0. intros x _. destruct (isLiteralToken t).
      { change (ms_pos (lift s)) with (ms_pos s). go. now apply lift_ops. }
      change (ms_pos (lift s)) with (ms_pos s).
      destruct t; try exact I; eapply b2; try (intros sa [e|] Ha; [go|]; apply b0; intros; now apply lift_ops).
      + destruct (x_elems x); [repeat go|]. go. eapply b2; [destruct b; [go|]; destruct (x_after x); repeat go|].
        intros s2 q H2. destruct d; repeat go.
      + destruct (x_loops x); [repeat go|]. now apply HL.
    - intros t ls p b s Hs. cbn [matchLoops]. destruct ls as [|l r]; [go|]. destruct (lp_target l); [go|].
      eapply b2; [destruct b; apply HLp; auto|]. intros sa [] Ha; repeat go.
    - intros t x b i s Hs. rewrite !matchOA_S. destruct b; [now apply lift_body|].
      change (ms_pos (lift s)) with (ms_pos s). destruct (step (me_doc E) (ms_pos s)) as [t1 a1 b1|]; [|go].
      destruct t1; repeat go. now apply (lift_body f t x (S i) (setPos s b1)).
    - intros t l s Hs. cbn [matchLoop]. destruct (negb (isArr t)); [go|]. apply b0. intros [] _; [repeat go|].
      eapply b3; [apply (HI l true (loopInit (lp_mode l)) (setStall s (lp_bucket l))); auto|].
      intros sa [] res Ha; [go|]. apply b0. intros d Hd. apply b0. intros d2 Hd2. cbn. split; [reflexivity|].
      apply markNode_length in Hd2. apply resetNodeRec_length in Hd. destruct Ha. split; cbn; auto. cbn in Hd. congruence.
    - intros l b st s Hs. rewrite !matchIters_S. destruct b; [now apply lift_iter|].
      change (ms_pos (lift s)) with (ms_pos s). destruct (step (me_doc E) (ms_pos s)) as [t1 a1 b1|]; [|go].
      destruct t1; repeat go. now apply (lift_iter f l st (setPos s b1)).
    - intros af s Hs. cbn [matchAfter]. repeat go.
    - intros ls s Hs. cbn [afterLoops]. destruct ls as [|l r]; [go|]. destruct (lp_target l) as [[|[|i]| |]|]; try exact I.
      apply b0. intros [start q] _. cbn [lift ms_slots].
      destruct (match step (me_doc E) start with SErr => (TUnknown, start) | SOk t _ b => (t, b) end) as [t p].
      eapply b2; [apply (HLp t l (setPos s p)); auto|]. intros sa [] Ha; repeat go.
  Qed.
End Lift.

(** One match, started with the flag raised or not: the same result, and the same
    state but for the flag. *)
Theorem match_lift : forall c L N fuel o D doc s, length (ms_slots s) = L -> length (ms_data s) = N ->
  olift c L N (@st2 _) (@put2 _) (match_ fuel o D doc s) (match_ fuel o D doc (lift c s)).
Proof.
  intros c L N fuel o D doc s H1 H2. unfold match_. change (setPos (lift c s) 0) with (lift c (setPos s 0)).
  assert (sized L N s) as Hs by (split; auto).
  destruct doc as [|b doc]; [cbn; auto|]. destruct (step _ _) as [t a e|]; [|cbn; auto].
  destruct (d_heap D) as [h|]; [|exact I].
  eapply b2; [apply (lift_all c L N (MEnv o h (d_tree D) (b :: doc)) fuel); auto|].
  intros sa [] Ha; [cbn; auto|]. apply b0. intros d Hd. apply b0. intros r _. cbn. split; auto.
  apply resolveAll_length in Hd. cbn in Hd. destruct Ha. split; cbn; congruence.
Qed.
