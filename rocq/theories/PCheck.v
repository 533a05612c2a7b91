(** Decision procedures for the conditions on filters and documents, so that
    concrete cases can be checked by computation. *)
From Verif Require Import Base MTokenizer SJson MLit MFastVal MMath SFormula SEvents MExpr SCompile MTransform SFilter
  MMatcher MTree SDoc SSat SSem PTree PTrace PWf PExpr PCompile PEval PMatch PSem.
From Coq Require Import List NArith ZArith Arith Lia Bool Permutation.
Import ListNotations.
Open Scope nat_scope.

(** ** Paths *)
Fixpoint pathEqb (p q : list bytes) : bool :=
  match p, q with
  | [], [] => true
  | a :: p', b :: q' => bytes_eqb a b && pathEqb p' q'
  | _, _ => false
  end.
Lemma pathEqb_eq : forall p q, pathEqb p q = true <-> p = q.
Proof.
  induction p as [|a p IH]; intros [|b q]; cbn; split; intro X; try discriminate; auto.
  - apply andb_true_iff in X as [X Y]. apply bytes_eqb_eq in X. apply IH in Y. congruence.
  - inversion X; subst. rewrite bytes_eqb_refl. now apply IH.
Qed.
Fixpoint suffix (p q : list bytes) : option (list bytes) :=
  match p, q with
  | [], _ => Some q
  | a :: p', b :: q' => if bytes_eqb a b then suffix p' q' else None
  | _, [] => None
  end.
Lemma suffix_app : forall p r, suffix p (p ++ r) = Some r.
Proof. induction p as [|a p IH]; intro r; cbn; auto. now rewrite bytes_eqb_refl. Qed.
Definition inPath (q : list bytes) (P : list (list bytes)) : bool := existsb (pathEqb q) P.
Lemma inPath_ok : forall q P, inPath q P = true <-> In q P.
Proof.
  intros q P. unfold inPath. rewrite existsb_exists. split.
  - intros (p & HI & E). apply pathEqb_eq in E. now subst.
  - intro HI. exists q. split; auto. now apply pathEqb_eq.
Qed.
Definition twob (P : list (list bytes)) : bool := match P with [] => false | q :: r => existsb (fun p => negb (pathEqb q p)) r end.
Lemma twob_ok : forall P, two P -> twob P = true.
Proof.
  intros [|q P] (q1 & q2 & H1 & H2 & Hn); [destruct H1|]. cbn [twob]. apply existsb_exists.
  assert (forall p, In p (q :: P) -> p <> q -> exists x, In x P /\ negb (pathEqb q x) = true) as X.
  { intros p [<-|HI] Hp; [contradiction|]. exists p. split; auto. apply negb_true_iff. destruct (pathEqb q p) eqn:E; auto. apply pathEqb_eq in E. congruence. }
  destruct (pathEqb q1 q) eqn:E; [|apply (X q1); auto; intros ->; rewrite (proj2 (pathEqb_eq q q) eq_refl) in E; discriminate].
  apply pathEqb_eq in E. subst q1. apply (X q2); auto.
Qed.
Definition prefixFreeb (l : list (list bytes)) : bool :=
  forallb (fun p => forallb (fun q => match suffix p q with Some (_ :: _) => false | _ => true end) l) l.
Lemma prefixFreeb_ok : forall l, prefixFreeb l = true -> prefix_free l.
Proof.
  intros l X p k r Hp Hq. unfold prefixFreeb in X. rewrite forallb_forall in X. specialize (X p Hp). rewrite forallb_forall in X.
  specialize (X _ Hq). rewrite suffix_app in X. discriminate.
Qed.
Definition noIndexb (q : list bytes) (P : list (list bytes)) : bool :=
  forallb (fun p => match suffix q p with Some ((91%N :: _) :: _) => false | _ => true end) P.
Lemma noIndexb_ok : forall q P, noIndexb q P = true -> forall j r, ~ In (q ++ indexKey j :: r) P.
Proof.
  intros q P X j r HI. unfold noIndexb in X. rewrite forallb_forall in X. specialize (X _ HI). rewrite suffix_app in X.
  unfold indexKey in X. cbn [app] in X. discriminate.
Qed.

(** ** Filters *)
Section B.
  Variable o : oracles.
  Definition okb {A : Type} (x : outcome A) : bool := match x with Ok _ => true | _ => false end.
  Lemma okb_ok : forall A (x : outcome A), okb x = true -> exists v, x = Ok v.
  Proof. intros A [v| | |] X; try discriminate. eauto. Qed.
  Fixpoint operandOkb (cv : nat) (e : expr) : bool :=
    match e with
    | XField r _ => Nat.eqb r 0 || Nat.eqb r cv
    | XFunc _ l => forallb (operandOkb cv) l
    | XValue _ | XTime _ | XRegex _ | XPcre _ => okb (constRef o e)
    | _ => false
    end.
  Lemma operandOkb_ok : forall cv e, operandOkb cv e = true -> operandOk o cv e.
  Proof.
    intro cv. induction e as [| |g|sa|sa|sa|a IH|l IH|l IH|r p|n l IH|m v i s IHi IHs|a IH|a IH|k l r IHl IHr] using expr_ind'; intro X;
      try discriminate; try (cbn [operandOkb] in X; apply okb_ok in X; exact X).
    - cbn in *. apply orb_true_iff in X as [X|X]; apply Nat.eqb_eq in X; auto.
    - apply operandOk_func. cbn [operandOkb] in X. rewrite forallb_forall in X. rewrite Forall_forall in IH.
      induction l as [|x l IHl]; cbn; auto. split; [apply IH; [now left|apply X; now left]|apply IHl; intros; [apply IH|apply X]; auto; now right].
  Qed.
  Fixpoint compilableb (cv : nat) (e : expr) : bool :=
    match e with
    | XTrue | XFalse => Nat.eqb cv 0
    | XNot a => compilableb cv a
    | XAnd l | XOr l => match l with [] => false | _ => true end && forallb (compilableb cv) l
    | XExists a => operandOkb cv a && prefixFreeb (pathsOf cv a)
    | XNotExists a => Nat.eqb cv 0 && operandOkb cv a && prefixFreeb (pathsOf cv a)
    | XCmp _ l r => operandOkb cv l && operandOkb cv r && prefixFreeb (pathsOf cv (XCmp CEq l r))
    | XLoop _ v (XField r q) s => negb (Nat.eqb v 0) && Nat.eqb r cv && prefixFreeb (loopPaths cv q s) && compilableb v s
    | _ => false
    end.
  Lemma allC_forall : forall cv l, Forall (compilable o cv) l -> allC o cv l.
  Proof. induction 1; cbn; auto. Qed.
  Ltac boolb X := repeat match type of X with _ && _ = true => let Y := fresh "B" in apply andb_true_iff in X as [X Y] end.
  Lemma compilableb_ok : forall e cv, compilableb cv e = true -> compilable o cv e.
  Proof.
    induction e as [| |g|sa|sa|sa|a IH|l IH|l IH|r p|n l IH|m v i s IHi IHs|a IH|a IH|k l r IHl IHr] using expr_ind'; intros cv X; try discriminate.
    - cbn in *. now apply Nat.eqb_eq.
    - cbn in *. now apply Nat.eqb_eq.
    - cbn [compilable]. now apply IH.
    - cbn [compilableb] in X. boolb X. apply compilable_and. split; [intros ->; discriminate|]. apply allC_forall.
      rewrite forallb_forall in B. rewrite Forall_forall in *. auto.
    - cbn [compilableb] in X. boolb X. apply compilable_or. split; [intros ->; discriminate|]. apply allC_forall.
      rewrite forallb_forall in B. rewrite Forall_forall in *. auto.
    - cbn [compilableb] in X. destruct i; try discriminate. boolb X. cbn [compilable]. split; [|split].
      + apply negb_true_iff in X. now apply Nat.eqb_neq.
      + apply Nat.eqb_eq in B1. subst. eexists. split; [reflexivity|]. now apply prefixFreeb_ok.
      + now apply IHs.
    - cbn [compilableb] in X. boolb X. cbn [compilable]. split; [now apply operandOkb_ok|now apply prefixFreeb_ok].
    - cbn [compilableb] in X. boolb X. cbn [compilable]. split; [now apply Nat.eqb_eq|]. split; [now apply operandOkb_ok|now apply prefixFreeb_ok].
    - cbn [compilableb] in X. boolb X. cbn [compilable]. split; [now apply operandOkb_ok|]. split; [now apply operandOkb_ok|now apply prefixFreeb_ok].
  Qed.

  Fixpoint funsOkb (e : expr) : bool :=
    match e with
    | XFunc n l =>
        ((existsb (bytes_eqb n) unaryFuns && Nat.leb 1 (length l)) || (existsb (bytes_eqb n) binaryFuns && Nat.leb 2 (length l)))
        && forallb funsOkb l
    | _ => true
    end.
  Lemma inb_ok : forall n l, existsb (bytes_eqb n) l = true -> In n l.
  Proof. intros n l X. apply existsb_exists in X as (m & HI & E). apply bytes_eqb_eq in E. now subst. Qed.
  Lemma funsOkb_ok : forall e, funsOkb e = true -> funsOk e.
  Proof.
    induction e as [| |g|sa|sa|sa|a IH|l IH|l IH|r p|n l IH|m v i s IHi IHs|a IH|a IH|k l r IHl IHr] using expr_ind'; intro X; try exact I.
    cbn [funsOkb] in X. apply andb_true_iff in X as [X Y]. cbn [funsOk]. split.
    - apply orb_true_iff in X as [X|X]; apply andb_true_iff in X as [X Z]; apply inb_ok in X; apply Nat.leb_le in Z; auto.
    - clear X. induction l as [|x l IHl]; auto. cbn [forallb] in Y. apply andb_true_iff in Y as [Y1 Y2]. inversion IH; subst. split; [auto|]. now apply IHl.
  Qed.
  Fixpoint regularb (P : list (list bytes)) (cv : nat) (e : expr) : bool :=
    match e with
    | XTrue => false
    | XNot a => regularb P cv a
    | XAnd l | XOr l => forallb (regularb P cv) l
    | XExists a | XNotExists a => funsOkb a
    | XCmp _ l r => funsOkb l && funsOkb r
    | XLoop _ v (XField _ q) s => noIndexb q P && (negb (Nat.eqb cv 0) || negb (inPath q (pathsOf 0 s))) && regularb (pathsOf v s) v s
    | _ => true
    end.
  Lemma regularb_ok : forall e P cv, regularb P cv e = true -> regular P cv e.
  Proof.
    induction e as [| |g|sa|sa|sa|a IH|l IH|l IH|r p|n l IH|m v i s IHi IHs|a IH|a IH|k l r IHl IHr] using expr_ind'; intros P cv X; try discriminate; try exact I.
    - cbn [regular]. now apply IH.
    - apply reg_and. cbn [regularb] in X. rewrite forallb_forall in X. rewrite Forall_forall in *. auto.
    - apply reg_or. cbn [regularb] in X. rewrite forallb_forall in X. rewrite Forall_forall in *. auto.
    - destruct i; try exact I. cbn [regularb] in X. boolb X. cbn [regular]. split; [now apply noIndexb_ok|]. split; [|now apply IHs].
      intros -> HI. apply orb_true_iff in B0 as [B0|B0]; [discriminate|]. apply inPath_ok in HI. rewrite HI in B0. discriminate.
    - now apply funsOkb_ok.
    - now apply funsOkb_ok.
    - cbn [regularb] in X. boolb X. split; now apply funsOkb_ok.
  Qed.
  Definition supportedb (es : list expr) : bool :=
    existsb (fun e => match e with XFalse => false | _ => true end) es && forallb (compilableb 0) es
    && forallb (regularb (pathsOf 0 (XOr es)) 0) es.
  Lemma supportedb_ok : forall es, supportedb es = true -> supported o es.
  Proof.
    intros es X. unfold supportedb in X. boolb X. split; [|split].
    - apply existsb_exists in X as (e & HI & E). exists e. split; auto. intros ->. discriminate.
    - rewrite forallb_forall in B0. apply Forall_forall. intros e He. now apply compilableb_ok, B0.
    - rewrite forallb_forall in B. apply Forall_forall. intros e He. now apply regularb_ok, B.
  Qed.

  (** ** Documents *)
  Definition filledb (cur : cst) (q : list bytes) : bool := match at_ q cur with Some w => negb (emptyC w) | None => true end.
  Lemma filledb_ok : forall cur q, filledb cur q = true -> filled cur q.
  Proof. intros cur q X w E. unfold filledb in X. rewrite E in X. now apply negb_true_iff. Qed.
  Definition hereb (cur : cst) (q : list bytes) : bool := match at_ q cur with Some _ => true | None => false end.
  Lemma hereb_ok : forall cur q, hereb cur q = true -> at_ q cur <> None.
  Proof. intros cur q X. unfold hereb in X. destruct (at_ q cur); [discriminate|discriminate]. Qed.
  Definition atomTameb (cv : nat) (cur : cst) (e : expr) : bool :=
    forallb (filledb cur) (pathsOf cv e)
    && (match pathsOf cv e with [] => negb (emptyC cur) | _ => true end)
    && (negb (twob (pathsOf cv e)) || forallb (hereb cur) (if Nat.eqb cv 0 then opArgs e else pathsOf cv e)).
  Lemma atomTameb_ok : forall cv cur e, atomTameb cv cur e = true -> atomTame cv cur e.
  Proof.
    intros cv cur e X. unfold atomTameb in X. boolb X. split; [|split].
    - intros q Hq. rewrite forallb_forall in X. now apply filledb_ok, X.
    - intro E. rewrite E in B0. now apply negb_true_iff.
    - intros Ht q Hq. apply twob_ok in Ht. rewrite Ht in B. cbn [negb orb] in B. rewrite forallb_forall in B. now apply hereb_ok, B.
  Qed.
  Variable doc : cst.
  Fixpoint tameb (cv : nat) (cur : cst) (e : expr) : bool :=
    match e with
    | XNot a => tameb cv cur a
    | XAnd l | XOr l => forallb (tameb cv cur) l
    | XExists _ | XCmp _ _ _ => atomTameb cv cur e
    | XNotExists a => atomTameb cv cur (XExists a)
    | XLoop m v (XField r q) s =>
        (negb (Nat.eqb cv 0) || (forallb (filledb doc) (pathsOf 0 s) && (negb (twob (loopPaths 0 q s)) || filledb doc q)))
        && match at_ q cur with Some (CArr es _) => forallb (fun e => tameb v (e_v e) s) es | _ => true end
    | _ => true
    end.
  Lemma tameb_ok : forall e cv cur, tameb cv cur e = true -> tame doc cv cur e.
  Proof.
    induction e as [| |g|sa|sa|sa|a IH|l IH|l IH|r p|n l IH|m v i s IHi IHs|a IH|a IH|k l r IHl IHr] using expr_ind'; intros cv cur X; try exact I.
    - cbn [tame]. now apply IH.
    - apply tame_and. cbn [tameb] in X. rewrite forallb_forall in X. rewrite Forall_forall in *. auto.
    - apply tame_or. cbn [tameb] in X. rewrite forallb_forall in X. rewrite Forall_forall in *. auto.
    - destruct i; try exact I. cbn [tameb] in X. boolb X. cbn [tame]. split.
      + intros ->. cbn [Nat.eqb negb orb] in X. boolb X. split.
        * intros q' Hq'. rewrite forallb_forall in X. now apply filledb_ok, X.
        * intro Ht. apply twob_ok in Ht. rewrite Ht in B0. now apply filledb_ok.
      + intros es w e Ea He. rewrite Ea in B. rewrite forallb_forall in B. apply IHs, B, He.
    - now apply atomTameb_ok.
    - now apply atomTameb_ok.
    - now apply atomTameb_ok.
  Qed.
  Fixpoint loopedb (e : expr) : bool :=
    match e with
    | XNot a => loopedb a
    | XAnd l | XOr l => forallb loopedb l
    | XLoop m v (XField r q) s => match at_ q doc with Some (CArr _ _) => true | _ => negb (vac s) end
    | _ => true
    end.
  Lemma loopedb_ok : forall e, loopedb e = true -> looped doc e.
  Proof.
    induction e as [| |g|sa|sa|sa|a IH|l IH|l IH|r p|n l IH|m v i s IHi IHs|a IH|a IH|k l r IHl IHr] using expr_ind'; intros X; try exact I.
    - cbn [looped]. now apply IH.
    - apply looped_and. cbn [loopedb] in X. rewrite forallb_forall in X. rewrite Forall_forall in *. auto.
    - apply looped_or. cbn [loopedb] in X. rewrite forallb_forall in X. rewrite Forall_forall in *. auto.
    - destruct i as [| |g|sa|sa|sa|a|l|l|r p|n l|m2 v2 i2 s2|a|a|k l r]; try exact I. cbn [loopedb] in X. cbn [looped]. destruct (at_ p doc) as [[t lx|es w|ms w]|]; eauto; right; now apply negb_true_iff.
  Qed.
  Definition steadyb (e : expr) : bool := forallb (fun f => negb (Nat.eqb (fst f) 0) || hereb doc (snd f)) (opFuns e).
  Lemma steadyb_ok : forall e, steadyb e = true -> steadyAtom doc e.
  Proof. intros e X q Hq. unfold steadyb in X. rewrite forallb_forall in X. specialize (X _ Hq). cbn in X. now apply hereb_ok. Qed.
  Definition knownb (cv : nat) (cur : cst) (e : expr) : bool := steadyb e && forallb (hereb cur) (pathsOf cv e).
  Lemma knownb_ok : forall cv cur e, knownb cv cur e = true -> knownAtom doc cv cur e.
  Proof.
    intros cv cur e X. unfold knownb in X. boolb X. split; [now apply steadyb_ok|]. intros q Hq. rewrite forallb_forall in B. now apply hereb_ok, B.
  Qed.
  Fixpoint fairb (neg : bool) (cv : nat) (cur : cst) (e : expr) : bool :=
    match e with
    | XNot a => fairb true cv cur a
    | XAnd l | XOr l => forallb (fairb neg cv cur) l
    | XCmp CNe l r => knownb cv cur (XCmp CEq l r)
    | XExists _ | XCmp _ _ _ => if neg then knownb cv cur e else steadyb e
    | XLoop m v (XField r q) s =>
        match at_ q cur with Some (CArr es _) => forallb (fun e => fairb false v (e_v e) s) es | _ => negb neg end
    | _ => true
    end.
  Lemma fairb_ok : forall e neg cv cur, fairb neg cv cur e = true -> fair doc neg cv cur e.
  Proof.
    induction e as [| |g|sa|sa|sa|a IH|l IH|l IH|r p|n l IH|m v i s IHi IHs|a IH|a IH|k l r IHl IHr] using expr_ind'; intros neg cv cur X; try exact I.
    - cbn [fair]. now apply IH.
    - apply fair_and. cbn [fairb] in X. rewrite forallb_forall in X. rewrite Forall_forall in *. auto.
    - apply fair_or. cbn [fairb] in X. rewrite forallb_forall in X. rewrite Forall_forall in *. auto.
    - destruct i as [| |g|sa|sa|sa|a|l|l|r p|n l|m2 v2 i2 s2|a|a|k l r]; try exact I. cbn [fairb] in X. cbn [fair].
      destruct (at_ p cur) as [[t lx|es w|ms w]|] eqn:Ea; try (apply negb_true_iff in X; subst; split; [exact I|discriminate]).
      split; [destruct neg; eauto|]. intros es' w' e E He. injection E as <- <-. rewrite forallb_forall in X. apply IHs, X, He.
    - cbn [fairb] in X. cbn [fair]. destruct neg; [now apply knownb_ok|now apply steadyb_ok].
    - destruct k; cbn [fairb] in X; cbn [fair]; try (destruct neg; [now apply knownb_ok|now apply steadyb_ok]). now apply knownb_ok.
  Qed.
  Fixpoint fairTopb (e : expr) : bool :=
    match e with
    | XNot a => fairTopb a
    | XAnd l | XOr l => forallb fairTopb l
    | XLoop m v (XField r q) s => match at_ q doc with Some (CArr es _) => forallb (fun e => fairb false v (e_v e) s) es | _ => true end
    | _ => true
    end.
  Lemma fairTopb_ok : forall e, fairTopb e = true -> fairTop doc e.
  Proof.
    induction e as [| |g|sa|sa|sa|a IH|l IH|l IH|r p|n l IH|m v i s IHi IHs|a IH|a IH|k l r IHl IHr] using expr_ind'; intros X; try exact I.
    - cbn [fairTop]. now apply IH.
    - apply fairTop_and. cbn [fairTopb] in X. rewrite forallb_forall in X. rewrite Forall_forall in *. auto.
    - apply fairTop_or. cbn [fairTopb] in X. rewrite forallb_forall in X. rewrite Forall_forall in *. auto.
    - destruct i; try exact I. cbn [fairTopb] in X. cbn [fairTop]. intros es w e Ea He. rewrite Ea in X. rewrite forallb_forall in X. apply fairb_ok, X, He.
  Qed.

  Fixpoint nodupb (l : list (outcome bytes)) : bool :=
    match l with
    | [] => true
    | Ok k :: r => forallb (fun x => match x with Ok k' => negb (bytes_eqb k k') | _ => true end) r && nodupb r
    | _ => false
    end.
  Lemma nodupb_ok : forall l, nodupb l = true -> NoDup l.
  Proof.
    induction l as [|[k| | |] l IH]; intro X; try discriminate; constructor; cbn [nodupb] in X; boolb X.
    - intro HI. rewrite forallb_forall in X. specialize (X _ HI). cbn in X. rewrite bytes_eqb_refl in X. discriminate.
    - now apply IH.
  Qed.
  Fixpoint distinctb (v : cst) : bool :=
    match v with
    | CLit _ _ => true
    | CArr es _ => forallb (fun e => distinctb (e_v e)) es
    | CObj ms _ => nodupb (map (fun m => keyOf (m_kt m) (m_kx m)) ms) && forallb (fun m => distinctb (m_v m)) ms
    end.
  Lemma distinctb_ok : forall v, distinctb v = true -> distinct v.
  Proof.
    induction v as [t lx|es w IH|ms w IH] using cst_ind'; intro X; [exact I| |].
    - apply distinct_arr. cbn [distinctb] in X. rewrite forallb_forall in X. rewrite Forall_forall in *. auto.
    - apply distinct_obj. cbn [distinctb] in X. boolb X. split; [now apply nodupb_ok|]. rewrite forallb_forall in B. rewrite Forall_forall in *. auto.
  Qed.
End B.

Fixpoint loneb (cv : nat) (e : expr) : bool :=
  match e with
  | XNot a => loneb cv a
  | XAnd l | XOr l => (fix go l := match l with [] => true | x :: r => loneb cv x && go r end) l
  | XExists _ | XNotExists _ | XCmp _ _ _ => negb (twob (pathsOf cv e)) && (Nat.eqb cv 0 || match pathsOf 0 e with [] => true | _ => false end)
  | XLoop _ v _ s => match pathsOf 0 s with [] => true | _ => false end && loneb v s
  | _ => true
  end.
Lemma loneb_ok : forall e cv, loneb cv e = true -> lone cv e.
Proof.
  assert (forall cv e, negb (twob (pathsOf cv e)) && (Nat.eqb cv 0 || match pathsOf 0 e with [] => true | _ => false end) = true ->
    ~ two (pathsOf cv e) /\ (cv <> 0 -> pathsOf 0 e = [])) as A.
  { intros cv e X. apply andb_true_iff in X as [X Y]. split.
    - intro H2. apply twob_ok in H2. rewrite H2 in X. discriminate.
    - intro Hc. apply orb_true_iff in Y as [Y|Y]; [apply Nat.eqb_eq in Y; contradiction|]. destruct (pathsOf 0 e); [reflexivity|discriminate]. }
  induction e as [| |g|sa|sa|sa|a IH|l IH|l IH|r p|n l IH|m v i s IHi IHs|a IH|a IH|k l r IHl IHr] using expr_ind'; intros cv X;
    try exact I; cbn [loneb lone] in *; auto.
  - induction l as [|x l IHl]; [exact I|]. apply andb_true_iff in X as [X Y]. inversion IH; subst. split; [auto|apply IHl; auto].
  - induction l as [|x l IHl]; [exact I|]. apply andb_true_iff in X as [X Y]. inversion IH; subst. split; [auto|apply IHl; auto].
  - apply andb_true_iff in X as [X Y]. split; auto. destruct (pathsOf 0 s); [reflexivity|discriminate].
Qed.
Fixpoint loopsFoundb (doc : cst) (e : expr) : bool :=
  match e with
  | XNot a => loopsFoundb doc a
  | XAnd l | XOr l => (fix go l := match l with [] => true | x :: r => loopsFoundb doc x && go r end) l
  | XLoop _ _ (XField _ q) s => negb (twob (loopPaths 0 q s)) || hereb doc q
  | _ => true
  end.
Lemma loopsFoundb_ok : forall doc e, loopsFoundb doc e = true -> loopsFound doc e.
Proof.
  intro doc. induction e as [| |g|sa|sa|sa|a IH|l IH|l IH|r p|n l IH|m v i s IHi IHs|a IH|a IH|k l r IHl IHr] using expr_ind'; intros X;
    try exact I; cbn [loopsFoundb loopsFound] in *; auto.
  - induction l as [|x l IHl]; [exact I|]. apply andb_true_iff in X as [X Y]. inversion IH; subst. split; [auto|apply IHl; auto].
  - induction l as [|x l IHl]; [exact I|]. apply andb_true_iff in X as [X Y]. inversion IH; subst. split; [auto|apply IHl; auto].
  - destruct i; auto. intro H2. apply twob_ok in H2. rewrite H2 in X. now apply hereb_ok.
Qed.
Definition readableb (doc : cst) (es : list expr) : bool :=
  match doc with CObj _ _ => true | CArr _ _ => forallb (loopsFoundb doc) es | CLit _ _ => forallb (loneb 0) es end.
Lemma readableb_ok : forall doc es, readableb doc es = true -> readable doc es.
Proof.
  intros doc es X. destruct doc as [t x|l w|]; [| |exact I]; cbn [readable readableb] in *; rewrite forallb_forall in X; apply Forall_forall; intros e He.
  - now apply loneb_ok, X.
  - now apply loopsFoundb_ok, X.
Qed.
Definition benignb (es : list expr) (doc : cst) : bool :=
  readableb doc es && distinctb doc
  && forallb (tameb doc 0 doc) es && forallb (loopedb doc) es && forallb (fairTopb doc) es.
Lemma benignb_ok : forall es doc, benignb es doc = true -> benign es doc.
Proof.
  intros es doc X. unfold benignb in X. apply andb_true_iff in X as [X B1]. apply andb_true_iff in X as [X B2]. apply andb_true_iff in X as [X B3].
  apply andb_true_iff in X as [X B4]. rewrite forallb_forall in B1, B2, B3. repeat split; try (apply Forall_forall).
  - now apply readableb_ok.
  - now apply distinctb_ok.
  - intros e He. now apply tameb_ok, B3.
  - intros e He. now apply loopedb_ok, B2.
  - intros e He. now apply fairTopb_ok, B1.
Qed.
