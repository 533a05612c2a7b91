(** What the trace of a compiled program reports about each site is the truth
    value of that site. *)
From Verif Require Import Base MTokenizer SJson MLit MFastVal MMath SFormula SEvents SMerge MBinTree MSession MExpr SCompile MTransform SFilter
  MMatcher MTree SDoc SSat SSem SStatus PBinTree PSession PTree PTrace PExpr PPlace PFun PSites PHeap.
From Coq Require Import List NArith ZArith Arith Lia Bool.
Import ListNotations.
Open Scope nat_scope.

Lemma leaf_not_body : forall t i k j a, In k (leaves i t) -> In (j, a) (bodies i t) -> k <> j.
Proof.
  induction t as [|[] a IH|bo a IHa b IHb]; intros i k j x HL HB; cbn [leaves bodies] in *; try contradiction; eauto.
  assert (forall t i k, In k (leaves i t) -> i <= k < i + fsize t) as R1 by (intros; eapply atoms_range, leaves_atoms; eauto).
  assert (forall t i k y, In (k, y) (bodies i t) -> i <= k < i + fsize t) as R2 by (intros; eapply atoms_range, bodies_atoms; eauto).
  apply in_app_iff in HL as [HL|HL]; apply in_app_iff in HB as [HB|HB]; eauto; apply R1 in HL; apply R2 in HB; lia.
Qed.

Lemma first_report_in : forall l k b, first_report l k = Some b -> In (k, b) l.
Proof.
  induction l as [|[j x] l IH]; intros k b E; cbn in E; [discriminate|]. destruct (Nat.eqb_spec j k) as [->|]; [inversion E; now left|right; auto].
Qed.
Lemma first_report_some : forall l k b, In (k, b) l -> exists b', first_report l k = Some b'.
Proof.
  induction l as [|[j x] l IH]; intros k b HI; [destruct HI|]. cbn. destruct (Nat.eqb_spec j k); [eauto|].
  destruct HI as [HI|HI]; [inversion HI; contradiction|eauto].
Qed.

Lemma val_present : forall o w x, valOf o w = Ok x -> isMissing (fv x) = false.
Proof.
  intros o [t lx|es wc|ms wc] x E; cbn [valOf] in E; [|inversion E; reflexivity|inversion E; reflexivity].
  destruct t; cbn [parseLit] in E; try discriminate; try (inversion E; reflexivity).
  destruct (parseEscString lx (repeat 0%N 64)) as [[[b ?] ?]| | |]; try discriminate. inversion E; reflexivity.
Qed.

Lemma site_sub : forall e c k c' k' m v i b, In (Site c' k' (XLoop m v i b)) (sites c k e) -> incl (sites (S k') (S k') b) (sites c k e).
Proof.
  assert (forall l, Forall (fun e => forall c k c' k' m v i b, In (Site c' k' (XLoop m v i b)) (sites c k e) -> incl (sites (S k') (S k') b) (sites c k e)) l ->
    forall c k c' k' m v i b, In (Site c' k' (XLoop m v i b)) (sitesChain c k l) -> incl (sites (S k') (S k') b) (sitesChain c k l)) as CH.
  { intros l HF c k c' k' m v i b Hi. apply (chain_in BAnd) in Hi as (a & k1 & Ha & Hi & Hin & _). rewrite Forall_forall in HF.
    intros y Hy. apply Hin. eapply (HF a Ha); eauto. }
  induction e as [| |gg|sa|sa|sa|a IH|l IH|l IH|r p|n l IH|m x i s IHi IHs|a IH|a IH|k l r IHl IHr] using expr_ind'; intros c kk c' k' m0 v i0 b Hi; try (destruct Hi; fail).
  - cbn [sites] in *. eauto.
  - rewrite sites_and in *. eauto.
  - rewrite sites_or in *. eauto.
  - cbn [sites] in *. destruct Hi as [Hi|Hi].
    + inversion Hi; subst. apply incl_tl, incl_refl.
    + intros y Hy. right. eapply IHs; eauto.
  - destruct Hi as [Hi|[]]; discriminate.
  - destruct Hi as [Hi|[]]; discriminate.
  - destruct k; destruct Hi as [Hi|[]]; discriminate.
Qed.

(** ** From sites to formulas *)
Section Formula.
  Variable o : oracles.
  (** How comparisons are decided. *)
  Variable hr : rule.
  Variable root : cst.

  (** The assignment [r] knows about a site of context variable [cv] what it should. *)
  Definition agree3 (r : nat -> option bool) (cv : nat) (v : cst) (k : nat) (e : expr) : Prop :=
    match e with
    | XLoop _ _ _ _ => r (S k) = sat3By o hr root cv v e
    | _ => r k = atom3By o hr root cv v e
    end.

  Lemma sat3_and : forall cv v l, l <> [] -> sat3By o hr root cv v (XAnd l) =
    match l with [] => None | [x] => sat3By o hr root cv v x | x :: r => k_bin BAnd (sat3By o hr root cv v x) (sat3By o hr root cv v (XAnd r)) end.
  Proof. intros cv v [|x [|y r]] Hl; [contradiction| |reflexivity]. cbn [sat3By]. destruct (sat3By o hr root cv v x) as [[]|]; reflexivity. Qed.
  Lemma sat3_or : forall cv v l, l <> [] -> sat3By o hr root cv v (XOr l) =
    match l with [] => None | [x] => sat3By o hr root cv v x | x :: r => k_bin BOr (sat3By o hr root cv v x) (sat3By o hr root cv v (XOr r)) end.
  Proof. intros cv v [|x [|y r]] Hl; [contradiction| |reflexivity]. cbn [sat3By]. destruct (sat3By o hr root cv v x) as [[]|]; reflexivity. Qed.

  Lemma keval_sites : forall e c k cv v r, compilable o cv e -> cv <> 0 ->
    (forall k' e', In (Site c k' e') (sites c k e) -> agree3 r cv v k' e') -> c <= k -> keval r k (structure e) = sat3By o hr root cv v e.
  Proof.
    assert (forall l, Forall (fun e => forall c k cv v r, compilable o cv e -> cv <> 0 ->
        (forall k' e', In (Site c k' e') (sites c k e) -> agree3 r cv v k' e') -> c <= k -> keval r k (structure e) = sat3By o hr root cv v e) l ->
      forall c k cv v r, l <> [] -> allC o cv l -> cv <> 0 -> (forall k' e', In (Site c k' e') (sitesChain c k l) -> agree3 r cv v k' e') -> c <= k ->
      keval r k (joined BAnd (map structure l)) = sat3By o hr root cv v (XAnd l) /\ keval r k (joined BOr (map structure l)) = sat3By o hr root cv v (XOr l)) as CH.
    { intros l HF. induction HF as [|x l Hx HF IHl]; intros c k cv v r Hl HA Hcv HS Hk; [contradiction|].
      rewrite sat3_and, sat3_or by discriminate. destruct HA as [HA1 HA2]. destruct l as [|y l].
      - cbn [map joined]. split; apply (Hx c); auto.
      - cbn [map]. rewrite !joined_cons. rewrite chain_cons in HS. cbn [keval].
        destruct (IHl c (S k + fsize (structure x)) cv v r) as [I1 I2]; auto; [discriminate| |lia|].
        { intros k' e' Hi. apply HS. apply in_app_iff. auto. }
        cbn [map] in I1, I2. rewrite I1, I2. rewrite (Hx c (S k) cv v r); auto.
        intros k' e' Hi. apply HS. apply in_app_iff. auto. }
    induction e as [| |gg|sa|sa|sa|a IH|l IH|l IH|r p|n l IH|m x i s IHi IHs|a IH|a IH|k l r IHl IHr] using expr_ind'; intros c kk cv v r0 HC Hcv HS Hk;
      try (cbn [compilable] in HC; contradiction).
    - cbn [structure keval sat3By]. f_equal. apply (IH c); auto.
    - apply compilable_and in HC as [Hl HC]. apply (CH l IH c kk cv v r0); auto. now rewrite <- sites_and.
    - apply compilable_or in HC as [Hl HC]. apply (CH l IH c kk cv v r0); auto. now rewrite <- sites_or.
    - specialize (HS kk (XLoop m x i s) (or_introl eq_refl)). exact HS.
    - specialize (HS kk (XExists a) (or_introl eq_refl)). exact HS.
    - cbn [compilable] in HC. destruct HC as [HC _]. contradiction.
    - destruct k; try (specialize (HS kk _ (or_introl eq_refl)); exact HS).
      specialize (HS (S kk) _ (or_introl eq_refl)). cbn [structure keval sat3By]. now rewrite HS.
  Qed.

  (** At the top: nothing reported counts as false. *)
  Definition agree2 (r : nat -> option bool) (k : nat) (e : expr) : Prop :=
    match e with
    | XLoop _ _ _ _ => r (S k) = sat3By o hr root 0 root e
    | _ => known_true (r k) = known_true (atom3By o hr root 0 root e)
    end.
  Fixpoint falses (k : nat) (e : expr) : list nat :=
    match e with
    | XFalse => [k]
    | XNot a => falses (S k) a
    | XAnd l | XOr l =>
        (fix go (k : nat) (l : list expr) : list nat :=
           match l with
           | [] => []
           | [a] => falses k a
           | a :: r => falses (S k) a ++ go (S k + fsize (structure a)) r
           end) k l
    | _ => []
    end.
  Fixpoint falsesChain (k : nat) (l : list expr) : list nat :=
    match l with
    | [] => []
    | [a] => falses k a
    | a :: r => falses (S k) a ++ falsesChain (S k + fsize (structure a)) r
    end.
  Lemma falses_and : forall l k, falses k (XAnd l) = falsesChain k l.
  Proof.
    intros l. cbn [falses]. induction l as [|a [|b r] IH]; intro k; auto.
  Qed.
  Lemma falses_or : forall l k, falses k (XOr l) = falsesChain k l.
  Proof. exact falses_and. Qed.

  (** Positions of FALSE are leaves no site occupies. *)
  Lemma falses_free : forall e c k j, In j (falses k e) ->
    k <= j < k + fsize (structure e) /\ In j (leaves k (structure e)) /\ forall c' e', ~ In (Site c' j e') (sites c k e).
  Proof.
    assert (forall bo l, Forall (fun e => forall c k j, In j (falses k e) ->
        k <= j < k + fsize (structure e) /\ In j (leaves k (structure e)) /\ forall c' e', ~ In (Site c' j e') (sites c k e)) l ->
      forall c k j, In j (falsesChain k l) -> k <= j < k + fsize (joined bo (map structure l)) /\ In j (leaves k (joined bo (map structure l)))
        /\ forall c' e', ~ In (Site c' j e') (sitesChain c k l)) as CH.
    { intros bo l HF. induction HF as [|x l Hx HF IHl]; intros c k j Hj; [destruct Hj|]. destruct l as [|y l]; [now apply Hx|].
      change (In j (falses (S k) x ++ falsesChain (S k + fsize (structure x)) (y :: l))) in Hj.
      cbn [map]. rewrite joined_cons, chain_cons. cbn [fsize leaves]. pose proof (fsize_pos (structure x)).
      apply in_app_iff in Hj as [Hj|Hj].
      - destruct (Hx c _ _ Hj) as (R & L & N). split; [lia|]. split; [apply in_app_iff; auto|]. intros c' e' Hi. apply in_app_iff in Hi as [Hi|Hi]; [eapply N; eauto|].
        apply (chain_in bo) in Hi as (a & k1 & _ & Hi & _ & Hk1 & _). apply site_shape in Hi as [[Hi _] _]. lia.
      - destruct (IHl c _ _ Hj) as (R & L & N). cbn [map] in R, L. split; [lia|]. split; [apply in_app_iff; auto|]. intros c' e' Hi. apply in_app_iff in Hi as [Hi|Hi]; [|eapply N; eauto].
        apply site_shape in Hi as [[Hi1 Hi2] _]. pose proof (fsize_pos (structure e')). lia. }
    induction e as [| |gg|sa|sa|sa|a IH|l IH|l IH|r p|n l IH|m x i s IHi IHs|a IH|a IH|k l r IHl IHr] using expr_ind'; intros c kk j Hj; try (destruct Hj; fail).
    - destruct Hj as [<-|[]]. cbn. repeat split; auto; lia.
    - cbn [falses] in Hj. destruct (IH c _ _ Hj) as (R & L & N). cbn [structure fsize leaves sites]. repeat split; auto; lia.
    - rewrite falses_and in Hj. rewrite sites_and. apply (CH BAnd l IH c kk j Hj).
    - rewrite falses_or in Hj. rewrite sites_or. apply (CH BOr l IH c kk j Hj).
  Qed.

  Lemma feval_vac : forall e cv k, compilable o cv e -> feval (fun _ => None) k (structure e) = vac e.
  Proof.
    assert (forall l, Forall (fun e => forall cv k, compilable o cv e -> feval (fun _ => None) k (structure e) = vac e) l -> forall cv k, l <> [] -> allC o cv l ->
      feval (fun _ => None) k (joined BAnd (map structure l)) = forallb vac l /\ feval (fun _ => None) k (joined BOr (map structure l)) = existsb vac l) as CH.
    { intros l HF. induction HF as [|x l Hx HF IHl]; intros cv k Hl HA; [contradiction|]. destruct HA as [HA1 HA2]. destruct l as [|y l].
      - cbn [map joined forallb existsb]. rewrite (Hx cv k HA1). now rewrite andb_true_r, orb_false_r.
      - cbn [map]. rewrite !joined_cons. cbn [feval]. destruct (IHl cv (S k + fsize (structure x))) as [I1 I2]; auto; [discriminate|].
        cbn [map] in I1, I2. rewrite I1, I2. rewrite (Hx cv (S k) HA1). auto. }
    induction e as [| |gg|sa|sa|sa|a IH|l IH|l IH|r p|n l IH|m x i s IHi IHs|a IH|a IH|k l r IHl IHr] using expr_ind'; intros cv kk HC; try reflexivity.
    - cbn [structure feval vac]. f_equal. eapply IH; eauto.
    - apply compilable_and in HC as [Hl HC]. cbn [structure vac]. now apply (CH l IH cv kk).
    - apply compilable_or in HC as [Hl HC]. cbn [structure vac]. now apply (CH l IH cv kk).
    - cbn [structure feval vac]. cbn [compilable] in HC. destruct HC as (_ & _ & HC). eapply IHs; eauto.
    - destruct k; reflexivity.
  Qed.

  Lemma feval_sites : forall e k r P, compilable o 0 e -> regular P 0 e -> looped root e ->
    (forall k' e', In (Site 0 k' e') (sites 0 k e) -> agree2 r k' e') -> (forall j, In j (falses k e) -> r j = None) ->
    feval r k (structure e) = satBy o hr root e.
  Proof.
    assert (forall x : option bool, match x with Some b => b | None => false end = known_true x) as KT by (intros [[]|]; reflexivity).
    assert (forall l, Forall (fun e => forall k r P, compilable o 0 e -> regular P 0 e -> looped root e ->
        (forall k' e', In (Site 0 k' e') (sites 0 k e) -> agree2 r k' e') -> (forall j, In j (falses k e) -> r j = None) ->
        feval r k (structure e) = satBy o hr root e) l ->
      forall k r P, l <> [] -> allC o 0 l -> (forall x, In x l -> regular P 0 x) -> (forall x, In x l -> looped root x) ->
      (forall k' e', In (Site 0 k' e') (sitesChain 0 k l) -> agree2 r k' e') -> (forall j, In j (falsesChain k l) -> r j = None) ->
      feval r k (joined BAnd (map structure l)) = forallb (satBy o hr root) l /\ feval r k (joined BOr (map structure l)) = existsb (satBy o hr root) l) as CH.
    { intros l HF. induction HF as [|x l Hx HF IHl]; intros k r P Hl HA HG HLo HS HN; [contradiction|]. destruct HA as [HA1 HA2]. destruct l as [|y l].
      - cbn [map joined forallb existsb]. rewrite (Hx k r P); auto; [now rewrite andb_true_r, orb_false_r|apply HG; now left|apply HLo; now left].
      - cbn [map]. rewrite !joined_cons. rewrite chain_cons in HS.
        change (forall j, In j (falses (S k) x ++ falsesChain (S k + fsize (structure x)) (y :: l)) -> r j = None) in HN. cbn [feval].
        destruct (IHl (S k + fsize (structure x)) r P) as [I1 I2]; auto; try discriminate; try (intros; apply HG; now right); try (intros; apply HLo; now right);
          try (intros; apply HS, in_app_iff; auto); try (intros; apply HN, in_app_iff; auto).
        cbn [map] in I1, I2. rewrite I1, I2.
        rewrite (Hx (S k) r P); auto; try (apply HG; now left); try (apply HLo; now left); try (intros; apply HS, in_app_iff; auto); try (intros; apply HN, in_app_iff; auto). }
    induction e as [| |gg|sa|sa|sa|a IH|l IH|l IH|r p|n l IH|m x i s IHi IHs|a IH|a IH|k l r IHl IHr] using expr_ind'; intros kk r0 P HC HG HLo HS HN;
      try (cbn [compilable regular] in *; contradiction).
    - cbn [structure feval satBy]. now rewrite (HN kk (or_introl eq_refl)).
    - cbn [structure feval satBy]. f_equal. eapply IH; eauto.
    - apply compilable_and in HC as [Hl HC]. cbn [structure satBy]. apply (CH l IH kk r0 P); auto.
      + intros x Hx. cbn [regular] in HG. eapply fix_all in HG; eauto.
      + intros x Hx. cbn [looped] in HLo. eapply fix_all in HLo; eauto.
      + now rewrite <- sites_and.
    - apply compilable_or in HC as [Hl HC]. cbn [structure satBy]. apply (CH l IH kk r0 P); auto.
      + intros x Hx. cbn [regular] in HG. eapply fix_all in HG; eauto.
      + intros x Hx. cbn [looped] in HLo. eapply fix_all in HLo; eauto.
      + now rewrite <- sites_or.
    - specialize (HS kk (XLoop m x i s) (or_introl eq_refl)). cbn [agree2] in HS. cbn [structure feval]. rewrite HS.
      cbn [compilable] in HC. destruct HC as (_ & (q & -> & _) & HC). cbn [looped] in HLo. cbn [satBy]. rewrite (feval_vac s x (S kk) HC).
      cbn [sat3By]. unfold fieldAt. cbn [Nat.eqb]. destruct HLo as [(es & w & ->)|Hv]; [now rewrite <- KT|].
      rewrite Hv. destruct (at_ q root) as [[]|]; auto. now rewrite <- KT.
    - specialize (HS kk (XExists a) (or_introl eq_refl)). cbn [structure feval satBy sat3By]. rewrite KT. exact HS.
    - specialize (HS (S kk) (XExists a) (or_introl eq_refl)). cbn [structure feval satBy]. rewrite KT. f_equal. exact HS.
    - destruct k; try (specialize (HS kk _ (or_introl eq_refl)); cbn [structure feval satBy sat3By]; rewrite KT; exact HS).
      specialize (HS (S kk) _ (or_introl eq_refl)). cbn [structure feval satBy]. rewrite KT. f_equal. exact HS.
  Qed.
End Formula.

(** What a slot that was not filled shows - the beginning of the document - is not
    taken for a value: the document is an object; or a scalar, and there are no
    slots; or an array, and loops that wait for the end of the document find their
    field. *)
Definition rootFit (g : expr) (gs : list expr) (ow : list addr) (root : cst) : Prop :=
  match root with
  | CObj _ _ => True
  | CLit _ _ => ow = []
  | CArr _ _ => forall k m v r q s, In (Site 0 k (XLoop m v (XField r q) s)) (sites 0 0 (XOr (g :: gs))) -> two (loopP 0 q s) -> at_ q root <> None
  end.

Section Eval.
  Variable o : oracles.
  Variables (g : expr) (gs : list expr).
  Let E := XOr (g :: gs).
  Let SS := sites 0 0 E.
  Hypothesis HC : compilable o 0 E.
  Hypothesis HG : regular (pathsOf 0 E) 0 E.
  Variable H : list execnode.
  Variable ns : nat.
  Variables A ow : list addr.
  Hypothesis HK : compiled o g gs H ns A ow.
  Variable T : list node.
  Hypothesis HT : laid T 0 0 (structures g gs).
  Hypothesis HL : length T = fsize (structures g gs).
  Variable root : cst.
  Hypothesis HR : docOk o root.
  Hypothesis Hfit : rootFit g gs ow root.
  (** Comparisons decided by [hr], those that are not straight by [ho]. *)
  Variable hr : rule.
  Variable ho : optype -> fastval -> fastval -> bool.
  Hypothesis Hho : forall k ty x y, cmpOp k = Some ty -> (if snd (applyOp o ty x y) then fst (applyOp o ty x y) else ho ty x y) = hr k x y.

  Notation bf := (bf g gs).
  Notation vis := (vis g gs ow).
  Notation bodyAt := (bodyAt g gs).
  Notation ctxAt := (ctxAt g gs).
  Notation trN := (trN o H root ow bf ho).
  Notation own := (own ow).
  Let HO : heapOk o H T A ow bf vis := heap_ok o g gs HC HG H ns A ow HK T HT HL.

  (** ** Slots against document and element *)
  Definition sgRel (c : nat) (v : cst) (sg : list (option cst)) : Prop :=
    length sg = length ow /\ (c = 0 -> v = root) /\
    (forall i q, own i 0 q -> nth_error sg i = Some (at_ q root)) /\
    (forall i q, own i c q -> nth_error sg i = Some (at_ q v)).

  Lemma sgRel_sigma : forall c v sg c' e, sgRel c v sg -> c' <> 0 -> sgRel c' e (sigma ow c' e sg).
  Proof.
    intros c v sg c' e (Hl & _ & H0 & _) Hc'. split.
    - unfold sigma. rewrite map_length, combine_length. lia.
    - split; [congruence|]. split; intros i q Ho; rewrite (nth_sigma ow _ _ _ _ _ _ Hl Ho).
      + destruct (Nat.eqb_spec 0 c'); [congruence|auto].
      + now rewrite Nat.eqb_refl.
  Qed.

  Lemma slot_at : forall c v sg i r q, sgRel c v sg -> own i (cx r c) q ->
    slotVal o root sg (S i) = match fieldAt root v r q with Some w => valOf o w | None => Ok (plain VMissing) end.
  Proof.
    intros c v sg i r q (Hl & Hv & H0 & H1) Ho. cbn [slotVal].
    assert (match root with CLit _ _ => valOf o root | _ => Ok (plain VMissing) end = Ok (plain VMissing)) as X.
    { unfold rootFit in Hfit. destruct root; auto. unfold PTrace.own in Ho. rewrite Hfit in Ho. destruct i; discriminate. }
    unfold fieldAt, cx in *.
    destruct (Nat.eqb r 0).
    - rewrite (idx_nth _ _ _ (H0 _ _ Ho)). cbn [obind]. now rewrite X.
    - rewrite (idx_nth _ _ _ (H1 _ _ Ho)). cbn [obind]. now rewrite X.
  Qed.
  (** A loop that waits for the end of the document does not take the document for
      its array. *)
  Lemma target_absent : forall c v sg k m x r q s, sgRel c v sg -> In (Site c k (XLoop m x (XField r q) s)) SS -> two (loopP c q s) ->
    at_ q v = None -> match root with CArr es _ => Some es | _ => None end = None.
  Proof.
    intros c v sg k m x r q s (_ & Hv & _) HS H2 Ha. unfold rootFit in Hfit. destruct root as [|es w|]; auto.
    unfold loopP in H2. destruct (Nat.eqb_spec c 0) as [->|Hc].
    - exfalso. eapply Hfit; [exact HS|exact H2|]. now rewrite <- Hv.
    - exfalso. destruct H2 as (q1 & q2 & [<-|[]] & [<-|[]] & X). contradiction.
  Qed.
  Lemma field_cur : forall c v sg r q, sgRel c v sg -> cx r c = c -> fieldAt root v r q = at_ q v.
  Proof. intros c v sg r q (_ & Hv & _) Hc. unfold fieldAt, cx in *. destruct (Nat.eqb r 0); auto. now rewrite Hv. Qed.

  (** ** Operands *)
  Definition atBase (v : cst) (base : option (list bytes)) (lit : option fastval) : Prop :=
    match base with
    | Some p => exists w x, at_ p v = Some w /\ valOf o w = Ok x /\ lit = Some x
    | None => lit = None
    end.

  Lemma dref_val : forall c v sg base lit, sgRel c v sg -> atBase v base lit -> forall e d, drefOf o ow c base e d -> funsOk e ->
    resolveParam o (slotVal o root sg) d lit = oval o root v e.
  Proof.
    intros c v sg base lit HS HB.
    induction e as [| |gg|sa|sa|sa|a IH|l IH|l IH|r p|n l IH|m x i s IHi IHs|a IH|a IH|k l r IHl IHr] using expr_ind'; intros d HD HF;
      try (destruct HD as (y & Ey & ->); cbn [resolveParam oval]; rewrite Ey; reflexivity).
    - cbn [drefOf oval] in *. destruct HD as [(-> & -> & Hc)|(_ & i & -> & Ho)]; cbn [resolveParam].
      + destruct HB as (w & x & Ha & Hv & ->). rewrite (field_cur c v sg r p HS Hc), Ha. auto.
      + eapply slot_at; eauto.
    - apply drefOf_func in HD as (ds & -> & HA). apply funsOk_func in HF as [HN HF]. cbn [resolveParam oval].
      assert (forall x d, In x l -> drefOf o ow c base x d -> resolveParam o (slotVal o root sg) d lit = oval o root v x) as X.
      { intros x d Hx Hd. rewrite Forall_forall in IH. apply IH; auto.
        clear -HF Hx. induction l as [|z l IHl]; [destruct Hx|]. destruct HF, Hx as [<-|Hx]; auto. }
      destruct HN as [[HN Hlen]|[HN Hlen]].
      + destruct (unary_total n HN) as (f & -> & Hf). destruct l as [|x l]; [cbn in Hlen; lia|].
        destruct ds as [|d ds]; [destruct HA|]. destruct HA as [HA _]. rewrite (X x d); auto. now left.
      + destruct (binary_total n HN) as (f & -> & Hf). destruct l as [|x [|y l]]; try (cbn in Hlen; lia).
        destruct ds as [|d [|d2 ds]]; try (destruct HA as [HA1 HA]); try (destruct HA; fail). destruct HA as [HA2 _].
        rewrite (X x d); auto; [|now left]. rewrite (X y d2); auto. now right; left.
  Qed.

  Lemma odref_val : forall c v sg base lit e d, sgRel c v sg -> docOk o v -> atBase v base lit -> odrefOf o ow c base e d -> funsOk e ->
    operand o (slotVal o root sg) d lit = do x <- oval o root v e; Ok (x, absentField root v e).
  Proof.
    intros c v sg base lit e d HS Dv HB HD HF.
    assert (forall d', d = Some d' -> drefOf o ow c base e d' -> (match d' with DSlot _ => False | _ => True end) -> absentField root v e = false ->
      operand o (slotVal o root sg) d lit = do x <- oval o root v e; Ok (x, absentField root v e)) as X.
    { intros d' -> HD' Hs Ha. cbn [operand]. rewrite (dref_val c v sg base lit HS HB e d' HD' HF), Ha.
      destruct (oval o root v e); cbn [obind]; auto. destruct d'; auto. destruct Hs. }
    destruct e as [| |gg|sa|sa|sa|a|l|l|r p|n l|m vv i s|a|a|k l r]; cbn [odrefOf] in HD;
      try (destruct HD as (d' & -> & HD); apply (X d'); auto; destruct HD as (y & _ & ->); exact I).
    - cbn [oval absentField]. destruct HD as [(-> & -> & Hc)|(H1 & i & -> & Ho)].
      + destruct HB as (w & x & Ha & Hv & ->). rewrite (field_cur c v sg r p HS Hc), Ha. cbn [operand]. rewrite Hv. reflexivity.
      + cbn [operand resolveParam]. rewrite (slot_at c v sg i r p HS Ho).
        destruct (fieldAt root v r p) as [w|] eqn:Ew.
        * assert (docOk o w) as Dw by (unfold fieldAt in Ew; destruct (Nat.eqb r 0); [exact (docOk_at o _ _ _ HR Ew)|exact (docOk_at o _ _ _ Dv Ew)]).
          destruct (docOk_val o w Dw) as [x Ex]. rewrite Ex. cbn [obind]. now rewrite (val_present _ _ _ Ex).
        * reflexivity.
    - destruct HD as (d' & -> & HD). apply drefOf_func in HD as HD'. destruct HD' as (ds & -> & _). apply (X (DFunc n ds)); auto.
  Qed.

  (** The outcome of a test, whatever fields are absent. *)
  Definition atomVal (v : cst) (e : expr) : bool :=
    match e with
    | XExists a => negb (absentField root v a)
    | XCmp k l r =>
        if absentField root v l || absentField root v r then false
        else match oval o root v l, oval o root v r with Ok x, Ok y => hr k x y | _, _ => false end
    | _ => false
    end.

  Lemma oval_total : forall cv v e, docOk o v -> operandOk o cv e -> funsOk e -> exists x, oval o root v e = Ok x.
  Proof.
    intros cv v e Dv. induction e as [| |gg|sa|sa|sa|a IH|l IH|l IH|r p|n l IH|m x i s IHi IHs|a IH|a IH|k l r IHl IHr] using expr_ind'; intros HP HF;
      try (cbn [operandOk] in HP; contradiction); try exact HP.
    - cbn [oval]. destruct (fieldAt root v r p) as [w|] eqn:Ew; [|eauto].
      apply (docOk_val o). unfold fieldAt in Ew; destruct (Nat.eqb r 0); [exact (docOk_at o _ _ _ HR Ew)|exact (docOk_at o _ _ _ Dv Ew)].
    - apply operandOk_func in HP. apply funsOk_func in HF as [HN HF]. cbn [oval].
      assert (forall x, In x l -> exists y, oval o root v x = Ok y) as X.
      { intros x Hx. rewrite Forall_forall in IH. apply IH; auto.
        - eapply allOp_in; eauto.
        - clear -HF Hx. induction l as [|z l IHl]; [destruct Hx|]. destruct HF, Hx as [<-|Hx]; auto. }
      destruct HN as [[HN Hlen]|[HN Hlen]].
      + destruct (unary_total n HN) as (f & -> & Hf). destruct l as [|x l]; [cbn in Hlen; lia|].
        destruct (X x) as [y ->]; [now left|]. cbn [obind]. apply Hf.
      + destruct (binary_total n HN) as (f & -> & Hf). destruct l as [|x [|y l]]; try (cbn in Hlen; lia).
        destruct (X x) as [z ->]; [now left|]. destruct (X y) as [z2 ->]; [now right; left|]. cbn [obind]. apply Hf.
  Qed.

  Definition missingCur (cv : nat) (v : cst) (e : expr) : bool :=
    existsb (fun q => match at_ q v with None => true | _ => false end) (pathsOf cv e).
  Lemma missing_false : forall cv v e, missingCur cv v e = false <-> forall q, In q (pathsOf cv e) -> at_ q v <> None.
  Proof.
    intros cv v e. unfold missingCur. split.
    - intros X q Hq Ha. assert (existsb (fun q => match at_ q v with None => true | _ => false end) (pathsOf cv e) = true); [|congruence].
      apply existsb_exists. exists q. now rewrite Ha.
    - intro X. destruct (existsb _ _) eqn:Ex; auto. apply existsb_exists in Ex as (q & Hq & Ha). specialize (X q Hq). destruct (at_ q v); [discriminate|contradiction].
  Qed.
  Lemma atom3_val : forall cv v e, docOk o v -> compilable o cv e -> (exists P, regular P cv e) ->
    (exists a, e = XExists a) \/ (exists k l r, e = XCmp k l r) ->
    atom3By o hr root cv v e = if missingCur cv v e then None else Some (atomVal v e).
  Proof.
    intros cv v e Dv Hc [P Hr] Hk. unfold atom3By, missingCur. destruct (existsb _ _); auto.
    destruct Hk as [(a & ->)|(k & l & r & ->)]; cbn [atomVal].
    - now destruct (absentField root v a).
    - cbn [compilable regular] in *. destruct (absentField root v l || absentField root v r); auto.
      destruct (oval_total cv v l) as [x ->]; try tauto. destruct (oval_total cv v r) as [y ->]; tauto.
  Qed.


  (** An operation placed for an atom reports that value. *)
  Lemma op_val : forall c cv P b k e v sg n aft p op lit, In (Site c k e) SS -> ctxAt c cv P b -> sgRel c v sg -> docOk o v ->
    placed o A ow (Site c k e) n aft (IOp op) -> nth_error A n = Some (c, p) -> atBase v (baseOf aft p) lit ->
    op_bucket op = k /\ opEv o root ho sg lit op = ERep k (atomVal v e).
  Proof.
    intros c cv P b k e v sg n aft p op lit HS HX HSg Dv (p' & HA & HP) HA' HB. rewrite HA' in HA. inversion HA; subst p'. clear HA.
    destruct (site_in o g gs HC HG 0 _ _ _ _ _ _ HS HX) as (_ & Hc & Hr & _). unfold opEv.
    destruct e as [| |gg|sa|sa|sa|a|l|l|r q|nn l|m vv i s|a|a|kk l r]; try contradiction.
    - exfalso. destruct i; try contradiction. destruct HP as (_ & _ & n' & tg & X & _). discriminate.
    - destruct HP as (_ & d & HD & Eq). inversion Eq; subst op. cbn [op_bucket]. split; auto. f_equal.
      cbn [regular compilable] in *. unfold opResult. cbn [op_lhs op_rhs op_op].
      rewrite (odref_val c v sg (baseOf aft p) lit a d HSg Dv HB HD Hr).
      destruct (oval_total cv v a) as [x Ex]; try tauto. rewrite Ex. cbn [obind operand atomVal]. rewrite orb_false_r.
      destruct (absentField root v a); reflexivity.
    - destruct HP as (_ & ty & dl & dr & Ety & HD1 & HD2 & Eq). inversion Eq; subst op. cbn [op_bucket]. split; auto. f_equal.
      cbn [regular compilable] in *. destruct Hr as [Hr1 Hr2]. unfold opResult. cbn [op_lhs op_rhs op_op].
      rewrite (odref_val c v sg (baseOf aft p) lit l dl HSg Dv HB HD1 Hr1).
      rewrite (odref_val c v sg (baseOf aft p) lit r dr HSg Dv HB HD2 Hr2).
      destruct (oval_total cv v l) as [x Ex]; try tauto. destruct (oval_total cv v r) as [y Ey]; try tauto.
      rewrite Ex, Ey. cbn [obind atomVal]. rewrite Ex, Ey. destruct (absentField root v l || absentField root v r); auto.
      rewrite <- (Hho kk ty x y Ety). unfold opAlt. cbn [op_lhs op_rhs op_op].
      rewrite (odref_val c v sg (baseOf aft p) lit l dl HSg Dv HB HD1 Hr1), (odref_val c v sg (baseOf aft p) lit r dr HSg Dv HB HD2 Hr2), Ex, Ey. cbn [obind].
      destruct (applyOp o ty x y) as [re []]; reflexivity.
  Qed.

  (** ** The events of a trace *)
  Definition localEv (d : nat) (sg : list (option cst)) (w : cst) (x : execnode) : list ev :=
    match w with CArr es _ => map (loopEvN o H root ow bf ho d sg es) (x_loops x) | _ => [] end ++ opsN o H root ow bf ho d sg w x.

  Lemma aft_ops : forall d sg w x e, In e (aftN o H root ow bf ho d sg x) -> In e (localEv d sg w x).
  Proof. intros d sg w x e He. unfold localEv, opsN. apply in_app_iff. right. apply in_app_iff. auto. Qed.

  Lemma tr_in : forall d n v sg c p e, nth_error A n = Some (c, p) -> length H <= n + d -> docOk o v -> In e (trN d n v sg) ->
    exists r w m x d', at_ r v = Some w /\ nth_error A m = Some (c, p ++ r) /\ nth_error H m = Some x /\ n <= m
      /\ length H <= m + S d' /\ d' < d /\ In e (localEv d' sg w x).
  Proof.
    induction d as [|d IH]; intros n v sg c p e HA Hd Dv He; [destruct He|].
    rewrite trN_S in He. destruct (nth_error H n) as [x|] eqn:Ex; [|destruct He].
    assert (In e (localEv d sg v x) -> exists r w m x d', at_ r v = Some w /\ nth_error A m = Some (c, p ++ r) /\ nth_error H m = Some x /\ n <= m
      /\ length H <= m + S d' /\ d' < S d /\ In e (localEv d' sg w x)) as Here.
    { intro HL'. exists [], v, n, x, d. rewrite app_nil_r. repeat split; auto; lia. }
    assert (In e (flat_map (childN o H root ow bf ho d sg x) (items v)) -> exists r w m x d', at_ r v = Some w /\ nth_error A m = Some (c, p ++ r) /\ nth_error H m = Some x /\ n <= m
      /\ length H <= m + S d' /\ d' < S d /\ In e (localEv d' sg w x)) as Below.
    { intro HL'. apply in_flat_map in HL' as ([k w] & Hi & He'). unfold childN in He'. cbn [fst snd] in He'.
      destruct k as [k| | |]; try destruct He'. destruct (lookup k (x_elems x)) as [m|] eqn:El; [|destruct He'].
      destruct (rp_elem _ _ _ _ (cd_rep _ _ _ _ _ _ _ HK) _ _ _ _ _ _ Ex HA El) as [Hnm HAm].
      inversion Dv as [? _ (ks & Eks & ND) Hsub]; subst.
      destruct (IH m w sg c (p ++ [k]) e HAm) as (r & w' & m' & x' & d' & H1 & H2 & H3 & H4 & H5 & H6 & H7); auto; try lia.
      { apply Hsub. apply (in_map snd) in Hi. exact Hi. }
      exists (k :: r), w', m', x', d'. rewrite <- app_assoc in H2. cbn [at_]. rewrite (find_in ks _ _ _ Eks ND Hi). repeat split; auto; lia. }
    assert (In e (opsN o H root ow bf ho d sg v x) -> In e (localEv d sg v x)) as Ops by (intro; unfold localEv; apply in_app_iff; auto).
    destruct v as [t lx|es wcl|ms wcl]; auto.
    - destruct (x_loops x) as [|l0 ls] eqn:Els.
      + apply in_app_iff in He as [He|He]; auto. destruct (items (CArr es wcl)); [destruct He|auto].
      + rewrite <- Els in He. apply Here. unfold localEv. exact He.
    - destruct (x_elems x) as [|el els] eqn:Eel; auto.
      apply in_app_iff in He as [He|He]; auto. apply in_app_iff in He as [He|He]; [apply Here; now apply aft_ops|].
      destruct (items (CObj ms wcl)); [destruct He|auto].
  Qed.

  Lemma node_prefix : forall r m c p, nth_error A m = Some (c, p ++ r) -> exists n, nth_error A n = Some (c, p).
  Proof.
    induction r as [|y r IHr] using rev_ind; intros m c p Em; [rewrite app_nil_r in Em; eauto|].
    rewrite app_assoc in Em. destruct (rp_par _ _ _ _ (cd_rep _ _ _ _ _ _ _ HK) _ _ _ _ Em) as (n & x & Hn & _). eauto.
  Qed.

  Lemma tr_out : forall r d n v sg c p w m x, nth_error A n = Some (c, p) -> length H <= n + d ->
    at_ r v = Some w -> nth_error A m = Some (c, p ++ r) -> nth_error H m = Some x -> invisible x w = false ->
    exists d', length H <= m + S d' /\ d' < d /\ forall e, In e (localEv d' sg w x) -> In e (trN d n v sg).
  Proof.
    pose proof (cd_rep _ _ _ _ _ _ _ HK) as R.
    induction r as [|k r IH]; intros d n v sg c p w m x HA Hd Ha Hm Hx Hv.
    - rewrite app_nil_r in Hm. assert (m = n) as -> by (eapply rep_inj; eauto). cbn in Ha. inversion Ha; subst v.
      assert (n < length H) by (apply nth_error_Some; congruence). destruct d as [|d]; [lia|].
      exists d. split; [lia|]. split; [lia|]. intros e He. rewrite trN_S, Hx. unfold localEv in He.
      destruct w as [t lx|es wcl|ms wcl]; auto.
      + cbn [invisible] in Hv. destruct (x_loops x) as [|l0 ls] eqn:Els; auto.
        destruct es as [|e0 es]; [discriminate|]. cbn [items arrItems]. apply in_app_iff. right. exact He.
      + cbn [invisible] in Hv. destruct (x_elems x) as [|el els] eqn:Eel; auto.
        apply in_app_iff. right. apply in_app_iff. right. destruct ms; [discriminate|]. exact He.
    - cbn [at_] in Ha. destruct (findItem k (items v)) as [u|] eqn:Ef; [|discriminate].
      assert (exists m1, nth_error A m1 = Some (c, p ++ [k])) as (m1 & Hm1).
      { apply (node_prefix r m). now rewrite <- app_assoc. }
      destruct (rp_par _ _ _ _ R _ _ _ _ Hm1) as (n1 & x1 & Hn1 & Hx1 & El).
      assert (n1 = n) as -> by (eapply rep_inj; eauto).
      destruct (rp_elem _ _ _ _ R _ _ _ _ _ _ Hx1 HA El) as [Hlt _].
      assert (n < length H) by (apply nth_error_Some; congruence). destruct d as [|d]; [lia|].
      destruct (IH d m1 u sg c (p ++ [k]) w m x) as (d' & H1 & H2 & H3); auto; try lia.
      { now rewrite <- app_assoc. }
      exists d'. split; auto. split; [lia|]. intros e He. apply H3 in He. rewrite trN_S, Hx1.
      assert (In e (flat_map (childN o H root ow bf ho d sg x1) (items v))) as Hc.
      { apply in_flat_map. exists (Ok k, u). split; [now apply PTrace.find_some|]. unfold childN. cbn [fst snd]. now rewrite El. }
      destruct v as [t lx|es wcl|ms wcl]; [discriminate| |].
      + destruct (x_loops x1) as [|l0 ls] eqn:Els; [apply in_app_iff; auto|]. exfalso.
        cbn [items] in Ef. apply arr_find in Ef as (j & ->).
        pose proof (ho_node _ _ _ _ _ _ _ HO _ _ _ _ Hx1 HA) as NO. rewrite (no_index _ _ _ _ _ _ _ _ _ NO) in El; [discriminate|]. rewrite Els. discriminate.
      + destruct (x_elems x1) as [|el els] eqn:Eel; [discriminate|]. apply in_app_iff. auto.
  Qed.

  (** ** Events and sites *)
  Notation isAtom e := ((exists a, e = XExists a) \/ (exists k l r, e = XCmp k l r)).

  Lemma in_item : forall m x aft it, nth_error H m = Some x -> In it (contents x aft) -> itemIn H m aft it.
  Proof. intros m x aft it Ex Hi. exists x. auto. Qed.
  Lemma lit_of : forall v w p, docOk o v -> at_ p v = Some w -> atBase v (Some p) (litOf o w).
  Proof.
    intros v w p Dv Ha. destruct (docOk_val o w (docOk_at o _ _ _ Dv Ha)) as [x Ex]. exists w, x. unfold litOf. rewrite Ex. auto.
  Qed.

  Lemma item_site : forall m x aft it c p, nth_error H m = Some x -> nth_error A m = Some (c, p) -> In it (contents x aft) ->
    exists k e, In (Site c k e) SS /\ placed o A ow (Site c k e) m aft it.
  Proof.
    intros m x aft it c p Ex HA Hi. destruct (cd_items _ _ _ _ _ _ _ HK _ _ _ (in_item _ _ _ _ Ex Hi)) as ([c' k e] & HS & HP).
    pose proof HP as (p' & HA' & _). rewrite HA in HA'. inversion HA'; subst c' p'. rewrite (SS_merge g gs) in HS. eauto.
  Qed.

  (** An atom with an absent field reports nothing, unless it waits at a common
      prefix of several paths. *)
  Lemma silent : forall c cv P b v k e m aft p op w, In (Site c k e) SS -> isAtom e -> ctxAt c cv P b ->
    placed o A ow (Site c k e) m aft (IOp op) -> nth_error A m = Some (c, p) -> at_ p v = Some w -> missingCur cv v e = true -> two (pathsOf cv e).
  Proof.
    intros c cv P b v k e m aft p op w HS Hk HX (p' & HA' & HP) HA Ha Hm. rewrite HA in HA'. inversion HA'; subst p'.
    assert (baseSpec (pathsOf cv e) aft p) as BS.
    { rewrite <- (curp_is o g gs HC HG 0 c cv P b k e HS HX Hk). destruct Hk as [(a & ->)|(kk & l & r & ->)]; tauto. }
    destruct aft; cbn [baseSpec] in BS; [apply BS|]. exfalso. destruct BS as [B1 _].
    unfold missingCur in Hm. apply existsb_exists in Hm as (q & Hq & Hn). rewrite (B1 q Hq), Ha in Hn. discriminate.
  Qed.

  (** What an event of a node is about. *)
  Inductive evSite (c : nat) (v : cst) (d : nat) (sg : list (option cst)) (m : nat) (p : list bytes) : ev -> Prop :=
  | es_atom : forall k e, In (Site c k e) SS -> isAtom e ->
      (forall cv P b, ctxAt c cv P b -> missingCur cv v e = true -> two (pathsOf cv e)) -> evSite c v d sg m p (ERep k (atomVal v e))
  | es_loop : forall k md vv r q b es wcl l, In (Site c k (XLoop md vv (XField r q) b)) SS -> at_ q v = Some (CArr es wcl) ->
      lp_bucket l = S k -> lp_mode l = md -> nth_error A (lp_node l) = Some (S k, []) -> m < lp_node l ->
      evSite c v d sg m p (loopEvN o H root ow bf ho d sg es l).

  Lemma op_ev : forall c cv P b v sg m x aft p op lit, ctxAt c cv P b -> sgRel c v sg -> docOk o v ->
    nth_error H m = Some x -> nth_error A m = Some (c, p) -> In (IOp op) (contents x aft) -> atBase v (baseOf aft p) lit ->
    exists k e, In (Site c k e) SS /\ isAtom e /\ placed o A ow (Site c k e) m aft (IOp op) /\ opEv o root ho sg lit op = ERep k (atomVal v e).
  Proof.
    intros c cv P b v sg m x aft p op lit HX HSg Dv Ex HA Hi HB. destruct (item_site _ _ _ _ _ _ Ex HA Hi) as (k & e & HS & HP).
    exists k, e. split; auto. split; [|split; auto].
    - destruct HP as (p' & _ & HP). destruct e as [| |gg|sa|sa|sa|a|l|l|r q|nn l|mm vv i s|a|a|kk l r]; try contradiction; [|left; eauto|right; eauto].
      destruct i; try contradiction. destruct HP as (_ & _ & n' & tg & X & _). discriminate.
    - eapply op_val; eauto.
  Qed.

  Lemma local_site : forall c cv P b v sg m x p w d ev, ctxAt c cv P b -> sgRel c v sg -> docOk o v ->
    nth_error H m = Some x -> nth_error A m = Some (c, p) -> at_ p v = Some w -> In ev (localEv d sg w x) -> evSite c v d sg m p ev.
  Proof.
    intros c cv P b v sg m x p w d ev HX HSg Dv Ex HA Ha He. unfold localEv, opsN in He.
    apply in_app_iff in He as [He|He]; [|apply in_app_iff in He as [He|He]].
    - destruct w as [|es wcl|]; try (destruct He; fail). apply in_map_iff in He as (l & <- & Hl).
      assert (itemIn H m false (ILoop l)) as HI by (eapply in_item; eauto; cbn; apply in_app_iff; right; now apply in_map).
      destruct (loop_site _ _ _ _ _ _ _ HK _ _ _ _ _ HI HA) as (k & md & vv & r & q & s & HS & H1 & H2 & (H3 & H4 & _) & _ & H5 & ->).
      eapply es_loop; eauto. now rewrite <- H1.
    - apply in_map_iff in He as (op & <- & Hop).
      destruct (op_ev c cv P b v sg m x false p op (litOf o w) HX HSg Dv Ex HA) as (k & e & HS & Hk & HPl & ->).
      + cbn. apply in_app_iff. left. now apply in_map.
      + cbn [baseOf]. now apply lit_of.
      + constructor; auto. intros; eapply silent; eauto.
    - unfold aftN in He. destruct (x_after x) as [af|] eqn:Ea; [|destruct He]. apply in_app_iff in He as [He|He].
      + apply in_flat_map in He as (l & Hl & He). destruct (targetArr root sg l) as [es|] eqn:Et; [|destruct He]. destruct He as [<-|[]].
        assert (itemIn H m true (ILoop l)) as HI by (eapply in_item; eauto; cbn; rewrite Ea; apply in_app_iff; right; now apply in_map).
        destruct (loop_site _ _ _ _ _ _ _ HK _ _ _ _ _ HI HA) as (k & md & vv & r & q & s & HS & H1 & H2 & (H3 & H4 & _) & HBs & i & Ht & Ho).
        pose proof HSg as HSg0. destruct HSg as (_ & _ & _ & H6). specialize (H6 _ _ Ho). unfold targetArr in Et. rewrite Ht, H6 in Et.
        destruct (at_ q v) as [w'|] eqn:Eq.
        * destruct w' as [|es' wcl|]; inversion Et; subst es'. eapply es_loop; eauto. now rewrite <- H1.
        * rewrite (target_absent c v sg k md vv r q s HSg0 HS) in Et; [discriminate|apply HBs|exact Eq].
      + apply in_map_iff in He as (op & <- & Hop).
        destruct (op_ev c cv P b v sg m x true p op None HX HSg Dv Ex HA) as (k & e & HS & Hk & HPl & ->).
        * cbn. rewrite Ea. apply in_app_iff. left. now apply in_map.
        * reflexivity.
        * constructor; auto. intros; eapply silent; eauto.
  Qed.

  Lemma tr_sites : forall d n c cv P b v sg ev, ctxAt c cv P b -> sgRel c v sg -> docOk o v -> nth_error A n = Some (c, []) -> length H <= n + d ->
    In ev (trN d n v sg) -> exists d' m p, d' < d /\ length H <= m + S d' /\ evSite c v d' sg m p ev.
  Proof.
    intros d n c cv P b v sg ev HX HSg Dv HA Hd He.
    destruct (tr_in d n v sg c [] ev HA Hd Dv He) as (r & w & m & x & d' & H1 & H2 & H3 & H4 & H5 & H6 & H7).
    exists d', m, r. split; auto. split; auto. eapply local_site; eauto.
  Qed.

  (** Sites report. *)
  Lemma visible : forall x w, emptyC w = false -> invisible x w = false.
  Proof. intros x [|[|e es] ?|[|e es] ?] Hw; cbn in *; auto; discriminate. Qed.
  Lemma below_full : forall p k r v w u, at_ p v = Some w -> at_ (p ++ k :: r) v = Some u -> emptyC w = false.
  Proof.
    intros p k r v w u Ha Hb. rewrite at_app, Ha in Hb. cbn [at_] in Hb. destruct w as [|[|? ?] ?|[|? ?] ?]; cbn in *; auto; discriminate.
  Qed.
  Lemma above : forall p r v u, at_ (p ++ r) v = Some u -> exists w, at_ p v = Some w.
  Proof. intros p r v u Ha. rewrite at_app in Ha. destruct (at_ p v); [eauto|discriminate]. Qed.

  Lemma atom_reports : forall d n c cv P b v sg k e, ctxAt c cv P b -> sgRel c v sg -> docOk o v -> nth_error A n = Some (c, []) -> length H <= n + d ->
    In (Site c k e) SS -> isAtom e -> atomTame cv v e -> missingCur cv v e = false -> In (ERep k (atomVal v e)) (trN d n v sg).
  Proof.
    intros d n c cv P b v sg k e HX HSg Dv HA Hd HS Hk (T1 & T2 & T3) Hm. rewrite missing_false in Hm.
    assert (curp c e = pathsOf cv e) as Ecp by exact (curp_is o g gs HC HG 0 c cv P b k e HS HX Hk).
    assert (HS' := HS). unfold SS, E in HS'. rewrite <- (SS_merge g gs) in HS'.
    destruct (cd_sites _ _ _ _ _ _ _ HK _ HS') as (m & aft & it & (x & Ex & Hi) & HP). pose proof HP as (p & HAm & HB).
    assert (baseSpec (pathsOf cv e) aft p) as BS.
    { rewrite <- Ecp. destruct Hk as [(a & ->)|(kk & l & r & ->)]; tauto. }
    assert (exists op, it = IOp op) as [op ->].
    { destruct Hk as [(a & ->)|(kk & l & r & ->)]; [destruct HB as (_ & dd & _ & ->)|destruct HB as (_ & ty & dl & dr & _ & _ & _ & ->)]; eauto. }
    assert (exists w, at_ p v = Some w /\ emptyC w = false) as (w & Ha & Hw).
    { destruct aft; cbn [baseSpec] in BS.
      - destruct BS as [B1 [(q1 & _ & Q1 & _) _]]. destruct (B1 q1 Q1) as (kk & r & ->). specialize (Hm _ Q1).
        destruct (at_ (p ++ kk :: r) v) as [u|] eqn:Eu; [|contradiction]. destruct (above _ _ _ _ Eu) as [w Ew]. exists w. split; auto. eapply below_full; eauto.
      - destruct BS as [B1 B2]. destruct (pathsOf cv e) as [|q qs] eqn:Eqs.
        + rewrite B2 by auto. exists v. split; auto.
        + assert (q = p) as -> by (apply B1; now left). specialize (Hm p (or_introl eq_refl)). destruct (at_ p v) as [w|] eqn:Ew; [|contradiction].
          exists w. split; auto. apply (T1 p (or_introl eq_refl)). auto. }
    destruct (tr_out p d n v sg c [] w m x HA Hd Ha HAm Ex (visible x w Hw)) as (d' & _ & _ & Hin). apply Hin.
    unfold localEv, opsN. apply in_app_iff. right. apply in_app_iff.
    assert (forall lit, atBase v (baseOf aft p) lit -> opEv o root ho sg lit op = ERep k (atomVal v e)) as OV.
    { intros lit HL'. eapply (op_val c cv P b k e v sg m aft p op lit); eauto. }
    destruct aft.
    - right. cbn [contents] in Hi. unfold aftN. destruct (x_after x) as [af|]; [|destruct Hi].
      apply in_app_iff. right. apply in_app_iff in Hi as [Hi|Hi]; apply in_map_iff in Hi as (y & Ey & Hy); inversion Ey; subst y.
      apply in_map_iff. exists op. split; auto. now apply OV.
    - left. cbn [contents] in Hi. apply in_app_iff in Hi as [Hi|Hi]; apply in_map_iff in Hi as (y & Ey & Hy); inversion Ey; subst y.
      apply in_map_iff. exists op. split; auto. apply OV. cbn [baseOf]. now apply lit_of.
  Qed.

  Lemma loop_reports : forall d n c cv P b v sg k md vv r q s es wcl, ctxAt c cv P b -> sgRel c v sg -> docOk o v -> nth_error A n = Some (c, []) -> length H <= n + d ->
    In (Site c k (XLoop md vv (XField r q) s)) SS -> at_ q v = Some (CArr es wcl) ->
    exists d' l, In (loopEvN o H root ow bf ho d' sg es l) (trN d n v sg) /\ lp_bucket l = S k.
  Proof.
    intros d n c cv P b v sg k md vv r q s es wcl HX HSg Dv HA Hd HS Hq.
    assert (HS' := HS). unfold SS, E in HS'. rewrite <- (SS_merge g gs) in HS'.
    destruct (cd_sites _ _ _ _ _ _ _ HK _ HS') as (m & aft & it & (x & Ex & Hi) & (p & HAm & _ & BS & n' & tg & -> & HN & Hlt & Htg)).
    set (l := LoopN (S k) md tg n') in *.
    destruct aft.
    - cbn [baseSpec] in BS. destruct BS as [B1 _]. destruct (B1 q) as (kk & rr & Eq); [now left|].
      rewrite Eq in Hq. destruct (above _ _ _ _ Hq) as [w Ew]. pose proof (below_full _ _ _ _ _ _ Ew Hq) as Hw. rewrite <- Eq in Hq.
      destruct (tr_out p d n v sg c [] w m x HA Hd Ew HAm Ex (visible x w Hw)) as (d' & _ & _ & Hin). exists d', l. split; auto. apply Hin.
      apply aft_ops. cbn [contents] in Hi. unfold aftN. destruct (x_after x) as [af|]; [|destruct Hi].
      apply in_app_iff. left. apply in_app_iff in Hi as [Hi|Hi]; apply in_map_iff in Hi as (y & Ey & Hy); inversion Ey; subst y.
      apply in_flat_map. exists l. split; auto. destruct Htg as (i & Ht & Ho). destruct HSg as (_ & _ & _ & H6). specialize (H6 _ _ Ho).
      unfold targetArr. cbn [l lp_target]. rewrite Ht, H6, Hq. now left.
    - destruct Htg as [Ht ->]. cbn [contents] in Hi.
      assert (In l (x_loops x)) as Hl.
      { apply in_app_iff in Hi as [Hi|Hi]; apply in_map_iff in Hi as (y & Ey & Hy); inversion Ey; subst y; auto. }
      assert (invisible x (CArr es wcl) = false) as Hv by (cbn; destruct es; auto; destruct (x_loops x); [destruct Hl|auto]).
      destruct (tr_out q d n v sg c [] _ m x HA Hd Hq HAm Ex Hv) as (d' & _ & _ & Hin). exists d', l. split; auto. apply Hin.
      unfold localEv. apply in_app_iff. left. now apply in_map.
  Qed.

  (** ** The first report about a site *)
  Definition claim (c cv : nat) (v : cst) (r : nat -> option bool) : Prop :=
    forall k e, In (Site c k e) SS ->
      match e with
      | XLoop _ _ _ _ => r (S k) = sat3By o hr root cv v e
      | _ => r k = atom3By o hr root cv v e \/ (c = 0 /\ r k = Some false /\ atom3By o hr root cv v e = None)
      end.

  Lemma site_kind : forall c k e, In (Site c k e) SS -> isAtom e \/ exists m v i s, e = XLoop m v i s.
  Proof.
    intros c k e HS. destruct (site_ctx g gs c k e HS) as (cv & P & b & _ & D & _).
    destruct (direct_kind _ _ D) as [X|[(kk & l & r & -> & _)|X]]; auto. left. right. eauto.
  Qed.
  Lemma atom_leaf : forall c k e, In (Site c k e) SS -> isAtom e -> In k (leaves c (bf c)).
  Proof.
    intros c k e HS Hk. destruct (site_ctx g gs c k e HS) as (cv & P & b & _ & _ & HA & _).
    destruct Hk as [(a & ->)|(kk & l & r & ->)]; exact HA.
  Qed.

  (** An absent field makes a test outside loops false, if not in a function. *)
  Lemma missing_val : forall v e, v = root -> isAtom e -> compilable o 0 e -> atomTame 0 v e -> missingCur 0 v e = true ->
    two (pathsOf 0 e) -> atomVal v e = false.
  Proof.
    intros v e -> Hk Hc (_ & _ & T3) Hm H2. specialize (T3 H2). cbn [Nat.eqb] in T3.
    unfold missingCur in Hm. apply existsb_exists in Hm as (q & Hq & Ha). destruct (at_ q root) eqn:Eq; [discriminate|].
    assert (forall a, operandOk o 0 a -> In (0, q) (frefs a) -> ~ In q (argPaths a) -> absentField root root a = true) as AF.
    { intros a Ho Hf Hn. destruct a as [| |gg|sa|sa|sa|a|l|l|r p|nn l|mm vv i s|a|a|kk l r]; cbn [operandOk] in Ho; try contradiction; try (destruct Hf; fail).
      - destruct Hf as [Hf|[]]. inversion Hf; subst. cbn [absentField]. unfold fieldAt. cbn [Nat.eqb]. now rewrite Eq.
      - exfalso. apply Hn. cbn [argPaths]. apply in_map_iff. exists (0, q). auto. }
    apply in_paths in Hq. destruct Hk as [(a & ->)|(kk & l & r & ->)]; cbn [compilable frefs atomVal opArgs] in *.
    - rewrite (AF a); auto; [tauto|]. intro X. now apply (T3 q X).
    - destruct Hc as (O1 & O2 & _). apply in_app_iff in Hq as [Hq|Hq].
      + rewrite (AF l); auto. intro X. apply (T3 q); auto. apply in_app_iff. auto.
      + rewrite (AF r); auto; [now rewrite orb_true_r|]. intro X. apply (T3 q); auto. apply in_app_iff. auto.
  Qed.

  Lemma ctx_tame : forall c k e cv P b v, In (Site c k e) SS -> ctxAt c cv P b -> tame root cv v b -> tame root cv v e.
  Proof. intros c k e cv P b v HS HX HTm. eapply direct_tame; eauto. apply (site_in o g gs HC HG 0 c k e cv P b HS HX). Qed.


  Lemma field_loop : forall c cv P b v sg q, ctxAt c cv P b -> sgRel c v sg -> fieldAt root v cv q = at_ q v.
  Proof.
    intros c cv P b v sg q HX (_ & Hv & _). unfold fieldAt. destruct (ctx_facts o g gs HC HG 0 _ _ _ _ HX) as [_ _ Z].
    destruct (Nat.eqb_spec cv 0) as [->|]; auto. now rewrite Hv by now apply Z.
  Qed.

  Theorem eval_all : forall d n c cv P b v sg, nth_error A n = Some (c, []) -> length H <= n + d -> ctxAt c cv P b -> sgRel c v sg -> docOk o v ->
    tame root cv v b -> claim c cv v (first_report (map den (trN d n v sg))).
  Proof.
    induction d as [d IH] using lt_wf_ind. intros n c cv P b v sg HA Hd HX HSg Dv HTm k e HS.
    set (tr := trN d n v sg) in *. set (r := first_report (map den tr)) in *.
    assert (forall k' b', r k' = Some b' -> exists ev d' m p, den ev = (k', b') /\ In ev tr /\ d' < d /\ length H <= m + S d' /\ evSite c v d' sg m p ev) as EV.
    { intros k' b' Er. apply first_report_in in Er. apply in_map_iff in Er as (ev & Ed & Hev).
      destruct (tr_sites d n c cv P b v sg ev HX HSg Dv HA Hd Hev) as (d' & m & p & H1 & H2 & H3). exists ev, d', m, p. auto. }
    assert (forall ev, In ev tr -> exists b', r (fst (den ev)) = Some b') as RP.
    { intros ev Hev. apply (first_report_some _ _ (snd (den ev))). rewrite <- surjective_pairing. now apply in_map. }
    assert (forall k1 e1 k2 m2 v2 i2 s2', In (Site c k1 e1) SS -> isAtom e1 -> In (Site c k2 (XLoop m2 v2 i2 s2')) SS -> k1 <> S k2) as DJ.
    { intros k1 e1 k2 m2 v2 i2 s2' I1 K1 I2. eapply leaf_not_body; [eapply atom_leaf; eauto|eapply bodies_ctx; eauto]. }
    destruct (site_in o g gs HC HG 0 c k e cv P b HS HX) as (_ & Hc & Hr & _).
    pose proof (ctx_tame c k e cv P b v HS HX HTm) as Te.
    destruct (ctx_facts o g gs HC HG 0 _ _ _ _ HX) as [_ _ Z].
    destruct (site_kind c k e HS) as [Hk|(m & vv & i & s & ->)].
    - assert (r k = atom3By o hr root cv v e \/ (c = 0 /\ r k = Some false /\ atom3By o hr root cv v e = None)) as G.
      { assert (atomTame cv v e) as Ta by (destruct Hk as [(a & ->)|(kk & l & r0 & ->)]; exact Te).
        assert (forall b', r k = Some b' -> b' = atomVal v e /\ (missingCur cv v e = true -> two (pathsOf cv e))) as F.
        { intros b' Er. destruct (EV _ _ Er) as (ev & d' & m & p & Ed & Hev & _ & _ & ES). destruct ES as [k2 e2 HS2 Hk2 HM|k2 md vv r2 q s es wcl l HS2 Ha Hb _ _ _].
          - cbn [den] in Ed. inversion Ed; subst. destruct (site_unique _ _ _ _ _ _ _ _ HS HS2) as [_ <-]. split; auto. eapply HM; eauto.
          - exfalso. unfold loopEvN in Ed. cbn [den] in Ed. apply (f_equal fst) in Ed. cbn [fst] in Ed. rewrite Hb in Ed. symmetry in Ed. exact (DJ _ _ _ _ _ _ _ HS Hk HS2 Ed). }
        rewrite (atom3_val cv v e Dv Hc (ex_intro _ P Hr) Hk).
        destruct (missingCur cv v e) eqn:Hm.
        - destruct (r k) as [b'|] eqn:Er; [|auto]. destruct (F b' eq_refl) as [-> H2]. specialize (H2 eq_refl).
          destruct (Nat.eq_dec cv 0) as [->|Hcv].
          + right. assert (c = 0) as Hc0 by now apply Z. split; auto. split; auto. f_equal. apply missing_val; auto. apply HSg; auto.
          + exfalso. destruct Ta as (_ & _ & T3). specialize (T3 H2). destruct (Nat.eqb_spec cv 0); [contradiction|].
            assert (missingCur cv v e = false) by now apply missing_false. congruence.
        - left. destruct (RP _ (atom_reports d n c cv P b v sg k e HX HSg Dv HA Hd HS Hk Ta Hm)) as [b' Er]. cbn [den fst] in Er.
          rewrite Er. f_equal. now apply F. }
      destruct Hk as [(a & ->)|(kk & l & r0 & ->)]; exact G.
    - cbn [compilable] in Hc. destruct Hc as (Hv0 & (q & -> & _) & Hcs). cbn [tame] in Te. destruct Te as [_ Te].
      cbn [sat3By]. rewrite (field_loop c cv P b v sg q HX HSg).
      assert (forall b', r (S k) = Some b' -> exists es wcl, at_ q v = Some (CArr es wcl) /\ b' = quant m (map (fun e => known_true (sat3By o hr root vv (e_v e) s)) es)) as F.
      { intros b' Er. destruct (EV _ _ Er) as (ev & d' & m1 & p & Ed & Hev & Hd' & Hm1 & ES). destruct ES as [k2 e2 HS2 Hk2 HM|k2 md v2 r2 q2 sb es wcl l HS2 Ha Hb Hmd HN Hlt].
        - exfalso. cbn [den] in Ed. apply (f_equal fst) in Ed. cbn [fst] in Ed. exact (DJ _ _ _ _ _ _ _ HS2 Hk2 HS Ed).
        - unfold loopEvN in Ed. cbn [den] in Ed. rewrite Hb in Ed. pose proof (f_equal fst Ed) as E1. pose proof (f_equal snd Ed) as E2. cbn [fst snd] in E1, E2. injection E1 as E1. subst k2 b'. clear Ed.
          destruct (site_unique _ _ _ _ _ _ _ _ HS HS2) as [_ Eq]. injection Eq as <- <- <- <- <-. exists es, wcl. split; auto.
          rewrite Hmd. f_equal. rewrite map_map. apply map_ext_in. intros e He. f_equal.
          assert (bodyAt (S k) vv s) as HB by (exists c, k, m, (XField cv q); auto).
          rewrite (bf_body g gs _ _ _ HB).
          apply (keval_sites o hr root s (S k) (S k) vv (e_v e)); auto. intros k' e' Hs'.
          assert (In (Site (S k) k' e') SS) as HS' by (eapply site_sub; eauto).
          assert (claim (S k) vv (e_v e) (first_report (map den (trN d' (lp_node l) (e_v e) (sigma ow (S k) (e_v e) sg))))) as CL.
          { apply (IH d' Hd' _ _ _ (pathsOf vv s) s); auto; try lia.
            - now constructor.
            - eapply sgRel_sigma; eauto.
            - eapply docOk_elt; [|exact He]. exact (docOk_at o _ _ _ Dv Ha).
            - eapply Te; eauto. }
          specialize (CL k' e' HS'). destruct e'; cbn [agree3]; auto; destruct CL as [CL|[X _]]; auto; discriminate. }
      destruct (at_ q v) as [w|] eqn:Eq.
      + destruct w as [t lx|es wcl|ms wcl]; try (destruct (r (S k)) as [b'|] eqn:Er; auto; destruct (F b' eq_refl) as (? & ? & X & _); discriminate).
        destruct (loop_reports d n c cv P b v sg k m vv cv q s es wcl HX HSg Dv HA Hd HS Eq) as (d' & l & Hin & Hb).
        destruct (RP _ Hin) as [b' Er]. unfold loopEvN in Er. cbn [den fst] in Er. rewrite Hb in Er. rewrite Er.
        destruct (F b' Er) as (es' & wcl' & X & ->). inversion X; subst. reflexivity.
      + destruct (r (S k)) as [b'|] eqn:Er; auto. destruct (F b' eq_refl) as (? & ? & X & _). discriminate.
  Qed.

  (** ** The traversal meets its conditions *)
  Hypothesis Htop : tame root 0 root E.

  Lemma doc_filled : forall c k e q, In (Site c k e) SS -> c <> 0 -> In (0, q) (frefs e) -> filled root q.
  Proof.
    intros c k e q HS Hc Hq.
    set (P := fun (cv : nat) (e : expr) => (cv = 0 /\ incl (direct e) (direct E)) \/ exists m v i b, In (XLoop m v i b) (direct E) /\ incl (frefs e) (frefs b)).
    assert (forall e e', In e' (direct e) -> direct e' = [e']) as DD.
    { intros x y Hd. destruct (direct_kind _ _ Hd) as [(a & ->)|[(kk & l & r & -> & Hn)|(m & v & i & s & ->)]]; auto. destruct kk; auto. contradiction. }
    assert (forall cv e e', P cv e -> In e' (direct e) -> P cv e') as Pd.
    { intros cv x y [(-> & Hi)|(m & v & i & b & H1 & H2)] Hd.
      - left. split; auto. rewrite (DD _ _ Hd). intros z [<-|[]]. auto.
      - right. exists m, v, i, b. split; auto. intros f Hf. apply H2. eapply direct_frefs; eauto. }
    assert (forall cv m v i b, P cv (XLoop m v i b) -> P v b) as Pl.
    { intros cv m v i b [(-> & Hi)|(m1 & v1 & i1 & b1 & H1 & H2)]; right.
      - exists m, v, i, b. split; [|apply incl_refl]. apply Hi. now left.
      - exists m1, v1, i1, b1. split; auto. intros f Hf. apply H2. cbn [frefs]. apply in_app_iff. auto. }
    destruct (site_inherit P Pd Pl E 0 0 0) with (c' := c) (k' := k) (e' := e) as [(X & _)|(c0 & k0 & m & v & i & b & I & -> & _ & HP)]; auto.
    { left. split; auto. apply incl_refl. }
    { contradiction. }
    assert (v <> 0) as Hv by (apply (body_facts o g gs HC HG 0 (S k0) v b); exists c0, k0, m, i; auto).
    destruct HP as [(X & _)|(m1 & v1 & i1 & b1 & H1 & H2)]; [contradiction|].
    pose proof (direct_compilable o 0 E _ HC H1) as Hc1. cbn [compilable] in Hc1. destruct Hc1 as (_ & (q1 & -> & _) & _).
    pose proof (direct_tame root 0 root E _ Htop H1) as Ht. cbn [tame] in Ht. destruct Ht as [Ht _]. destruct (Ht eq_refl) as [Ht1 _].
    apply Ht1. apply in_paths. auto.
  Qed.

  Lemma own_filled : forall c cv P b v sg i p, ctxAt c cv P b -> sgRel c v sg -> tame root cv v b -> own i c p -> filled v p.
  Proof.
    intros c cv P b v sg i p HX HSg HTm Ho. apply nth_error_In in Ho.
    destruct (cd_ow _ _ _ _ _ _ _ HK _ Ho) as ([c1 k e] & HS & HQ). rewrite (SS_merge g gs) in HS.
    destruct (site_kind c1 k e HS) as [Hk|(m & vv & i1 & s & ->)].
    - assert (exists r q, In (r, q) (frefs e) /\ (c, p) = (cx r c1, q)) as (r & q & Hf & Eq).
      { destruct Hk as [(a & ->)|(kk & l & r0 & ->)]; destruct HQ as (r & q & H1 & H2 & _); eauto. }
      inversion Eq as [[E1 E2]]. subst q. destruct (Nat.eq_dec (cx r c1) c1) as [Ec|Ec].
      + rewrite Ec in E1. subst c1. pose proof (ctx_tame c k e cv P b v HS HX HTm) as Te.
        assert (In p (pathsOf cv e)) as Hp.
        { rewrite <- (curp_is o g gs HC HG 0 c cv P b k e HS HX Hk). unfold curp. apply in_map_iff. exists (r, p). split; auto. apply filter_In. split; auto. cbn. now apply Nat.eqb_eq. }
        destruct Hk as [(a & ->)|(kk & l & r0 & ->)]; destruct Te as [Te _]; auto.
      + assert (r = 0) as -> by (unfold cx in Ec; destruct (Nat.eqb_spec r 0); congruence).
        cbn in E1. destruct HSg as (_ & Hv & _). rewrite Hv by exact E1. eapply (doc_filled c1 k e); eauto.
    - destruct (site_ctx g gs c1 k _ HS) as (cv1 & P1 & b1 & HX1 & _). destruct (site_in o g gs HC HG 0 _ _ _ _ _ _ HS HX1) as (_ & Hc & _).
      cbn [compilable] in Hc. destruct Hc as (_ & (q & -> & _) & _). destruct HQ as [Eq H2]. inversion Eq; subst c1 q.
      unfold loopP in H2. destruct (Nat.eqb_spec c 0) as [->|Hn].
      + pose proof (ctx_tame 0 k _ cv P b v HS HX HTm) as Te. destruct (ctx_facts o g gs HC HG 0 _ _ _ _ HX) as [_ _ Z].
        cbn [tame] in Te. destruct Te as [Te _]. destruct HSg as (_ & Hv & _). rewrite Hv by reflexivity.
        assert (cv = 0) as Hcv by now apply Z. destruct (Te Hcv) as [_ T2]. apply T2. unfold loopPaths. cbn [Nat.eqb]. exact H2.
      + exfalso. destruct H2 as (q1 & q2 & [<-|[]] & [<-|[]] & X). contradiction.
  Qed.

  Lemma own_present : forall k m v i s e j q, In (Site k m (XLoop v i e s)) SS -> own j (S m) q -> forall w, tame root i w s -> at_ q w <> None.
  Proof.
    intros c k md vv s i j q HS Ho w HTm.
    assert (bodyAt (S k) vv s) as HB by (exists c, k, md, i; auto).
    assert (ctxAt (S k) vv (pathsOf vv s) s) as HX by now constructor.
    apply nth_error_In in Ho. destruct (cd_ow _ _ _ _ _ _ _ HK _ Ho) as ([c1 k1 e1] & HS1 & HQ). rewrite (SS_merge g gs) in HS1.
    destruct (site_kind c1 k1 e1 HS1) as [Hk|(m1 & v1 & i1 & sb & ->)].
    - assert (exists r q', In (r, q') (frefs e1) /\ (S k, q) = (cx r c1, q') /\ (cx r c1 = c1 -> two (curp c1 e1))) as (r & q' & Hf & Eq & H2).
      { destruct Hk as [(a & ->)|(kk & l & r0 & ->)]; destruct HQ as (r & q' & H1); exists r, q'; tauto. }
      inversion Eq as [[E1 E2]]. subst q'. assert (cx r c1 = c1) as Ec by (unfold cx in *; destruct (Nat.eqb r 0); [discriminate|auto]).
      specialize (H2 Ec). rewrite Ec in E1. subst c1.
      pose proof (curp_is o g gs HC HG 0 _ _ _ _ k1 e1 HS1 HX Hk) as Ecp. rewrite Ecp in H2.
      assert (In q (pathsOf vv e1)) as Hq.
      { rewrite <- Ecp. unfold curp. apply in_map_iff. exists (r, q). split; auto. apply filter_In. split; auto. cbn [fst]. now apply Nat.eqb_eq. }
      pose proof (ctx_tame _ _ _ _ _ _ w HS1 HX HTm) as Te.
      destruct (body_facts o g gs HC HG 0 _ _ _ HB) as (_ & Hv & _).
      assert (atomTame vv w e1) as (_ & _ & T3) by (destruct Hk as [(a & ->)|(kk & l & r0 & ->)]; exact Te).
      specialize (T3 H2). destruct (Nat.eqb_spec vv 0); [contradiction|auto].
    - destruct (site_ctx g gs c1 k1 _ HS1) as (cv1 & P1 & b1 & HX1 & _). destruct (site_in o g gs HC HG 0 _ _ _ _ _ _ HS1 HX1) as (_ & Hc & _).
      cbn [compilable] in Hc. destruct Hc as (_ & (q1 & -> & _) & _). destruct HQ as [Eq H2]. inversion Eq; subst c1 q1.
      exfalso. unfold loopP in H2. cbn [Nat.eqb] in H2. destruct H2 as (x1 & x2 & [<-|[]] & [<-|[]] & X). contradiction.
  Qed.

  (** An operation that is not straight is one of the filter. *)
  Variable Col : Prop.
  Lemma direct_mixed : forall v b e, (mixed o root v b -> Col) -> In e (direct b) -> mixed o root v e -> Col.
  Proof.
    intros v b e HM. revert HM. intros HM Hd. revert b e HM Hd.
    apply (direct_inherit (fun e => mixed o root v e -> Col)); auto.
    - intros l x HP Hx HM. apply HP. cbn [mixed]. clear HP. induction l as [|y l IHl]; [destruct Hx|]. destruct Hx as [<-|Hx]; [now left|right; now apply IHl].
    - intros l x HP Hx HM. apply HP. cbn [mixed]. clear HP. induction l as [|y l IHl]; [destruct Hx|]. destruct Hx as [<-|Hx]; [now left|right; now apply IHl].
  Qed.

  Lemma op_mixed : forall c cv P b v sg m x aft p op lit re, ctxAt c cv P b -> sgRel c v sg -> docOk o v ->
    nth_error H m = Some x -> nth_error A m = Some (c, p) -> In (IOp op) (contents x aft) -> atBase v (baseOf aft p) lit ->
    opResult o (slotVal o root sg) op lit = Ok (re, true) -> (mixed o root v b -> Col) -> Col.
  Proof.
    intros c cv P b v sg m x aft p op lit re HX HSg Dv Ex HA Hi HB HR' HM.
    destruct (item_site _ _ _ _ _ _ Ex HA Hi) as (k & e & HS & (p' & HA' & HP)).
    rewrite HA in HA'. inversion HA'; subst p'. clear HA'.
    destruct (site_in o g gs HC HG 0 _ _ _ _ _ _ HS HX) as (Hd & Hc & Hr & _).
    apply (direct_mixed v b e HM Hd). unfold opResult in HR'.
    destruct e as [| |gg|sa|sa|sa|a|l|l|r q|nn l|mm vv i s|a|a|kk l r]; try contradiction.
    - exfalso. destruct i; try contradiction. destruct HP as (_ & _ & n' & tg & X & _). discriminate.
    - exfalso. destruct HP as (_ & d & HD & Eq). inversion Eq; subst op. cbn [op_lhs op_rhs op_op] in HR'.
      cbn [regular compilable] in *.
      rewrite (odref_val c v sg (baseOf aft p) lit a d HSg Dv HB HD Hr) in HR'.
      destruct (oval_total cv v a) as [y Ey]; try tauto. rewrite Ey in HR'. cbn [obind operand] in HR'. rewrite orb_false_r in HR'.
      destruct (absentField root v a); cbn in HR'; discriminate.
    - destruct HP as (_ & ty & dl & dr & Ety & HD1 & HD2 & Eq). inversion Eq; subst op. cbn [op_lhs op_rhs op_op] in HR'.
      cbn [regular compilable] in *. destruct Hr as [Hr1 Hr2].
      rewrite (odref_val c v sg (baseOf aft p) lit l dl HSg Dv HB HD1 Hr1) in HR'.
      rewrite (odref_val c v sg (baseOf aft p) lit r dr HSg Dv HB HD2 Hr2) in HR'.
      destruct (oval_total cv v l) as [y Ey]; try tauto. destruct (oval_total cv v r) as [z Ez]; try tauto.
      rewrite Ey, Ez in HR'. cbn [obind] in HR'. cbn [mixed]. unfold mixedCmp.
      destruct (absentField root v l); [discriminate|]. destruct (absentField root v r); [discriminate|]. cbn [orb] in HR'.
      split; auto. split; auto. exists y, z. split; auto. split; auto.
      destruct kk; inversion Ety; subst ty; cbn [applyOp straight] in *;
        lazymatch goal with
        | |- snd ?t = false => destruct t as [cc ok]; cbn in HR'; injection HR' as _ HR'; now destruct ok
        end.
  Qed.

  Notation okN := (okN o H root ow Col).
  Theorem ok_all : forall d n c cv P b p v w sg, nth_error A n = Some (c, p) -> ctxAt c cv P b -> sgRel c v sg -> docOk o v ->
    tame root cv v b -> (mixed o root v b -> Col) -> at_ p v = Some w -> okN d n w sg.
  Proof.
    pose proof (cd_rep _ _ _ _ _ _ _ HK) as R.
    induction d as [|d IH]; intros n c cv P b p v w sg HA HX HSg Dv HTm HMx Ha; [exact I|].
    cbn [PTrace.okN]. intros x Ex.
    assert (forall aft l es wcl, itemIn H n aft (ILoop l) ->
      (forall q, (if aft then exists i, lp_target l = Some (DSlot (S i)) /\ nth_error ow i = Some (c, q) else lp_target l = None /\ p = q) -> at_ q v = Some (CArr es wcl)) ->
      forall e, In e es -> (forall i r, own i (lp_bucket l) r -> at_ r (e_v e) <> None) /\ okN d (lp_node l) (e_v e) (sigma ow (lp_bucket l) (e_v e) sg)) as OL.
    { intros aft l es wcl HI Hq e He.
      destruct (loop_site _ _ _ _ _ _ _ HK _ _ _ _ _ HI HA) as (k & md & vv & r & q & s & HS & H1 & H2 & (H3 & H4 & _) & _ & H5).
      specialize (Hq q H5). rewrite H1 in *.
      pose proof (ctx_tame c k _ cv P b v HS HX HTm) as Te. cbn [tame] in Te. destruct Te as [_ Te]. specialize (Te es wcl e Hq He).
      assert (mixed o root (e_v e) s -> Col) as HMe.
      { intro X. destruct (site_in o g gs HC HG 0 _ _ _ _ _ _ HS HX) as (Hd & Hc & _). cbn [compilable] in Hc. destruct Hc as (_ & (q' & Eq & _) & _). injection Eq as -> <-.
        apply (direct_mixed v b _ HMx Hd). cbn [mixed]. exists es, wcl, e. rewrite (field_loop c cv P b v sg q HX HSg). auto. }
      split.
      - intros i rr Ho. eapply own_present; eauto.
      - assert (bodyAt (S k) vv s) as HB by (exists c, k, md, (XField r q); auto).
        apply (IH (lp_node l) (S k) vv (pathsOf vv s) s [] (e_v e)); auto.
        + now constructor.
        + eapply sgRel_sigma; eauto.
        + eapply docOk_elt; [|exact He]. exact (docOk_at o _ _ _ Dv Hq). }
    split; [|split; [split|split; [|split]]].
    - intro Hinv. destruct (x_store x) as [|i] eqn:Es; auto. exfalso.
      apply (rp_store _ _ _ _ R _ _ _ _ Ex HA) in Es.
      pose proof (own_filled c cv P b v sg i p HX HSg HTm Es w Ha) as Hw. rewrite (visible x w Hw) in Hinv. discriminate.
    - intros op re Hop HR'. apply (op_mixed c cv P b v sg n x false p op (litOf o w) re); auto.
      + cbn. apply in_app_iff. left. now apply in_map.
      + cbn [baseOf]. now apply lit_of.
    - intros af op re Ea Hop HR'. apply (op_mixed c cv P b v sg n x true p op None re); auto.
      + cbn. rewrite Ea. apply in_app_iff. left. now apply in_map.
      + reflexivity.
    - intros k u m Hi El. destruct (rp_elem _ _ _ _ R _ _ _ _ _ _ Ex HA El) as [_ HAm].
      apply (IH m c cv P b (p ++ [k]) v); auto. rewrite at_app, Ha. cbn [at_].
      pose proof (docOk_at o _ _ _ Dv Ha) as Dw. inversion Dw as [? _ (ks & Eks & ND) _]; subst. now rewrite (find_in ks _ _ _ Eks ND Hi).
    - intros l es wcl Hl ->. apply (OL false l es wcl).
      + exists x. split; auto. cbn. apply in_app_iff. right. now apply in_map.
      + intros q [_ <-]. exact Ha.
    - intros af l es Ea Hl Ht.
      assert (itemIn H n true (ILoop l)) as HI by (exists x; split; auto; cbn; rewrite Ea; apply in_app_iff; right; now apply in_map).
      destruct (loop_site _ _ _ _ _ _ _ HK _ _ _ _ _ HI HA) as (k & md & vv & r & q & s & HS & _ & _ & _ & HBs & i & Et & Ho).
      unfold targetArr in Ht. rewrite Et in Ht. pose proof HSg as HSg0. destruct HSg as (Hl1 & Hl2 & Hl3 & Hl4). rewrite (Hl4 _ _ Ho) in Ht.
      destruct (at_ q v) as [u|] eqn:Eq.
      + destruct u as [|es' wcl|]; inversion Ht; subst es'. apply (OL true l es wcl HI). intros q' (i' & Et' & Ho').
        rewrite Et in Et'. inversion Et'; subst i'. unfold PTrace.own in Ho. rewrite Ho in Ho'. inversion Ho'; subst q'. exact Eq.
      + rewrite (target_absent c v sg k md vv r q s HSg0 HS) in Ht; [discriminate|apply HBs|exact Eq].
  Qed.
End Eval.
