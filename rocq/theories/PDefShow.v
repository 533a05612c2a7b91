(** The text of a compiled filter. *)
From Coq Require Import String.
From Verif Require Import Base MTokenizer MLit MFastVal SEvents SFormula SMerge MBinTree MExpr SExpr MTransform SCompile MMatcher MDefShow SDefShow PBinTree PMerge PExpr PCompile PTerm PTermHeap PTrace PShow PDefHeap.
From Coq Require Import List NArith ZArith Arith Lia Bool.
Import ListNotations.
Open Scope nat_scope.

Lemma Ok_inj : forall A (a b : A), Ok a = Ok b -> a = b.
Proof. congruence. Qed.
Ltac oki X := apply Ok_inj in X; subst.

(** ** Texts *)
Definition closed (w : bytes) : Prop := exists a c, w = a ++ [c] /\ c <> 10%N.
Lemma oneLine_closed : forall w, oneLine w -> w <> [] -> closed w.
Proof.
  intros w H HN. destruct (exists_last HN) as (a & c & ->). exists a, c. split; [reflexivity|]. intros ->. apply H. apply in_or_app. right. now left.
Qed.
Lemma closed_app : forall a b, closed b -> closed (a ++ b).
Proof. intros a b (x & c & -> & H). exists (a ++ x), c. split; [now rewrite app_assoc|auto]. Qed.
Lemma trim_cons : forall c r, trimNL r <> [] -> trimNL (c :: r) = c :: trimNL r.
Proof. intros c r H. cbn [trimNL]. destruct (trimNL r); [contradiction|reflexivity]. Qed.
Lemma trim_app : forall w b, closed w -> exists b', trimNL (w ++ b) = w ++ b'.
Proof.
  intros w b (a & c & -> & Hc). induction a as [|y a IH].
  - cbn [app trimNL]. destruct (trimNL b) as [|z r]; [|exists (z :: r); reflexivity]. exists []. destruct (N.eqb_spec c 10) as [E|E]; [contradiction|reflexivity].
  - destruct IH as [b' E]. exists b'. rewrite <- !app_comm_cons, trim_cons, E; [reflexivity|]. rewrite E. destruct a; discriminate.
Qed.
Lemma trim_nl : forall w, closed w -> trimNL (w ++ nl) = w.
Proof.
  intros w (a & c & -> & Hc). induction a as [|y a IH].
  - cbn. destruct (N.eqb_spec c 10); [contradiction|reflexivity].
  - rewrite <- !app_comm_cons, trim_cons, IH; [reflexivity|]. rewrite IH. destruct a; discriminate.
Qed.
Lemma contains_refl : forall w, contains w w.
Proof. intro w. exists [], []. cbn [app]. now rewrite app_nil_r. Qed.
Lemma contains_left : forall w s t, contains w s -> contains w (s ++ t).
Proof. intros w s t (a & b & ->). exists a, (b ++ t). now rewrite <- !app_assoc. Qed.
Lemma contains_right : forall w s t, contains w t -> contains w (s ++ t).
Proof. intros w s t (a & b & ->). exists (s ++ a), b. now rewrite <- !app_assoc. Qed.
Lemma contains_trans : forall a b c, contains a b -> contains b c -> contains a c.
Proof. intros a b c (x & y & ->) (z & u & ->). exists (z ++ x), (y ++ u). now rewrite <- !app_assoc. Qed.
Lemma contains_trim : forall w s, closed w -> contains w s -> contains w (trimNL s).
Proof.
  intros w s HC (a & b & ->). rewrite app_assoc. destruct (trim_app (a ++ w) b) as [b' ->]; [now apply closed_app|]. exists a, b'. now rewrite <- app_assoc.
Qed.
Definition push (ind : bytes) (s : bytes) : bytes := flat_map (fun c => if N.eqb c 10 then 10%N :: ind else [c]) s.
Lemma push_app : forall ind a b, push ind (a ++ b) = push ind a ++ push ind b.
Proof. intros. unfold push. apply flat_map_app. Qed.
Lemma push_line : forall ind w, oneLine w -> push ind w = w.
Proof.
  intros ind w H. induction w as [|c w IH]; [reflexivity|]. unfold push in *. cbn [flat_map]. rewrite IH; [|intro K; apply H; now right].
  destruct (N.eqb_spec c 10) as [->|E]; [|reflexivity]. exfalso. apply H. now left.
Qed.
Lemma reindent_push : forall ind s, reindentBy ind s = ind ++ push ind s.
Proof. reflexivity. Qed.
Lemma contains_reindent : forall ind w s, oneLine w -> contains w s -> contains w (reindentBy ind s).
Proof. intros ind w s H (a & b & ->). rewrite reindent_push. apply contains_right. rewrite !push_app, (push_line ind w H). eexists _, _. reflexivity. Qed.

(** ** Results *)
Lemma catO_in : forall A (f : A -> outcome bytes) l t a, catO f l = Ok t -> In a l -> exists s, f a = Ok s /\ contains s t.
Proof.
  induction l as [|y l IH]; intros t a H HI; [contradiction|]. cbn [catO] in H. bind H s. bind H u. oki H. destruct HI as [->|HI].
  - exists s. split; [exact E|]. apply contains_left, contains_refl.
  - destruct (IH _ _ eq_refl HI) as (s' & A1 & A2). exists s'. split; [exact A1|]. now apply contains_right.
Qed.
Lemma catO_ok : forall A (f : nat -> A -> outcome bytes) k l, (forall a, In a l -> exists s, forall fuel, k <= fuel -> f fuel a = Ok s) ->
  exists t, forall fuel, k <= fuel -> catO (f fuel) l = Ok t.
Proof.
  intros A f k. induction l as [|a l IH]; intro H; [exists []; reflexivity|]. destruct (H a (or_introl eq_refl)) as [s Hs]. destruct IH as [t Ht]; [intros b Hb; apply H; now right|].
  exists (s ++ t). intros fuel Hf. cbn [catO]. rewrite Hs, Ht by auto. reflexivity.
Qed.
Lemma insert_in : forall k l a, In a (insertName k l) <-> k = a \/ In a l.
Proof.
  induction l as [|b l IH]; intro a; cbn [insertName]; [reflexivity|]. destruct (cmpBytes k b <=? 0)%Z; [reflexivity|]. cbn [In]. rewrite IH. tauto.
Qed.
Lemma sort_in : forall l a, In a (sortNames l) <-> In a l.
Proof. induction l as [|b l IH]; intro a; [reflexivity|]. unfold sortNames in *. cbn [fold_right]. rewrite insert_in, IH. reflexivity. Qed.
Lemma lookup_some : forall l k, In k (map fst l) -> exists c, lookup k l = Some c.
Proof.
  induction l as [|[k0 c0] l IH]; intros k H; [contradiction|]. cbn [lookup]. destruct (bytes_eqb k k0) eqn:E; [eauto|]. destruct H as [<-|H]; [|auto]. cbn [fst] in E. now rewrite bytes_eqb_refl in E.
Qed.

Section Text.
  Variable x : dformats.
  (** ** Operations *)
  Lemma const_ok : forall v, cleanV v = true -> exists t, showFV x v = Ok t.
  Proof. intros v HV. destruct v; try discriminate HV; eexists; reflexivity. Qed.
  Definition showArgs : bool -> list dref -> outcome bytes :=
    fix go (first : bool) (l : list dref) : outcome bytes :=
      match l with
      | [] => Ok []
      | p :: r => do s <- showRef x p; do t <- go false r; Ok ((if first then [] else s2b ", ") ++ s ++ t)
      end.
  Lemma ref_ok : forall d, cleanD d = true -> exists t, showRef x d = Ok t.
  Proof.
    induction d as [|s|n ps IH|v] using dref_ind'; intro HC; try (eexists; reflexivity).
    - cbn [cleanD] in HC. assert (forall first, exists u, showArgs first ps = Ok u) as X.
      { induction IH as [|p r Hp Hr IHr]; intro first; [eexists; reflexivity|]. cbn [forallb] in HC. apply andb_true_iff in HC as [H1 H2].
        destruct (Hp H1) as [t Et]. destruct (IHr H2 false) as [u Eu]. eexists. cbn [showArgs]. rewrite Et. cbn [obind]. fold showArgs. rewrite Eu. reflexivity. }
      destruct (X true) as [u Eu]. eexists. cbn [showRef]. fold showArgs. rewrite Eu. reflexivity.
    - apply (const_ok (fv v) HC).
  Qed.
  Lemma operand_ok : forall d, cleanO d = true -> exists t, showRefO x d = Ok t.
  Proof. intros [d|] HC; [apply ref_ok; exact HC|eexists; reflexivity]. Qed.
  Lemma op_ok : forall o, okOp o -> exists t, showOp x o = Ok t.
  Proof.
    intros o [H1 H2]. destruct (operand_ok _ H1) as [l E1]. destruct (operand_ok _ H2) as [r E2]. eexists. unfold showOp. rewrite E1, E2. reflexivity.
  Qed.
  Lemma const_text : forall o e v t, constRef o e = Ok v -> showFV x (fv v) = Ok t -> operandText x o e t.
  Proof.
    intros o e v t E Et. destruct e; cbn [constRef] in E; try discriminate.
    - oki E. cbn [fv] in Et. constructor. destruct v0 as [| | |[]| | | | |]; cbn in Et; oki Et;
        first [exact (ct_int x o _)|exact (ct_uint x o _)|exact (ct_float x o _)|exact (ct_bool x o true)|exact (ct_bool x o false)|exact (ct_string x o _)
              |exact (ct_bytes x o _)|exact (ct_time x o _)|exact (ct_nil x o)|exact (ct_other x o)].
    - destruct (getNewTime o s) eqn:Ez; [|discriminate]. oki E. cbn in Et. oki Et. now constructor.
    - destruct (o_regexCompiles o s); [|discriminate]. oki E. cbn in Et. oki Et. exact (ot_regex x o _).
    - destruct (o_pcreCompiles o s); [|discriminate]. oki E. discriminate.
  Qed.
  Lemma ref_text : forall o e d t, fits o e d -> showRef x d = Ok t -> operandText x o e t.
  Proof.
    intros o. induction e as [| |g|sa|sa|sa|a IH|l IH|l IH|r p|n l IH|m v i s IHi IHs|a IH|a IH|k l r IHl IHr] using expr_ind'; intros d t HF Et;
      try (inversion HF; subst; eapply const_text; eauto; fail).
    - inversion HF as [| | |? ? E]; subst; [oki Et; constructor|oki Et; constructor|discriminate E].
    - inversion HF as [| |? ? ps HF2|? ? E]; subst; [|discriminate E]. cbn [showRef] in Et. fold showArgs in Et. bind Et u. oki Et. constructor. clear HF.
      assert (forall l ps, Forall (fun e => forall d t, fits o e d -> showRef x d = Ok t -> operandText x o e t) l -> Forall2 (fits o) l ps ->
        forall u, (showArgs true ps = Ok u -> argsText x o l u) /\ (showArgs false ps = Ok u -> l = [] /\ u = [] \/ exists q r u', l = q :: r /\ u = s2b ", " ++ u' /\ argsText x o l u')) as X.
      { clear. intros l ps HI HF. revert HI. induction HF as [|e d l ps Hed HF IH]; intros HI u.
        - split; intro E; oki E; [constructor|auto].
        - inversion HI as [|? ? He Hl]; subst.
          assert (forall pre, (do s <- showRef x d; do t <- showArgs false ps; Ok (pre ++ s ++ t)) = Ok u -> exists u', u = pre ++ u' /\ argsText x o (e :: l) u') as Y.
          { intros pre E. bind E s. bind E t. oki E. exists (s ++ t). split; [reflexivity|]. destruct (IH Hl t) as [_ HT]. destruct (HT eq_refl) as [[-> ->]|(q & r & u' & -> & -> & HU)].
            - rewrite app_nil_r. constructor. eapply He; [exact Hed|exact E0].
            - constructor; [eapply He; [exact Hed|exact E0]|exact HU]. }
          split; intro E.
          + destruct (Y [] E) as (u' & -> & HU). exact HU.
          + destruct (Y (s2b ", ") E) as (u' & -> & HU). right. exists e, l, u'. auto. }
      apply (X l ps IH HF2 u). exact E.
  Qed.
  Lemma operand_text : forall o e d t, fitsO o e d -> showRefO x d = Ok t -> operandText x o e t.
  Proof. intros o e d t HF Et. inversion HF; subst; [oki Et; constructor|]. eapply ref_text; eauto. Qed.
  Lemma op_text : forall o c p w, op_bucket p = c_at c -> op_op p = c_op c -> fitsO o (c_lhs c) (op_lhs p) -> fitsS o (c_rhs c) (op_rhs p) -> showOp x p = Ok w -> condText x o c w.
  Proof.
    intros o c p w E1 E2 F1 F2 E. unfold showOp in E. bind E l. bind E r. oki E. exists l, r. split; [eapply operand_text; eauto|]. split.
    - destruct (c_rhs c); cbn [fitsS secondText] in *; [eapply operand_text; eauto|]. rewrite F2 in E3. now oki E3.
    - rewrite E1, E2. destruct (c_op c); reflexivity.
  Qed.
  Lemma condText_ne : forall o c t, condText x o c t -> t <> [].
  Proof. intros o c t (l & r & _ & _ & ->). discriminate. Qed.

  (** ** Nodes *)
  Variable H : list execnode.
  Hypothesis HO : okHeap H.

  Lemma ops_ok : forall head ops, Forall okOp ops -> exists t, showOps x head ops = Ok t.
  Proof.
    intros head ops HF. destruct ops as [|o ops]; [exists []; reflexivity|]. unfold showOps.
    destruct (catO_ok _ (fun _ => fun o => do s <- showOp x o; Ok (reindentBy sp2 s ++ nl)) 0 (o :: ops)) as [t Ht].
    { intros a Ha. rewrite Forall_forall in HF. destruct (op_ok a (HF a Ha)) as [s E]. exists (reindentBy sp2 s ++ nl). intros _ _. now rewrite E. }
    rewrite (Ht 0 (le_n 0)). eexists. reflexivity.
  Qed.
  Lemma ops_in : forall head ops t o w, showOps x head ops = Ok t -> In o ops -> showOp x o = Ok w -> oneLine w -> contains w t.
  Proof.
    intros head ops t o w E HI Ew HL. destruct ops as [|o1 ops]; [contradiction|]. unfold showOps in E. bind E u. oki E.
    destruct (catO_in _ _ _ _ _ E0 HI) as (s & Es & HC). rewrite Ew in Es. cbn [obind] in Es. oki Es.
    do 2 apply contains_right. eapply contains_trans; [|exact HC]. apply contains_left, contains_reindent; [exact HL|apply contains_refl].
  Qed.
  Lemma loops_ok : forall k n head ls, Forall (okLoop (length H) n) ls ->
    (forall c, n < c < length H -> exists t, forall fuel, k <= fuel -> showExec x fuel H c = Ok t) ->
    exists t, forall fuel, k <= fuel -> showLoops x (showExec x fuel H) head ls = Ok t.
  Proof.
    intros k n head ls HF HC. destruct ls as [|l ls]; [exists []; reflexivity|].
    destruct (catO_ok _ (fun fuel => fun l => do s <- showLoop x (showExec x fuel H) l; Ok (reindentBy sp2 s ++ nl)) k (l :: ls)) as [t Ht].
    { intros a Ha. rewrite Forall_forall in HF. destruct (HF a Ha) as [HL HT]. destruct (HC _ HL) as [b Hb]. destruct (operand_ok _ HT) as [u Eu].
      eexists. intros fuel Hf. unfold showLoop. rewrite Eu, Hb by auto. reflexivity. }
    eexists. intros fuel Hf. unfold showLoops. rewrite (Ht fuel Hf). reflexivity.
  Qed.
  Lemma loops_in : forall node head ls t l, showLoops x node head ls = Ok t -> In l ls ->
    exists b, node (lp_node l) = Ok b /\ forall w, oneLine w -> contains w b -> contains w t.
  Proof.
    intros node head ls t l E HI. destruct ls as [|l1 ls]; [contradiction|]. unfold showLoops in E. bind E u. oki E.
    destruct (catO_in _ _ _ _ _ E0 HI) as (s & Es & HC). bind Es sb. oki Es. unfold showLoop in E. bind E t1. bind E b. oki E.
    exists b. split; [assumption || reflexivity|]. intros w HL HW. do 2 apply contains_right. eapply contains_trans; [|exact HC]. apply contains_left, contains_reindent; [exact HL|].
    do 8 apply contains_right. apply contains_reindent; assumption.
  Qed.
  Lemma elems_ok : forall k n es, Forall (fun kc => n < snd kc < length H) es ->
    (forall c, n < c < length H -> exists t, forall fuel, k <= fuel -> showExec x fuel H c = Ok t) ->
    exists t, forall fuel, k <= fuel -> showElems (showExec x fuel H) es = Ok t.
  Proof.
    intros k n es HF HC. destruct es as [|e es]; [exists []; reflexivity|]. remember (e :: es) as L eqn:EL.
    destruct (catO_ok _ (fun fuel => fun key => match lookup key L with
                  | None => Panic
                  | Some c => do s <- showExec x fuel H c; Ok (s2b "  `" ++ key ++ s2b "`:" ++ nl ++ reindentBy sp4 s ++ nl)
                  end) k (sortNames (map fst L))) as [t Ht].
    { intros key Hk. apply (proj1 (sort_in _ _)) in Hk. destruct (lookup_some _ _ Hk) as [c Ec]. rewrite Forall_forall in HF. destruct (HC c) as [b Hb].
      - exact (HF _ (lookup_in _ _ _ Ec)).
      - rewrite Ec. eexists. intros fuel Hf. rewrite Hb by auto. reflexivity. }
    exists (s2b ":elems" ++ nl ++ t). intros fuel Hf. unfold showElems. rewrite (Ht fuel Hf). rewrite EL. reflexivity.
  Qed.
  Lemma elems_in : forall node es t key c, showElems node es = Ok t -> lookup key es = Some c ->
    exists b, node c = Ok b /\ forall w, oneLine w -> contains w b -> contains w t.
  Proof.
    intros node es t key c E EL. assert (In key (map fst es)) as HI by (apply lookup_in in EL; change key with (fst (key, c)); now apply in_map).
    destruct es as [|e es]; [discriminate|]. unfold showElems in E. bind E u. oki E. apply (proj2 (sort_in _ _)) in HI.
    destruct (catO_in _ _ _ _ _ E0 HI) as (s & Es & HC). cbv beta in Es. rewrite EL in Es. bind Es b. oki Es.
    exists b. split; [assumption || reflexivity|]. intros w HL HW. do 2 apply contains_right. eapply contains_trans; [|exact HC]. do 4 apply contains_right. apply contains_left.
    apply contains_reindent; assumption.
  Qed.

  Lemma exec_ok : forall k n, n < length H -> length H - n <= k -> exists t, forall fuel, k <= fuel -> showExec x fuel H n = Ok t.
  Proof.
    induction k as [|k IH]; intros n Hn Hk; [lia|]. destruct (nth_error H n) as [d|] eqn:E; [|apply nth_error_None in E; lia].
    destruct (HO _ _ E) as (A & B & C & D).
    assert (forall c, n < c < length H -> exists t, forall fuel, k <= fuel -> showExec x fuel H c = Ok t) as HC by (intros c Hc; apply IH; lia).
    destruct (ops_ok (s2b ":ops") _ B) as [ta Ea]. destruct (elems_ok _ _ _ A HC) as [tb Eb]. destruct (loops_ok _ _ (s2b ":loops") _ C HC) as [tc Ec].
    destruct (x_after d) as [af|] eqn:Eaf.
    - destruct (D af eq_refl) as [D1 D2]. destruct (ops_ok (s2b ":after-ops:") _ D1) as [td Ed]. destruct (loops_ok _ _ (s2b ":after-loops:") _ D2 HC) as [te Ee].
      eexists. intros fuel Hf. destruct fuel as [|fuel]; [lia|]. cbn [showExec]. unfold idx. rewrite E. cbn [obind]. rewrite Ea, Eb, Ec, Eaf, Ed, Ee by lia. reflexivity.
    - eexists. intros fuel Hf. destruct fuel as [|fuel]; [lia|]. cbn [showExec]. unfold idx. rewrite E. cbn [obind]. rewrite Ea, Eb, Ec, Eaf by lia. reflexivity.
  Qed.
  Lemma exec_parts : forall fuel n t d, showExec x (S fuel) H n = Ok t -> nth_error H n = Some d ->
    (forall o w, hasOp d o -> showOp x o = Ok w -> oneLine w -> w <> [] -> contains w t)
    /\ (forall c, childOf d c -> exists b, showExec x fuel H c = Ok b /\ forall w, oneLine w -> w <> [] -> contains w b -> contains w t).
  Proof.
    intros fuel n t d E Ed. cbn [showExec] in E. unfold idx in E. rewrite Ed in E. cbn [obind] in E. bind E a. bind E b. bind E c. bind E q. oki E.
    split.
    - intros o w [HI|(af & Eaf & HI)] Ew HL HN; (apply contains_trim; [now apply oneLine_closed|]); apply contains_right.
      + apply contains_left. eapply ops_in; eauto.
      + rewrite Eaf in E3. bind E3 p. bind E3 r. oki E3. do 3 apply contains_right. apply contains_left. eapply ops_in; eauto.
    - intros ch [(key & Ek)|[(l & HI & <-)|(af & l & Eaf & HI & <-)]].
      + destruct (elems_in _ _ _ _ _ E1 Ek) as (s & Es & HS). exists s. split; [exact Es|]. intros w HL HN HW. apply contains_trim; [now apply oneLine_closed|].
        do 2 apply contains_right. apply contains_left. auto.
      + destruct (loops_in _ _ _ _ _ E2 HI) as (s & Es & HS). exists s. split; [exact Es|]. intros w HL HN HW. apply contains_trim; [now apply oneLine_closed|].
        do 3 apply contains_right. apply contains_left. auto.
      + rewrite Eaf in E3. bind E3 p. bind E3 r. oki E3.
        destruct (loops_in _ _ _ _ _ E4 HI) as (s & Es & HS). exists s. split; [exact Es|]. intros w HL HN HW. apply contains_trim; [now apply oneLine_closed|].
        do 5 apply contains_right. auto.
  Qed.
  Lemma childOf_lt : forall n d c, nth_error H n = Some d -> childOf d c -> c < length H.
  Proof.
    intros n d c E HC. destruct (HO _ _ E) as (A & _ & C & D). rewrite Forall_forall in A, C. destruct HC as [(k & Ek)|[(l & HI & <-)|(af & l & Eaf & HI & <-)]].
    - apply lookup_in, A in Ek. apply Ek.
    - destruct (C _ HI) as [? _]. lia.
    - destruct (D _ Eaf) as [_ D2]. rewrite Forall_forall in D2. destruct (D2 _ HI) as [? _]. lia.
  Qed.
  Lemma exec_reached : forall n t0 t, reached H n -> n < length H ->
    (forall fuel, length H <= fuel -> showExec x fuel H 0 = Ok t0) -> (forall fuel, length H <= fuel -> showExec x fuel H n = Ok t) ->
    forall w, oneLine w -> w <> [] -> contains w t -> contains w t0.
  Proof.
    intros n t0 t HR. revert t. induction HR as [|n d c HR IH E HC]; intros t Hn H0 Ht w HL HN HW.
    - assert (t0 = t) as -> by (specialize (H0 _ (le_n _)); rewrite (Ht _ (le_n _)) in H0; congruence). exact HW.
    - assert (n < length H) as Hn2 by (apply nth_error_Some; congruence). destruct (exec_ok (length H) n Hn2) as [tn En]; [lia|].
      apply (IH tn Hn2 H0 En w HL HN). destruct (exec_parts (length H) n tn d (En _ (le_S _ _ (le_n _))) E) as [_ HCh].
      destruct (HCh _ HC) as (b & Eb & HB). rewrite (Ht _ (le_n _)) in Eb. oki Eb. auto.
  Qed.
  (** Every operation stands in the text. *)
  Lemma exec_ops : forall p, allReached H -> 0 < length H -> holdsOp H p -> exists t0 w,
    (forall fuel, length H <= fuel -> showExec x fuel H 0 = Ok t0) /\ showOp x p = Ok w /\ (oneLine w -> w <> [] -> contains w t0).
  Proof.
    intros p HA H0 (n & d & E & Ho). destruct (exec_ok (length H) 0 H0) as [t0 E0]; [lia|].
    assert (n < length H) as Hn by (apply nth_error_Some; congruence). destruct (exec_ok (length H) n Hn) as [tn En]; [lia|].
    assert (okOp p) as Hok.
    { destruct (HO _ _ E) as (_ & B & _ & D). rewrite Forall_forall in B. destruct Ho as [HI|(af & Eaf & HI)]; [auto|]. destruct (D _ Eaf) as [D1 _]. rewrite Forall_forall in D1. auto. }
    destruct (op_ok p Hok) as [w Ew]. exists t0, w. split; [exact E0|]. split; [exact Ew|]. intros HL HN.
    apply (exec_reached n t0 tn (HA n Hn) Hn E0 En w HL HN).
    destruct (exec_parts (length H) n tn d (En _ (le_S _ _ (le_n _))) E) as [HP _]. exact (HP _ _ Ho Ew HL HN).
  Qed.
End Text.

(** ** The tree *)
Fixpoint linked (T : list node) (p i : nat) (t : form) : Prop :=
  match t with
  | FLeaf => nth_error T i = Some (Node NLeaf p 0 0)
  | FUn o a => nth_error T i = Some (Node (utype o) p (S i) 0) /\ linked T i (S i) a
  | FBin o a b => nth_error T i = Some (Node (btype o) p (S i) (S i + fsize a)) /\ linked T i (S i) a /\ linked T i (S i + fsize a) b
  end.
Lemma lay_linked : forall t p pre post, linked (pre ++ lay p (length pre) t ++ post) p (length pre) t.
Proof.
  induction t as [|o a IH|o a IHa b IHb]; intros p pre post; cbn [linked].
  - cbn [lay]. rewrite nth_error_app2, Nat.sub_diag by lia. reflexivity.
  - assert (lay p (length pre) (FUn o a) = Node (utype o) p (S (length pre)) 0 :: lay (length pre) (S (length pre)) a) as E by (destruct o; reflexivity).
    rewrite E. split.
    + rewrite nth_error_app2, Nat.sub_diag by lia. reflexivity.
    + specialize (IH (length pre) (pre ++ [Node (utype o) p (S (length pre)) 0]) post).
      rewrite app_length in IH. cbn [length] in IH. rewrite Nat.add_1_r in IH. rewrite <- app_assoc in IH. exact IH.
  - assert (lay p (length pre) (FBin o a b) = Node (btype o) p (S (length pre)) (S (length pre) + fsize a)
             :: lay (length pre) (S (length pre)) a ++ lay (length pre) (S (length pre) + fsize a) b) as E by (destruct o; reflexivity).
    rewrite E. clear E. set (nd := Node (btype o) p (S (length pre)) (S (length pre) + fsize a)).
    split; [|split].
    + rewrite nth_error_app2, Nat.sub_diag by lia. reflexivity.
    + specialize (IHa (length pre) (pre ++ [nd]) (lay (length pre) (S (length pre) + fsize a) b ++ post)).
      rewrite app_length in IHa. cbn [length] in IHa. rewrite Nat.add_1_r in IHa. rewrite <- app_assoc in IHa. cbn [app] in IHa |- *. rewrite <- app_assoc. exact IHa.
    + specialize (IHb (length pre) (pre ++ nd :: lay (length pre) (S (length pre)) a) post).
      rewrite app_length in IHb. cbn [length] in IHb. rewrite lay_length in IHb.
      replace (length pre + S (fsize a)) with (S (length pre) + fsize a) in IHb by lia.
      rewrite <- app_assoc in IHb. cbn [app] in IHb |- *. rewrite <- app_assoc. exact IHb.
Qed.

Definition lineOk (w : bytes) : Prop := oneLine w /\ w <> [].
Lemma textOf_cons : forall a r, r <> [] -> textOf (a :: r) = a ++ nl ++ textOf r.
Proof. intros a [|b r] H; [contradiction|reflexivity]. Qed.
Lemma textOf_app : forall A B, A <> [] -> B <> [] -> textOf (A ++ B) = textOf A ++ nl ++ textOf B.
Proof.
  induction A as [|a A IH]; intros B HA HB; [contradiction|]. destruct A as [|b A].
  - cbn [app]. now rewrite textOf_cons.
  - change ((a :: b :: A) ++ B) with (a :: (b :: A) ++ B). rewrite (textOf_cons a ((b :: A) ++ B)) by discriminate. rewrite IH by (auto; discriminate).
    rewrite (textOf_cons a (b :: A)) by discriminate. now rewrite <- !app_assoc.
Qed.
Lemma textOf_closed : forall A, A <> [] -> Forall lineOk A -> closed (textOf A).
Proof.
  intros A HA HF. destruct (exists_last HA) as (B & w & ->). apply Forall_app in HF as [_ HF]. inversion HF as [|? ? [H1 H2] _]; subst.
  destruct B as [|b B]; [now apply oneLine_closed|]. rewrite textOf_app by discriminate. do 2 apply closed_app. now apply oneLine_closed.
Qed.
Lemma reindent_lines : forall ind A, A <> [] -> Forall lineOk A -> reindentBy ind (textOf A) = textOf (map (fun w => ind ++ w) A).
Proof.
  intros ind A. induction A as [|a A IH]; intros HA HF; [contradiction|]. inversion HF as [|? ? [H1 H2] H3]; subst. destruct A as [|b A].
  - cbn [textOf map]. now rewrite reindent_push, push_line.
  - rewrite (textOf_cons a (b :: A)) by discriminate. cbn [map]. rewrite (textOf_cons (ind ++ a)) by discriminate.
    change ((ind ++ b) :: map (fun w => ind ++ w) A) with (map (fun w => ind ++ w) (b :: A)). rewrite <- IH by (auto; discriminate).
    rewrite !reindent_push, !push_app, (push_line ind a H1). cbn [push flat_map nl N.eqb Pos.eqb app]. now rewrite <- !app_assoc.
Qed.
Lemma oneLine_app : forall a b, oneLine a -> oneLine b -> oneLine (a ++ b).
Proof. intros a b HA HB K. apply in_app_or in K as [K|K]; auto. Qed.
Lemma oneLine_lit : forall a, forallb (fun c => negb (N.eqb c 10)) a = true -> oneLine a.
Proof. intros a HA K. rewrite forallb_forall in HA. specialize (HA _ K). discriminate. Qed.
Lemma oneLine_num : forall n, oneLine (appendUint n).
Proof. intros n K. pose proof (num_digits n) as HD. rewrite Forall_forall in HD. specialize (HD _ K). lia. Qed.
Lemma oneLine_int : forall z, oneLine (appendInt z).
Proof. intros z. unfold appendInt. destruct (z <? 0)%Z; [|apply oneLine_num]. apply (oneLine_app [45%N]); [apply oneLine_lit; reflexivity|apply oneLine_num]. Qed.

Lemma outlineLine_ok : forall dp p i f, lineOk (outlineLine dp p i f).
Proof.
  intros dp p i f. split.
  - unfold outlineLine. apply oneLine_app; [intros K; apply repeat_spec in K; discriminate|]. repeat apply oneLine_app; try apply oneLine_num; try (apply oneLine_lit; reflexivity).
    apply oneLine_lit. destruct f as [|[]|[]]; reflexivity.
  - unfold outlineLine. intro K. apply app_eq_nil in K as [_ K]. discriminate.
Qed.
Lemma outline_ok : forall f dp p i, Forall lineOk (outline dp p i f).
Proof.
  induction f as [|o a IH|o a IHa b IHb]; intros dp p i; cbn [outline]; constructor; try apply outlineLine_ok; auto. apply Forall_app. auto.
Qed.
Lemma outline_ne : forall f dp p i, outline dp p i f <> [].
Proof. intros [] dp p i; discriminate. Qed.
Lemma outlineLine_deeper : forall dp p i f, outlineLine (S dp) p i f = sp2 ++ outlineLine dp p i f.
Proof. intros. unfold outlineLine. replace (2 * S dp) with (S (S (2 * dp))) by lia. reflexivity. Qed.
Lemma outline_deeper : forall f dp p i, outline (S dp) p i f = map (fun w => sp2 ++ w) (outline dp p i f).
Proof.
  induction f as [|o a IH|o a IHa b IHb]; intros dp p i; cbn [outline map]; rewrite outlineLine_deeper; f_equal; auto. rewrite map_app. f_equal; auto.
Qed.
Lemma tree_text : forall f T p i fuel, linked T p i f -> fsize f <= fuel -> showTree fuel T i = Ok (textOf (outline 0 p i f)).
Proof.
  assert (forall i p w d, lineOk w -> w = s2b "[" ++ showNat i ++ s2b ":" ++ showNat p ++ s2b "] " ++ d -> trimNL (s2b "[" ++ showNat i ++ s2b ":" ++ showNat p ++ s2b "] " ++ d ++ nl) = w) as X.
  { intros i p w d [H1 H2] ->. transitivity (trimNL ((s2b "[" ++ showNat i ++ s2b ":" ++ showNat p ++ s2b "] " ++ d) ++ nl)); [now rewrite <- !app_assoc|]. apply trim_nl. now apply oneLine_closed. }
  induction f as [|o a IH|o a IHa b IHb]; intros T p i fuel HL HF; cbn [linked fsize] in HL, HF; (destruct fuel as [|fuel]; [lia|]).
  - cbn [showTree]. unfold idx. rewrite HL. cbn [obind n_parent n_type n_left n_right]. rewrite !app_nil_r. f_equal. cbn [outline textOf].
    apply X; [apply outlineLine_ok|reflexivity].
  - destruct HL as [HN HL]. cbn [showTree]. unfold idx. rewrite HN. cbn [obind n_parent n_type n_left n_right]. rewrite (IH T i (S i) fuel HL) by lia. cbn [obind]. rewrite app_nil_r.
    f_equal. cbn [outline]. rewrite reindent_lines by (apply outline_ne || apply outline_ok). rewrite <- outline_deeper.
    rewrite (textOf_cons _ (outline 1 i (S i) a)) by apply outline_ne.
    rewrite <- (trim_nl (outlineLine 0 p i (FUn o a) ++ nl ++ textOf (outline 1 i (S i) a))).
    + f_equal. destruct o; cbn [utype showType]; unfold outlineLine; cbn [Nat.mul Nat.add repeat app kindWord]; now rewrite <- !app_assoc.
    + do 2 apply closed_app. apply textOf_closed; [apply outline_ne|apply outline_ok].
  - destruct HL as (HN & HL1 & HL2). cbn [showTree]. unfold idx. rewrite HN. cbn [obind n_parent n_type n_left n_right]. rewrite (IHa T i (S i) fuel HL1) by lia.
    cbn [obind]. destruct (S i + fsize a) as [|j] eqn:Ej; [lia|]. rewrite <- Ej in *. rewrite (IHb T i _ fuel HL2) by lia. cbn [obind]. f_equal. cbn [outline].
    rewrite !reindent_lines by (apply outline_ne || apply outline_ok). rewrite <- !outline_deeper.
    rewrite textOf_cons by (intro K; apply app_eq_nil in K as [K _]; now apply outline_ne in K). rewrite textOf_app by apply outline_ne.
    rewrite <- (trim_nl (outlineLine 0 p i (FBin o a b) ++ nl ++ textOf (outline 1 i (S i) a) ++ nl ++ textOf (outline 1 i (S i + fsize a) b))).
    + f_equal. destruct o; cbn [btype showType]; unfold outlineLine; cbn [Nat.mul Nat.add repeat app kindWord]; now rewrite <- !app_assoc.
    + do 4 apply closed_app. apply textOf_closed; [apply outline_ne|apply outline_ok].
Qed.

(** ** The whole *)
Lemma buckets_text : forall l i rest, rest <> [] -> showBuckets i l ++ textOf rest = textOf (answerLines i l ++ rest).
Proof.
  induction l as [|z l IH]; intros i rest HR; [reflexivity|]. cbn [showBuckets answerLines app]. rewrite textOf_cons by (destruct (answerLines (S i) l); [exact HR|discriminate]).
  rewrite <- (IH (S i) rest HR). unfold showNat. now rewrite <- !app_assoc.
Qed.
