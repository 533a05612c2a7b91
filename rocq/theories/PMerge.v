(** Merged expressions, layouts and validation. *)
From Verif Require Import Base MBinTree SFormula SEvents SMerge MSession PBinTree PSession.
From Coq Require Import List Arith Lia Bool.
Import ListNotations.

(** ** Layouts *)

Lemma lay_length : forall t p i, length (lay p i t) = fsize t.
Proof.
  induction t as [|[] a IH|o a IHa b IHb]; intros p i; cbn [lay fsize length]; auto.
  rewrite app_length. now rewrite IHa, IHb.
Qed.

Lemma lay_laid_at : forall t p pre post, laid (pre ++ lay p (length pre) t ++ post) p (length pre) t.
Proof.
  induction t as [|o a IH|o a IHa b IHb]; intros p pre post; cbn [laid].
  - exists 0, 0. cbn [lay]. rewrite nth_error_app2, Nat.sub_diag by lia. reflexivity.
  - assert (lay p (length pre) (FUn o a) = Node (utype o) p (S (length pre)) 0 :: lay (length pre) (S (length pre)) a) as E
      by (destruct o; reflexivity).
    rewrite E. split.
    + rewrite nth_error_app2, Nat.sub_diag by lia. reflexivity.
    + specialize (IH (length pre) (pre ++ [Node (utype o) p (S (length pre)) 0]) post).
      rewrite app_length in IH. cbn [length] in IH. rewrite Nat.add_1_r in IH.
      rewrite <- app_assoc in IH. exact IH.
  - assert (lay p (length pre) (FBin o a b) = Node (btype o) p (S (length pre)) (S (length pre) + fsize a)
             :: lay (length pre) (S (length pre)) a ++ lay (length pre) (S (length pre) + fsize a) b) as E
      by (destruct o; reflexivity).
    rewrite E. clear E. set (nd := Node (btype o) p (S (length pre)) (S (length pre) + fsize a)).
    split; [|split].
    + rewrite nth_error_app2, Nat.sub_diag by lia. reflexivity.
    + specialize (IHa (length pre) (pre ++ [nd]) (lay (length pre) (S (length pre) + fsize a) b ++ post)).
      rewrite app_length in IHa. cbn [length] in IHa. rewrite Nat.add_1_r in IHa.
      rewrite <- app_assoc in IHa. cbn [app] in IHa |- *. rewrite <- app_assoc. exact IHa.
    + specialize (IHb (length pre) (pre ++ nd :: lay (length pre) (S (length pre)) a) post).
      rewrite app_length in IHb. cbn [length] in IHb. rewrite lay_length in IHb.
      replace (length pre + S (fsize a)) with (S (length pre) + fsize a) in IHb by lia.
      rewrite <- app_assoc in IHb. cbn [app] in IHb |- *. rewrite <- app_assoc. exact IHb.
Qed.

Lemma lay_laid : forall t, laid (lay 0 0 t) 0 0 t.
Proof.
  intro t. pose proof (lay_laid_at t 0 [] []) as H. cbn [app length] in H. now rewrite app_nil_r in H.
Qed.

(** ** Validation *)

Lemma laid_shaped : forall t T p i, laid T p i t -> shaped T p i t.
Proof.
  induction t as [|o a IH|o a IHa b IHb]; intros T p i H; cbn [laid shaped] in *; auto.
  - destruct H as [E H]. pose proof (laid_bound _ _ _ _ H) as B. pose proof (fsize_pos a). split; auto.
    exists (S i). split; [destruct o; exact E|lia].
  - destruct H as (E & H1 & H2). pose proof (laid_bound _ _ _ _ H1) as B1. pose proof (laid_bound _ _ _ _ H2) as B2.
    pose proof (fsize_pos a). pose proof (fsize_pos b). split; auto.
    exists (S i), (S i + fsize a). split; [destruct o; exact E|lia].
Qed.

Lemma shaped_bound : forall t T p i, shaped T p i t -> i + fsize t <= length T.
Proof.
  induction t; cbn; intros T p i H.
  - destruct H as (l & r & H). assert (i < length T) by (apply nth_error_Some; congruence). lia.
  - destruct H as (_ & H). apply IHt in H. lia.
  - destruct H as (_ & _ & H). apply IHt2 in H. lia.
Qed.

Lemma validateItem_complete : forall t T p i fuel, shaped T p i t -> fsize t <= fuel ->
  validateItem fuel T i p = Ok (i + fsize t).
Proof.
  induction t as [|o a IH|o a IHa b IHb]; intros T p i fuel H Hf; cbn [fsize] in *;
    (destruct fuel as [|f]; [lia|]); cbn [validateItem].
  - destruct H as (l & r & E). rewrite (idx_node _ _ _ E). cbn [obind n_parent n_type]. rewrite Nat.eqb_refl.
    cbn. f_equal. lia.
  - destruct H as ((l & E & R) & H). rewrite (idx_node _ _ _ E). cbn [obind n_parent n_type n_left n_right].
    rewrite Nat.eqb_refl. cbn [negb].
    destruct (Nat.leb_spec l 0); [lia|]. destruct (Nat.leb_spec (length T) l); [lia|]. cbn [orb].
    destruct o; cbn [hasRight]; rewrite Nat.eqb_refl; cbn [negb];
      (rewrite (IH T i (S i) f H) by lia); cbn [obind]; f_equal; lia.
  - destruct H as ((l & r & E & R1 & R2) & H1 & H2). rewrite (idx_node _ _ _ E).
    cbn [obind n_parent n_type n_left n_right].
    rewrite Nat.eqb_refl. cbn [negb].
    destruct (Nat.leb_spec l 0); [lia|]. destruct (Nat.leb_spec (length T) l); [lia|].
    destruct (Nat.leb_spec r 0); [lia|]. destruct (Nat.leb_spec (length T) r); [lia|]. cbn [orb].
    destruct o; cbn [hasRight];
      (rewrite (IHa T i (S i) f H1) by lia); cbn [obind];
      (rewrite (IHb T i (S i + fsize a) f H2) by lia); f_equal; lia.
Qed.

Lemma validateItem_sound : forall fuel T i p pos, validateItem fuel T i p = Ok pos ->
  exists t, shaped T p i t /\ pos = i + fsize t.
Proof.
  induction fuel as [|f IH]; intros T i p pos H; [discriminate|]. cbn [validateItem] in H.
  destruct (idx T i) as [d| | |] eqn:Ed; try discriminate. cbn [obind] in H.
  unfold idx in Ed. destruct (nth_error T i) as [d'|] eqn:En; [|discriminate]. inversion Ed; subst d'.
  destruct d as [ty pa l r]. cbn [n_parent n_type n_left n_right] in H.
  destruct (Nat.eqb_spec pa p) as [->|]; [|discriminate]. cbn [negb] in H.
  assert (forall nt, nt <> NLeaf -> ty = nt ->
    (if Nat.leb l 0 || Nat.leb (length T) l then Err
     else if (if hasRight nt then Nat.leb r 0 || Nat.leb (length T) r else negb (Nat.eqb r 0)) then Err
     else do pos <- validateItem f T (S i) i; if hasRight nt then validateItem f T pos i else Ok pos) = Ok pos ->
    0 < l < length T /\
    exists a, shaped T i (S i) a /\
      if hasRight nt then 0 < r < length T /\ exists b, shaped T i (S i + fsize a) b /\ pos = S i + fsize a + fsize b
      else r = 0 /\ pos = S i + fsize a) as K.
  { intros nt _ _ X.
    destruct (Nat.leb_spec l 0); [discriminate|]. destruct (Nat.leb_spec (length T) l); [discriminate|]. cbn [orb] in X.
    split; [lia|].
    destruct (hasRight nt) eqn:HR.
    - destruct (Nat.leb_spec r 0); [discriminate|]. destruct (Nat.leb_spec (length T) r); [discriminate|]. cbn [orb] in X.
      destruct (validateItem f T (S i) i) as [q| | |] eqn:E1; try discriminate. cbn [obind] in X.
      apply IH in E1 as (a & Sa & ->). apply IH in X as (b & Sb & ->).
      exists a. split; auto. split; [lia|]. exists b. auto.
    - destruct (Nat.eqb_spec r 0) as [->|]; [|discriminate]. cbn [negb] in X.
      destruct (validateItem f T (S i) i) as [q| | |] eqn:E1; try discriminate. cbn [obind] in X.
      apply IH in E1 as (a & Sa & ->). inversion X; subst. exists a. auto. }
  destruct ty.
  - inversion H; subst. exists FLeaf. split; [exists l, r; exact En|cbn; lia].
  - apply (K NOr) in H; [|discriminate|reflexivity]. cbn [hasRight] in H.
    destruct H as (Hl & a & Sa & Hr & b & Sb & ->). exists (FBin BOr a b). split; [|cbn; lia].
    cbn [shaped]. split; [exists l, r; auto|auto].
  - apply (K NAnd) in H; [|discriminate|reflexivity]. cbn [hasRight] in H.
    destruct H as (Hl & a & Sa & Hr & b & Sb & ->). exists (FBin BAnd a b). split; [|cbn; lia].
    cbn [shaped]. split; [exists l, r; auto|auto].
  - apply (K NNot) in H; [|discriminate|reflexivity]. cbn [hasRight] in H.
    destruct H as (Hl & a & Sa & -> & ->). exists (FUn UNot a). split; [|cbn; lia].
    cbn [shaped]. split; [exists l; auto|auto].
  - apply (K NNeor) in H; [|discriminate|reflexivity]. cbn [hasRight] in H.
    destruct H as (Hl & a & Sa & Hr & b & Sb & ->). exists (FBin BNeor a b). split; [|cbn; lia].
    cbn [shaped]. split; [exists l, r; auto|auto].
  - apply (K NLoop) in H; [|discriminate|reflexivity]. cbn [hasRight] in H.
    destruct H as (Hl & a & Sa & -> & ->). exists (FUn ULoop a). split; [|cbn; lia].
    cbn [shaped]. split; [exists l; auto|auto].
Qed.

Lemma validate_iff : forall T, validate T = Ok tt <-> exists t, shaped T 0 0 t /\ length T = fsize t.
Proof.
  intro T. unfold validate. split.
  - intro H. destruct (validateItem (S (length T)) T 0 0) as [pos| | |] eqn:E; try discriminate. cbn [obind] in H.
    destruct (Nat.eqb_spec pos (length T)); [|discriminate].
    apply validateItem_sound in E as (t & S & ->). exists t. split; auto.
  - intros (t & S & E). rewrite (validateItem_complete t) by (auto; lia). cbn [obind Nat.add].
    now rewrite <- E, Nat.eqb_refl.
Qed.

(** Positions past the end are a panic before fuel matters. *)
Lemma validateItem_fuel : forall fuel T i p, length T < i + fuel -> 1 <= fuel -> validateItem fuel T i p <> OutOfFuel.
Proof.
  induction fuel as [|f IH]; intros T i p Hf H1; [lia|]. cbn [validateItem].
  destruct (idx T i) as [d| | |] eqn:Ed; try discriminate.
  2:{ unfold idx in Ed. destruct (nth_error T i); discriminate. }
  assert (i < length T) as Hi.
  { unfold idx in Ed. destruct (nth_error T i) eqn:En; [|discriminate]. apply nth_error_Some. congruence. }
  cbn [obind]. destruct (negb _); [discriminate|].
  assert (forall nt : ntype,
    (if Nat.leb (n_left d) 0 || Nat.leb (length T) (n_left d) then Err
     else if (if hasRight nt then Nat.leb (n_right d) 0 || Nat.leb (length T) (n_right d) else negb (Nat.eqb (n_right d) 0)) then Err
     else do pos <- validateItem f T (S i) i; if hasRight nt then validateItem f T pos i else Ok pos) <> OutOfFuel) as K.
  { intro nt. destruct (Nat.leb _ 0 || _); [discriminate|]. destruct (if hasRight nt then _ else _); [discriminate|].
    pose proof (IH T (S i) i ltac:(lia) ltac:(lia)) as X.
    destruct (validateItem f T (S i) i) as [q| | |] eqn:E; try discriminate; try congruence. cbn [obind].
    destruct (hasRight nt); [|discriminate].
    apply validateItem_sound in E as (t & _ & ->). apply IH; lia. }
  destruct (n_type d); [discriminate|apply K..].
Qed.

Lemma validate_fuel : forall T, validate T <> OutOfFuel.
Proof.
  intro T. unfold validate.
  pose proof (validateItem_fuel (S (length T)) T 0 0 ltac:(lia) ltac:(lia)) as H.
  destruct (validateItem (S (length T)) T 0 0); try discriminate; try congruence. cbn [obind].
  destruct (Nat.eqb _ _); discriminate.
Qed.

(** ** Merged expressions *)

Definition clear_at (r : nat -> option bool) (i : nat) (t : form) : Prop :=
  forall j, i <= j < i + fsize t -> ~ In j (lpos i t) -> ~ In j (atoms i t) -> r j = None.

Lemma mbuckets_range : forall es e i k f, In (k, f) (mbuckets i e es) ->
  i <= k /\ k + fsize f <= i + fsize (merged e es).
Proof.
  induction es as [|e' es IH]; intros e i k f H; cbn [mbuckets merged] in *.
  - destruct H as [H|[]]. inversion H; subst. lia.
  - cbn [fsize]. destruct H as [H|H]; [inversion H; subst; lia|]. apply IH in H. lia.
Qed.

Lemma merged_part : forall es e r i k f, on_atoms r i (merged e es) -> In (k, f) (mbuckets i e es) -> on_atoms r k f.
Proof.
  induction es as [|e' es IH]; intros e r i k f HA H; cbn [mbuckets merged] in *.
  - destruct H as [H|[]]. inversion H; subst. auto.
  - apply on_atoms_bin in HA as (_ & H1 & H2). destruct H as [H|H]; [inversion H; subst; auto|]. eauto.
Qed.

(** Neor nodes themselves are never reported. *)
Fixpoint neors_clear (r : nat -> option bool) (i : nat) (e : form) (es : list form) : Prop :=
  match es with
  | [] => True
  | e' :: q => r i = None /\ neors_clear r (S i + fsize e) e' q
  end.

Lemma on_atoms_neors : forall es e r i, on_atoms r i (merged e es) -> neors_clear r i e es.
Proof.
  induction es as [|e' es IH]; intros e r i HA; cbn [neors_clear merged] in *; auto.
  apply on_atoms_bin in HA as (H0 & _ & H2). auto.
Qed.

Lemma closes_bin : forall r r' i o a b, closes r r' i (FBin o a b) ->
  closes r r' (S i) a /\ closes r r' (S i + fsize a) b /\ (r i = None -> r' i = None).
Proof.
  intros r r' i o a b HC. split; [|split].
  - intros j Hj; destruct (HC j ltac:(cbn; lia)) as [E1|(E1 & E2 & X)]; [auto|].
    right; repeat split; auto; cbn [lpos] in X; apply in_app_iff in X as [X|X]; auto; apply lpos_range in X; lia.
  - intros j Hj; destruct (HC j ltac:(cbn; lia)) as [E1|(E1 & E2 & X)]; [auto|].
    right; repeat split; auto; cbn [lpos] in X; apply in_app_iff in X as [X|X]; auto; apply lpos_range in X; lia.
  - intro E. destruct (HC i ltac:(cbn; lia)) as [E1|(_ & _ & X)]; [congruence|].
    cbn [lpos] in X. apply in_app_iff in X as [X|X]; apply lpos_range in X; lia.
Qed.

Lemma closes_neors : forall es e r r' i, closes r r' i (merged e es) -> neors_clear r i e es -> neors_clear r' i e es.
Proof.
  induction es as [|e' es IH]; intros e r r' i HC HN; cbn [neors_clear merged] in *; auto.
  apply closes_bin in HC as (_ & H2 & H3). destruct HN. split; eauto.
Qed.

Lemma closes_part : forall es e r r' i k f, closes r r' i (merged e es) -> In (k, f) (mbuckets i e es) -> closes r r' k f.
Proof.
  induction es as [|e' es IH]; intros e r r' i k f HC H; cbn [mbuckets merged] in *.
  - destruct H as [H|[]]. inversion H; subst. auto.
  - apply closes_bin in HC as (H1 & H2 & _). destruct H as [H|H]; [inversion H; subst; auto|]. eauto.
Qed.

Lemma INV_part : forall es e d r i k f, INV d r i (merged e es) -> neors_clear r i e es ->
  In (k, f) (mbuckets i e es) -> INV d r k f.
Proof.
  induction es as [|e' es IH]; intros e d r i k f HI HN H; cbn [mbuckets merged neors_clear] in *.
  - destruct H as [H|[]]. inversion H; subst. auto.
  - destruct HN as [H0 HN]. cbn [INV] in HI.
    assert (INV d r (S i) e /\ INV d r (S i + fsize e) (merged e' es)) as [I1 I2].
    { destruct HI as [(_ & _ & HI)|(v & _ & _ & _ & HI)]; auto. }
    destruct H as [H|H]; [inversion H; subst; auto|]. eauto.
Qed.

Fixpoint all_some (l : list (option bool)) : option (list bool) :=
  match l with
  | [] => Some []
  | Some b :: r => match all_some r with Some q => Some (b :: q) | None => None end
  | None :: _ => None
  end.

Lemma ov_merged : forall es e r i, neors_clear r i e es ->
  ov r i (merged e es) = match all_some (map (fun kf => ov r (fst kf) (snd kf)) (mbuckets i e es)) with
                         | Some l => Some (existsb (fun b => b) l) | None => None end.
Proof.
  induction es as [|e' es IH]; intros e r i HN; cbn [mbuckets merged neors_clear map all_some fst snd] in *.
  - destruct (ov r i e) as [b|]; cbn; auto. now rewrite orb_false_r.
  - destruct HN as [H0 HN]. cbn [ov]. rewrite H0. rewrite IH by auto.
    destruct (ov r (S i) e) as [b|]; cbn; auto.
    destruct (all_some _); cbn; auto.
Qed.

Lemma feval_merged : forall es e r i,
  feval r i (merged e es) = existsb (fun kf => feval r (fst kf) (snd kf)) (mbuckets i e es).
Proof.
  induction es as [|e' es IH]; intros e r i; cbn [mbuckets merged existsb fst snd].
  - now rewrite orb_false_r.
  - cbn [feval b_bin]. now rewrite IH.
Qed.

Lemma all_some_forall : forall l q, all_some l = Some q -> l = map Some q.
Proof.
  induction l as [|[b|] l IH]; intros q H; cbn in H; try discriminate.
  - inversion H. reflexivity.
  - destruct (all_some l) as [q'|] eqn:E; [|discriminate]. inversion H; subst. cbn. f_equal. auto.
Qed.

Lemma all_some_some : forall l, (forall x, In x l -> x <> None) -> all_some l <> None.
Proof.
  induction l as [|[b|] l IH]; intros H; cbn.
  - discriminate.
  - specialize (IH (fun x Hx => H x (or_intror Hx))). destruct (all_some l); congruence.
  - exfalso. now apply (H None (or_introl eq_refl)).
Qed.

(** ** Waiting is needed *)

Lemma beval_ext : forall t v v' i, (forall j, i <= j < i + fsize t -> v' j = v j) -> beval v' i t = beval v i t.
Proof.
  induction t as [|[] a IH|o a IHa c IHc]; intros v v' i H; cbn [beval fsize] in *.
  - apply H. lia.
  - rewrite (IH v); auto. intros. apply H. lia.
  - apply H. pose proof (fsize_pos a). lia.
  - rewrite (IHa v), (IHc v); auto; intros; apply H; lia.
Qed.

Lemma keval_open : forall t r i, neor_free t = true -> keval r i t = None ->
  forall b, exists v, (forall k x, r k = Some x -> v k = x) /\ beval v i t = b.
Proof.
  assert (forall r : nat -> option bool, exists v, forall k x, r k = Some x -> v k = x) as CP.
  { intro r. exists (fun k => match r k with Some x => x | None => false end). intros k x E. now rewrite E. }
  induction t as [|[] a IH|o a IHa c IHc]; intros r i HN HK b; cbn [keval beval neor_free] in *.
  - exists (fun k => match r k with Some x => x | None => b end).
    split; [intros k x E; now rewrite E|now rewrite HK].
  - destruct (keval r (S i) a) as [y|] eqn:E; [discriminate|].
    destruct (IH r (S i) HN E (negb b)) as (v & Hv & Eb). exists v. split; auto. rewrite Eb. apply negb_involutive.
  - exists (fun k => match r k with Some x => x | None => b end).
    split; [intros k x E; now rewrite E|now rewrite HK].
  - assert (neor_free a = true /\ neor_free c = true) as [Na Nc].
    { destruct o; try discriminate; now apply andb_true_iff. }
    assert (forall va vc, (forall k x, r k = Some x -> va k = x) -> (forall k x, r k = Some x -> vc k = x) ->
      exists v, (forall k x, r k = Some x -> v k = x) /\
        b_bin o (beval v (S i) a) (beval v (S i + fsize a) c) = b_bin o (beval va (S i) a) (beval vc (S i + fsize a) c)) as GL.
    { intros va vc Ha Hc. exists (fun k => if Nat.ltb k (S i + fsize a) then va k else vc k). split.
      - intros k x E. destruct (Nat.ltb k _); auto.
      - rewrite (beval_ext a va), (beval_ext c vc); auto; intros j Hj;
          destruct (Nat.ltb_spec j (S i + fsize a)); auto; lia. }
    destruct (CP r) as (w & Hw).
    assert (forall y, exists va, (forall k x, r k = Some x -> va k = x) /\
      match keval r (S i) a with Some z => beval va (S i) a = z | None => beval va (S i) a = y end) as KA.
    { intro y. destruct (keval r (S i) a) as [z|] eqn:E; [|apply IHa; auto]. exists w. split; auto.
      eapply keval_beval; [|exact E]. auto. }
    assert (forall y, exists vc, (forall k x, r k = Some x -> vc k = x) /\
      match keval r (S i + fsize a) c with Some z => beval vc (S i + fsize a) c = z | None => beval vc (S i + fsize a) c = y end) as KC.
    { intro y. destruct (keval r (S i + fsize a) c) as [z|] eqn:E; [|apply IHc; auto]. exists w. split; auto.
      eapply keval_beval; [|exact E]. auto. }
    destruct (KA b) as (va & Ha & Ea). destruct (KC b) as (vc & Hc & Ec).
    destruct (GL va vc Ha Hc) as (v & Hv & Ev). exists v. split; auto. rewrite Ev.
    destruct (keval r (S i) a) as [y|]; destruct (keval r (S i + fsize a) c) as [z|];
      rewrite Ea, Ec; destruct o; try destruct y; try destruct z; try discriminate; destruct b; reflexivity.
Qed.
