(** Quoting (strconv.AppendQuote, as used by ToJsonString) is injective: the
    quoted form determines the original bytes. *)
From Verif Require Import Base MTokenizer MLit SUnicode PLit MFastVal.
From Coq Require Import List NArith ZArith Arith Lia Bool.
From Coq Require Import ZifyBool ZifyN ZifyNat.
Import ListNotations.
Open Scope N_scope.

(** Either the first byte is not the start of a valid encoding, or the input
    starts with the encoding of a scalar value. *)
Lemma decodeRune_cases : forall a r, a < 256 ->
  (128 <= a /\ decodeRune (a :: r) = (65533, 1%nat)) \/
  (exists u t, scalar u /\ a :: r = utf8 u ++ t /\ decodeRune (a :: r) = (u, length (utf8 u)) /\
               (length (utf8 u) = 1%nat -> a < 128)).
Proof.
  intros a r Ha. unfold decodeRune.
  destruct (N.ltb_spec a 128) as [L|L].
  { right. exists a, r. unfold utf8, scalar. replace (a <? 128) with true by lia.
    cbn. repeat split; auto; lia. }
  destruct ((194 <=? a) && (a <=? 223)) eqn:E2.
  { destruct r as [|b r]; [left; auto|]. unfold cont.
    destruct ((128 <=? b) && (b <=? 191)) eqn:Eb; [|left; auto].
    right. set (u := (a - 192) * 64 + (b - 128)). exists u, r.
    assert (U : utf8 u = [a; b]).
    { unfold utf8. replace (u <? 128) with false by lia. replace (u <? 2048) with true by lia.
      assert (u / 64 = a - 192) by (subst u; rewrite N.div_add_l by lia; rewrite N.div_small by lia; lia).
      assert (u mod 64 = b - 128) by (subst u; rewrite N.add_comm, N.mod_add by lia; apply N.mod_small; lia).
      repeat f_equal; lia. }
    rewrite U. unfold scalar. cbn. repeat split; try lia. }
  destruct ((224 <=? a) && (a <=? 239)) eqn:E3.
  { destruct r as [|b [|c r]]; try (left; auto; fail). unfold cont.
    destruct ((_ && _) && (_ && _)) eqn:Eb; [|left; auto].
    right. set (u := (a - 224) * 4096 + (b - 128) * 64 + (c - 128)). exists u, r.
    assert (B : 2048 <= u < 65536 /\ (u < 55296 \/ 57344 <= u) /\ 128 <= b <= 191 /\ 128 <= c <= 191).
    { destruct (N.eqb_spec a 224), (N.eqb_spec a 237); lia. }
    assert (U : utf8 u = [a; b; c]).
    { unfold utf8. replace (u <? 128) with false by lia. replace (u <? 2048) with false by lia.
      replace (u <? 65536) with true by lia.
      assert (u / 64 = (a - 224) * 64 + (b - 128)).
      { symmetry. apply (N.div_unique u 64 _ (c - 128)); lia. }
      assert (u / 4096 = a - 224).
      { symmetry. apply (N.div_unique u 4096 _ ((b - 128) * 64 + (c - 128))); lia. }
      assert (u mod 64 = c - 128).
      { symmetry. apply (N.mod_unique u 64 ((a - 224) * 64 + (b - 128))); lia. }
      assert (((a - 224) * 64 + (b - 128)) mod 64 = b - 128).
      { symmetry. apply (N.mod_unique _ 64 (a - 224)); lia. }
      rewrite H. repeat f_equal; lia. }
    rewrite U. unfold scalar. cbn. repeat split; try lia. }
  destruct ((240 <=? a) && (a <=? 244)) eqn:E4; [|left; auto].
  destruct r as [|b [|c [|d r]]]; try (left; auto; fail). unfold cont.
  destruct ((_ && _) && _ && _) eqn:Eb; [|left; auto].
  right. set (u := (a - 240) * 262144 + (b - 128) * 4096 + (c - 128) * 64 + (d - 128)). exists u, r.
  assert (B : 65536 <= u <= 1114111 /\ 128 <= b <= 191 /\ 128 <= c <= 191 /\ 128 <= d <= 191).
  { destruct (N.eqb_spec a 240), (N.eqb_spec a 244); lia. }
  assert (U : utf8 u = [a; b; c; d]).
  { unfold utf8. replace (u <? 128) with false by lia. replace (u <? 2048) with false by lia.
    replace (u <? 65536) with false by lia.
    assert (H : u / 64 = (a - 240) * 4096 + (b - 128) * 64 + (c - 128)).
    { symmetry. apply (N.div_unique u 64 _ (d - 128)); lia. }
    assert (H1 : u / 4096 = (a - 240) * 64 + (b - 128)).
    { symmetry. apply (N.div_unique u 4096 _ ((c - 128) * 64 + (d - 128))); lia. }
    assert (u / 262144 = a - 240).
    { symmetry. apply (N.div_unique u 262144 _ ((b - 128) * 4096 + (c - 128) * 64 + (d - 128))); lia. }
    assert (u mod 64 = d - 128).
    { symmetry. apply (N.mod_unique u 64 ((a - 240) * 4096 + (b - 128) * 64 + (c - 128))); lia. }
    assert (((a - 240) * 4096 + (b - 128) * 64 + (c - 128)) mod 64 = c - 128).
    { symmetry. apply (N.mod_unique _ 64 ((a - 240) * 64 + (b - 128))); lia. }
    assert (((a - 240) * 64 + (b - 128)) mod 64 = b - 128).
    { symmetry. apply (N.mod_unique _ 64 (a - 240)); lia. }
    rewrite H, H1. repeat f_equal; lia. }
  rewrite U. unfold scalar. cbn. repeat split; try lia.
Qed.

(** ** Reading one quoted unit back *)

Definition unhexd (c : N) : N := if c <? 58 then c - 48 else c - 87.

Lemma unhexd_hex : forall k, k < 16 -> unhexd (hexDigit k) = k.
Proof. intros k H. unfold unhexd, hexDigit. destruct (N.ltb_spec k 10); [replace (48 + k <? 58) with true by lia | replace (87 + k <? 58) with false by lia]; lia. Qed.

Fixpoint hexes (acc : N) (n : nat) (l : bytes) : N * bytes :=
  match n, l with
  | S m, c :: r => hexes (16 * acc + unhexd c) m r
  | _, _ => (acc, l)
  end.

Definition unit1 (l : bytes) : option (bytes * bytes) :=
  match l with
  | c :: rest =>
      if c =? 92 then
        match rest with
        | e :: s =>
            if e =? 34 then Some ([34], s) else if e =? 92 then Some ([92], s)
            else if e =? 97 then Some ([7], s) else if e =? 98 then Some ([8], s)
            else if e =? 102 then Some ([12], s) else if e =? 110 then Some ([10], s)
            else if e =? 114 then Some ([13], s) else if e =? 116 then Some ([9], s)
            else if e =? 118 then Some ([11], s)
            else if e =? 120 then let '(v, t) := hexes 0 2 s in Some ([v], t)
            else if e =? 117 then let '(v, t) := hexes 0 4 s in Some (utf8 v, t)
            else if e =? 85 then let '(v, t) := hexes 0 8 s in Some (utf8 v, t)
            else None
        | [] => None
        end
      else
        let n := if c <? 128 then 1%nat else if c <? 224 then 2%nat else if c <? 240 then 3%nat else 4%nat in
        Some (firstn n l, skipn n l)
  | [] => None
  end.

Lemma unit1_utf8 : forall u t, scalar u -> u <> 92 -> unit1 (utf8 u ++ t) = Some (utf8 u, t).
Proof.
  intros u t Hu H92. pose proof (utf8_no_backslash u H92) as NB.
  assert (Sh : exists c s, utf8 u = c :: s /\
    length (utf8 u) = (if (c <? 128)%N then 1%nat else if (c <? 224)%N then 2%nat else if (c <? 240)%N then 3%nat else 4%nat)).
  { unfold scalar in Hu. unfold utf8.
    destruct (N.ltb_spec u 128). { exists u, []. split; [reflexivity|]. replace (u <? 128) with true by lia. reflexivity. }
    destruct (N.ltb_spec u 2048).
    { eexists _, _. split; [reflexivity|].
      assert (u / 64 < 32) by (apply N.div_lt_upper_bound; lia).
      replace (192 + u / 64 <? 128) with false by lia. replace (192 + u / 64 <? 224) with true by lia. reflexivity. }
    destruct (N.ltb_spec u 65536).
    { eexists _, _. split; [reflexivity|].
      assert (u / 4096 < 16) by (apply N.div_lt_upper_bound; lia).
      replace (224 + u / 4096 <? 128) with false by lia. replace (224 + u / 4096 <? 224) with false by lia.
      replace (224 + u / 4096 <? 240) with true by lia. reflexivity. }
    eexists _, _. split; [reflexivity|].
    replace (240 + u / 262144 <? 128) with false by lia. replace (240 + u / 262144 <? 224) with false by lia.
    replace (240 + u / 262144 <? 240) with false by lia. reflexivity. }
  destruct Sh as (c & s & E & L).
  assert (Hc : c <> 92) by (rewrite E in NB; now inversion NB).
  assert (G : unit1 (utf8 u ++ t) = Some (firstn (length (utf8 u)) (utf8 u ++ t), skipn (length (utf8 u)) (utf8 u ++ t))).
  { rewrite L. rewrite E. cbn [app]. unfold unit1.
    replace (c =? 92) with false by lia. reflexivity. }
  rewrite G, firstn_app_exact, skipn_app_exact by reflexivity. reflexivity.
Qed.

Lemma hexes2 : forall a t, a < 256 -> hexes 0 2 (hexDigit (a / 16) :: hexDigit (a mod 16) :: t) = (a, t).
Proof.
  intros a t H. cbn [hexes].
  assert (a / 16 < 16) by (apply N.div_lt_upper_bound; lia).
  assert (a mod 16 < 16) by (apply N.mod_lt; lia).
  rewrite !unhexd_hex by assumption. f_equal.
  rewrite (N.div_mod a 16) at 3 by lia. lia.
Qed.

Lemma hexstep : forall u k, 16 * (u / (k * 16)) + (u / k) mod 16 = u / k.
Proof.
  intros u k. destruct (N.eq_dec k 0) as [->|K].
  - rewrite N.mul_0_l. replace (u / 0) with 0 by (now destruct u). reflexivity.
  - rewrite <- N.div_div by lia. symmetry. apply N.div_mod. lia.
Qed.

Lemma hexes4 : forall u t, u < 65536 ->
  hexes 0 4 (hexDigit (u / 4096) :: hexDigit ((u / 256) mod 16) :: hexDigit ((u / 16) mod 16) :: hexDigit (u mod 16) :: t) = (u, t).
Proof.
  intros u t H. cbn [hexes].
  assert (u / 4096 < 16) by (apply N.div_lt_upper_bound; lia).
  rewrite !unhexd_hex by (try assumption; apply N.mod_lt; lia). f_equal.
  rewrite N.mul_0_r, N.add_0_l.
  pose proof (hexstep u 256) as H1. pose proof (hexstep u 16) as H2. pose proof (hexstep u 1) as H3.
  rewrite N.div_1_r in H3.
  change (256 * 16) with 4096 in H1. change (16 * 16) with 256 in H2. change (1 * 16) with 16 in H3.
  rewrite H1, H2, H3. reflexivity.
Qed.

Lemma hexes8 : forall u t, u < 4294967296 ->
  hexes 0 8 (hexDigit (u / 268435456) :: hexDigit ((u / 16777216) mod 16) :: hexDigit ((u / 1048576) mod 16)
    :: hexDigit ((u / 65536) mod 16) :: hexDigit ((u / 4096) mod 16) :: hexDigit ((u / 256) mod 16)
    :: hexDigit ((u / 16) mod 16) :: hexDigit (u mod 16) :: t) = (u, t).
Proof.
  intros u t H. cbn [hexes].
  assert (u / 268435456 < 16) by (apply N.div_lt_upper_bound; lia).
  rewrite !unhexd_hex by (try assumption; apply N.mod_lt; lia). f_equal.
  rewrite N.mul_0_r, N.add_0_l.
  pose proof (hexstep u 16777216) as A1. pose proof (hexstep u 1048576) as A2.
  pose proof (hexstep u 65536) as A3. pose proof (hexstep u 4096) as A4.
  pose proof (hexstep u 256) as A5. pose proof (hexstep u 16) as A6. pose proof (hexstep u 1) as A7.
  rewrite N.div_1_r in A7.
  change (16777216 * 16) with 268435456 in A1. change (1048576 * 16) with 16777216 in A2.
  change (65536 * 16) with 1048576 in A3. change (4096 * 16) with 65536 in A4.
  change (256 * 16) with 4096 in A5. change (16 * 16) with 256 in A6. change (1 * 16) with 16 in A7.
  rewrite A1, A2, A3, A4, A5, A6, A7. reflexivity.
Qed.

Lemma unit1_hex : forall a t, a < 256 ->
  unit1 ([92; 120; hexDigit (a / 16); hexDigit (a mod 16)] ++ t) = Some ([a], t).
Proof.
  intros a t H. cbn [app]. unfold unit1.
  cbn [N.eqb Pos.eqb]. rewrite hexes2 by assumption. reflexivity.
Qed.

Lemma utf8_ascii : forall u, u < 128 -> utf8 u = [u].
Proof. intros u H. unfold utf8. now replace (u <? 128) with true by lia. Qed.

Lemma unit1_escaped : forall o u t, scalar u -> unit1 (escapedRune o u ++ t) = Some (utf8 u, t).
Proof.
  intros o u t Hu. unfold escapedRune.
  destruct ((u =? 34) || (u =? 92)) eqn:E0.
  { rewrite utf8_ascii by lia. cbn. destruct (N.eqb_spec u 34) as [->|]; [reflexivity|].
    destruct (N.eqb_spec u 92) as [->|]; [reflexivity|]. discriminate. }
  destruct (o_isPrint o u).
  { rewrite encodeRune_utf8 by assumption. apply unit1_utf8; [assumption|lia]. }
  destruct (N.eqb_spec u 7) as [->|]; [reflexivity|].
  destruct (N.eqb_spec u 8) as [->|]; [reflexivity|].
  destruct (N.eqb_spec u 12) as [->|]; [reflexivity|].
  destruct (N.eqb_spec u 10) as [->|]; [reflexivity|].
  destruct (N.eqb_spec u 13) as [->|]; [reflexivity|].
  destruct (N.eqb_spec u 9) as [->|]; [reflexivity|].
  destruct (N.eqb_spec u 11) as [->|]; [reflexivity|].
  destruct ((u <? 32) || (o_delX o && (u =? 127))) eqn:E1.
  { assert (u < 128) by (destruct (o_delX o); lia).
    rewrite unit1_hex by lia. now rewrite utf8_ascii. }
  destruct (N.ltb_spec u 65536).
  { cbn [app]. unfold unit1. cbn [N.eqb Pos.eqb]. rewrite hexes4 by assumption. reflexivity. }
  cbn [app]. unfold unit1. cbn [N.eqb Pos.eqb].
  rewrite hexes8 by (unfold scalar in Hu; lia). reflexivity.
Qed.

(** ** One step of quoting *)

(** [quote] consumes a non-empty prefix [p] and emits a unit that reads back as [p]. *)
Lemma quoteBody_step : forall o f a r, all_bytes (a :: r) ->
  exists p t c, p <> [] /\ a :: r = p ++ t /\ quoteBody o (S f) (a :: r) = c ++ quoteBody o f t /\
    (forall x, unit1 (c ++ x) = Some (p, x)).
Proof.
  intros o f a r Hb. cbn [quoteBody].
  assert (Ha : a < 256) by (inversion Hb; assumption).
  destruct (decodeRune_cases a r Ha) as [[G D]|(u & t & Hu & E & D & W)]; rewrite D.
  - replace (128 <=? a) with true by lia. cbn [Nat.eqb andb N.eqb Pos.eqb].
    exists [a], r, [92; 120; hexDigit (a / 16); hexDigit (a mod 16)].
    repeat split; [discriminate|]. intro x. now apply unit1_hex.
  - replace ((128 <=? a) && Nat.eqb (length (utf8 u)) 1 && (u =? 65533)) with false.
    + exists (utf8 u), t, (escapedRune o u). repeat split.
      * intro Z. rewrite Z in E. unfold utf8 in Z.
        destruct (u <? 128); [discriminate|]. destruct (u <? 2048); [discriminate|].
        destruct (u <? 65536); discriminate.
      * assumption.
      * rewrite E. rewrite skipn_app_exact by reflexivity. reflexivity.
      * intro x. now apply unit1_escaped.
    + destruct (Nat.eqb_spec (length (utf8 u)) 1) as [L|L].
      * specialize (W L). lia.
      * rewrite andb_false_r. reflexivity.
Qed.

Lemma all_bytes_suffix : forall p t, all_bytes (p ++ t) -> all_bytes t.
Proof. intros p t H. apply Forall_app in H. tauto. Qed.

Lemma quoteBody_inj : forall o f g a b, all_bytes a -> all_bytes b ->
  (length a <= f)%nat -> (length b <= g)%nat ->
  quoteBody o f a = quoteBody o g b -> a = b.
Proof.
  intros o f. induction f as [|f IH]; intros g a b Ha Hb La Lb E.
  - destruct a; [|cbn in La; lia]. destruct b as [|y b]; [reflexivity|]. exfalso.
    destruct g; [cbn in Lb; lia|].
    destruct (quoteBody_step o g y b Hb) as (p & t & c & _ & _ & Q & U). rewrite Q in E.
    specialize (U (quoteBody o g t)). rewrite <- E in U. discriminate.
  - destruct a as [|x a].
    { destruct b as [|y b]; [reflexivity|]. exfalso. destruct g; [cbn in Lb; lia|].
      destruct (quoteBody_step o g y b Hb) as (p & t & c & _ & _ & Q & U). rewrite Q in E.
      specialize (U (quoteBody o g t)). rewrite <- E in U. discriminate. }
    destruct (quoteBody_step o f x a Ha) as (p & t & c & Np & Ea & Q & U).
    destruct b as [|y b].
    { exfalso. rewrite Q in E. specialize (U (quoteBody o f t)). rewrite E in U. destruct g; discriminate. }
    destruct g as [|g]; [cbn in Lb; lia|].
    destruct (quoteBody_step o g y b Hb) as (p' & t' & c' & Np' & Eb & Q' & U').
    rewrite Q, Q' in E.
    specialize (U (quoteBody o f t)). specialize (U' (quoteBody o g t')). rewrite E in U. rewrite U in U'.
    inversion U' as [[P R]]. subst p'. rewrite Ea, Eb. f_equal.
    apply (IH g); [| | | |assumption].
    + rewrite Ea in Ha. now apply all_bytes_suffix in Ha.
    + rewrite Eb in Hb. now apply all_bytes_suffix in Hb.
    + apply (f_equal (@length N)) in Ea. rewrite app_length in Ea. cbn in Ea, La.
      destruct p; [congruence|]. cbn in Ea. lia.
    + apply (f_equal (@length N)) in Eb. rewrite app_length in Eb. cbn in Eb, Lb.
      destruct p; [congruence|]. cbn in Eb. lia.
Qed.

Lemma quote_inj : forall o a b, all_bytes a -> all_bytes b -> quote o a = quote o b -> a = b.
Proof. intros. eapply quoteBody_inj; try eassumption; auto. Qed.
