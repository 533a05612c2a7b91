(** Proofs about the literal readers. *)
From Verif Require Import Base MTokenizer SJson PTokenizer MLit SUnicode.
From Coq Require Import List NArith ZArith Arith Lia Bool.
From Coq Require Import ZifyBool ZifyN ZifyNat.
Import ListNotations.
Open Scope N_scope.

(** ** UTF-8 *)

Lemma below_enum : forall (P : N -> Prop) (n : nat),
  (forall k, (k < n)%nat -> P (N.of_nat k)) -> forall x, x < N.of_nat n -> P x.
Proof.
  intros P n H x Hx. rewrite <- (N2Nat.id x). apply H. lia.
Qed.

Lemma lor_tbl : forall a n, forallb (fun k => N.eqb (N.lor a (N.of_nat k)) (a + N.of_nat k)) (seq 0 n) = true ->
  forall x, x < N.of_nat n -> N.lor a x = a + x.
Proof.
  intros a n H. apply below_enum. intros k Hk.
  rewrite forallb_forall in H. apply N.eqb_eq. apply H. apply in_seq. lia.
Qed.

Lemma lor128 : forall x, x < 64 -> N.lor 128 x = 128 + x.
Proof. exact (lor_tbl 128 64 eq_refl). Qed.
Lemma lor192 : forall x, x < 32 -> N.lor 192 x = 192 + x.
Proof. exact (lor_tbl 192 32 eq_refl). Qed.
Lemma lor224 : forall x, x < 16 -> N.lor 224 x = 224 + x.
Proof. exact (lor_tbl 224 16 eq_refl). Qed.
Lemma lor240 : forall x, x < 8 -> N.lor 240 x = 240 + x.
Proof. exact (lor_tbl 240 8 eq_refl). Qed.

Lemma land63 : forall x, N.land x 63 = x mod 64.
Proof. intro. change 63 with (N.ones 6). now rewrite N.land_ones. Qed.

Lemma encodeRune_utf8 : forall u, scalar u -> encodeRune u = utf8 u.
Proof.
  intros u Hu. unfold scalar in Hu. unfold encodeRune, utf8.
  destruct (u <? 128) eqn:E1.
  { replace (u <=? 127) with true by lia. reflexivity. }
  replace (u <=? 127) with false by lia.
  rewrite !N.shiftr_div_pow2.
  change (2 ^ 6) with 64. change (2 ^ 12) with 4096. change (2 ^ 18) with 262144.
  destruct (u <? 2048) eqn:E2.
  { replace (u <=? 2047) with true by lia.
    rewrite land63, lor128, lor192; auto.
    - apply N.div_lt_upper_bound; lia.
    - apply N.mod_lt; lia. }
  replace (u <=? 2047) with false by lia.
  replace ((1114111 <? u) || ((55296 <=? u) && (u <=? 57343))) with false by lia.
  cbv zeta.
  destruct (u <? 65536) eqn:E3.
  - replace (u <=? 65535) with true by lia.
    rewrite !land63, !lor128, lor224; auto; try (apply N.mod_lt; lia).
    apply N.div_lt_upper_bound; lia.
  - replace (u <=? 65535) with false by lia.
    rewrite !land63, !lor128, lor240; auto; try (apply N.mod_lt; lia).
    apply N.div_lt_upper_bound; lia.
Qed.

Lemma encodeRune_length : forall r, (1 <= length (encodeRune r) <= 4)%nat.
Proof.
  intro r. unfold encodeRune.
  destruct (r <=? 127); [cbn; lia|]. destruct (r <=? 2047); [cbn; lia|].
  cbv zeta.
  destruct ((1114111 <? r) || ((55296 <=? r) && (r <=? 57343))).
  - change (65533 <=? 65535) with true. cbn; lia.
  - destruct (r <=? 65535); cbn; lia.
Qed.

Lemma encodeRune_bmp_length : forall r, r <= 65535 -> (length (encodeRune r) <= 3)%nat.
Proof.
  intros r Hr. unfold encodeRune.
  destruct (r <=? 127); [cbn; lia|]. destruct (r <=? 2047); [cbn; lia|].
  cbv zeta.
  destruct ((1114111 <? r) || ((55296 <=? r) && (r <=? 57343))).
  - change (65533 <=? 65535) with true. cbn; lia.
  - destruct (r <=? 65535) eqn:E; cbn; lia.
Qed.

Lemma utf8_no_backslash : forall u, u <> 92 -> Forall (fun c => c <> 92) (utf8 u).
Proof.
  intros u Hu. unfold utf8.
  destruct (u <? 128); [repeat constructor; auto|].
  destruct (u <? 2048); [repeat constructor; lia|].
  destruct (u <? 65536); repeat constructor; lia.
Qed.

(** ** Hexadecimal escapes *)

Lemma h2I_hexval : forall c k, h2I c = Some k <-> hexval c k.
Proof.
  intros c k. unfold h2I. split.
  - destruct ((48 <=? c) && (c <=? 57)) eqn:E1.
    { intro H. inversion H; subst. replace c with (48 + (c - 48)) at 1 by lia. apply hv_digit. lia. }
    destruct ((65 <=? c) && (c <=? 70)) eqn:E2.
    { intro H. inversion H; subst. replace c with (55 + (c - 65 + 10)) at 1 by lia. apply hv_upper. lia. }
    destruct ((97 <=? c) && (c <=? 102)) eqn:E3.
    { intro H. inversion H; subst. replace c with (87 + (c - 97 + 10)) at 1 by lia. apply hv_lower. lia. }
    discriminate.
  - intro H. destruct H.
    + replace ((48 <=? 48 + k) && (48 + k <=? 57)) with true by lia. f_equal. lia.
    + replace ((48 <=? 55 + k) && (55 + k <=? 57)) with false by lia.
      replace ((65 <=? 55 + k) && (55 + k <=? 70)) with true by lia. f_equal. lia.
    + replace ((48 <=? 87 + k) && (87 + k <=? 57)) with false by lia.
      replace ((65 <=? 87 + k) && (87 + k <=? 70)) with false by lia.
      replace ((97 <=? 87 + k) && (87 + k <=? 102)) with true by lia. f_equal. lia.
Qed.

Lemma hexval_lt : forall c k, hexval c k -> k < 16.
Proof. intros c k H. destruct H; lia. Qed.

(** [dsingle b1 b2 x u]: four hex digits after two arbitrary bytes. *)
Lemma decodeSingle_iff : forall inp u,
  decodeSingleUnicodeEscape inp = Some u <->
  exists b1 b2 c1 c2 c3 c4 k1 k2 k3 k4 r,
    inp = b1 :: b2 :: c1 :: c2 :: c3 :: c4 :: r /\
    hexval c1 k1 /\ hexval c2 k2 /\ hexval c3 k3 /\ hexval c4 k4 /\
    u = 4096 * k1 + 256 * k2 + 16 * k3 + k4.
Proof.
  intros inp u. unfold decodeSingleUnicodeEscape. split.
  - destruct inp as [|b1 [|b2 [|c1 [|c2 [|c3 [|c4 r]]]]]]; try discriminate.
    destruct (h2I c1) as [k1|] eqn:E1; [|discriminate].
    destruct (h2I c2) as [k2|] eqn:E2; [|discriminate].
    destruct (h2I c3) as [k3|] eqn:E3; [|discriminate].
    destruct (h2I c4) as [k4|] eqn:E4; [|discriminate].
    intro H. inversion H; subst. exists b1, b2, c1, c2, c3, c4, k1, k2, k3, k4, r.
    rewrite !N.shiftl_mul_pow2.
    change (2 ^ 12) with 4096. change (2 ^ 8) with 256. change (2 ^ 4) with 16.
    apply h2I_hexval in E1, E2, E3, E4. repeat (split; [first [reflexivity|assumption]|]). lia.
  - intros (b1 & b2 & c1 & c2 & c3 & c4 & k1 & k2 & k3 & k4 & r & -> & H1 & H2 & H3 & H4 & ->).
    apply h2I_hexval in H1, H2, H3, H4. rewrite H1, H2, H3, H4.
    rewrite !N.shiftl_mul_pow2. change (2 ^ 12) with 4096. change (2 ^ 8) with 256. change (2 ^ 4) with 16. f_equal. lia.
Qed.

Lemma decodeSingle_ucode : forall x u r, ucode x u -> decodeSingleUnicodeEscape (x ++ r) = Some u.
Proof.
  intros x u r H. destruct H. apply decodeSingle_iff.
  exists 92, 117, c1, c2, c3, c4, k1, k2, k3, k4, r. auto 10.
Qed.

Lemma ucode_range : forall x u, ucode x u -> u <= 65535.
Proof.
  intros x u H. destruct H.
  apply hexval_lt in H, H0, H1, H2. lia.
Qed.

Lemma ucode_len : forall x u, ucode x u -> length x = 6%nat.
Proof. intros x u H. now destruct H. Qed.

Lemma ucode_head : forall x u, ucode x u -> exists y, x = 92 :: 117 :: y.
Proof. intros x u H. destruct H. eauto. Qed.

(** ** Buffer-free decoding *)

(** One escape sequence, ignoring the output buffer. *)
Definition esc1 (inp : bytes) : option (nat * bytes) :=
  match inp with
  | c0 :: e :: _ =>
      if negb (c0 =? 92) then None
      else match backslashCharEscape e with
           | Some b => Some (2%nat, [b])
           | None => if e =? 117 then
                       match decodeUnicodeEscape inp with
                       | None => None
                       | Some (r, n) => Some (n, encodeRune r)
                       end
                     else None
           end
  | _ => None
  end.

Lemma decodeUnicodeEscape_bounds : forall inp r n,
  decodeUnicodeEscape inp = Some (r, n) ->
  (n <= length inp)%nat /\ (length (encodeRune r) <= n)%nat /\ (2 <= n)%nat.
Proof.
  intros inp r n H. unfold decodeUnicodeEscape in H.
  destruct (decodeSingleUnicodeEscape inp) as [u|] eqn:E; [|discriminate].
  assert (6 <= length inp)%nat as L.
  { apply decodeSingle_iff in E. destruct E as (?&?&?&?&?&?&?&?&?&?&?&->&_). cbn. lia. }
  destruct ((u <=? 65535) && negb (isUTF16EncodedRune u)) eqn:Eb.
  - inversion H; subst. pose proof (encodeRune_length r). lia.
  - destruct (decodeSingleUnicodeEscape (skipn 6 inp)) as [u2|] eqn:E2; [|discriminate].
    destruct (u2 <? 56320); [discriminate|]. inversion H; subst.
    assert (6 <= length (skipn 6 inp))%nat as L2.
    { apply decodeSingle_iff in E2. destruct E2 as (?&?&?&?&?&?&?&?&?&?&?&->&_). cbn. lia. }
    rewrite skipn_length in L2.
    pose proof (encodeRune_length (combineUTF16Surrogates u u2)). lia.
Qed.

Lemma esc1_bounds : forall inp n bs,
  esc1 inp = Some (n, bs) -> (n <= length inp)%nat /\ (length bs <= n)%nat /\ (2 <= n)%nat.
Proof.
  intros inp n bs H. unfold esc1 in H. destruct inp as [|c0 [|e r]]; try discriminate.
  destruct (negb (c0 =? 92)); [discriminate|].
  destruct (backslashCharEscape e) as [b|].
  - inversion H; subst. cbn. lia.
  - destruct (e =? 117); [|discriminate].
    destruct (decodeUnicodeEscape (c0 :: e :: r)) as [[r0 n0]|] eqn:E; [|discriminate].
    inversion H; subst. eapply decodeUnicodeEscape_bounds; eauto.
Qed.

Lemma unescapeToUTF8_esc1 : forall inp avail,
  (length inp <= avail)%nat -> unescapeToUTF8 inp avail = Ok (esc1 inp).
Proof.
  intros inp avail H. unfold unescapeToUTF8, esc1.
  destruct inp as [|c0 [|e r]]; auto.
  destruct (negb (c0 =? 92)); auto.
  destruct (backslashCharEscape e) as [b|].
  - cbn in H. destruct avail; [lia|reflexivity].
  - destruct (e =? 117); auto.
    destruct (decodeUnicodeEscape (c0 :: e :: r)) as [[r0 n0]|] eqn:E; auto.
    apply decodeUnicodeEscape_bounds in E.
    replace (Nat.leb (length (encodeRune r0)) avail) with true; auto.
    symmetry. apply Nat.leb_le. lia.
Qed.

Fixpoint dec (fuel : nat) (inp : bytes) : option bytes :=
  match inp with
  | [] => Some []
  | c :: r =>
      match fuel with
      | O => None
      | S f =>
          if c =? 92 then
            match esc1 inp with
            | None => None
            | Some (n, bs) => option_map (app bs) (dec f (skipn n inp))
            end
          else option_map (cons c) (dec f r)
      end
  end.

Lemma dec_S_plain : forall f c r, c <> 92 -> dec (S f) (c :: r) = option_map (cons c) (dec f r).
Proof. intros. cbn [dec]. now replace (c =? 92) with false by lia. Qed.

Lemma dec_S_esc : forall f r,
  dec (S f) (92 :: r) = match esc1 (92 :: r) with
                        | None => None
                        | Some (n, bs) => option_map (app bs) (dec f (skipn n (92 :: r)))
                        end.
Proof. reflexivity. Qed.

Lemma dec_mono : forall f1 f2 inp, (length inp <= f1)%nat -> (length inp <= f2)%nat ->
  dec f1 inp = dec f2 inp.
Proof.
  induction f1 as [|f1 IH]; intros f2 inp H1 H2.
  - destruct inp; [|cbn in H1; lia]. destruct f2; reflexivity.
  - destruct inp as [|c r]; [destruct f2; reflexivity|].
    destruct f2 as [|f2]; [cbn in H2; lia|]. cbn [dec].
    destruct (c =? 92) eqn:Ec.
    + destruct (esc1 (c :: r)) as [[n bs]|] eqn:E; auto.
      apply esc1_bounds in E as (E1 & E2 & E3).
      rewrite (IH f2); auto; rewrite skipn_length; cbn [length] in *; lia.
    + rewrite (IH f2); auto; cbn [length] in *; lia.
Qed.

Lemma dec_length : forall f inp d, dec f inp = Some d -> (length d <= length inp)%nat.
Proof.
  induction f as [|f IH]; intros inp d H.
  - destruct inp; inversion H; subst; cbn; lia.
  - destruct inp as [|c r]; [inversion H; subst; cbn; lia|]. cbn [dec] in H.
    destruct (c =? 92).
    + destruct (esc1 (c :: r)) as [[n bs]|] eqn:E; [|discriminate].
      apply esc1_bounds in E as (E1 & E2 & E3).
      destruct (dec f (skipn n (c :: r))) as [d'|] eqn:Ed; [|discriminate].
      apply IH in Ed. rewrite skipn_length in Ed. cbn [option_map] in H.
      inversion H; subst. rewrite app_length. lia.
    + destruct (dec f r) as [d'|] eqn:Ed; [|discriminate]. apply IH in Ed.
      inversion H; subst. cbn. lia.
Qed.

(** Decoding a chunk without backslashes copies it. *)
Lemma dec_plain : forall a b f, Forall (fun c => c <> 92) a -> (length (a ++ b) <= f)%nat ->
  dec f (a ++ b) = option_map (app a) (dec f b).
Proof.
  induction a as [|c a IH]; intros b f Ha Hf; cbn [app].
  - destruct (dec f b); reflexivity.
  - inversion Ha; subst. destruct f as [|f]; [cbn in Hf; lia|]. rewrite dec_S_plain by auto.
    cbn [app length] in Hf. rewrite IH; auto; [|lia].
    rewrite (dec_mono f (S f) b); [|rewrite app_length in Hf; lia..]. destruct (dec (S f) b); reflexivity.
Qed.

Lemma indexByte_none : forall l c, indexByte l c = None -> Forall (fun x => x <> c) l.
Proof.
  induction l as [|x l IH]; cbn; intros c H; constructor.
  - destruct (x =? c) eqn:E; [discriminate|]. lia.
  - destruct (x =? c); [discriminate|]. destruct (indexByte l c) eqn:E; [discriminate|]. auto.
Qed.

Lemma indexByte_some : forall l c n, indexByte l c = Some n ->
  (n < length l)%nat /\ Forall (fun x => x <> c) (firstn n l) /\ exists r, skipn n l = c :: r.
Proof.
  induction l as [|x l IH]; cbn; intros c n H; [discriminate|].
  destruct (x =? c) eqn:E.
  - inversion H; subst. cbn. repeat split; try lia; [constructor|]. apply N.eqb_eq in E. subst. eauto.
  - destruct (indexByte l c) as [m|] eqn:Em; [|discriminate]. inversion H; subst.
    destruct (IH _ _ Em) as (H1 & H2 & H3). cbn. repeat split; auto; try lia.
    constructor; auto. lia.
Qed.

Lemma blit_length : forall out o bs, (o + length bs <= length out)%nat -> length (blit out o bs) = length out.
Proof.
  intros. unfold blit. rewrite !app_length, firstn_length, skipn_length. lia.
Qed.

Lemma blit_firstn : forall out o bs, (o + length bs <= length out)%nat ->
  firstn (o + length bs) (blit out o bs) = firstn o out ++ bs.
Proof.
  intros. unfold blit. rewrite app_assoc. apply firstn_app_exact.
  rewrite app_length, firstn_length. lia.
Qed.

Definition head92 (inp : bytes) : Prop := match inp with [] => True | c :: _ => c = 92 end.

Lemma unescapeLoop_dec : forall fuel inp out o,
  (length inp <= fuel)%nat -> head92 inp -> (o <= length out)%nat ->
  (length inp <= length out - o)%nat ->
  match dec fuel inp with
  | Some d => exists out', unescapeLoop fuel inp out o = Ok (Some (o + length d)%nat, out')
                /\ firstn (o + length d) out' = firstn o out ++ d /\ length out' = length out
  | None => exists out', unescapeLoop fuel inp out o = Ok (None, out') /\ length out' = length out
  end.
Proof.
  induction fuel as [|fuel IH]; intros inp out o Hf Hh Ho Hlen.
  - destruct inp; [|cbn in Hf; lia]. cbn. exists out. rewrite Nat.add_0_r, app_nil_r. auto.
  - destruct inp as [|c r]; [cbn; exists out; rewrite Nat.add_0_r, app_nil_r; auto|].
    cbn in Hh. subst c. cbn [dec unescapeLoop]. change (92 =? 92) with true. cbv iota.
    rewrite unescapeToUTF8_esc1 by lia.
    destruct (esc1 (92 :: r)) as [[n bs]|] eqn:E; [|eauto].
    apply esc1_bounds in E as (E1 & E2 & E3).
    set (inp1 := skipn n (92 :: r)) in *.
    assert (length inp1 = length (92%N :: r) - n)%nat as Li by apply skipn_length.
    assert (length (blit out o bs) = length out) as Lb by (apply blit_length; lia).
    cbv zeta.
    destruct (indexByte inp1 92) as [nb|] eqn:En.
    + apply indexByte_some in En as (N1 & N2 & r' & N3).
      assert (length (firstn nb inp1) = nb) as Lc by (rewrite firstn_length; lia).
      replace (Nat.leb (length (firstn nb inp1)) (length (blit out o bs) - (o + length bs))) with true
        by (symmetry; apply Nat.leb_le; lia).
      set (o2 := (o + length bs + length (firstn nb inp1))%nat).
      set (out2 := blit (blit out o bs) (o + length bs) (firstn nb inp1)).
      assert (length out2 = length out) as L2 by (unfold out2; rewrite blit_length; lia).
      assert (length (skipn nb inp1) = length inp1 - nb)%nat as Ls by apply skipn_length.
      specialize (IH (skipn nb inp1) out2 o2).
      assert (dec fuel inp1 = option_map (app (firstn nb inp1)) (dec fuel (skipn nb inp1))) as Ed.
      { rewrite <- (firstn_skipn nb inp1) at 1. apply dec_plain; auto.
        rewrite firstn_skipn. lia. }
      rewrite Ed.
      assert (firstn o2 out2 = firstn o out ++ bs ++ firstn nb inp1) as Ef.
      { unfold o2, out2. rewrite blit_firstn by lia. rewrite blit_firstn by lia. now rewrite app_assoc. }
      destruct (dec fuel (skipn nb inp1)) as [d|].
      * destruct IH as (out' & H1 & H2 & H3); try lia. { rewrite N3. cbn. auto. }
        exists out'. cbn [option_map]. rewrite !app_length. split; [|split].
        -- rewrite H1. do 3 f_equal. unfold o2. lia.
        -- replace (o + (length bs + (length (firstn nb inp1) + length d)))%nat with (o2 + length d)%nat
             by (unfold o2; lia).
           rewrite H2, Ef, <- !app_assoc. reflexivity.
        -- congruence.
      * destruct IH as (out' & H1 & H2); try lia. { rewrite N3. cbn. auto. }
        exists out'. split; [exact H1|congruence].
    + apply indexByte_none in En.
      assert (dec fuel inp1 = Some inp1) as Ed.
      { rewrite <- (app_nil_r inp1) at 1. rewrite dec_plain; auto.
        - destruct fuel; cbn; now rewrite app_nil_r.
        - rewrite app_nil_r. lia. }
      rewrite Ed. cbn [option_map].
      replace (Nat.leb (length inp1) (length (blit out o bs) - (o + length bs))) with true
        by (symmetry; apply Nat.leb_le; lia).
      exists (blit (blit out o bs) (o + length bs) inp1). rewrite app_length. split; [|split].
      * do 3 f_equal. lia.
      * rewrite Nat.add_assoc, blit_firstn by lia. rewrite blit_firstn by lia. now rewrite app_assoc.
      * rewrite blit_length; lia.
Qed.

(** The buffered implementation computes the buffer-free decoding, never panics,
    and keeps the scratch buffer's length. *)
Lemma unescape_dec : forall inp scratch,
  exists s', unescapeJsonString inp scratch
    = Ok (Unesc (dec (length inp) inp) s'
                (match indexByte inp 92 with None => false | Some _ => Nat.leb (length inp) (length scratch) end))
    /\ length s' = length scratch
    /\ ((exists c, indexByte inp 92 = Some c) -> (length inp <= length scratch)%nat ->
        forall d, dec (length inp) inp = Some d -> firstn (length d) s' = d).
Proof.
  intros inp scratch. unfold unescapeJsonString.
  destruct (indexByte inp 92) as [fb|] eqn:E.
  - apply indexByte_some in E as (E1 & E2 & r & E3).
    set (out := if Nat.leb (length inp) (length scratch) then firstn (length inp) scratch else repeat 0 (length inp)).
    assert (length out = length inp) as Lo.
    { unfold out. destruct (Nat.leb_spec (length inp) (length scratch)).
      - rewrite firstn_length. lia.
      - apply repeat_length. }
    assert (length (firstn fb inp) = fb) as Lc by (rewrite firstn_length; lia).
    cbv zeta.
    assert (length (blit out 0 (firstn fb inp)) = length inp) as Lb by (rewrite blit_length; lia).
    pose proof (unescapeLoop_dec (length inp) (skipn fb inp) (blit out 0 (firstn fb inp)) fb) as L.
    rewrite skipn_length, Lb in L. specialize (L ltac:(lia)).
    assert (head92 (skipn fb inp)) as Hh by (rewrite E3; cbn; auto).
    specialize (L Hh ltac:(lia) ltac:(lia)).
    assert (dec (length inp) inp = option_map (app (firstn fb inp)) (dec (length inp) (skipn fb inp))) as Ed.
    { rewrite <- (firstn_skipn fb inp) at 2. apply dec_plain; auto. rewrite firstn_skipn. lia. }
    rewrite Ed.
    destruct (dec (length inp) (skipn fb inp)) as [d|].
    + destruct L as (out' & -> & L2 & L3). eexists. split; [|split].
      * f_equal. cbn [option_map]. f_equal. f_equal. rewrite L2.
        rewrite <- Lc at 1. change (length (firstn fb inp)) with (0 + length (firstn fb inp))%nat.
        rewrite blit_firstn by lia. reflexivity.
      * destruct (Nat.leb_spec (length inp) (length scratch)); auto.
        rewrite app_length, skipn_length. lia.
      * intros _ Hle d' Hd'. cbn [option_map] in Hd'. inversion Hd'; subst d'. clear Hd'.
        replace (Nat.leb (length inp) (length scratch)) with true by (symmetry; now apply Nat.leb_le).
        rewrite app_length, Lc. rewrite firstn_app.
        assert (fb + length d <= length out')%nat as Hb.
        { assert (length (firstn (fb + length d) out') = length (firstn fb (blit out 0 (firstn fb inp)) ++ d)) as X
            by now rewrite L2.
          rewrite app_length, !firstn_length in X. lia. }
        replace (fb + length d - length out')%nat with 0%nat by lia. cbn [firstn]. rewrite app_nil_r, L2.
        rewrite <- Lc at 1. change (length (firstn fb inp)) with (0 + length (firstn fb inp))%nat.
        rewrite blit_firstn by lia. reflexivity.
    + destruct L as (out' & -> & L3). eexists. split; [reflexivity|split].
      * destruct (Nat.leb_spec (length inp) (length scratch)); auto.
        rewrite app_length, skipn_length. lia.
      * discriminate.
  - eexists. split; [|split; [reflexivity|]].
    + do 2 f_equal. symmetry. rewrite <- (app_nil_r inp) at 2. apply indexByte_none in E.
      rewrite dec_plain; auto; [|rewrite app_nil_r; lia].
      destruct (length inp); cbn; now rewrite app_nil_r.
    + intros [c Hc]. discriminate.
Qed.

(** ** C06: memory safety *)
Lemma unescape_safe : forall inp scratch,
  exists u, unescapeJsonString inp scratch = Ok u
    /\ length (u_scratch u) = length scratch
    /\ (forall r, u_res u = Some r -> (length r <= length inp)%nat).
Proof.
  intros inp scratch. destruct (unescape_dec inp scratch) as (s' & E & L & _).
  eexists. split; [exact E|]. cbn. split; auto. intros r Hr. eapply dec_length; eauto.
Qed.

(** ** C05: unescaping inverts escaping *)

Lemma spell_dec : forall x u, spell x u -> forall xs f,
  (length (x ++ xs) <= f)%nat -> dec f (x ++ xs) = option_map (app (utf8 u)) (dec f xs).
Proof.
  intros x u H xs f Hf. destruct H.
  - apply dec_plain; auto. now apply utf8_no_backslash.
  - destruct f as [|f]; [cbn in Hf; lia|]. cbn [app]. rewrite dec_S_esc.
    assert (esc1 (92 :: c :: xs) = Some (2%nat, [u]) /\ utf8 u = [u]) as [-> ->].
    { cbn in H. repeat (destruct H as [H|H]; [inversion H; subst; split; reflexivity|]). destruct H. }
    cbn [skipn]. rewrite (dec_mono f (S f)); [reflexivity| |]; cbn in Hf; lia.
  - pose proof (ucode_len _ _ H) as L. pose proof (ucode_range _ _ H) as R.
    destruct f as [|f]; [rewrite app_length in Hf; lia|].
    destruct (ucode_head _ _ H) as [y ->]. cbn [app]. rewrite dec_S_esc.
    assert (esc1 (92 :: 117 :: y ++ xs) = Some (6%nat, utf8 u)) as ->.
    { cbn [esc1]. change (backslashCharEscape 117) with (@None N). cbn -[decodeUnicodeEscape].
      unfold decodeUnicodeEscape.
      pose proof (decodeSingle_ucode _ _ xs H) as D. cbn [app] in D. rewrite D.
      unfold isUTF16EncodedRune. unfold scalar in H0.
      replace ((u <=? 65535) && _) with true by lia. now rewrite encodeRune_utf8. }
    change (92 :: 117 :: y ++ xs) with ((92 :: 117 :: y) ++ xs).
    rewrite skipn_app_exact by auto. rewrite app_length in Hf.
    rewrite (dec_mono f (S f)); [reflexivity| |]; lia.
  - pose proof (ucode_len _ _ H1) as L1. pose proof (ucode_len _ _ H2) as L2.
    destruct f as [|f]; [rewrite !app_length in Hf; lia|].
    set (hi := 55296 + (u - 65536) / 1024) in *. set (lo := 56320 + (u - 65536) mod 1024) in *.
    assert ((u - 65536) / 1024 < 1024) as Bh by (apply N.div_lt_upper_bound; lia).
    assert ((u - 65536) mod 1024 < 1024) as Bl by (apply N.mod_lt; lia).
    assert (combineUTF16Surrogates hi lo = u) as Ec.
    { unfold combineUTF16Surrogates, hi, lo. rewrite N.shiftl_mul_pow2. change (2 ^ 10) with 1024.
      pose proof (N.div_mod (u - 65536) 1024 ltac:(lia)) as D. lia. }
    pose proof (decodeSingle_ucode _ _ (xl ++ xs) H1) as D1.
    pose proof (decodeSingle_ucode _ _ xs H2) as D2.
    rewrite <- app_assoc. rewrite <- app_assoc in Hf.
    assert (skipn 6 (xh ++ xl ++ xs) = xl ++ xs) as Sk by (apply skipn_app_exact; auto).
    assert (skipn 12 (xh ++ xl ++ xs) = xs) as Sk2.
    { rewrite app_assoc. apply skipn_app_exact. rewrite app_length. lia. }
    destruct (ucode_head _ _ H1) as [y ->]. cbn [app] in *. rewrite dec_S_esc.
    assert (esc1 (92 :: 117 :: y ++ xl ++ xs) = Some (12%nat, utf8 u)) as ->.
    { cbn [esc1]. change (backslashCharEscape 117) with (@None N). cbn -[decodeUnicodeEscape].
      unfold decodeUnicodeEscape. rewrite D1.
      unfold isUTF16EncodedRune.
      replace ((hi <=? 65535) && _) with false by lia.
      rewrite Sk, D2. replace (lo <? 56320) with false by lia.
      rewrite Ec, encodeRune_utf8; auto. unfold scalar. lia. }
    rewrite Sk2. cbn [length] in Hf. rewrite !app_length in Hf.
    rewrite (dec_mono f (S f)); [reflexivity| |]; lia.
Qed.

Lemma spells_dec : forall x us, spells x us -> forall f, (length x <= f)%nat -> dec f x = Some (utf8s us).
Proof.
  induction 1 as [|x u xs us Hx Hxs IH]; intros f Hf.
  - destruct f; reflexivity.
  - rewrite (spell_dec _ _ Hx) by auto. rewrite IH; [|rewrite app_length in Hf; lia].
    reflexivity.
Qed.

Lemma unescape_spells : forall x us scratch,
  spells x us -> exists u, unescapeJsonString x scratch = Ok u /\ u_res u = Some (utf8s us).
Proof.
  intros x us scratch H. destruct (unescape_dec x scratch) as (s' & E & _).
  eexists. split; [exact E|]. cbn. now apply spells_dec.
Qed.

(** ** C07: which escapes are accepted *)

(** What the implementation really accepts: like the legal spellings, except that
    the two bytes between the halves of a surrogate pair are arbitrary, either
    half may come first, and the second may be any code >= DC00. *)
Inductive lax : bytes -> Prop :=
| lax_nil : lax []
| lax_plain : forall c r, c <> 92 -> lax r -> lax (c :: r)
| lax_short : forall c r, In c [34; 92; 47; 98; 102; 110; 114; 116] -> lax r -> lax (92 :: c :: r)
| lax_u : forall x u r, ucode x u -> scalar u -> lax r -> lax (x ++ r)
| lax_sur : forall x1 u1 b1 b2 y u2 r, ucode x1 u1 -> 55296 <= u1 <= 57343 ->
    ucode (92 :: 117 :: y) u2 -> 56320 <= u2 -> lax r -> lax (x1 ++ b1 :: b2 :: y ++ r).

Lemma bslash_iff : forall c, (exists b, backslashCharEscape c = Some b) <-> In c [34; 92; 47; 98; 102; 110; 114; 116].
Proof.
  intro c. unfold backslashCharEscape. cbn [In].
  repeat match goal with |- context [c =? ?k] => destruct (c =? k) eqn:? end;
    (split; [intros _; lia | intros _; eauto]) || (split; [intros [b Hb]; discriminate | intro; lia]).
Qed.

Lemma dec_lax : forall f inp, (length inp <= f)%nat -> (exists d, dec f inp = Some d) -> lax inp.
Proof.
  induction f as [|f IH]; intros inp Hf [d Hd].
  - destruct inp; [constructor|cbn in Hf; lia].
  - destruct inp as [|c r]; [constructor|]. cbn [dec] in Hd.
    destruct (c =? 92) eqn:Ec.
    + apply N.eqb_eq in Ec. subst c.
      destruct (esc1 (92 :: r)) as [[n bs]|] eqn:E; [|discriminate].
      pose proof (esc1_bounds _ _ _ E) as (B1 & B2 & B3).
      assert (lax (skipn n (92 :: r))) as Hr.
      { apply IH. { rewrite skipn_length. cbn [length] in *. lia. }
        destruct (dec f (skipn n (92 :: r))); [eauto|discriminate]. }
      clear IH Hd. unfold esc1 in E. destruct r as [|e r]; [discriminate|].
      change (negb (92 =? 92)) with false in E. cbv iota in E.
      destruct (backslashCharEscape e) as [b|] eqn:Eb.
      * inversion E; subst. cbn [skipn] in Hr. apply lax_short; auto. apply bslash_iff. eauto.
      * destruct (e =? 117) eqn:Eu; [|discriminate]. apply N.eqb_eq in Eu. subst e.
        destruct (decodeUnicodeEscape (92 :: 117 :: r)) as [[rn n0]|] eqn:Ed; [|discriminate].
        inversion E; subst n0 bs. clear E. unfold decodeUnicodeEscape in Ed.
        destruct (decodeSingleUnicodeEscape (92 :: 117 :: r)) as [u|] eqn:D1; [|discriminate].
        apply decodeSingle_iff in D1.
        destruct D1 as (b1&b2&c1&c2&c3&c4&k1&k2&k3&k4&r1&Eq&H1&H2&H3&H4&Hu).
        inversion Eq; subst b1 b2 r. clear Eq.
        assert (ucode [92; 117; c1; c2; c3; c4] u) as Huc by (subst u; now constructor).
        assert (u <= 65535) as Hub by (eapply ucode_range; eauto).
        destruct ((u <=? 65535) && negb (isUTF16EncodedRune u)) eqn:Eb2.
        -- inversion Ed; subst n. cbn [skipn] in Hr.
           apply (lax_u [92; 117; c1; c2; c3; c4] u); auto.
           unfold isUTF16EncodedRune in Eb2. unfold scalar. lia.
        -- cbn [skipn] in Ed.
           destruct (decodeSingleUnicodeEscape r1) as [u2|] eqn:D2; [|discriminate].
           destruct (u2 <? 56320) eqn:Elt; [discriminate|]. inversion Ed; subst n.
           apply decodeSingle_iff in D2.
           destruct D2 as (b1'&b2'&c1'&c2'&c3'&c4'&k1'&k2'&k3'&k4'&r1'&->&H1'&H2'&H3'&H4'&Hu').
           cbn [skipn] in Hr.
           apply (lax_sur [92; 117; c1; c2; c3; c4] u b1' b2' [c1'; c2'; c3'; c4'] u2); auto.
           ++ unfold isUTF16EncodedRune in Eb2. lia.
           ++ subst u2. now constructor.
           ++ lia.
    + apply lax_plain; [lia|]. apply IH. { cbn in Hf. lia. }
      destruct (dec f r); [eauto|discriminate].
Qed.

Lemma lax_dec : forall inp, lax inp -> forall f, (length inp <= f)%nat -> exists d, dec f inp = Some d.
Proof.
  induction 1; intros f Hf.
  - destruct f; cbn; eauto.
  - destruct f as [|f]; [cbn in Hf; lia|]. cbn [dec]. replace (c =? 92) with false by lia.
    destruct (IHlax f) as [d ->]. { cbn in Hf. lia. } cbn. eauto.
  - destruct f as [|f]; [cbn in Hf; lia|]. rewrite dec_S_esc.
    apply bslash_iff in H as [b Hb]. cbn [esc1]. change (negb (92 =? 92)) with false. cbv iota.
    rewrite Hb. cbn [skipn]. destruct (IHlax f) as [d ->]. { cbn in Hf. lia. } cbn. eauto.
  - rewrite (spell_dec x u) by (auto using sp_ucode).
    destruct (IHlax f) as [d ->]. { rewrite app_length in Hf. lia. } cbn. eauto.
  - pose proof (ucode_len _ _ H) as L1. pose proof (ucode_len _ _ H1) as L2.
    pose proof (ucode_range _ _ H) as R1.
    destruct f as [|f]; [rewrite app_length in Hf; lia|].
    pose proof (decodeSingle_ucode _ _ (b1 :: b2 :: y ++ r) H) as D1.
    assert (decodeSingleUnicodeEscape (b1 :: b2 :: y ++ r) = Some u2) as D2.
    { inversion H1; subst. cbn [app]. apply decodeSingle_iff. repeat eexists; eauto. }
    assert (skipn 6 (x1 ++ b1 :: b2 :: y ++ r) = b1 :: b2 :: y ++ r) as Sk by (apply skipn_app_exact; auto).
    assert (skipn 12 (x1 ++ b1 :: b2 :: y ++ r) = r) as Sk2.
    { replace (x1 ++ b1 :: b2 :: y ++ r) with ((x1 ++ b1 :: b2 :: y) ++ r)
        by (rewrite <- app_assoc; reflexivity).
      apply skipn_app_exact. rewrite app_length. cbn in *. lia. }
    destruct (ucode_head _ _ H) as [y1 ->]. cbn [app] in *. rewrite dec_S_esc.
    assert (esc1 (92 :: 117 :: y1 ++ b1 :: b2 :: y ++ r)
            = Some (12%nat, encodeRune (combineUTF16Surrogates u1 u2))) as ->.
    { cbn [esc1]. change (backslashCharEscape 117) with (@None N). cbn -[decodeUnicodeEscape encodeRune combineUTF16Surrogates].
      unfold decodeUnicodeEscape. rewrite D1. unfold isUTF16EncodedRune.
      replace ((u1 <=? 65535) && _) with false by lia.
      rewrite Sk, D2. now replace (u2 <? 56320) with false by lia. }
    rewrite Sk2. destruct (IHlax f) as [d ->]; [|cbn; eauto].
    cbn [length] in Hf. rewrite app_length in Hf. cbn [length] in Hf. rewrite app_length in Hf. lia.
Qed.

Lemma unescape_accepts_iff : forall inp scratch,
  (exists u r, unescapeJsonString inp scratch = Ok u /\ u_res u = Some r) <-> lax inp.
Proof.
  intros inp scratch. destruct (unescape_dec inp scratch) as (s' & E & _). split.
  - intros (u & r & Hu & Hr). rewrite E in Hu. inversion Hu; subst. cbn in Hr.
    eapply dec_lax; eauto.
  - intro H. destruct (lax_dec _ H (length inp) (Nat.le_refl _)) as [d Hd].
    eexists _, d. split; [exact E|]. exact Hd.
Qed.

(** ** C08: integer literals *)

Lemma wrap64_id : forall z, in_int64 z -> wrap64 z = z.
Proof.
  intros z H. unfold wrap64, in_int64 in *. rewrite Z.mod_small; lia.
Qed.

Lemma wrap64_eq : forall a b, ((a - b) mod 2 ^ 64 = 0)%Z -> wrap64 a = wrap64 b.
Proof.
  intros a b H. unfold wrap64. f_equal.
  apply Z.mod_divide in H; [|lia]. destruct H as [k Hk].
  replace (a + 2 ^ 63)%Z with (b + 2 ^ 63 + k * 2 ^ 64)%Z by lia.
  apply Z.mod_add. lia.
Qed.

Lemma wrap64_cong : forall z, exists k, wrap64 z = (z + k * 2 ^ 64)%Z.
Proof.
  intro z. unfold wrap64. exists (- ((z + 2 ^ 63) / 2 ^ 64))%Z.
  pose proof (Z.div_mod (z + 2 ^ 63) (2 ^ 64) ltac:(lia)). lia.
Qed.

Lemma wrap64_range : forall z, in_int64 (wrap64 z).
Proof.
  intro z. unfold wrap64, in_int64.
  pose proof (Z.mod_pos_bound (z + 2 ^ 63) (2 ^ 64) ltac:(lia)). lia.
Qed.

Lemma wrap64_opp : forall z, wrap64 (- wrap64 z) = wrap64 (- z).
Proof.
  intro z. destruct (wrap64_cong z) as [k Hk]. apply wrap64_eq.
  replace (- wrap64 z - - z)%Z with ((- k) * 2 ^ 64)%Z by lia. apply Z.mod_mul. lia.
Qed.

Lemma dec_val_wrap : forall l a b, (exists k, a = b + k * 2 ^ 64)%Z ->
  exists k, (dec_val a l = dec_val b l + k * 2 ^ 64)%Z.
Proof.
  induction l as [|c l IH]; intros a b [k Hk]; cbn [dec_val]; [eauto|].
  apply IH. exists (10 * k)%Z. lia.
Qed.

Lemma parseDigits_val : forall l v,
  Forall digit l -> v = wrap64 v ->
  parseDigits v l = Some (wrap64 (dec_val v l)).
Proof.
  induction l as [|c l IH]; intros v Hl Hv; cbn [parseDigits dec_val].
  - now rewrite <- Hv.
  - inversion Hl; subst. unfold digit in H1.
    replace ((48 <=? c) && (c <=? 57)) with true by lia.
    rewrite IH; auto.
    + f_equal. apply wrap64_eq.
      replace (Z.of_N (c - 48)) with (Z.of_N c - 48)%Z by lia.
      destruct (dec_val_wrap l (wrap64 (10 * v + (Z.of_N c - 48))) (10 * v + (Z.of_N c - 48))) as [k Hk].
      { apply wrap64_cong. }
      rewrite Hk. replace (_ - _)%Z with (k * 2 ^ 64)%Z by lia. apply Z.mod_mul. lia.
    + symmetry. apply wrap64_id. apply wrap64_range.
Qed.

Lemma nat_part_digits : forall l, nat_part l -> Forall digit l.
Proof.
  intros l H. destruct H; constructor; auto; unfold digit, digit19 in *; lia.
Qed.

Lemma nat_part_head : forall l, nat_part l -> exists c r, l = c :: r /\ c <> 45.
Proof.
  intros l H. destruct H; eexists _, _; split; eauto; unfold digit19 in *; lia.
Qed.

Lemma parseInt_wraps : forall l, int_part l -> parseInt l = wrap64 (int_val l).
Proof.
  intros l H. destruct H as [n Hn|n Hn].
  - destruct (nat_part_head _ Hn) as (c & r & -> & Hc). unfold parseInt.
    replace (c =? 45) with false by lia.
    rewrite parseDigits_val; auto using nat_part_digits.
    f_equal. unfold int_val. destruct c as [|p]; auto.
    repeat (destruct p as [p|p|]; auto; try congruence).
  - unfold parseInt. change (45 =? 45) with true. cbv iota.
    rewrite parseDigits_val; auto using nat_part_digits.
    cbn [int_val]. apply wrap64_opp.
Qed.

Lemma parseInt_exact : forall l, int_part l -> in_int64 (int_val l) -> parseInt l = int_val l.
Proof.
  intros l H Hr. rewrite parseInt_wraps by auto. now apply wrap64_id.
Qed.
