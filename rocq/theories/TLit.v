(** Final statements: string and integer literals (C05-C08). *)
From Verif Require Import Base MTokenizer SJson MLit SUnicode PTokenizer PLit.
From Coq Require Import String.
From Coq Require Import List NArith ZArith Arith Lia Bool.
Import ListNotations.
Open Scope N_scope.

(** C05.  Every legal spelling of a Unicode string decodes to its UTF-8 bytes,
    whatever scratch buffer is supplied. *)
Theorem C05_unescape_inverts_escaping : forall x us scratch,
  spells x us -> exists u, unescapeJsonString x scratch = Ok u /\ u_res u = Some (utf8s us).
Proof. exact unescape_spells. Qed.
Print Assumptions C05_unescape_inverts_escaping.

(** The same through [ParseEscString], which is handed the quoted literal. *)
Theorem C05_parse_escaped_literal : forall x us scratch,
  spells x us -> exists s' al, parseEscString (34 :: x ++ [34]) scratch = Ok (utf8s us, s', al).
Proof.
  intros x us scratch H. unfold parseEscString.
  assert (slice (34 :: x ++ [34]) 1 (length (34 :: x ++ [34]) - 1) = x) as ->.
  { unfold slice. cbn [length skipn]. rewrite app_length. cbn [length].
    apply firstn_app_exact. lia. }
  destruct (unescape_spells x us scratch H) as (u & -> & ->). eauto.
Qed.
Print Assumptions C05_parse_escaped_literal.
(** Non-vacuity: see [ex_spell1]-[ex_spell3] in SUnicode.v; and a run: *)
Example C05_case : exists u,
  unescapeJsonString (s2b "x\u00e9\n\ud83d\uDE00") (repeat 0 64) = Ok u
  /\ u_res u = Some ([120] ++ utf8 233 ++ [10] ++ utf8 128512).
Proof. eexists. split; vm_compute; reflexivity. Qed.

(** C06.  On arbitrary bytes and any scratch buffer the unescaper never panics,
    the scratch buffer keeps its size and the output is no longer than the
    input. *)
Theorem C06_unescape_memory_safe : forall inp scratch,
  exists u, unescapeJsonString inp scratch = Ok u
    /\ length (u_scratch u) = length scratch
    /\ (forall r, u_res u = Some r -> (length r <= length inp)%nat).
Proof. exact unescape_safe. Qed.
Print Assumptions C06_unescape_memory_safe.
Example C06_case : exists u, unescapeJsonString (s2b "\ud800\u") (repeat 0 3) = Ok u /\ u_res u = None.
Proof. eexists. split; vm_compute; reflexivity. Qed.

(** C07 is false: the second half of a surrogate pair need not be a [\u]
    escape ... *)
Theorem C07_only_legal_escapes_refuted : exists x,
  (exists u r, unescapeJsonString x (repeat 0 64) = Ok u /\ u_res u = Some r)
  /\ ~ exists us, spells x us.
Proof.
  exists (s2b "\ud800xxdc00"). split.
  - eexists _, _. split; vm_compute; reflexivity.
  - change (s2b "\ud800xxdc00") with [92; 117; 100; 56; 48; 48; 120; 120; 100; 99; 48; 48].
    intros [us H]. inversion H as [|x u xs us' Hx Hxs E]; subst; clear H.
    destruct Hx as [u Hs Hge Hq Hb|c u Hin|x u Hc Hs|xh xl u H1 H2 H3 H4].
    + unfold utf8 in E. destruct (u <? 128); [cbn [app] in E; pose proof (f_equal (hd 0) E) as E0; cbn [hd] in E0; lia|].
      destruct (u <? 2048); [cbn [app] in E; pose proof (f_equal (hd 0) E) as E0; cbn [hd] in E0; lia|]. destruct (u <? 65536); cbn [app] in E; pose proof (f_equal (hd 0) E) as E0; cbn [hd] in E0; lia.
    + cbn in E. inversion E; subst. cbn in Hin. intuition discriminate.
    + destruct Hc. cbn in E. inversion E; subst. unfold scalar in Hs.
      apply h2I_hexval in H, H0, H1, H2. vm_compute in H, H0, H1, H2.
      inversion H; inversion H0; inversion H1; inversion H2; subst. lia.
    + rewrite <- app_assoc in E. destruct H3. cbn in E. inversion E; subst.
      destruct H4. discriminate.
Qed.
Print Assumptions C07_only_legal_escapes_refuted.

(** ... and the exact set of accepted bodies: as the JSON grammar, except that
    the two bytes before the second surrogate's hex digits are arbitrary and the
    two halves are only checked as "first in D800-DFFF, second at least DC00". *)
Theorem C07_accepted_escapes : forall inp scratch,
  (exists u r, unescapeJsonString inp scratch = Ok u /\ u_res u = Some r) <-> lax inp.
Proof. exact unescape_accepts_iff. Qed.
Print Assumptions C07_accepted_escapes.

(** A string literal the tokenizer accepts but whose escape is not decodable (a
    lone surrogate) is read as the empty string, so two different JSON strings
    become equal. *)
Theorem C07_bad_surrogate_reads_as_empty_refuted :
  exists l, step l 0 = SOk TEscString 0 (length l)
    /\ l <> s2b """""" /\ exists s al, parseEscString l (repeat 0 64) = Ok ([], s, al).
Proof.
  exists (s2b """a\ud800b"""). split; [reflexivity|split; [discriminate|]].
  eexists _, _. vm_compute. reflexivity.
Qed.
Print Assumptions C07_bad_surrogate_reads_as_empty_refuted.

(** C08.  An integer literal in range is read exactly ... *)
Theorem C08_integer_literal_exact : forall l,
  int_part l -> in_int64 (int_val l) -> parseInt l = int_val l.
Proof. exact parseInt_exact. Qed.
Print Assumptions C08_integer_literal_exact.
(** ... every other one is silently reduced modulo 2^64 ... *)
Theorem C08_integer_literal_wraps : forall l, int_part l -> parseInt l = wrap64 (int_val l).
Proof. exact parseInt_wraps. Qed.
Print Assumptions C08_integer_literal_wraps.
(** ... so "not silently read as some other integer" fails. *)
Theorem C08_out_of_range_refuted :
  exists l, int_part l /\ lex TInteger l /\ parseInt l <> int_val l /\ parseInt l = 0%Z.
Proof.
  exists (s2b "18446744073709551616").
  assert (int_part (s2b "18446744073709551616")) as H.
  { apply ip_pos. cbn. apply np_pos; unfold digit19, digit; [lia|].
    repeat (constructor; [lia|]). constructor. }
  split; [exact H|split; [now apply lx_integer|]]. vm_compute. split; [discriminate|reflexivity].
Qed.
Print Assumptions C08_out_of_range_refuted.
Example C08_case : int_part (s2b "-9223372036854775808") /\ in_int64 (int_val (s2b "-9223372036854775808"))
  /\ parseInt (s2b "-9223372036854775808") = (- 2 ^ 63)%Z.
Proof.
  split; [|split].
  - apply ip_neg. cbn. apply np_pos; unfold digit19, digit; [lia|].
    repeat (constructor; [lia|]). constructor.
  - unfold in_int64. vm_compute. intuition discriminate.
  - reflexivity.
Qed.
