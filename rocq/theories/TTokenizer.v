(** Final statements: tokenizer (C01-C04). *)
From Verif Require Import Base MTokenizer SJson PTokenizer.
From Coq Require Import String.
From Coq Require Import List NArith Arith Lia Bool.
Import ListNotations.
Open Scope N_scope.

(** C01.  For every JSON text (any tree, layout and spelling), stepping yields
    exactly its tokens with their bytes, then end-of-input forever. *)
Theorem C01_tokenize_json : forall w1 v w2,
  ws w1 -> wf_cst v -> ws w2 ->
  exists t', scan (length (ctoks v)) (tk_reset (doc_text w1 v w2)) = Some (ctoks v, t')
    /\ forall n, exists t'', scan n t' = Some (repeat (TEnd, []) n, t'').
Proof. exact tokenize_complete. Qed.
Print Assumptions C01_tokenize_json.

Example C01_case_wf : wf_cst ex_cst.
Proof.
  cbn. unfold ws, ws_char, key_kind, lit_kind. cbn.
  repeat match goal with
  | |- _ /\ _ => split
  | |- True => exact I
  | |- Forall _ _ => constructor
  | |- lex TString _ => apply (lx_string [97]); repeat constructor; lia
  | |- lex TEscString _ =>
      apply (lx_escstring [98; 92; 110]); apply sb_char; try lia; eapply sb_esc; [cbn; tauto|constructor]
  | |- lex TInteger _ => apply lx_integer, ip_pos; apply (np_pos 49 [50]); unfold digit19; [lia|repeat constructor; unfold digit; lia]
  | |- lex TNumber _ =>
      apply (lx_number [49] [46; 53] [101; 51]);
      [apply ip_pos, np_pos; unfold digit19; [lia|constructor]
      |apply fp_some; unfold digit; [lia|constructor]
      |apply ep_some; cbn; unfold digit; [tauto|lia|constructor]
      |discriminate]
  | |- lex TTrue _ => constructor
  | _ => tauto
  end; auto.
Qed.
Example C01_case : map fst (ctoks ex_cst)
  = [TObjectStart; TString; TObjectKeyDelim; TInteger; TListDelim; TEscString; TObjectKeyDelim;
     TArrayStart; TNumber; TListDelim; TTrue; TArrayEnd; TObjectEnd].
Proof. reflexivity. Qed.

(** C02.  On arbitrary bytes, an accepted token is the input between the
    reported start and the new position, is a legal lexeme of its kind, and only
    whitespace precedes it. *)
Theorem C02_token_sound : forall data pos t a b,
  (pos <= length data)%nat ->
  step data pos = SOk t a b ->
  exists w x tail, skipn pos data = w ++ x ++ tail /\ ws w /\ a = (pos + length w)%nat
    /\ b = (a + length x)%nat /\ slice data a b = x
    /\ (lex t x \/ (t = TEnd /\ x = [] /\ tail = [])).
Proof. exact step_sound. Qed.
Print Assumptions C02_token_sound.
Example C02_case : step (s2b "] } 12x""\u00e9""") 3 = SOk TInteger 4 6
  /\ step (s2b "] } 12x""\u00e9""") 7 = SOk TEscString 7 15
  /\ step (s2b "] } 12x""\u00e9""") 6 = SErr.
Proof. vm_compute. auto. Qed.

(** C03. *)
Theorem C03_step_progress : forall data pos t a b,
  (pos <= length data)%nat ->
  step data pos = SOk t a b ->
  (pos <= a <= b)%nat /\ (b <= length data)%nat /\ (t <> TEnd -> pos < b)%nat /\ (t = TEnd -> b = length data).
Proof. exact step_progress. Qed.
Print Assumptions C03_step_progress.

(** A scan of [n] steps from the start that never failed and never saw the end
    has [n <= length data]. *)
Theorem C03_scan_bound : forall n data l t',
  scan n (tk_reset data) = Some (l, t') -> ~ In TEnd (map fst l) ->
  (n <= length data)%nat /\ (tk_position t' <= length data)%nat.
Proof.
  intros n data l t' H Hl. unfold tk_position.
  destruct (scan_bound n data 0 l t' (Nat.le_0_l _) H Hl) as (H1 & _ & H3). lia.
Qed.
Print Assumptions C03_scan_bound.

(** A failing step leaves the object unchanged. *)
Theorem C03_error_keeps_position : forall t t', tk_step t = (None, t') -> t' = t.
Proof.
  intros t t' H. unfold tk_step in H. destruct (step (tk_data t) (tk_pos t)); congruence.
Qed.
Print Assumptions C03_error_keeps_position.
Example C03_case : exists l t', scan 3 (tk_reset (s2b "[1]")) = Some (l, t') /\ ~ In TEnd (map fst l).
Proof. eexists _, _. split; [vm_compute; reflexivity|]. cbn. intuition discriminate. Qed.
Example C03_case_err : tk_step (Tkn (s2b "[x") 1) = (None, Tkn (s2b "[x") 1).
Proof. reflexivity. Qed.

(** C04.  Seeking to an earlier position replays, whatever happened in between;
    seeking to a token's reported start re-reads it; only the bytes from the
    position on matter. *)
Theorem C04_seek_replays : forall ops t,
  tk_step (tk_seek (fold_left tk_do ops t) (tk_position t)) = tk_step t.
Proof. exact seek_replays. Qed.
Print Assumptions C04_seek_replays.

Theorem C04_seek_to_start : forall data pos t a b,
  (pos <= length data)%nat ->
  step data pos = SOk t a b -> step data a = SOk t a b.
Proof. exact step_restart. Qed.
Print Assumptions C04_seek_to_start.

Theorem C04_suffix_only : forall data pos,
  step data pos =
  match step (skipn pos data) 0 with
  | SOk t a b => SOk t (a + pos) (b + pos)
  | SErr => SErr
  end.
Proof. exact step_local. Qed.
Print Assumptions C04_suffix_only.
Example C04_case : step (s2b "[1,  true]") 3 = SOk TTrue 5 9 /\ step (s2b "[1,  true]") 5 = SOk TTrue 5 9.
Proof. vm_compute. auto. Qed.
