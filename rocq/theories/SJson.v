(** Specification: the JSON grammar (RFC 8259), written independently of the
    tokenizer.  Lexical grammar first, then concrete syntax trees that record the
    exact spelling and whitespace of a document. *)
From Verif Require Import Base MTokenizer.
From Coq Require Import String.
From Coq Require Import List NArith Arith Lia Bool.
Import ListNotations.
Open Scope N_scope.

(** ** Lexical grammar *)

Definition ws_char (c : N) : Prop := In c [32; 9; 10; 13].
Definition ws (w : bytes) : Prop := Forall ws_char w.

Definition digit (c : N) : Prop := 48 <= c <= 57.
Definition digit19 (c : N) : Prop := 49 <= c <= 57.
Definition hexdig (c : N) : Prop := 48 <= c <= 57 \/ 97 <= c <= 102 \/ 65 <= c <= 70.

(** Body of a string literal (between the quotes); the flag says whether it
    contains an escape sequence. *)
Inductive sbody : bool -> bytes -> Prop :=
| sb_nil : sbody false []
| sb_char : forall c e b, 32 <= c -> c <> 34 -> c <> 92 -> sbody e b -> sbody e (c :: b)
| sb_esc : forall c e b, In c [34; 92; 47; 98; 102; 110; 114; 116] ->
    sbody e b -> sbody true (92 :: c :: b)
| sb_u : forall h1 h2 h3 h4 e b, hexdig h1 -> hexdig h2 -> hexdig h3 -> hexdig h4 ->
    sbody e b -> sbody true (92 :: 117 :: h1 :: h2 :: h3 :: h4 :: b).

Inductive nat_part : bytes -> Prop :=
| np_zero : nat_part [48]
| np_pos : forall d ds, digit19 d -> Forall digit ds -> nat_part (d :: ds).

Inductive int_part : bytes -> Prop :=
| ip_pos : forall n, nat_part n -> int_part n
| ip_neg : forall n, nat_part n -> int_part (45 :: n).

Inductive frac_part : bytes -> Prop :=
| fp_none : frac_part []
| fp_some : forall d ds, digit d -> Forall digit ds -> frac_part (46 :: d :: ds).

Inductive exp_part : bytes -> Prop :=
| ep_none : exp_part []
| ep_some : forall e d ds, In e [101; 69] -> digit d -> Forall digit ds ->
    exp_part (e :: d :: ds)
| ep_sign : forall e s d ds, In e [101; 69] -> In s [43; 45] -> digit d -> Forall digit ds ->
    exp_part (e :: s :: d :: ds).

(** [lex t l]: the bytes [l] are a lexeme of kind [t]. *)
Inductive lex : tok -> bytes -> Prop :=
| lx_lbrace : lex TObjectStart [123]
| lx_rbrace : lex TObjectEnd [125]
| lx_colon : lex TObjectKeyDelim [58]
| lx_lbrack : lex TArrayStart [91]
| lx_rbrack : lex TArrayEnd [93]
| lx_comma : lex TListDelim [44]
| lx_string : forall b, sbody false b -> lex TString (34 :: b ++ [34])
| lx_escstring : forall b, sbody true b -> lex TEscString (34 :: b ++ [34])
| lx_integer : forall i, int_part i -> lex TInteger i
| lx_number : forall i f e, int_part i -> frac_part f -> exp_part e -> f ++ e <> [] ->
    lex TNumber (i ++ f ++ e)
| lx_null : lex TNull [110; 117; 108; 108]
| lx_true : lex TTrue [116; 114; 117; 101]
| lx_false : lex TFalse [102; 97; 108; 115; 101].

(** Kinds of tokens that are complete JSON values by themselves. *)
Definition lit_kind (t : tok) : Prop :=
  In t [TString; TEscString; TInteger; TNumber; TNull; TTrue; TFalse].
Definition key_kind (t : tok) : Prop := In t [TString; TEscString].
Definition num_kind (t : tok) : Prop := In t [TInteger; TNumber].

(** ** Concrete syntax trees *)

(** One array element: whitespace before the separating comma (unused for the
    first element), whitespace before the element, the element. *)
Record elt (A : Type) := Elt { e_wc : bytes; e_wl : bytes; e_v : A }.
Arguments Elt {A} _ _ _.
Arguments e_wc {A} _.
Arguments e_wl {A} _.
Arguments e_v {A} _.

(** One object member: whitespace before the separating comma (unused for the
    first), before the key, the key token, whitespace before the colon, before
    the value, the value. *)
Record mem (A : Type) :=
  Mem { m_wc : bytes; m_wk : bytes; m_kt : tok; m_kx : bytes; m_wd : bytes; m_wv : bytes; m_v : A }.
Arguments Mem {A} _ _ _ _ _ _ _.
Arguments m_wc {A} _.
Arguments m_wk {A} _.
Arguments m_kt {A} _.
Arguments m_kx {A} _.
Arguments m_wd {A} _.
Arguments m_wv {A} _.
Arguments m_v {A} _.

Inductive cst : Type :=
| CLit (t : tok) (lx : bytes)
| CArr (es : list (elt cst)) (wclose : bytes)
| CObj (ms : list (mem cst)) (wclose : bytes).

Section CstInd.
  Variable P : cst -> Prop.
  Hypothesis Hlit : forall t lx, P (CLit t lx).
  Hypothesis Harr : forall es w, Forall (fun e => P (e_v e)) es -> P (CArr es w).
  Hypothesis Hobj : forall ms w, Forall (fun m => P (m_v m)) ms -> P (CObj ms w).
  Fixpoint cst_ind' (v : cst) : P v :=
    match v with
    | CLit t lx => Hlit t lx
    | CArr es w => Harr es w
        ((fix go es : Forall (fun e => P (e_v e)) es :=
            match es with
            | [] => Forall_nil _
            | e :: r => Forall_cons e (cst_ind' (e_v e)) (go r)
            end) es)
    | CObj ms w => Hobj ms w
        ((fix go ms : Forall (fun m => P (m_v m)) ms :=
            match ms with
            | [] => Forall_nil _
            | m :: r => Forall_cons m (cst_ind' (m_v m)) (go r)
            end) ms)
    end.
End CstInd.

(** Tokens of a document with the whitespace in front of each. *)
Definition wtok := (bytes * (tok * bytes))%type.

Definition comma_of (first : bool) (wc : bytes) : list wtok :=
  if first then [] else [(wc, (TListDelim, [44]))].

(** [wtoks w v]: the tokens of [v], the first of which is preceded by [w]. *)
Fixpoint wtoks (w : bytes) (v : cst) : list wtok :=
  match v with
  | CLit t lx => [(w, (t, lx))]
  | CArr es wcl =>
      (w, (TArrayStart, [91]))
      :: (fix go (first : bool) es :=
            match es with
            | [] => []
            | e :: r => comma_of first (e_wc e) ++ wtoks (e_wl e) (e_v e) ++ go false r
            end) true es
      ++ [(wcl, (TArrayEnd, [93]))]
  | CObj ms wcl =>
      (w, (TObjectStart, [123]))
      :: (fix go (first : bool) ms :=
            match ms with
            | [] => []
            | m :: r =>
                comma_of first (m_wc m)
                ++ (m_wk m, (m_kt m, m_kx m)) :: (m_wd m, (TObjectKeyDelim, [58]))
                :: wtoks (m_wv m) (m_v m) ++ go false r
            end) true ms
      ++ [(wcl, (TObjectEnd, [125]))]
  end.

Fixpoint elts_toks (first : bool) (es : list (elt cst)) : list wtok :=
  match es with
  | [] => []
  | e :: r => comma_of first (e_wc e) ++ wtoks (e_wl e) (e_v e) ++ elts_toks false r
  end.

Fixpoint mems_toks (first : bool) (ms : list (mem cst)) : list wtok :=
  match ms with
  | [] => []
  | m :: r =>
      comma_of first (m_wc m)
      ++ (m_wk m, (m_kt m, m_kx m)) :: (m_wd m, (TObjectKeyDelim, [58]))
      :: wtoks (m_wv m) (m_v m) ++ mems_toks false r
  end.

Lemma wtoks_arr : forall w es wcl,
  wtoks w (CArr es wcl) = (w, (TArrayStart, [91])) :: elts_toks true es ++ [(wcl, (TArrayEnd, [93]))].
Proof. reflexivity. Qed.

Lemma wtoks_obj : forall w ms wcl,
  wtoks w (CObj ms wcl) = (w, (TObjectStart, [123])) :: mems_toks true ms ++ [(wcl, (TObjectEnd, [125]))].
Proof. reflexivity. Qed.

(** Text of a token list. *)
Fixpoint wrender (l : list wtok) : bytes :=
  match l with
  | [] => []
  | (w, (_, x)) :: r => w ++ x ++ wrender r
  end.

(** Text of a value, without leading whitespace. *)
Definition render (v : cst) : bytes := wrender (wtoks [] v).

(** Text of a whole document with surrounding whitespace. *)
Definition doc_text (w1 : bytes) (v : cst) (w2 : bytes) : bytes := w1 ++ render v ++ w2.

(** The token sequence a reader of the document sees. *)
Definition ctoks (v : cst) : list (tok * bytes) := map snd (wtoks [] v).

(** A tree is well formed when its whitespace is whitespace, its leaves are
    literals and its keys are strings. *)
Fixpoint wf_cst (v : cst) : Prop :=
  match v with
  | CLit t lx => lit_kind t /\ lex t lx
  | CArr es wcl =>
      ws wcl /\
      (fix go es : Prop :=
         match es with
         | [] => True
         | e :: r => (ws (e_wc e) /\ ws (e_wl e) /\ wf_cst (e_v e)) /\ go r
         end) es
  | CObj ms wcl =>
      ws wcl /\
      (fix go ms : Prop :=
         match ms with
         | [] => True
         | m :: r => (ws (m_wc m) /\ ws (m_wk m) /\ ws (m_wd m) /\ ws (m_wv m)
                      /\ key_kind (m_kt m) /\ lex (m_kt m) (m_kx m) /\ wf_cst (m_v m)) /\ go r
         end) ms
  end.

Definition wf_elt (e : elt cst) : Prop := ws (e_wc e) /\ ws (e_wl e) /\ wf_cst (e_v e).
Definition wf_mem (m : mem cst) : Prop :=
  ws (m_wc m) /\ ws (m_wk m) /\ ws (m_wd m) /\ ws (m_wv m)
  /\ key_kind (m_kt m) /\ lex (m_kt m) (m_kx m) /\ wf_cst (m_v m).

Lemma wf_arr : forall es wcl, wf_cst (CArr es wcl) <-> ws wcl /\ Forall wf_elt es.
Proof.
  intros es wcl. cbn. split; intros [H1 H2]; split; auto.
  - induction es; constructor; destruct H2; auto.
  - induction H2; auto.
Qed.

Lemma wf_obj : forall ms wcl, wf_cst (CObj ms wcl) <-> ws wcl /\ Forall wf_mem ms.
Proof.
  intros ms wcl. cbn. split; intros [H1 H2]; split; auto.
  - induction ms; constructor; destruct H2; auto.
  - induction H2; auto.
Qed.

(** ** Basic facts about renderings *)

Lemma wrender_app : forall a b, wrender (a ++ b) = wrender a ++ wrender b.
Proof.
  induction a as [|[w [t x]] a IH]; cbn; intros; auto.
  now rewrite IH, !app_assoc.
Qed.

Lemma wtoks_lead : forall w v, wrender (wtoks w v) = w ++ render v.
Proof. intros w [t lx | es wcl | ms wcl]; reflexivity. Qed.

Lemma render_lit : forall t lx, render (CLit t lx) = lx.
Proof. intros. unfold render. cbn. now rewrite app_nil_r. Qed.

Definition render_elts (first : bool) (es : list (elt cst)) : bytes := wrender (elts_toks first es).
Definition render_mems (first : bool) (ms : list (mem cst)) : bytes := wrender (mems_toks first ms).

Lemma render_arr : forall es wcl,
  render (CArr es wcl) = 91 :: render_elts true es ++ wcl ++ [93].
Proof.
  intros. unfold render. rewrite wtoks_arr. cbn. rewrite wrender_app. reflexivity.
Qed.

Lemma render_obj : forall ms wcl,
  render (CObj ms wcl) = 123 :: render_mems true ms ++ wcl ++ [125].
Proof.
  intros. unfold render. rewrite wtoks_obj. cbn. rewrite wrender_app. reflexivity.
Qed.

Definition comma_text (first : bool) (wc : bytes) : bytes := if first then [] else wc ++ [44].

Lemma comma_text_eq : forall first wc, wrender (comma_of first wc) = comma_text first wc.
Proof. intros [] wc; reflexivity. Qed.

Lemma render_elts_cons : forall first e r,
  render_elts first (e :: r) =
  comma_text first (e_wc e) ++ e_wl e ++ render (e_v e) ++ render_elts false r.
Proof.
  intros. unfold render_elts. cbn. rewrite !wrender_app, wtoks_lead, comma_text_eq, <- !app_assoc.
  reflexivity.
Qed.

Lemma render_mems_cons : forall first m r,
  render_mems first (m :: r) =
  comma_text first (m_wc m) ++ m_wk m ++ m_kx m ++ m_wd m ++ [58] ++ m_wv m ++ render (m_v m)
  ++ render_mems false r.
Proof.
  intros. unfold render_mems. cbn. rewrite !wrender_app. cbn.
  rewrite wrender_app, wtoks_lead, comma_text_eq, <- !app_assoc. reflexivity.
Qed.

(** ** Example: a document exercising every construct *)
Example ex_cst : cst :=
  CObj [Mem [] [32] TString (s2b """a""") [] [32] (CLit TInteger (s2b "12"));
        Mem [10] [] TEscString (s2b """b\n""") [9] []
          (CArr [Elt [] [] (CLit TNumber (s2b "1.5e3")); Elt [32] [32] (CLit TTrue (s2b "true"))] [13])]
       [32].
Example ex_cst_text : render ex_cst =
  s2b "{ ""a"": 12" ++ [10] ++ s2b ",""b\n""" ++ [9] ++ s2b ":[1.5e3 , true" ++ [13] ++ s2b "] }".
Proof. reflexivity. Qed.
