(** Deciding well-formedness of trees, and short notations for documents; used by
    the examples only. *)
From Coq Require Import String.
From Verif Require Import Base MTokenizer SJson PTokenizer.
From Coq Require Import List NArith Arith Lia Bool.
Import ListNotations.
Open Scope nat_scope.

Definition wsb (w : bytes) : bool := forallb (fun c => existsb (N.eqb c) [32; 9; 10; 13]%N) w.
Definition lexb (t : tok) (x : bytes) : bool :=
  match step x 0 with
  | SOk t' a b => tok_eqb t t' && Nat.eqb a 0 && Nat.eqb b (length x) && negb (Nat.eqb (length x) 0)
  | SErr => false
  end.
Definition kindb (l : list tok) (t : tok) : bool := existsb (tok_eqb t) l.

Fixpoint wfb (v : cst) : bool :=
  match v with
  | CLit t lx => kindb [TString; TEscString; TInteger; TNumber; TNull; TTrue; TFalse] t && lexb t lx
  | CArr es wcl => wsb wcl && forallb (fun e => wsb (e_wc e) && wsb (e_wl e) && wfb (e_v e)) es
  | CObj ms wcl =>
      wsb wcl && forallb (fun m => wsb (m_wc m) && wsb (m_wk m) && wsb (m_wd m) && wsb (m_wv m)
                                   && kindb [TString; TEscString] (m_kt m) && lexb (m_kt m) (m_kx m) && wfb (m_v m)) ms
  end.

Lemma wsb_ok : forall w, wsb w = true -> ws w.
Proof.
  intros w H. unfold wsb in H. rewrite forallb_forall in H. apply Forall_forall. intros c Hc. specialize (H c Hc).
  apply existsb_exists in H as (d & Hd & E). apply N.eqb_eq in E. subst. exact Hd.
Qed.

Lemma tok_eqb_ok : forall a b, tok_eqb a b = true -> a = b.
Proof. intros [] []; cbn; intro H; try discriminate; reflexivity. Qed.

Lemma kindb_ok : forall l t, kindb l t = true -> In t l.
Proof.
  intros l t H. apply existsb_exists in H as (d & Hd & E). apply tok_eqb_ok in E. now subst.
Qed.

Lemma lexb_ok : forall t x, lexb t x = true -> lex t x.
Proof.
  intros t x H. unfold lexb in H. destruct (step x 0) as [t' a b|] eqn:E; [|discriminate].
  apply andb_true_iff in H as [H H4]. apply andb_true_iff in H as [H H3]. apply andb_true_iff in H as [H1 H2].
  apply tok_eqb_ok in H1. apply Nat.eqb_eq in H2, H3. subst.
  apply step_sound in E as (w & y & tail & Hs & Hw & Ha & Hb & _ & Hl); [|lia].
  destruct w; [|cbn in Ha; lia]. cbn in Hs, Hb. subst x.
  assert (tail = []) as -> by (destruct tail; auto; rewrite app_length in Hb; cbn in Hb; lia).
  rewrite app_nil_r in *. destruct Hl as [Hl|(_ & -> & _)]; auto. cbn in H4. discriminate.
Qed.

Lemma wfb_ok : forall v, wfb v = true -> wf_cst v.
Proof.
  induction v as [t lx|es wcl IH|ms wcl IH] using cst_ind'; cbn [wfb]; intro H; apply andb_true_iff in H as [H1 H2].
  - split; [now apply kindb_ok in H1|now apply lexb_ok].
  - apply wf_arr. split; [now apply wsb_ok|]. rewrite forallb_forall in H2. rewrite Forall_forall in *.
    intros e He. specialize (IH e He). specialize (H2 e He).
    apply andb_true_iff in H2 as [H2 H3]. apply andb_true_iff in H2 as [H2 H4].
    repeat split; auto using wsb_ok.
  - apply wf_obj. split; [now apply wsb_ok|]. rewrite forallb_forall in H2. rewrite Forall_forall in *.
    intros m He. specialize (IH m He). specialize (H2 m He).
    repeat (apply andb_true_iff in H2 as [H2 ?]). repeat split; auto using wsb_ok, lexb_ok. now apply kindb_ok.
Qed.

(** [lit]: a literal from its text; [obj], [arr]: containers without whitespace. *)
Definition lit (s : string) : cst :=
  match step (s2b s) 0 with SOk t _ _ => CLit t (s2b s) | SErr => CLit TUnknown [] end.
Definition mb (k : string) (v : cst) : mem cst :=
  Mem [] [] (match step (34%N :: s2b k ++ [34%N]) 0 with SOk t _ _ => t | SErr => TUnknown end) (34%N :: s2b k ++ [34%N]) [] [] v.
Definition obj (l : list (string * cst)) : cst := CObj (map (fun p => mb (fst p) (snd p)) l) [].
Definition arr (l : list cst) : cst := CArr (map (Elt [] []) l) [].
Definition str (s : string) : cst := lit (String.append """" (String.append s """")).
