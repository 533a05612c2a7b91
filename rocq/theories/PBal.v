(** A text whose last bracket is missing is not the text of a document. *)
From Verif Require Import Base MTokenizer SJson PTokenizer.
From Coq Require Import List NArith ZArith Arith Lia Bool.
Import ListNotations.
Open Scope nat_scope.

Lemma scan_add : forall a b t l t', scan a t = Some (l, t') ->
  scan (a + b) t = match scan b t' with Some (l', t'') => Some (l ++ l', t'') | None => None end.
Proof.
  induction a as [|a IH]; intros b t l t' Ha.
  - cbn [scan Nat.add] in *. injection Ha as <- <-. destruct (scan b t) as [[l' t'']|]; reflexivity.
  - cbn [scan Nat.add] in *. destruct (tk_step t) as [[kb|] t1]; [|discriminate].
    destruct (scan a t1) as [[l1 t2]|] eqn:E1; [|discriminate]. injection Ha as <- <-. rewrite (IH b t1 l1 t2 E1).
    destruct (scan b t2) as [[l' t'']|]; reflexivity.
Qed.

(** Opening brackets minus closing brackets. *)
Definition weight (t : tok) : Z := match t with TObjectStart | TArrayStart => 1 | TObjectEnd | TArrayEnd => -1 | _ => 0 end%Z.
Fixpoint bal (l : list (tok * bytes)) : Z := match l with [] => 0%Z | (t, _) :: r => (weight t + bal r)%Z end.
Lemma bal_app : forall a b, bal (a ++ b) = (bal a + bal b)%Z.
Proof. induction a as [|[t x] a IH]; intro b; cbn [app bal]; [lia|]. rewrite IH. lia. Qed.
Lemma bal_end : forall n, bal (repeat (TEnd, []) n) = 0%Z.
Proof. induction n; auto. Qed.

Lemma bal_wtoks : forall v w, wf_cst v -> bal (map snd (wtoks w v)) = 0%Z.
Proof.
  induction v as [t lx|es wcl IH|ms wcl IH] using cst_ind'; intros w HW.
  - destruct HW as [Hk _]. cbn. unfold lit_kind in Hk. cbn in Hk. intuition subst; reflexivity.
  - apply wf_arr in HW as [_ HW]. rewrite wtoks_arr. cbn [map snd bal weight]. rewrite map_app, bal_app. cbn [map snd bal weight].
    assert (forall f, bal (map snd (elts_toks f es)) = 0%Z) as ->; [|reflexivity].
    induction es as [|e r IHr]; intro f; [reflexivity|]. inversion IH; subst. inversion HW as [|? ? (_ & _ & Hv) HWr]; subst.
    cbn [elts_toks]. rewrite !map_app, !bal_app, IHr by auto. rewrite H1 by auto. destruct f; reflexivity.
  - apply wf_obj in HW as [_ HW]. rewrite wtoks_obj. cbn [map snd bal weight]. rewrite map_app, bal_app. cbn [map snd bal weight].
    assert (forall f, bal (map snd (mems_toks f ms)) = 0%Z) as ->; [|reflexivity].
    induction ms as [|m r IHr]; intro f; [reflexivity|]. inversion IH; subst. inversion HW as [|? ? (_ & _ & _ & _ & Hk & _ & Hv) HWr]; subst.
    cbn [mems_toks]. rewrite !map_app, !bal_app. cbn [map snd bal weight]. rewrite !map_app, !bal_app, IHr by auto. rewrite H1 by auto.
    unfold key_kind in Hk. cbn in Hk. destruct f, (m_kt m); cbn; intuition discriminate.
Qed.

(** Two ways to read one text give the same tokens. *)
Lemma same_tokens : forall l1 l2 w1 w2, wseq l1 w1 -> wseq l2 w2 -> ws w1 -> ws w2 -> wrender l1 ++ w1 = wrender l2 ++ w2 ->
  bal (map snd l1) = bal (map snd l2).
Proof.
  assert (forall l w n, wseq l w -> ws w -> exists t, scan (length l + n) (Tkn (wrender l ++ w) 0) = Some (map snd l ++ repeat (TEnd, []) n, t)) as X.
  { intros l w n Hl Hw. rewrite (scan_add _ n _ _ _ (scan_wseq l (wrender l ++ w) 0 w Hl eq_refl)). cbn [Nat.add].
    destruct (scan_end n (wrender l ++ w) (length (wrender l))) as (p & -> & _); [rewrite app_length; lia| |eauto].
    rewrite skipn_app, skipn_all, Nat.sub_diag. exact Hw. }
  intros l1 l2 w1 w2 H1 H2 W1 W2 E.
  destruct (X l1 w1 (length l2) H1 W1) as (t1 & E1). destruct (X l2 w2 (length l1) H2 W2) as (t2 & E2).
  rewrite E, (Nat.add_comm (length l1)), E2 in E1. injection E1 as E1 _.
  apply (f_equal bal) in E1. rewrite !bal_app, !bal_end in E1. lia.
Qed.

Theorem unclosed : forall w1 ms w w1' v w2, ws w1 -> ws w -> Forall wf_mem ms -> ws w1' -> wf_cst v -> ws w2 ->
  w1 ++ 123%N :: render_mems true ms ++ w <> doc_text w1' v w2.
Proof.
  intros w1 ms w w1' v w2 W1 W WM W1' WV W2 E.
  assert (wf_cst (CObj ms w)) as WD by (apply wf_obj; auto).
  assert (num_stop (w2 ++ [125%N])) as HN by (apply num_stop_ws; auto; cbn; unfold digit; lia).
  pose proof (wseq_wtoks (CObj ms w) WD w1 [] W1 I) as S1.
  assert (wseq (wtoks w1' v ++ [(w2, (TObjectEnd, [125%N]))]) []) as S2.
  { apply wseq_app.
    - cbn [wrender]. rewrite !app_nil_r. now apply wseq_wtoks.
    - cbn. split; [auto|]. split; [constructor|]. split; auto. }
  assert (wrender (wtoks w1 (CObj ms w)) ++ [] = wrender (wtoks w1' v ++ [(w2, (TObjectEnd, [125%N]))]) ++ []) as ER.
  { rewrite !app_nil_r, wrender_app, !wtoks_lead. cbn [wrender]. rewrite app_nil_r, render_obj.
    unfold doc_text in E. change (w1 ++ 123%N :: render_mems true ms ++ w) with (w1 ++ [123%N] ++ render_mems true ms ++ w) in E.
    apply (f_equal (fun l => l ++ [125%N])) in E. rewrite <- !app_assoc in E. cbn [app] in E.
    rewrite <- ?app_assoc in *. cbn [app] in *. rewrite <- ?app_assoc in *. exact E. }
  pose proof (same_tokens _ _ [] [] S1 S2 (Forall_nil _) (Forall_nil _) ER) as X.
  rewrite map_app, bal_app, (bal_wtoks v) in X by auto. rewrite (bal_wtoks (CObj ms w)) in X by auto. discriminate.
Qed.
